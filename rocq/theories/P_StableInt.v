(** Bounded continuous functions on an open interval have a primitive on the closed one; integrals of their truncations. *)
From Coquelicot Require Import Coquelicot.
From Verif Require Import Base RSumLib Ext S_StablePdf.
Open Scope R_scope.

Definition lipschitz (M : R) (P : R -> R) : Prop := forall x y, Rabs (P x - P y) <= M * Rabs (x - y).
(** a Lipschitz function on an open interval extends to the line *)
Lemma mcshane (P : R -> R) a b M : a < b -> 0 <= M -> (forall x y, a < x < b -> a < y < b -> Rabs (P x - P y) <= M * Rabs (x - y)) ->
  exists Q, lipschitz M Q /\ forall x, a < x < b -> Q x = P x.
Proof.
  intros ab HM L. set (m := (a + b) / 2). assert (Hm : a < m < b) by (unfold m; lra).
  set (E := fun x z => exists y, a < y < b /\ z = P y - M * Rabs (x - y)).
  assert (Bd : forall x, bound (E x)). { intros x. exists (P m + M * Rabs (x - m)). intros z (y & Hy & ->). pose proof (L y m Hy Hm) as D.
    apply Rabs_le_between in D. assert (T : Rabs (y - m) <= Rabs (x - y) + Rabs (x - m)). { replace (y - m) with (- (x - y) + (x - m)) by ring. eapply Rle_trans; [apply Rabs_triang|]. rewrite Rabs_Ropp. lra. }
    nra. }
  assert (Ne : forall x, exists z, E x z). { intros x. exists (P m - M * Rabs (x - m)). exists m. split; [exact Hm|reflexivity]. }
  set (Q := fun x => proj1_sig (completeness (E x) (Bd x) (Ne x))).
  assert (Lub : forall x, is_lub (E x) (Q x)). { intros x. unfold Q. destruct (completeness (E x) (Bd x) (Ne x)) as [q Hq]. exact Hq. }
  exists Q. split.
  - assert (H : forall x y, Q x <= Q y + M * Rabs (x - y)). { intros x y. apply (proj2 (Lub x)). intros z (w & Hw & ->).
      assert (E y (P w - M * Rabs (y - w))) by (exists w; split; [exact Hw|reflexivity]). pose proof (proj1 (Lub y) _ H) as U. red in U.
      assert (T : Rabs (y - w) <= Rabs (x - y) + Rabs (x - w)). { replace (y - w) with (- (x - y) + (x - w)) by ring. eapply Rle_trans; [apply Rabs_triang|]. rewrite Rabs_Ropp. lra. }
      nra. }
    intros x y. apply Rabs_le. pose proof (H x y). pose proof (H y x) as H2. rewrite (Rabs_minus_sym y x) in H2. lra.
  - intros x Hx. apply Rle_antisym.
    + apply (proj2 (Lub x)). intros z (y & Hy & ->). pose proof (L y x Hy Hx) as D. rewrite (Rabs_minus_sym y x) in D. apply Rabs_le_between in D. lra.
    + apply (proj1 (Lub x)). exists x. split; [exact Hx|]. rewrite Rminus_eq_0, Rabs_R0. ring.
Qed.
Lemma lipschitz_continuous M P x : lipschitz M P -> continuous P x.
Proof.
  intros L. apply continuity_pt_filterlim. intros e He. exists (e / (Rabs M + 1)). pose proof (Rabs_pos M) as MP. split; [apply Rdiv_lt_0_compat; lra|].
  intros y (_ & D). unfold dist in *; simpl in *. unfold R_dist in *. eapply Rle_lt_trans; [apply L|].
  apply Rle_lt_trans with ((Rabs M + 1) * Rabs (y - x)). { apply Rmult_le_compat_r; [apply Rabs_pos|]. pose proof (Rle_abs M). lra. }
  apply (Rmult_lt_compat_l (Rabs M + 1)) in D; [|lra]. replace ((Rabs M + 1) * (e / (Rabs M + 1))) with e in D by (field; lra). exact D.
Qed.

(** f has the primitive P on (a, b): P is Lipschitz on the line *)
Definition primitive_on (a b M : R) (f P : R -> R) : Prop :=
  lipschitz M P /\ forall u w, a < u < b -> a < w < b -> is_RInt f u w (P w - P u).
Lemma between_ab a b u w x : a < u < b -> a < w < b -> Rmin u w <= x <= Rmax u w -> a < x < b.
Proof. intros U W X. unfold Rmin, Rmax in X. destruct (Rle_dec u w); lra. Qed.
Lemma bounded_primitive f a b M : a < b -> 0 <= M -> (forall x, a < x < b -> continuous f x) -> (forall x, a < x < b -> Rabs (f x) <= M) ->
  exists P, primitive_on a b M f P.
Proof.
  intros ab HM C B. set (m := (a + b) / 2). assert (Hm : a < m < b) by (unfold m; lra).
  assert (EX : forall u w, a < u < b -> a < w < b -> ex_RInt f u w). { intros u w U W. apply (ex_RInt_continuous (V := R_CompleteNormedModule)). intros z Z. apply C. exact (between_ab _ _ _ _ _ U W Z). }
  set (F := fun x => RInt f m x).
  assert (IN : forall u w, a < u < b -> a < w < b -> is_RInt f u w (F w - F u)). { intros u w U W. unfold F.
    replace (RInt f m w - RInt f m u) with (RInt f u w). { apply (RInt_correct (V := R_CompleteNormedModule)), EX; assumption. }
    pose proof (RInt_Chasles (V := R_CompleteNormedModule) f m u w (EX _ _ Hm U) (EX _ _ U W)) as Ch. change plus with Rplus in Ch. lra. }
  assert (L : forall x y, a < x < b -> a < y < b -> Rabs (F x - F y) <= M * Rabs (x - y)).
  { assert (L0 : forall x y, a < x < b -> a < y < b -> x <= y -> Rabs (F y - F x) <= M * (y - x)).
    { intros x y X Y XY. pose proof (IN x y X Y) as I. rewrite Rmult_comm. apply (norm_RInt_le_const (V := R_NormedModule) f x y (F y - F x) M XY); [|exact I]. intros z Z. apply B. lra. }
    intros x y X Y. destruct (Rle_dec x y) as [D|D].
    - rewrite Rabs_minus_sym, (Rabs_minus_sym x y), (Rabs_pos_eq (y - x)) by lra. apply L0; assumption.
    - rewrite (Rabs_pos_eq (x - y)) by lra. apply L0; lra. }
  destruct (mcshane F a b M ab HM L) as (Q & LQ & EQ). exists Q. split; [exact LQ|]. intros u w U W. rewrite (EQ u U), (EQ w W). apply IN; assumption.
Qed.
Lemma near_ab a b : a < b -> filter_prod (at_right a) (at_left b) (fun p : R * R => a < fst p < b /\ a < snd p < b).
Proof.
  intros ab. assert (H : 0 < b - a) by lra. apply (Filter_prod _ _ _ (fun x => a < x < b) (fun y => a < y < b)).
  - exists (mkposreal _ H). intros x X A. change (ball a (b - a) x) in X. unfold ball in X; simpl in X; unfold AbsRing_ball, abs, minus, plus, opp in X; simpl in X. apply Rabs_lt_between in X. lra.
  - exists (mkposreal _ H). intros x X A. unfold ball in X; simpl in X; unfold AbsRing_ball, abs, minus, plus, opp in X; simpl in X. apply Rabs_lt_between in X. lra.
  - intros x y X Y. split; assumption.
Qed.
Lemma ball_abs (x d y : R) : ball x d y -> Rabs (y - x) < d.
Proof. intros H. exact H. Qed.
Lemma integral_of_primitive a b M f P : a < b -> primitive_on a b M f P -> integral_on a b f (P b - P a).
Proof.
  intros ab (L & IN) Q [e HQ]. pose proof (Rabs_pos M) as MP. set (d := Rmin (b - a) (e / (2 * (Rabs M + 1)))).
  assert (Hd : 0 < d). { unfold d. apply Rmin_pos; [lra|]. apply Rdiv_lt_0_compat; [apply cond_pos|lra]. }
  assert (D1 : d <= b - a) by apply Rmin_l. assert (D2 : (Rabs M + 1) * d <= e / 2). { pose proof (Rmin_r (b - a) (e / (2 * (Rabs M + 1)))) as D. fold d in D.
    apply (Rmult_le_compat_l (Rabs M + 1)) in D; [|lra]. replace ((Rabs M + 1) * (e / (2 * (Rabs M + 1)))) with (e / 2) in D by (field; lra). exact D. }
  assert (LM : forall x y, Rabs (x - y) < d -> Rabs (P x - P y) < e / 2). { intros x y H. eapply Rle_lt_trans; [apply L|]. apply Rle_lt_trans with (Rabs M * Rabs (x - y)); [apply Rmult_le_compat_r; [apply Rabs_pos|apply Rle_abs]|].
    apply Rle_lt_trans with (Rabs M * d); [apply Rmult_le_compat_l; lra|]. lra. }
  apply (Filter_prod _ _ _ (fun x => a < x /\ Rabs (x - a) < d) (fun y => y < b /\ Rabs (y - b) < d)).
  - exists (mkposreal _ Hd). intros x X A. split; [exact A|]. exact (ball_abs _ _ _ X).
  - exists (mkposreal _ Hd). intros x X A. split; [exact A|]. exact (ball_abs _ _ _ X).
  - intros x y (X1 & X2) (Y1 & Y2). exists (P y - P x). pose proof (LM _ _ X2) as BX. pose proof (LM _ _ Y2) as BY. apply Rabs_lt_between in X2. apply Rabs_lt_between in Y2. split.
    + simpl. apply IN; lra.
    + apply HQ. change (Rabs ((P y - P x) - (P b - P a)) < e). replace ((P y - P x) - (P b - P a)) with ((P y - P b) - (P x - P a)) by ring.
      eapply Rle_lt_trans; [apply Rabs_triang|]. rewrite Rabs_Ropp. lra.
Qed.
Lemma primitive_sub a b a' b' M f P : a <= a' -> b' <= b -> primitive_on a b M f P -> primitive_on a' b' M f P.
Proof. intros A B (L & IN). split; [exact L|]. intros u w U W. apply IN; lra. Qed.
Lemma primitive_ext a b M f f' P : (forall x, a < x < b -> f x = f' x) -> primitive_on a b M f P -> primitive_on a b M f' P.
Proof.
  intros E (L & IN). split; [exact L|]. intros u w U W. apply (is_RInt_ext f); [|apply IN; assumption]. intros x X. apply E, (between_ab a b u w x U W). lra.
Qed.
Lemma integral_unique a b f l l' : a < b -> integral_on a b f l -> integral_on a b f l' -> l = l'.
Proof. intros ab H H'. rewrite <- (is_RInt_gen_unique (V := R_CompleteNormedModule) _ _ H). rewrite <- (is_RInt_gen_unique (V := R_CompleteNormedModule) _ _ H'). reflexivity. Qed.
Lemma integral_on_ext a b f f' l : a < b -> (forall x, a < x < b -> f x = f' x) -> integral_on a b f l -> integral_on a b f' l.
Proof.
  intros ab E H. apply (is_RInt_gen_ext f); [|exact H]. apply filter_imp with (2 := near_ab a b ab). intros p (U & W) x X. apply E, (between_ab a b (fst p) (snd p) x U W). lra.
Qed.

(** f inside [s, e], zero outside *)
Definition clamp_to (s e x : R) : R := Rmax s (Rmin x e).
Lemma clamp_lip s e x y : Rabs (clamp_to s e x - clamp_to s e y) <= Rabs (x - y).
Proof. unfold clamp_to, Rmax, Rmin. destruct (Rle_dec x e), (Rle_dec y e); repeat destruct (Rle_dec _ _); unfold Rabs; repeat destruct (Rcase_abs _); lra. Qed.
Lemma primitive_clamp a b M f f' P s e : 0 <= M -> a <= s -> s <= e -> e <= b -> primitive_on a b M f P ->
  (forall x, a < x < b -> s < x < e -> f' x = f x) -> (forall x, a < x < b -> x < s \/ e < x -> f' x = 0) ->
  primitive_on a b M f' (fun x => P (clamp_to s e x)).
Proof.
  intros HM As Se Eb (L & IN) E1 E2. split.
  { intros x y. eapply Rle_trans; [apply L|]. apply Rmult_le_compat_l; [exact HM|apply clamp_lip]. }
  assert (H0 : forall u w, a < u < b -> a < w < b -> u <= w -> is_RInt f' u w (P (clamp_to s e w) - P (clamp_to s e u))).
  { intros u w U W UW.
    set (p := Rmin w (Rmax s u)). set (q := Rmax p (Rmin w e)).
    assert (HZ : forall c d, u <= c -> c <= d -> d <= w -> (forall x, c < x < d -> f' x = 0) -> is_RInt f' c d 0).
    { intros c d C D E Z. apply (is_RInt_ext (fun _ => 0)). { intros x X. rewrite Rmin_left, Rmax_right in X by lra. symmetry. apply Z, X. }
      evar_last. apply (is_RInt_const (V := R_NormedModule)). change ((d - c) * 0 = 0). ring. }
    assert (P1 : u <= p <= w) by (unfold p, Rmin, Rmax; repeat destruct (Rle_dec _ _); lra).
    assert (Q1 : p <= q <= w) by (unfold q, Rmin, Rmax; repeat destruct (Rle_dec _ _); lra).
    assert (I1 : is_RInt f' u p 0). { apply HZ; try lra. intros x X. apply E2; [lra|]. left. unfold p, Rmin, Rmax in X. repeat destruct (Rle_dec _ _); lra. }
    assert (I3 : is_RInt f' q w 0). { apply HZ; try lra. intros x X. apply E2; [lra|]. unfold q, p, Rmin, Rmax in X. repeat destruct (Rle_dec _ _); lra. }
    assert (I2 : is_RInt f' p q (P q - P p)). { apply (is_RInt_ext f); [|apply IN; lra]. intros x X. rewrite Rmin_left, Rmax_right in X by lra. symmetry. apply E1; [lra|]. unfold q, p, Rmin, Rmax in X. repeat destruct (Rle_dec _ _); lra. }
    pose proof (is_RInt_Chasles (V := R_NormedModule) _ _ _ _ _ _ I1 I2) as I12. pose proof (is_RInt_Chasles (V := R_NormedModule) _ _ _ _ _ _ I12 I3) as I. evar_last. exact I.
    change (0 + (P q - P p) + 0 = P (clamp_to s e w) - P (clamp_to s e u)).
    assert (K : (q = p /\ clamp_to s e w = clamp_to s e u) \/ (q = clamp_to s e w /\ p = clamp_to s e u)). { unfold q, p, clamp_to, Rmin, Rmax. repeat destruct (Rle_dec _ _); try lra; left; lra. }
    destruct K as [(-> & ->)|(-> & ->)]; ring. }
  intros u w U W. destruct (Rle_dec u w) as [D|D]; [apply H0; assumption|]. evar_last. apply is_RInt_swap, (H0 w u W U). lra.
  change (- (P (clamp_to s e u) - P (clamp_to s e w)) = P (clamp_to s e w) - P (clamp_to s e u)). ring.
Qed.
(** the difference of a primitive between two points, bounded by a bound of the function between them *)
Lemma primitive_bound a b M f P u w K : a < b -> a <= u <= w -> w <= b -> primitive_on a b M f P -> 0 <= K -> (forall x, u < x < w -> 0 <= f x <= K) ->
  0 <= P w - P u <= K * (w - u).
Proof.
  intros ab U W (L & IN) HK B. destruct (Req_dec u w) as [->|N]; [lra|].
  assert (G : forall d, 0 < d -> d < (w - u) / 2 -> - (2 * Rabs M * d) <= P w - P u <= K * (w - u) + 2 * Rabs M * d).
  { intros d Hd Hd2. pose proof (IN (u + d) (w - d) ltac:(lra) ltac:(lra)) as I.
    assert (Z : 0 <= P (w - d) - P (u + d)). { apply (is_RInt_le (fun _ => 0) f (u + d) (w - d)); [lra| |exact I|intros x X; apply B; lra]. evar_last. apply (is_RInt_const (V := R_NormedModule)). change ((w - d - (u + d)) * 0 = 0). ring. }
    assert (Z2 : P (w - d) - P (u + d) <= (w - d - (u + d)) * K). { apply (is_RInt_le f (fun _ => K) (u + d) (w - d)); [lra|exact I| |intros x X; apply B; lra]. apply (is_RInt_const (V := R_NormedModule)). }
    pose proof (L w (w - d)) as L1. pose proof (L (u + d) u) as L2. replace (w - (w - d)) with d in L1 by ring. replace (u + d - u) with d in L2 by ring. rewrite (Rabs_pos_eq d) in L1, L2 by lra.
    pose proof (Rle_abs M) as MA. assert (MD : M * d <= Rabs M * d) by (apply Rmult_le_compat_r; lra). apply Rabs_le_between in L1. apply Rabs_le_between in L2.
    assert (K * d >= 0) by (apply Rle_ge, Rmult_le_pos; lra). nra. }
  pose proof (Rabs_pos M) as MP.
  assert (E : forall eps, 0 < eps -> - eps <= P w - P u <= K * (w - u) + eps).
  { intros eps He. set (d := Rmin ((w - u) / 4) (eps / (2 * Rabs M + 1))). assert (Hd : 0 < d) by (unfold d; apply Rmin_pos; [lra|apply Rdiv_lt_0_compat; lra]).
    assert (D1 : d <= (w - u) / 4) by apply Rmin_l. assert (D2 : d <= eps / (2 * Rabs M + 1)) by apply Rmin_r.
    apply (Rmult_le_compat_l (2 * Rabs M + 1)) in D2; [|lra]. replace ((2 * Rabs M + 1) * (eps / (2 * Rabs M + 1))) with eps in D2 by (field; lra).
    destruct (G d Hd ltac:(lra)) as (G1 & G2). lra. }
  split; apply le_epsilon; intros eps He; destruct (E eps He); lra.
Qed.
