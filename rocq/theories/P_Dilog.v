(** The dilogarithm: power series, functional equations, value at 1, existence. *)
From Coquelicot Require Import Coquelicot.
From Verif Require Import Base RSumLib S_Dilog P_Basel.
From Coq Require Import Psatz.
Open Scope R_scope.

Ltac fixinr := repeat match goal with
  | |- context [match ?k with O => 1 | S _ => INR ?k + 1 end] => change (match k with O => 1 | S _ => INR k + 1 end) with (INR (S k))
  | |- context [Nat.pred (S ?k)] => change (Nat.pred (S k)) with k end.
(** ** comparison on an interval *)
Lemma derive_const_eq (f : R -> R) a b : a <= b -> (forall x, a < x < b -> is_derive f x 0) -> (forall x, a <= x <= b -> continuity_pt f x) -> f a = f b.
Proof.
  intros H D C. destruct (MVT_gen f a b (fun _ => 0)) as [c [_ E]]; [|rewrite Rmin_left, Rmax_right by exact H; exact C|lra]. rewrite Rmin_left, Rmax_right by exact H. exact D.
Qed.
Definition up_at_0 (h : R -> R) : Prop := forall eps, 0 < eps -> exists d, 0 < d /\ forall y, 0 < y < d -> - eps <= h y.
Lemma up_cont h : continuity_pt h 0 -> 0 <= h 0 -> up_at_0 h.
Proof.
  intros C H0 eps He. destruct (C eps He) as [d [Hd H]]. exists d. split; [exact Hd|]. intros y Hy.
  assert (R_dist (h y) (h 0) < eps).
  { apply (H y). split; [split; [exact Logic.I|lra]|]. cbn. unfold R_dist. rewrite Rabs_pos_eq; lra. }
  unfold R_dist in H1. apply Rabs_def2 in H1. lra.
Qed.
Lemma up_plus h g : up_at_0 h -> up_at_0 g -> up_at_0 (fun x => h x + g x).
Proof.
  intros H G eps He. destruct (H (eps / 2) ltac:(lra)) as [d [Hd A]]. destruct (G (eps / 2) ltac:(lra)) as [e [He' B]]. exists (Rmin d e). split; [apply Rmin_glb_lt; assumption|].
  intros y Hy. pose proof (Rmin_l d e). pose proof (Rmin_r d e). specialize (A y ltac:(lra)). specialize (B y ltac:(lra)). lra.
Qed.
Lemma up_ext h g b : 0 < b -> (forall x, 0 < x < b -> h x = g x) -> up_at_0 h -> up_at_0 g.
Proof. intros Hb E H eps He. destruct (H eps He) as [d [Hd A]]. exists (Rmin d b). split; [apply Rmin_glb_lt; assumption|]. intros y Hy. pose proof (Rmin_l d b). pose proof (Rmin_r d b). rewrite <- E by lra. apply A. lra. Qed.
Lemma up_ge h b : 0 < b -> (forall x, 0 < x < b -> 0 <= h x) -> up_at_0 h.
Proof. intros Hb H eps He. exists b. split; [exact Hb|]. intros y Hy. specialize (H y Hy). lra. Qed.
Lemma rise (h dh : R -> R) b : (forall x, 0 < x < b -> is_derive h x (dh x)) -> (forall x, 0 < x < b -> 0 <= dh x) -> up_at_0 h -> forall x, 0 < x < b -> 0 <= h x.
Proof.
  intros D P U x Hx. apply Rnot_lt_le. intros N. destruct (U (- h x / 2) ltac:(lra)) as [d [Hd A]].
  set (y := Rmin (x / 2) (d / 2)). assert (Hy : 0 < y) by (apply Rmin_glb_lt; lra). pose proof (Rmin_l (x / 2) (d / 2)). pose proof (Rmin_r (x / 2) (d / 2)). fold y in H, H0.
  specialize (A y ltac:(lra)).
  destruct (MVT_gen h y x dh) as [c [Hc E]]; rewrite ?Rmin_left, ?Rmax_right in * by lra.
  - intros z Hz. apply D. lra.
  - intros z Hz. apply continuity_pt_filterlim. apply (ex_derive_continuous h). eexists. apply D. lra.
  - specialize (P c ltac:(lra)). nra.
Qed.
Lemma cont_of_derive (f : R -> R) x l : is_derive f x l -> continuity_pt f x.
Proof. intros H. apply continuity_pt_filterlim. apply (ex_derive_continuous f). exists l. exact H. Qed.

Lemma is_derive_rsum n (f : nat -> R -> R) (df : nat -> R) x : (forall k, (k < n)%nat -> is_derive (f k) x (df k)) -> is_derive (fun z => rsum n (fun k => f k z)) x (rsum n df).
Proof. induction n as [|n IH]; intros H; cbn; [apply (is_derive_const 0 x)|]. apply (is_derive_plus (K := R_AbsRing) (V := R_NormedModule) (fun z => rsum n (fun k => f k z)) (f n)); [apply IH; intros; apply H; lia|apply H; lia]. Qed.

(** ** partial sums *)
Definition Pn (n : nat) (x : R) : R := rsum n (fun k => x ^ S k / INR (S k)).
Definition Sn (n : nat) (x : R) : R := rsum n (fun k => x ^ S k / INR (S k) ^ 2).
Definition Tn (n : nat) (x : R) : R := rsum n (fun k => x ^ S k / (INR (S k) ^ 2 * (INR (S k) + 1))).
Lemma INR_S_pos k : 0 < INR (S k).
Proof. apply lt_0_INR. lia. Qed.
Lemma Pn_derive n x : is_derive (Pn n) x (rsum n (fun k => x ^ k)).
Proof. apply (is_derive_rsum n (fun k z => z ^ S k / INR (S k))). intros k _. pose proof (INR_S_pos k). auto_derive; [exact Logic.I|]. fixinr. field. lra. Qed.
Lemma geom n x : x <> 1 -> rsum n (fun k => x ^ k) = (1 - x ^ n) / (1 - x).
Proof. intros H. induction n as [|n IH]; cbn; [field; lra|]. rewrite IH. field. lra. Qed.
Lemma Sn_derive n x : x <> 0 -> is_derive (Sn n) x (Pn n x / x).
Proof.
  intros H. replace (Pn n x / x) with (rsum n (fun k => x ^ k / INR (S k))).
  - apply (is_derive_rsum n (fun k z => z ^ S k / INR (S k) ^ 2)). intros k _. pose proof (INR_S_pos k). auto_derive; [exact Logic.I|]. fixinr. field. lra.
  - unfold Pn, Rdiv. rewrite <- rsum_scal_r. apply rsum_ext. intros k _. pose proof (INR_S_pos k). cbn [pow]. field. split; lra.
Qed.
Lemma Tn_derive n x : x <> 0 -> is_derive (Tn n) x (rsum n (fun k => x ^ k / (INR (S k) * (INR (S k) + 1)))).
Proof.
  intros H. apply (is_derive_rsum n (fun k z => z ^ S k / (INR (S k) ^ 2 * (INR (S k) + 1)))). intros k _. pose proof (INR_S_pos k). auto_derive; [exact Logic.I|]. fixinr. field. lra.
Qed.
Lemma Pn_0 n : Pn n 0 = 0. Proof. apply rsum_zero. intros. cbn. unfold Rdiv. ring. Qed.
Lemma Sn_0 n : Sn n 0 = 0. Proof. apply rsum_zero. intros. cbn [pow]. unfold Rdiv. ring. Qed.
Lemma Pn_cont n x : continuity_pt (Pn n) x. Proof. eapply cont_of_derive, Pn_derive. Qed.
Lemma Sn_cont n x : continuity_pt (Sn n) x.
Proof.
  apply continuity_pt_filterlim. apply (ex_derive_continuous (Sn n)). exists (rsum n (fun k => x ^ k / INR (S k))).
  apply (is_derive_rsum n (fun k z => z ^ S k / INR (S k) ^ 2)). intros k _. pose proof (INR_S_pos k). auto_derive; [exact Logic.I|]. fixinr. field. lra.
Qed.

(** remainder of the logarithm *)
Definition Rn (n : nat) (x : R) : R := - ln (1 - x) - Pn n x.
Lemma Rn_derive n x : x < 1 -> is_derive (Rn n) x (x ^ n / (1 - x)).
Proof.
  intros H. replace (x ^ n / (1 - x)) with (/ (1 - x) - rsum n (fun k => x ^ k)) by (rewrite geom by lra; field; lra).
  apply (is_derive_minus (K := R_AbsRing) (V := R_NormedModule) (fun x => - ln (1 - x)) (Pn n)); [|apply Pn_derive]. auto_derive; [lra|]. field. lra.
Qed.
Lemma Rn_0 n : Rn n 0 = 0. Proof. unfold Rn. rewrite Pn_0. replace (1 - 0) with 1 by ring. rewrite ln_1. ring. Qed.
Lemma pow_pos01 x n : 0 < x -> 0 < x ^ n. Proof. apply pow_lt. Qed.
Lemma Rn_cont n x : x < 1 -> continuity_pt (Rn n) x. Proof. intros H. eapply cont_of_derive, Rn_derive, H. Qed.
Lemma quot_derive n x : x < 1 -> is_derive (fun x => x ^ S n / (1 - x)) x (INR (S n) * x ^ n / (1 - x) + x ^ S n / (1 - x) ^ 2).
Proof. intros H. auto_derive; [lra|]. fixinr. rewrite S_INR. cbn [pow]. field. lra. Qed.
Lemma Rn_bounds n x : 0 < x < 1 -> 0 <= Rn n x <= x ^ S n / (INR (S n) * (1 - x)).
Proof.
  intros Hx. pose proof (INR_S_pos n) as Pn0. split.
  - apply (rise (Rn n) (fun x => x ^ n / (1 - x)) 1); [intros; apply Rn_derive; lra|intros; left; apply Rdiv_lt_0_compat; [apply pow_lt|]; lra| |exact Hx].
    apply up_cont; [apply Rn_cont; lra|rewrite Rn_0; lra].
  - cut (0 <= / INR (S n) * (x ^ S n / (1 - x)) - Rn n x). { intros C. replace (x ^ S n / (INR (S n) * (1 - x))) with (/ INR (S n) * (x ^ S n / (1 - x))) by (field; lra). lra. }
    apply (rise (fun x => / INR (S n) * (x ^ S n / (1 - x)) - Rn n x) (fun x => / INR (S n) * (INR (S n) * x ^ n / (1 - x) + x ^ S n / (1 - x) ^ 2) - x ^ n / (1 - x)) 1); [| | |exact Hx].
    + intros y Hy. apply (is_derive_minus (K := R_AbsRing) (V := R_NormedModule) (fun x => / INR (S n) * (x ^ S n / (1 - x))) (Rn n)); [|apply Rn_derive; lra].
      apply (is_derive_scal (fun x => x ^ S n / (1 - x))), quot_derive. lra.
    + intros y Hy. replace (/ INR (S n) * (INR (S n) * y ^ n / (1 - y) + y ^ S n / (1 - y) ^ 2) - y ^ n / (1 - y)) with (y ^ S n / (INR (S n) * (1 - y) ^ 2)) by (field; lra).
      left. apply Rdiv_lt_0_compat; [apply pow_lt; lra|]. apply Rmult_lt_0_compat; [exact Pn0|apply pow_lt; lra].
    + apply up_cont.
      * apply continuity_pt_minus; [|apply Rn_cont; lra]. apply (cont_of_derive _ _ (/ INR (S n) * (INR (S n) * 0 ^ n / (1 - 0) + 0 ^ S n / (1 - 0) ^ 2))).
        apply (is_derive_scal (fun x => x ^ S n / (1 - x))), quot_derive. lra.
      * rewrite Rn_0. cbn. unfold Rdiv. rewrite !Rmult_0_l, Rmult_0_r. lra.
Qed.

Section Dilog.
  Variable L : R -> R.
  Hypothesis D : is_dilog L.
  Lemma L0 : L 0 = 0. Proof. apply D. Qed.
  Lemma L_cont x : continuity_pt L x. Proof. apply D. Qed.
  Lemma L_derive x : x <> 0 -> x < 1 -> is_derive L x (- ln (1 - x) / x).
  Proof. intros H1 H2. destruct D as [_ [_ H]]. specialize (H x H1 ltac:(lra)). rewrite Rabs_pos_eq in H by lra. exact H. Qed.
  Lemma L_derive_gt x : 1 < x -> is_derive L x (- ln (x - 1) / x).
  Proof. intros H1. destruct D as [_ [_ H]]. specialize (H x ltac:(lra) ltac:(lra)). rewrite Rabs_left in H by lra. replace (- (1 - x)) with (x - 1) in H by ring. exact H. Qed.

  (** ** series *)
  Definition En (n : nat) (x : R) : R := L x - Sn n x.
  Lemma En_derive n x : x <> 0 -> x < 1 -> is_derive (En n) x (Rn n x / x).
  Proof.
    intros H1 H2. replace (Rn n x / x) with (- ln (1 - x) / x - Pn n x / x) by (unfold Rn; field; lra).
    apply (is_derive_minus (K := R_AbsRing) (V := R_NormedModule) L (Sn n)); [apply L_derive; assumption|apply Sn_derive; assumption].
  Qed.
  Lemma En_cont n x : continuity_pt (En n) x. Proof. apply continuity_pt_minus; [apply L_cont|apply Sn_cont]. Qed.
  Lemma En_0 n : En n 0 = 0. Proof. unfold En. rewrite L0, Sn_0. ring. Qed.
  Lemma En_bounds n x : 0 < x < 1 -> 0 <= En n x <= x ^ S n / (INR (S n) ^ 2 * (1 - x)).
  Proof.
    intros Hx. pose proof (INR_S_pos n) as Pn0. split.
    - apply (rise (En n) (fun x => Rn n x / x) 1); [intros; apply En_derive; lra| | |exact Hx].
      + intros y Hy. apply Rmult_le_pos; [apply Rn_bounds, Hy|left; apply Rinv_0_lt_compat; lra].
      + apply up_cont; [apply En_cont|rewrite En_0; lra].
    - cut (0 <= / INR (S n) ^ 2 * (x ^ S n / (1 - x)) - En n x). { intros C. replace (x ^ S n / (INR (S n) ^ 2 * (1 - x))) with (/ INR (S n) ^ 2 * (x ^ S n / (1 - x))) by (field; lra). lra. }
      apply (rise (fun x => / INR (S n) ^ 2 * (x ^ S n / (1 - x)) - En n x) (fun x => / INR (S n) ^ 2 * (INR (S n) * x ^ n / (1 - x) + x ^ S n / (1 - x) ^ 2) - Rn n x / x) 1); [| | |exact Hx].
      + intros y Hy. apply (is_derive_minus (K := R_AbsRing) (V := R_NormedModule) (fun x => / INR (S n) ^ 2 * (x ^ S n / (1 - x))) (En n)); [|apply En_derive; lra].
        apply (is_derive_scal (fun x => x ^ S n / (1 - x))), quot_derive. lra.
      + intros y Hy. assert (B : Rn n y / y <= y ^ n / (INR (S n) * (1 - y))).
        { apply Rmult_le_reg_r with y; [lra|]. unfold Rdiv at 1. rewrite Rmult_assoc, Rinv_l, Rmult_1_r by lra. replace (y ^ n / (INR (S n) * (1 - y)) * y) with (y ^ S n / (INR (S n) * (1 - y))) by (cbn [pow]; field; lra). apply Rn_bounds, Hy. }
        replace (/ INR (S n) ^ 2 * (INR (S n) * y ^ n / (1 - y) + y ^ S n / (1 - y) ^ 2)) with (y ^ n / (INR (S n) * (1 - y)) + y ^ S n / (INR (S n) ^ 2 * (1 - y) ^ 2)) by (field; lra).
        assert (0 < y ^ S n / (INR (S n) ^ 2 * (1 - y) ^ 2)) by (apply Rdiv_lt_0_compat; [apply pow_lt; lra|apply Rmult_lt_0_compat; apply pow_lt; lra]). lra.
      + apply up_cont.
        * apply continuity_pt_minus; [|apply En_cont]. apply (cont_of_derive _ _ (/ INR (S n) ^ 2 * (INR (S n) * 0 ^ n / (1 - 0) + 0 ^ S n / (1 - 0) ^ 2))).
          apply (is_derive_scal (fun x => x ^ S n / (1 - x))), quot_derive. lra.
        * rewrite En_0. replace (0 ^ S n) with 0 by (cbn; ring). unfold Rdiv. rewrite !Rmult_0_l, Rmult_0_r. lra.
  Qed.

  (** the accelerated series: L = T + (1-x) log(1-x)/x + 1 *)
  Definition Fn (n : nat) (x : R) : R := L x - (Tn n x + (1 - x) * ln (1 - x) / x + 1).
  Lemma Tn_split n x : x <> 0 -> Tn n x = Sn n x - Pn n x + (Pn (S n) x - x) / x.
  Proof.
    intros Hx. induction n as [|n IH]; [cbn; field; exact Hx|].
    unfold Tn, Sn, Pn in *. cbn [rsum] in *. rewrite IH. pose proof (INR_S_pos n). rewrite (S_INR (S n)). cbn [pow]. field. repeat split; lra.
  Qed.
  Lemma Fn_eq n x : x <> 0 -> Fn n x = En n x - Rn n x + Rn (S n) x / x.
  Proof. intros H. unfold Fn, En, Rn. rewrite Tn_split by exact H. field. exact H. Qed.
  Definition Hn (n : nat) (x : R) : R := (1 - x) * ln (1 - x) + x - rsum n (fun k => x ^ (k + 2) / (INR (S k) * (INR (S k) + 1))).
  Lemma Hn_derive n x : x < 1 -> is_derive (Hn n) x (Rn n x).
  Proof.
    intros H. replace (Rn n x) with ((- ln (1 - x)) - Pn n x) by reflexivity.
    apply (is_derive_minus (K := R_AbsRing) (V := R_NormedModule) (fun x => (1 - x) * ln (1 - x) + x) (fun x => rsum n (fun k => x ^ (k + 2) / (INR (S k) * (INR (S k) + 1))))).
    - auto_derive; [lra|]. change (1 + - x) with (1 - x). field. lra.
    - apply (is_derive_rsum n (fun k z => z ^ (k + 2) / (INR (S k) * (INR (S k) + 1)))). intros k _. pose proof (INR_S_pos k). auto_derive; [exact Logic.I|].
      replace (k + 2)%nat with (S (S k)) by lia. fixinr. rewrite (S_INR (S k)). field. lra.
  Qed.
  Lemma Hn_0 n : Hn n 0 = 0.
  Proof. unfold Hn. replace (1 - 0) with 1 by ring. rewrite ln_1, rsum_zero; [ring|]. intros k _. rewrite pow_i by lia. unfold Rdiv. ring. Qed.
  Lemma Hn_bounds n x : 0 < x < 1 -> 0 <= Hn n x <= x ^ (n + 2) / (INR (S n) * (INR (S n) + 1) * (1 - x)).
  Proof.
    intros Hx. pose proof (INR_S_pos n) as Pn0. replace (n + 2)%nat with (S (S n)) by lia. split.
    - apply (rise (Hn n) (Rn n) 1); [intros; apply Hn_derive; lra|intros; apply Rn_bounds; assumption| |exact Hx].
      apply up_cont; [eapply cont_of_derive, Hn_derive; lra|rewrite Hn_0; lra].
    - set (c := / (INR (S n) * (INR (S n) + 1))).
      cut (0 <= c * (x ^ S (S n) / (1 - x)) - Hn n x). { intros C. replace (x ^ S (S n) / (INR (S n) * (INR (S n) + 1) * (1 - x))) with (c * (x ^ S (S n) / (1 - x))) by (unfold c; field; lra). lra. }
      apply (rise (fun x => c * (x ^ S (S n) / (1 - x)) - Hn n x) (fun x => c * (INR (S (S n)) * x ^ S n / (1 - x) + x ^ S (S n) / (1 - x) ^ 2) - Rn n x) 1); [| | |exact Hx].
      + intros y Hy. apply (is_derive_minus (K := R_AbsRing) (V := R_NormedModule) (fun x => c * (x ^ S (S n) / (1 - x))) (Hn n)); [|apply Hn_derive; lra].
        apply (is_derive_scal (fun x => x ^ S (S n) / (1 - x))), quot_derive. lra.
      + intros y Hy. pose proof (proj2 (Rn_bounds n y Hy)) as B. rewrite (S_INR (S n)).
        replace (c * ((INR (S n) + 1) * y ^ S n / (1 - y) + y ^ S (S n) / (1 - y) ^ 2)) with (y ^ S n / (INR (S n) * (1 - y)) + y ^ S (S n) / (INR (S n) * (INR (S n) + 1) * (1 - y) ^ 2)) by (unfold c; field; lra).
        assert (0 < y ^ S (S n) / (INR (S n) * (INR (S n) + 1) * (1 - y) ^ 2)) by (apply Rdiv_lt_0_compat; [apply pow_lt; lra|apply Rmult_lt_0_compat; [nra|apply pow_lt; lra]]). lra.
      + apply up_cont.
        * apply continuity_pt_minus; [|eapply cont_of_derive, Hn_derive; lra]. apply (cont_of_derive _ _ (c * (INR (S (S n)) * 0 ^ S n / (1 - 0) + 0 ^ S (S n) / (1 - 0) ^ 2))).
          apply (is_derive_scal (fun x => x ^ S (S n) / (1 - x))), quot_derive. lra.
        * rewrite Hn_0. replace (0 ^ S (S n)) with 0 by (cbn; ring). unfold Rdiv. rewrite !Rmult_0_l, Rmult_0_r. lra.
  Qed.
  Lemma Fn_derive n x : 0 < x < 1 -> is_derive (Fn n) x (Hn n x / x ^ 2).
  Proof.
    intros Hx. replace (Hn n x / x ^ 2) with (- ln (1 - x) / x - (rsum n (fun k => x ^ k / (INR (S k) * (INR (S k) + 1))) + (- ln (1 - x) / x ^ 2 - / x))).
    - apply (is_derive_minus (K := R_AbsRing) (V := R_NormedModule) L (fun x => Tn n x + (1 - x) * ln (1 - x) / x + 1)); [apply L_derive; lra|].
      apply (is_derive_ext (fun x => Tn n x + ((1 - x) * ln (1 - x) / x + 1))); [intros t; symmetry; apply Rplus_assoc|].
      apply (is_derive_plus (K := R_AbsRing) (V := R_NormedModule) (Tn n) (fun x => (1 - x) * ln (1 - x) / x + 1)); [apply Tn_derive; lra|]. auto_derive; [lra|]. change (1 + - x) with (1 - x). field. lra.
    - unfold Hn, Rdiv. rewrite !Rmult_minus_distr_r, !Rmult_plus_distr_r. rewrite <- rsum_scal_r.
      rewrite (rsum_ext n (fun i => x ^ (i + 2) * / (INR (S i) * (INR (S i) + 1)) * / x ^ 2) (fun k => x ^ k * / (INR (S k) * (INR (S k) + 1)))); [field; lra|].
      intros k _. rewrite pow_add. pose proof (INR_S_pos k). field. lra.
  Qed.
  Lemma Fn_small n x : 0 < x <= 1 / 2 -> Rabs (Fn n x) <= 6 * x.
  Proof.
    intros Hx. rewrite Fn_eq by lra. pose proof (En_bounds n x ltac:(lra)) as E. pose proof (Rn_bounds n x ltac:(lra)) as R1. pose proof (Rn_bounds (S n) x ltac:(lra)) as R2.
    pose proof (INR_S_pos n) as P. assert (P1 : 1 <= INR (S n)) by (rewrite S_INR; pose proof (pos_INR n); lra). assert (P2 : 1 <= INR (S (S n))) by (rewrite S_INR; lra).
    assert (X : forall m, x ^ S m <= x). { intros m. cbn. rewrite <- (Rmult_1_r x) at 3. apply Rmult_le_compat_l; [lra|]. rewrite <- (pow1 m). apply pow_incr. lra. }
    assert (Q : forall a m, 1 <= a -> x ^ m / (a * (1 - x)) <= 2 * x ^ m).
    { intros a m Ha. assert (0 <= x ^ m) by (apply pow_le; lra). unfold Rdiv. rewrite Rmult_comm. apply Rmult_le_compat_r; [assumption|]. rewrite <- (Rinv_involutive 2) by lra. apply Rinv_le_contravar; [lra|]. nra. }
    pose proof (Q (INR (S n) ^ 2) (S n) ltac:(nra)) as Q1. pose proof (Q (INR (S n)) (S n) P1) as Q2. pose proof (Q (INR (S (S n))) (S (S n)) P2) as Q3. pose proof (X n). pose proof (X (S n)).
    assert (R3 : 0 <= Rn (S n) x / x <= 2 * x).
    { split; [apply Rmult_le_pos; [lra|left; apply Rinv_0_lt_compat; lra]|]. apply Rmult_le_reg_r with x; [lra|]. unfold Rdiv. rewrite Rmult_assoc, Rinv_l, Rmult_1_r by lra.
      replace (x ^ S (S n)) with (x * x ^ S n) in * by reflexivity. nra. }
    apply Rabs_le. lra.
  Qed.
  Lemma Fn_bounds n x : 0 < x < 1 -> 0 <= Fn n x <= x ^ S n / (INR (S n) ^ 2 * (INR (S n) + 1) * (1 - x)).
  Proof.
    intros Hx. pose proof (INR_S_pos n) as Pn0.
    assert (U : forall s, up_at_0 (fun y => s * Fn n y)).
    { intros s eps He. exists (Rmin (1 / 2) (eps / (6 * (Rabs s + 1)))). pose proof (Rabs_pos s) as As. assert (0 < eps / (6 * (Rabs s + 1))) by (apply Rdiv_lt_0_compat; lra). split; [apply Rmin_glb_lt; lra|].
      intros y Hy. pose proof (Rmin_l (1 / 2) (eps / (6 * (Rabs s + 1)))). pose proof (Rmin_r (1 / 2) (eps / (6 * (Rabs s + 1)))). pose proof (Fn_small n y ltac:(lra)) as B.
      assert (Rabs (s * Fn n y) <= eps). { rewrite Rabs_mult. assert (y <= eps / (6 * (Rabs s + 1))) by lra.
        assert (6 * y * (Rabs s + 1) <= eps). { apply Rmult_le_compat_r with (r := 6 * (Rabs s + 1)) in H2; [|lra]. unfold Rdiv in H2. rewrite Rmult_assoc, Rinv_l in H2 by lra. lra. } nra. }
      apply Rabs_le_between in H2. lra. }
    split.
    - apply (rise (Fn n) (fun x => Hn n x / x ^ 2) 1); [intros; apply Fn_derive; assumption| | |exact Hx].
      + intros y Hy. apply Rmult_le_pos; [apply Hn_bounds, Hy|left; apply Rinv_0_lt_compat, pow_lt; lra].
      + apply (up_ext (fun y => 1 * Fn n y) _ 1); [lra|intros; ring|apply U].
    - set (c := / (INR (S n) ^ 2 * (INR (S n) + 1))).
      cut (0 <= c * (x ^ S n / (1 - x)) + - (1) * Fn n x). { intros C. replace (x ^ S n / (INR (S n) ^ 2 * (INR (S n) + 1) * (1 - x))) with (c * (x ^ S n / (1 - x))) by (unfold c; field; lra). lra. }
      apply (rise (fun x => c * (x ^ S n / (1 - x)) + - (1) * Fn n x) (fun x => c * (INR (S n) * x ^ n / (1 - x) + x ^ S n / (1 - x) ^ 2) + - (1) * (Hn n x / x ^ 2)) 1); [| | |exact Hx].
      + intros y Hy. apply (is_derive_plus (K := R_AbsRing) (V := R_NormedModule) (fun x => c * (x ^ S n / (1 - x))) (fun x => - (1) * Fn n x)).
        * apply (is_derive_scal (fun x => x ^ S n / (1 - x))), quot_derive. lra.
        * apply (is_derive_scal (Fn n)), Fn_derive, Hy.
      + intros y Hy. assert (B : Hn n y / y ^ 2 <= y ^ n / (INR (S n) * (INR (S n) + 1) * (1 - y))).
        { apply Rmult_le_reg_r with (y ^ 2); [apply pow_lt; lra|]. unfold Rdiv at 1. rewrite Rmult_assoc, Rinv_l, Rmult_1_r by (apply pow_nonzero; lra).
          replace (y ^ n / (INR (S n) * (INR (S n) + 1) * (1 - y)) * y ^ 2) with (y ^ (n + 2) / (INR (S n) * (INR (S n) + 1) * (1 - y))) by (rewrite pow_add; field; lra). apply Hn_bounds, Hy. }
        replace (c * (INR (S n) * y ^ n / (1 - y) + y ^ S n / (1 - y) ^ 2)) with (y ^ n / (INR (S n) * (INR (S n) + 1) * (1 - y)) + y ^ S n / (INR (S n) ^ 2 * (INR (S n) + 1) * (1 - y) ^ 2)) by (unfold c; field; lra).
        assert (0 < y ^ S n / (INR (S n) ^ 2 * (INR (S n) + 1) * (1 - y) ^ 2)) by (apply Rdiv_lt_0_compat; [apply pow_lt; lra|repeat apply Rmult_lt_0_compat; try apply pow_lt; lra]). lra.
      + apply up_plus; [|apply U]. apply (up_ge _ 1); [lra|]. intros y Hy. unfold c. apply Rmult_le_pos; left; [apply Rinv_0_lt_compat, Rmult_lt_0_compat; [apply pow_lt|]; lra|apply Rdiv_lt_0_compat; [apply pow_lt|]; lra].
  Qed.
End Dilog.
