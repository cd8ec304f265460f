(** Generic facts about Archimedean generators over the reals. *)
From Coquelicot Require Import Coquelicot.
From Verif Require Import Base RSumLib Ext S_Archimedean.
Open Scope R_scope.

(** a pair (generator, inverse generator) on (lo, 1] *)
Record gen (lo : R) (psi f : R -> R) : Prop := mkGen {
  g_pos : forall u, lo < u <= 1 -> 0 <= f u;
  g_one : f 1 = 0;
  g_anti : forall u v, lo < u -> u <= v -> v <= 1 -> f v <= f u;
  g_inv : forall u, lo < u <= 1 -> psi (f u) = u;
  g_psi_nonneg : forall s, 0 <= s -> 0 <= psi s;
  g_psi_anti : forall s t, 0 <= s -> s <= t -> psi t <= psi s }.

(** the graph of psi bends upwards: increments shrink *)
Definition convex_gen (psi : R -> R) : Prop :=
  forall x y h, 0 <= x -> x <= y -> 0 <= h -> psi y - psi (y + h) <= psi x - psi (x + h).

Definition rcdf (psi f : R -> R) (l : list R) : R :=
  if existsb (fun x => Reqb x 0) l then 0 else psi (lsum (map f l)).

Lemma has_zero l : existsb (fun x => Reqb x 0) l = true <-> In 0 l.
Proof.
  rewrite existsb_exists. split.
  - intros [x [I E]]. apply Reqb_true in E. subst. exact I.
  - intros I. exists 0. split; [exact I|]. apply Reqb_refl.
Qed.

Section Gen.
  Variables (lo : R) (psi f : R -> R).
  Hypothesis G : gen lo psi f.

  Lemma sum_f_nonneg l : Forall (fun x => lo < x <= 1) l -> 0 <= lsum (map f l).
  Proof.
    intros F. apply lsum_nonneg. intros x I. apply in_map_iff in I. destruct I as [u [<- I]].
    rewrite Forall_forall in F. apply (g_pos _ _ _ G). apply F. exact I.
  Qed.
  Lemma sum_f_ge l x : Forall (fun x => lo < x <= 1) l -> In x l -> f x <= lsum (map f l).
  Proof.
    induction l as [|a l IH]; intros F I; [destruct I|]. inversion F as [|? ? Ha Fl]; subst. cbn [map lsum fold_right].
    fold (lsum (map f l)). pose proof (sum_f_nonneg l Fl). pose proof (g_pos _ _ _ G a Ha).
    destruct I as [->|I]; [lra|]. specialize (IH Fl I). lra.
  Qed.
  Lemma sum_f_anti l l' : Forall (fun x => lo < x <= 1) l -> Forall (fun x => lo < x <= 1) l' -> below l l' ->
    lsum (map f l') <= lsum (map f l).
  Proof.
    intros F F' B. induction B as [|x y l l' H B IH]; [cbn; lra|].
    inversion F; inversion F'; subst. cbn [map lsum fold_right]. fold (lsum (map f l)) (lsum (map f l')).
    assert (f y <= f x) by (apply (g_anti _ _ _ G); lra). specialize (IH ltac:(assumption) ltac:(assumption)). lra.
  Qed.
  Lemma lsum_zero_but (g : nat -> R) k n : (k < n)%nat -> (forall i, (i < n)%nat -> i <> k -> g i = 0) ->
    lsum (map g (seq 0 n)) = g k.
  Proof.
    intros Hk Hz. rewrite <- rsum_lsum. rewrite <- (rsum_delta n k g Hk). apply rsum_ext. intros i Hi.
    destruct (Nat.eqb_spec i k) as [->|Hne]; [reflexivity|]. apply Hz; assumption.
  Qed.
  Lemma rcdf_margin d k u : 0 <= lo -> (k < d)%nat -> lo < u <= 1 -> rcdf psi f (one_but d k u) = u.
  Proof.
    intros Hlo Hk Hu. unfold rcdf. destruct (existsb _ _) eqn:E.
    - exfalso. apply has_zero in E. unfold one_but in E. apply in_map_iff in E. destruct E as [i [E _]].
      destruct (Nat.eqb i k); lra.
    - unfold one_but. rewrite map_map, (lsum_zero_but _ k).
      + rewrite Nat.eqb_refl. apply (g_inv _ _ _ G). exact Hu.
      + exact Hk.
      + intros i Hi Hne. destruct (Nat.eqb_spec i k); [contradiction|]. apply (g_one _ _ _ G).
  Qed.
  Lemma rcdf_zero l : In 0 l -> rcdf psi f l = 0.
  Proof. intros I. unfold rcdf. rewrite (proj2 (has_zero l) I). reflexivity. Qed.
  (** points are zero or in (lo, 1] *)
  Definition pt (x : R) : Prop := x = 0 \/ lo < x <= 1.
  Lemma no_zero l : Forall pt l -> existsb (fun x => Reqb x 0) l = false -> Forall (fun x => lo < x <= 1) l.
  Proof.
    intros F E. rewrite Forall_forall in *. intros x I. destruct (F x I) as [->|H]; [|exact H].
    exfalso. apply has_zero in I. congruence.
  Qed.
  Lemma rcdf_le_coord l x : 0 <= lo -> Forall pt l -> In x l -> rcdf psi f l <= x.
  Proof.
    intros Hlo F I. unfold rcdf. destruct (existsb _ _) eqn:E.
    - rewrite Forall_forall in F. destruct (F x I); lra.
    - pose proof (no_zero l F E) as F'. rewrite <- (g_inv _ _ _ G x).
      + apply (g_psi_anti _ _ _ G); [|apply sum_f_ge; assumption]. apply (g_pos _ _ _ G).
        rewrite Forall_forall in F'. apply F'; exact I.
      + rewrite Forall_forall in F'. apply F'; exact I.
  Qed.
  Lemma rcdf_nonneg l : Forall pt l -> 0 <= rcdf psi f l.
  Proof.
    intros F. unfold rcdf. destruct (existsb _ _) eqn:E; [lra|].
    apply (g_psi_nonneg _ _ _ G). apply sum_f_nonneg. apply no_zero; assumption.
  Qed.
  Lemma rcdf_mono l l' : 0 <= lo -> Forall pt l -> Forall pt l' -> below l l' -> rcdf psi f l <= rcdf psi f l'.
  Proof.
    intros Hlo F F' B. unfold rcdf at 1. destruct (existsb _ l) eqn:E; [apply rcdf_nonneg; exact F'|].
    unfold rcdf. destruct (existsb _ l') eqn:E'.
    - exfalso. apply has_zero in E'. apply not_true_iff_false in E. apply E.
      clear - B E' F Hlo. revert F. induction B as [|x y l l' H B IH]; intros F; [destruct E'|]. inversion F; subst.
      apply has_zero. destruct E' as [->|I].
      + left. destruct H2; lra.
      + right. apply has_zero. apply IH; assumption.
    - pose proof (no_zero l F E) as A. pose proof (no_zero l' F' E') as A'.
      apply (g_psi_anti _ _ _ G); [apply sum_f_nonneg; exact A'|apply sum_f_anti; assumption].
  Qed.

  Hypothesis Cv : convex_gen psi.
  Lemma rcdf_pos2 u v : 0 <= lo -> lo < u -> lo < v -> rcdf psi f [u; v] = psi (f u + f v).
  Proof.
    intros H0 Hu Hv. unfold rcdf. destruct (existsb _ _) eqn:E.
    - apply has_zero in E. cbn in E. lra.
    - cbn. f_equal. ring.
  Qed.
  Lemma rcdf_rectangle a1 b1 a2 b2 : 0 <= lo -> pt a1 -> pt a2 -> pt b1 -> pt b2 -> a1 <= b1 -> a2 <= b2 ->
    0 <= rcdf psi f [b1; b2] - rcdf psi f [a1; b2] - rcdf psi f [b1; a2] + rcdf psi f [a1; a2].
  Proof.
    intros Hlo Pa1 Pa2 Pb1 Pb2 H1 H2.
    assert (Z1 : forall x, rcdf psi f [0; x] = 0) by (intros; apply rcdf_zero; cbn; auto).
    assert (Z2 : forall x, rcdf psi f [x; 0] = 0) by (intros; apply rcdf_zero; cbn; auto).
    assert (M : forall x y x' y', pt x -> pt y -> pt x' -> pt y' -> x <= x' -> y <= y' -> rcdf psi f [x; y] <= rcdf psi f [x'; y'])
      by (intros; apply rcdf_mono; unfold below; repeat (apply Forall_cons || apply Forall_nil || apply Forall2_cons || apply Forall2_nil); assumption).
    destruct Pa1 as [->|Pa1].
    - rewrite !Z1. assert (rcdf psi f [b1; a2] <= rcdf psi f [b1; b2]) by (apply M; auto; lra). lra.
    - destruct Pa2 as [->|Pa2].
      + rewrite !Z2. assert (rcdf psi f [a1; b2] <= rcdf psi f [b1; b2]) by (apply M; auto; [right; lra|lra]). lra.
      + destruct Pb1 as [->|Pb1]; [lra|]. destruct Pb2 as [->|Pb2]; [lra|].
        rewrite !rcdf_pos2 by lra.
        assert (f b1 <= f a1) by (apply (g_anti _ _ _ G); lra).
        assert (f b2 <= f a2) by (apply (g_anti _ _ _ G); lra).
        pose proof (g_pos _ _ _ G b1 ltac:(lra)). pose proof (g_pos _ _ _ G b2 ltac:(lra)).
        pose proof (Cv (f b1 + f b2) (f b1 + f a2) (f a1 - f b1) ltac:(lra) ltac:(lra) ltac:(lra)) as C.
        replace (f b1 + f a2 + (f a1 - f b1)) with (f a1 + f a2) in C by ring.
        replace (f b1 + f b2 + (f a1 - f b1)) with (f a1 + f b2) in C by ring. lra.
  Qed.
  Lemma rcdf_frechet_lower u v : 0 <= lo -> lo < 1 -> pt u -> pt v -> u + v - 1 <= rcdf psi f [u; v].
  Proof.
    intros Hlo Hl1 Pu Pv.
    assert (P1 : pt 1) by (right; lra).
    assert (u <= 1 /\ v <= 1) as [Lu Lv] by (destruct Pu, Pv; lra).
    pose proof (rcdf_rectangle u 1 v 1 Hlo Pu Pv P1 P1 Lu Lv) as H.
    assert (E1 : forall x, pt x -> rcdf psi f [x; 1] = x).
    { intros x [->|Hx]; [apply rcdf_zero; cbn; auto|]. change [x; 1] with (one_but 2 0 x). apply rcdf_margin; auto. }
    assert (E2 : forall x, pt x -> rcdf psi f [1; x] = x).
    { intros x [->|Hx]; [apply rcdf_zero; cbn; auto|]. change [1; x] with (one_but 2 1 x). apply rcdf_margin; auto. }
    rewrite !E1, E2 in H by assumption. lra.
  Qed.
End Gen.

(** convexity from a non-decreasing derivative *)
Lemma convex_of_deriv psi dpsi :
  (forall s, 0 < s -> is_derive psi s (dpsi s)) ->
  (forall s t, 0 < s -> s <= t -> dpsi s <= dpsi t) ->
  (forall s t, 0 <= s -> s <= t -> psi t <= psi s) ->
  convex_gen psi.
Proof.
  intros D M A.
  assert (P : forall x y h, 0 < x -> x <= y -> 0 <= h -> psi y - psi (y + h) <= psi x - psi (x + h)).
  { intros x y h Hx Hxy Hh. destruct (Rle_lt_or_eq_dec x y Hxy) as [L|<-]; [|lra].
    destruct (MVT_cor2 (fun s => psi (s + h) - psi s) (fun s => dpsi (s + h) - dpsi s) x y L) as [c [E [C1 C2]]].
    - intros c Hc. apply is_derive_Reals. apply (@is_derive_minus R_AbsRing R_NormedModule); [|apply D; lra].
      evar_last.
      + apply (is_derive_comp psi (fun s => s + h)); [apply D; lra|].
        apply (@is_derive_plus R_AbsRing R_NormedModule); [apply is_derive_id|apply is_derive_const].
      + unfold scal, plus, zero, one; cbn. unfold mult; cbn. ring.
    - assert (0 <= dpsi (c + h) - dpsi c) by (pose proof (M c (c + h) ltac:(lra) ltac:(lra)); lra). nra. }
  intros x y h Hx Hxy Hh. destruct (Rle_lt_or_eq_dec 0 x Hx) as [L|<-]; [apply P; assumption|].
  destruct (Rle_lt_or_eq_dec 0 y Hxy) as [Ly|<-]; [|lra].
  destruct (Rle_lt_or_eq_dec 0 h Hh) as [Lh|<-]; [|rewrite !Rplus_0_r; lra].
  rewrite Rplus_0_l.
  destruct (Rle_lt_dec (psi y - psi (y + h)) (psi 0 - psi h)) as [Q|Q]; [exact Q|exfalso].
  set (gap := psi y - psi (y + h) - (psi 0 - psi h)) in *.
  assert (Hg : 0 < gap) by (unfold gap; lra).
  assert (Cn : continuity_pt psi h).
  { apply derivable_continuous_pt. exists (dpsi h). apply is_derive_Reals. apply D. exact Lh. }
  destruct (Cn (gap / 2) ltac:(lra)) as [al [Hal Hc]].
  set (x := Rmin (al / 2) y). assert (Hx0 : 0 < x) by (unfold x; apply Rmin_glb_lt; lra).
  assert (x <= al / 2) by apply Rmin_l. assert (x <= y) by apply Rmin_r.
  specialize (P x y h Hx0 H0 Hh). specialize (A 0 x ltac:(lra) ltac:(lra)).
  specialize (Hc (x + h)).
  assert (Hd : R_dist (psi (x + h)) (psi h) < gap / 2).
  { apply Hc. split.
    - split; [exact I|lra].
    - unfold dist, R_met, R_dist. replace (x + h - h) with x by ring. rewrite Rabs_pos_eq; lra. }
  unfold R_dist in Hd. apply Rabs_def2 in Hd. unfold gap in *. lra.
Qed.
