(** Triangular systems, roots of positive definite matrices, and the best normal law for weighted points. *)
From Coq Require Import Reals Classical.
From Verif Require Import Base RSumLib Ext S_Matrix S_Linalg M_Gmc S_Gmc S_GmcAscent.
Local Close Scope Z_scope. Open Scope R_scope.

Definition lower_tri (d : nat) (l : nat -> nat -> R) : Prop :=
  (forall i j, (i < j)%nat -> (j < d)%nat -> l i j = 0) /\ (forall i, (i < d)%nat -> 0 < l i i).

Lemma tri_row d l (e : nat -> R) i : lower_tri d l -> (i < d)%nat -> (forall j, (j < i)%nat -> e j = 0) ->
  rsum d (fun j => l i j * e j) = l i i * e i.
Proof.
  intros [L _] Hi H. rewrite <- (rsum_delta d i (fun j => l i j * e j) Hi). apply rsum_ext. intros j Hj.
  destruct (Nat.eqb_spec j i) as [->|N]; [reflexivity|]. destruct (Nat.lt_ge_cases j i) as [C|C].
  - rewrite H by exact C. ring.
  - rewrite L by lia. ring.
Qed.
Lemma tri_zero d l e : lower_tri d l -> forall m, (forall i, (i < d)%nat -> (i < m)%nat -> rsum d (fun j => l i j * e j) = 0) -> forall i, (i < d)%nat -> (i < m)%nat -> e i = 0.
Proof.
  intros L m H. intros i. induction i as [i IH] using lt_wf_ind. intros Hi Hm.
  pose proof (H i Hi Hm) as E. rewrite (tri_row d l e i L Hi) in E by (intros j Hj; apply IH; lia).
  destruct L as [_ P]. specialize (P i Hi). nra.
Qed.
Lemma tri_inj d l x y : lower_tri d l -> (forall i, (i < d)%nat -> rsum d (fun j => l i j * x j) = rsum d (fun j => l i j * y j)) -> forall i, (i < d)%nat -> x i = y i.
Proof.
  intros L H i Hi. cut (x i - y i = 0); [lra|]. apply (tri_zero d l (fun j => x j - y j) L d); [|exact Hi|exact Hi].
  intros k Hk _. rewrite (rsum_ext d _ (fun j => l k j * x j - l k j * y j)) by (intros; ring). rewrite rsum_minus, H by exact Hk. ring.
Qed.
Lemma tri_solve d l v : lower_tri d l -> exists z, forall i, (i < d)%nat -> rsum d (fun j => l i j * z j) = v i.
Proof.
  intros L. assert (K : forall k, (k <= d)%nat -> exists z, (forall i, (i < k)%nat -> rsum d (fun j => l i j * z j) = v i) /\ forall j, (k <= j)%nat -> z j = 0).
  { induction k as [|k IH]; intros Hk; [exists (fun _ => 0); split; [intros; lia|reflexivity]|].
    destruct IH as [z [A B]]; [lia|]. pose proof (proj2 L k ltac:(lia)) as P.
    set (t := (v k - rsum d (fun j => l k j * z j)) / l k k).
    exists (fun j => if Nat.eqb j k then t else z j). split.
    - intros i Hi. rewrite (rsum_ext d _ (fun j => l i j * z j + (if Nat.eqb j k then l i j * t else 0))).
      2:{ intros j Hj. destruct (Nat.eqb_spec j k) as [->|]; [rewrite (B k) by lia; ring|ring]. }
      rewrite rsum_plus, (rsum_delta d k (fun j => l i j * t)) by lia. destruct (Nat.eq_dec i k) as [->|N].
      + unfold t. field. lra.
      + rewrite A by lia. rewrite (proj1 L) by lia. ring.
    - intros j Hj. destruct (Nat.eqb_spec j k); [lia|]. apply B. lia. }
  destruct (K d (le_n d)) as [z [A _]]. exists z. exact A.
Qed.
Lemma root_tri d l c : root d l c -> lower_tri d l.
Proof. intros [A [B _]]. split; assumption. Qed.

(** every positive definite matrix has a root: complete the square in the first coordinate *)
Lemma root_exists d : forall c : nat -> nat -> R, (forall i j, (i < d)%nat -> (j < d)%nat -> c i j = c j i) ->
  (forall x, (exists i, (i < d)%nat /\ x i <> 0) -> 0 < quad d c x) -> exists l, root d l c.
Proof.
  induction d as [|d IH]; intros c Sy PD.
  { exists (fun _ _ => 0). split; [intros; lia|]. split; intros; lia. }
  assert (P0 : 0 < c O O).
  { assert (H : 0 < quad (S d) c (fun i => if Nat.eqb i 0 then 1 else 0)) by (apply PD; exists O; split; [lia|cbn; lra]).
    unfold quad in H. rewrite rsum_Sl in H. rewrite rsum_Sl in H. cbn [Nat.eqb] in H.
    rewrite (rsum_zero d (fun i => 1 * c O (S i) * 0)) in H by (intros; ring).
    rewrite (rsum_zero d (fun i => rsum (S d) (fun j => 0 * c (S i) j * (if Nat.eqb j 0 then 1 else 0)))) in H by (intros; apply rsum_zero; intros; ring). lra. }
  set (c' := fun i j => c (S i) (S j) - c (S i) O * c O (S j) / c O O).
  destruct (IH c') as [l' [A [B C]]].
  - intros i j Hi Hj. unfold c'. rewrite (Sy (S i) (S j)), (Sy (S i) O), (Sy O (S j)) by lia. field. lra.
  - intros x [i0 [Hi0 Hx]]. set (s := rsum d (fun j => c O (S j) * x j)).
    set (y := fun i => match i with O => - s / c O O | S i => x i end).
    assert (H : 0 < quad (S d) c y) by (apply PD; exists (S i0); split; [lia|exact Hx]).
    replace (quad d c' x) with (quad (S d) c y); [exact H|].
    unfold quad. rewrite rsum_Sl. rewrite rsum_Sl. cbn [y].
    rewrite (rsum_ext d (fun i => rsum (S d) (fun j => x i * c (S i) j * y j)) (fun i => x i * c O (S i) * y O + rsum d (fun j => x i * c (S i) (S j) * x j))).
    2:{ intros i Hi. rewrite rsum_Sl. cbn [y]. rewrite (Sy (S i) O) by lia. reflexivity. }
    rewrite rsum_plus. rewrite (rsum_scal_r d (y O) (fun i => x i * c O (S i))).
    rewrite (rsum_ext d (fun i => x i * c O (S i)) (fun j => c O (S j) * x j)) by (intros; ring). fold s.
    rewrite (rsum_ext d (fun i => - s / c O O * c O (S i) * x i) (fun i => (- s / c O O) * (c O (S i) * x i))) by (intros; ring). rewrite rsum_scal. fold s.
    rewrite (rsum_ext d (fun i => rsum d (fun j => x i * c' i j * x j)) (fun i => rsum d (fun j => x i * c (S i) (S j) * x j) - (c O (S i) * x i) * (s / c O O))).
    2:{ intros i Hi. unfold c'. rewrite (rsum_ext d _ (fun j => x i * c (S i) (S j) * x j - (c O (S i) * x i / c O O) * (c O (S j) * x j))).
        2:{ intros j Hj. rewrite (Sy (S i) O) by lia. field. lra. }
        rewrite rsum_minus, rsum_scal. fold s. field. lra. }
    rewrite rsum_minus, rsum_scal_r. fold s. cbn [y]. field. lra.
  - set (r := sqrt (c O O)). assert (Pr : 0 < r) by (apply sqrt_lt_R0; exact P0). assert (Er : r * r = c O O) by (apply sqrt_sqrt; lra).
    exists (fun i j => match i, j with O, O => r | O, S _ => 0 | S i, O => c (S i) O / r | S i, S j => l' i j end). split; [|split].
    + intros [|i] [|j] Hij Hj; try lia; [reflexivity|]. apply A; lia.
    + intros [|i] Hi; [exact Pr|]. apply B. lia.
    + intros [|a] [|b] Ha Hb; rewrite rsum_Sl.
      * rewrite rsum_zero by (intros; ring). lra.
      * rewrite rsum_zero by (intros; ring). rewrite (Sy (S b) O) by lia. field. lra.
      * rewrite rsum_zero by (intros; ring). field. lra.
      * rewrite <- (C a b) by lia. unfold c'. rewrite (Sy (S b) O) by lia. rewrite <- Er. field. lra.
Qed.

Lemma fin_choice {A} (a0 : A) d (P : nat -> A -> Prop) : (forall j, (j < d)%nat -> exists t, P j t) -> exists T, forall j, (j < d)%nat -> P j (T j).
Proof.
  induction d as [|d IH]; intros H; [exists (fun _ => a0); intros; lia|].
  destruct IH as [T HT]; [intros j Hj; apply H; lia|]. destruct (H d) as [t Ht]; [lia|].
  exists (fun j => if Nat.eqb j d then t else T j). intros j Hj. destruct (Nat.eqb_spec j d) as [->|]; [exact Ht|]. apply HT. lia.
Qed.
Lemma ln_sub1 t : 0 < t -> ln t <= t - 1.
Proof. intros H. pose proof (exp_ineq1_le (ln t)) as E. rewrite exp_ln in E by exact H. lra. Qed.

Section Best.
  (** n points q in d dimensions with weights v that add up to 1, their mean mu' and covariance c' = l' l'^T *)
  Variables (d n : nat) (v : nat -> R) (q : nat -> nat -> R) (mu mu' : nat -> R) (l l' : nat -> nat -> R).
  Hypothesis Hv : rsum n v = 1.
  Hypothesis Hmu : forall a, (a < d)%nat -> mu' a = rsum n (fun i => v i * q i a).
  Hypothesis Hl' : root d l' (fun a b => rsum n (fun i => v i * (q i a - mu' a) * (q i b - mu' b))).
  Hypothesis Hl : lower_tri d l.
  Variables (z z' : nat -> nat -> R).
  Hypothesis Hz : forall i, (i < n)%nat -> forall a, (a < d)%nat -> rsum d (fun j => l a j * z i j) = q i a - mu a.
  Hypothesis Hz' : forall i, (i < n)%nat -> forall a, (a < d)%nat -> rsum d (fun j => l' a j * z' i j) = q i a - mu' a.

  Lemma white a b : (a < d)%nat -> (b < d)%nat -> rsum n (fun i => v i * z' i a * z' i b) = if Nat.eqb a b then 1 else 0.
  Proof.
    pose proof (root_tri _ _ _ Hl') as T. set (M := fun a b => rsum n (fun i => v i * z' i a * z' i b)). change ((a < d)%nat -> (b < d)%nat -> M a b = if Nat.eqb a b then 1 else 0).
    assert (E : forall a b, (a < d)%nat -> (b < d)%nat -> rsum d (fun j => l' a j * rsum d (fun k => l' b k * M j k)) = rsum d (fun j => l' a j * l' b j)).
    { intros a0 b0 Ha Hb. rewrite <- (proj2 (proj2 Hl') a0 b0 Ha Hb).
      rewrite (rsum_ext n (fun i => v i * (q i a0 - mu' a0) * (q i b0 - mu' b0)) (fun i => rsum d (fun j => rsum d (fun k => l' a0 j * (l' b0 k * (v i * z' i j * z' i k)))))).
      - rewrite rsum_swap. apply rsum_ext. intros j _. rewrite rsum_swap. rewrite <- rsum_scal. apply rsum_ext. intros k _. unfold M. rewrite !rsum_scal. reflexivity.
      - intros i Hi. rewrite <- (Hz' i Hi a0 Ha), <- (Hz' i Hi b0 Hb). rewrite Rmult_assoc, rsum_mul, <- rsum_scal. apply rsum_ext. intros j _.
        rewrite <- rsum_scal. apply rsum_ext. intros k _. ring. }
    assert (E1 : forall b, (b < d)%nat -> forall j, (j < d)%nat -> rsum d (fun k => l' b k * M j k) = l' b j).
    { intros b0 Hb. apply (tri_inj d l' _ _ T). intros a0 Ha. exact (E a0 b0 Ha Hb). }
    intros Ha Hb. apply (tri_inj d l' (fun k => M a k) (fun k => if Nat.eqb a k then 1 else 0) T); [|exact Hb].
    intros b0 Hb0. rewrite (E1 b0 Hb0 a Ha). rewrite <- (rsum_delta d a (fun k => l' b0 k) Ha). apply rsum_ext. intros k _.
    rewrite (Nat.eqb_sym k a). destruct (Nat.eqb_spec a k); ring.
  Qed.

  Lemma white_mean a : (a < d)%nat -> rsum n (fun i => v i * z' i a) = 0.
  Proof.
    pose proof (root_tri _ _ _ Hl') as T. intros Ha. apply (tri_zero d l' (fun a => rsum n (fun i => v i * z' i a)) T d); [|exact Ha|exact Ha].
    intros b Hb _. rewrite (rsum_ext d _ (fun j => rsum n (fun i => v i * (l' b j * z' i j)))) by (intros j _; rewrite <- rsum_scal; apply rsum_ext; intros; ring).
    rewrite rsum_swap. rewrite (rsum_ext n _ (fun i => v i * q i b - v i * mu' b)).
    - rewrite rsum_minus, rsum_scal_r, Hv, (Hmu b Hb). ring.
    - intros i Hi. rewrite rsum_scal, (Hz' i Hi b Hb). ring.
  Qed.

  Lemma best : rsum d (fun a => ln (l' a a)) + rsum n (fun i => v i * rsum d (fun a => z' i a * z' i a)) / 2
    <= rsum d (fun a => ln (l a a)) + rsum n (fun i => v i * rsum d (fun a => z i a * z i a)) / 2.
  Proof.
    pose proof (root_tri _ _ _ Hl') as T'.
    destruct (fin_choice (fun _ : nat => 0) d (fun j t => forall a, (a < d)%nat -> rsum d (fun k => l a k * t k) = l' a j)) as [T HT].
    { intros j _. apply (tri_solve d l (fun a => l' a j) Hl). }
    destruct (tri_solve d l (fun a => mu' a - mu a) Hl) as [b Hb].
    assert (T0 : forall j k, (j < d)%nat -> (k < j)%nat -> T j k = 0).
    { intros j k Hj Hk. apply (tri_zero d l (T j) Hl j); [|lia|exact Hk]. intros a Ha Haj. rewrite (HT j Hj a Ha). apply (proj1 T'); lia. }
    assert (Td : forall j, (j < d)%nat -> l j j * T j j = l' j j).
    { intros j Hj. rewrite <- (HT j Hj j Hj). symmetry. apply tri_row; [exact Hl|exact Hj|]. intros k Hk. apply T0; assumption. }
    assert (Ez : forall i, (i < n)%nat -> forall a, (a < d)%nat -> z i a = rsum d (fun j => T j a * z' i j) + b a).
    { intros i Hi. apply (tri_inj d l (z i) (fun a => rsum d (fun j => T j a * z' i j) + b a) Hl). intros c Hc. rewrite (Hz i Hi c Hc).
      rewrite (rsum_ext d (fun j => l c j * (rsum d (fun k => T k j * z' i k) + b j)) (fun j => rsum d (fun k => (l c j * T k j) * z' i k) + l c j * b j)).
      2:{ intros j _. rewrite (rsum_ext d (fun k => l c j * T k j * z' i k) (fun k => l c j * (T k j * z' i k))) by (intros; ring). rewrite rsum_scal. ring. }
      rewrite rsum_plus, (Hb c Hc), rsum_swap. rewrite (rsum_ext d _ (fun k => l' c k * z' i k)).
      - rewrite (Hz' i Hi c Hc). ring.
      - intros k Hk. rewrite rsum_scal_r, (HT k Hk c Hc). reflexivity. }
    assert (Q' : rsum n (fun i => v i * rsum d (fun a => z' i a * z' i a)) = rsum d (fun _ => 1)).
    { rewrite (rsum_ext n _ (fun i => rsum d (fun a => v i * z' i a * z' i a))) by (intros i _; rewrite <- rsum_scal; apply rsum_ext; intros; ring).
      rewrite rsum_swap. apply rsum_ext. intros a Ha. rewrite white by exact Ha. rewrite Nat.eqb_refl. reflexivity. }
    assert (Q : rsum n (fun i => v i * rsum d (fun a => z i a * z i a)) = rsum d (fun a => rsum d (fun j => T j a * T j a) + b a * b a)).
    { rewrite (rsum_ext n _ (fun i => rsum d (fun a => v i * z i a * z i a))) by (intros i _; rewrite <- rsum_scal; apply rsum_ext; intros; ring).
      rewrite rsum_swap. apply rsum_ext. intros a Ha.
      rewrite (rsum_ext n _ (fun i => rsum d (fun j => rsum d (fun k => (T j a * T k a) * (v i * z' i j * z' i k))) + (2 * b a) * rsum d (fun j => T j a * (v i * z' i j)) + v i * (b a * b a))).
      2:{ intros i Hi. rewrite (Ez i Hi a Ha). set (Y := rsum d (fun j => T j a * z' i j)).
          replace (rsum d (fun j => rsum d (fun k => T j a * T k a * (v i * z' i j * z' i k)))) with (v i * (Y * Y)).
          2:{ unfold Y. rewrite rsum_mul, <- rsum_scal. apply rsum_ext. intros j _. rewrite <- rsum_scal. apply rsum_ext. intros k _. ring. }
          rewrite (rsum_ext d (fun j => T j a * (v i * z' i j)) (fun j => v i * (T j a * z' i j))) by (intros; ring). rewrite rsum_scal. fold Y. ring. }
      rewrite !rsum_plus, rsum_scal_r, Hv, rsum_scal.
      rewrite (rsum_swap n d (fun i j => T j a * (v i * z' i j))). rewrite (rsum_zero d (fun j => rsum n (fun i => T j a * (v i * z' i j)))) by (intros j Hj; rewrite rsum_scal, white_mean by exact Hj; ring).
      rewrite (rsum_swap n d (fun i j => rsum d (fun k => T j a * T k a * (v i * z' i j * z' i k)))).
      rewrite (rsum_ext d (fun j => rsum n (fun i => rsum d (fun k => T j a * T k a * (v i * z' i j * z' i k)))) (fun j => T j a * T j a)); [ring|].
      intros j Hj. rewrite rsum_swap. rewrite <- (rsum_delta d j (fun k => T j a * T k a) Hj). apply rsum_ext. intros k Hk. rewrite rsum_scal, white by assumption.
      rewrite (Nat.eqb_sym k j). destruct (Nat.eqb j k); ring. }
    rewrite Q, Q'. assert (G : rsum d (fun a => ln (l' a a) + 1 / 2) <= rsum d (fun a => ln (l a a) + (rsum d (fun j => T j a * T j a) + b a * b a) / 2)).
    { apply rsum_le. intros a Ha. rewrite <- (Td a Ha). pose proof (proj2 Hl a Ha) as P. pose proof (proj2 T' a Ha) as P'. pose proof (Td a Ha) as E.
      assert (PT : 0 < T a a) by nra. rewrite ln_mult by assumption.
      assert (T a a * T a a <= rsum d (fun j => T j a * T j a)).
      { rewrite <- (rsum_delta d a (fun j => T j a * T j a) Ha). apply rsum_le. intros j _. destruct (Nat.eqb j a); nra. }
      pose proof (ln_sub1 (T a a * T a a) ltac:(nra)) as L. rewrite ln_mult in L by assumption. nra. }
    rewrite !rsum_plus in G.
    rewrite (rsum_ext d (fun a => (rsum d (fun j => T j a * T j a) + b a * b a) / 2) (fun a => (rsum d (fun j => T j a * T j a) + b a * b a) * / 2)) in G by (intros; reflexivity).
    rewrite rsum_scal_r in G. rewrite (rsum_ext d (fun _ => 1 / 2) (fun _ => 1 * / 2)) in G by (intros; reflexivity). rewrite rsum_scal_r in G. lra.
  Qed.
End Best.

(** ** Jensen's inequality for the logarithm, and the ascent of a mixture *)
Lemma jensen m (t r : nat -> R) : (forall k, (k < m)%nat -> 0 <= t k) -> rsum m t = 1 -> (forall k, (k < m)%nat -> 0 < r k) ->
  rsum m (fun k => t k * ln (r k)) <= ln (rsum m (fun k => t k * r k)).
Proof.
  intros Ht H1 Hr. set (M := rsum m (fun k => t k * r k)).
  assert (PM : 0 < M).
  { apply rsum_pos; [intros k Hk; specialize (Ht k Hk); specialize (Hr k Hk); nra|].
    destruct (classic (exists k, (k < m)%nat /\ 0 < t k)) as [[k [Hk P]]|N].
    - exists k. split; [exact Hk|]. specialize (Hr k Hk). nra.
    - exfalso. rewrite (rsum_zero m t) in H1; [lra|]. intros k Hk. specialize (Ht k Hk). destruct (Rle_lt_or_eq_dec _ _ Ht) as [C|C]; [|lra]. exfalso. apply N. exists k. split; assumption. }
  assert (G : rsum m (fun k => t k * ln (r k)) <= rsum m (fun k => t k * (ln M - 1) + (t k * r k) * / M)).
  { apply rsum_le. intros k Hk. specialize (Ht k Hk). specialize (Hr k Hk).
    pose proof (ln_sub1 (r k * / M) ltac:(apply Rmult_lt_0_compat; [exact Hr|apply Rinv_0_lt_compat; exact PM])) as L.
    rewrite ln_mult in L by (try exact Hr; apply Rinv_0_lt_compat; exact PM). rewrite ln_Rinv in L by exact PM. nra. }
  rewrite rsum_plus, !rsum_scal_r, H1 in G. fold M in G. rewrite Rinv_r in G by lra. lra.
Qed.

Section Mixture.
  Variables (n m : nat) (w w' : nat -> R) (f f' kap : nat -> nat -> R).
  Let D i := rsum m (fun k => w k * f i k).
  Hypothesis Hw : forall k, (k < m)%nat -> 0 <= w k.
  Hypothesis Hf : forall i k, (i < n)%nat -> (k < m)%nat -> 0 < f i k.
  Hypothesis Hf' : forall i k, (i < n)%nat -> (k < m)%nat -> 0 < f' i k.
  Hypothesis HD : forall i, (i < n)%nat -> 0 < D i.
  Hypothesis Hkap : forall i k, (i < n)%nat -> (k < m)%nat -> kap i k = w k * f i k / D i.
  Hypothesis HN : forall k, (k < m)%nat -> rsum n (fun i => kap i k) <> 0.
  Hypothesis Hw' : forall k, (k < m)%nat -> w' k = rsum n (fun i => kap i k) / rsum m (fun k => rsum n (fun i => kap i k)).
  Hypothesis Hasc : forall k, (k < m)%nat -> rsum n (fun i => kap i k * ln (f i k)) <= rsum n (fun i => kap i k * ln (f' i k)).

  Lemma kap_nonneg i k : (i < n)%nat -> (k < m)%nat -> 0 <= kap i k.
  Proof. intros Hi Hk. rewrite Hkap by assumption. specialize (Hw k Hk). specialize (Hf i k Hi Hk). specialize (HD i Hi). apply Rmult_le_pos; [nra|]. left. apply Rinv_0_lt_compat. exact HD. Qed.
  Lemma kap_sum i : (i < n)%nat -> rsum m (fun k => kap i k) = 1.
  Proof. intros Hi. rewrite (rsum_ext m _ (fun k => (w k * f i k) * / D i)) by (intros k Hk; rewrite Hkap by assumption; reflexivity). rewrite rsum_scal_r. apply Rinv_r. specialize (HD i Hi). lra. Qed.
  Lemma N_total : rsum m (fun k => rsum n (fun i => kap i k)) = INR n.
  Proof. rewrite rsum_swap. rewrite (rsum_ext n _ (fun _ => 1)) by (intros i Hi; apply kap_sum; exact Hi). rewrite rsum_const. ring. Qed.
  Lemma N_pos k : (k < m)%nat -> 0 < rsum n (fun i => kap i k).
  Proof. intros Hk. pose proof (rsum_nonneg n (fun i => kap i k) (fun i Hi => kap_nonneg i k Hi Hk)). specialize (HN k Hk). lra. Qed.
  Lemma w_pos k : (k < m)%nat -> 0 < w k.
  Proof.
    intros Hk. destruct (Rle_lt_or_eq_dec _ _ (Hw k Hk)) as [C|C]; [exact C|]. exfalso. apply (HN k Hk). apply rsum_zero. intros i Hi.
    rewrite Hkap by assumption. rewrite <- C. unfold Rdiv. ring.
  Qed.
  Lemma w'_pos k : (k < m)%nat -> 0 < w' k.
  Proof.
    intros Hk. rewrite Hw' by exact Hk. apply Rdiv_lt_0_compat; [apply N_pos; exact Hk|].
    apply rsum_pos; [intros j Hj; left; apply N_pos; exact Hj|]. exists k. split; [exact Hk|]. apply N_pos. exact Hk.
  Qed.

  Lemma mixture_ascent : (0 < m)%nat ->
    (forall i, (i < n)%nat -> 0 < rsum m (fun k => w' k * f' i k)) /\
    rsum n (fun i => ln (D i)) + INR n * (1 - rsum m w) <= rsum n (fun i => ln (rsum m (fun k => w' k * f' i k))).
  Proof.
    intros Hm. assert (PD' : forall i, (i < n)%nat -> 0 < rsum m (fun k => w' k * f' i k)).
    { intros i Hi. apply rsum_pos; [intros k Hk|exists O; split; [exact Hm|]]; [left|]; apply Rmult_lt_0_compat; try (apply w'_pos; assumption); apply Hf'; assumption. }
    split; [exact PD'|]. pose proof (N_pos O Hm) as P0. pose proof N_total as NT.
    assert (Pn : 0 < INR n). { rewrite <- NT. apply rsum_pos; [intros k Hk; left; apply N_pos; exact Hk|exists O; split; assumption]. }
    assert (J : forall i, (i < n)%nat -> ln (D i) + rsum m (fun k => kap i k * ((ln (w' k) - ln (w k)) + (ln (f' i k) - ln (f i k)))) <= ln (rsum m (fun k => w' k * f' i k))).
    { intros i Hi. pose proof (HD i Hi) as HDi.
      pose proof (jensen m (fun k => kap i k) (fun k => w' k * f' i k / (w k * f i k)) (fun k Hk => kap_nonneg i k Hi Hk) (kap_sum i Hi)) as G.
      assert (R0 : forall k, (k < m)%nat -> 0 < w' k * f' i k / (w k * f i k)).
      { intros k Hk. apply Rdiv_lt_0_compat; apply Rmult_lt_0_compat; auto using w_pos, w'_pos. }
      specialize (G R0). cbv beta in G.
      rewrite (rsum_ext m (fun k => kap i k * (w' k * f' i k / (w k * f i k))) (fun k => (w' k * f' i k) * / D i)) in G.
      2:{ intros k Hk. rewrite Hkap by assumption. pose proof (w_pos k Hk). pose proof (Hf i k Hi Hk). field. repeat split; lra. }
      rewrite rsum_scal_r in G. rewrite ln_mult in G by (try (apply PD'; exact Hi); apply Rinv_0_lt_compat; exact HDi). rewrite ln_Rinv in G by exact HDi.
      rewrite (rsum_ext m (fun k => kap i k * ln (w' k * f' i k / (w k * f i k))) (fun k => kap i k * ((ln (w' k) - ln (w k)) + (ln (f' i k) - ln (f i k))))) in G; [lra|].
      intros k Hk. pose proof (w_pos k Hk). pose proof (w'_pos k Hk). pose proof (Hf i k Hi Hk). pose proof (Hf' i k Hi Hk).
      unfold Rdiv. rewrite ln_mult, ln_mult, ln_Rinv, ln_mult by (try assumption; try (apply Rmult_lt_0_compat; assumption); apply Rinv_0_lt_compat; apply Rmult_lt_0_compat; assumption). ring. }
    pose proof (rsum_le n _ _ J) as G. rewrite rsum_plus in G.
    rewrite rsum_swap in G.
    assert (K : INR n * (1 - rsum m w) <= rsum m (fun k => rsum n (fun i => kap i k * ((ln (w' k) - ln (w k)) + (ln (f' i k) - ln (f i k)))))).
    { replace (INR n * (1 - rsum m w)) with (rsum m (fun k => rsum n (fun i => kap i k) - INR n * w k)) by (rewrite rsum_minus, (rsum_scal m (INR n) w), NT; ring).
      apply rsum_le. intros k Hk. rewrite (rsum_ext n (fun i => kap i k * ((ln (w' k) - ln (w k)) + (ln (f' i k) - ln (f i k)))) (fun i => kap i k * (ln (w' k) - ln (w k)) + (kap i k * ln (f' i k) - kap i k * ln (f i k)))) by (intros; ring).
      rewrite rsum_plus, rsum_minus, rsum_scal_r. specialize (Hasc k Hk). pose proof (N_pos k Hk) as NP. pose proof (w_pos k Hk) as WP. pose proof (w'_pos k Hk) as WP'.
      set (N := rsum n (fun i => kap i k)) in *.
      pose proof (ln_sub1 (w k * / w' k) ltac:(apply Rmult_lt_0_compat; [exact WP|apply Rinv_0_lt_compat; exact WP'])) as L.
      rewrite ln_mult, ln_Rinv in L by (try assumption; apply Rinv_0_lt_compat; assumption).
      assert (E : w k * / w' k = INR n * w k / N). { rewrite (Hw' k Hk), NT. fold N. field. split; lra. }
      rewrite E in L. assert (N * (INR n * w k / N) = INR n * w k) by (field; lra). nra. }
    lra.
  Qed.
End Mixture.


(** ** Normal densities *)
Lemma rprod_pos d f : (forall i, (i < d)%nat -> 0 < f i) -> 0 < rprod d f /\ ln (rprod d f) = rsum d (fun i => ln (f i)).
Proof.
  induction d as [|d IH]; intros H; cbn; [split; [lra|apply ln_1]|]. destruct IH as [P E]; [intros; apply H; lia|]. specialize (H d ltac:(lia)).
  split; [apply Rmult_lt_0_compat; assumption|]. rewrite ln_mult, E by assumption. reflexivity.
Qed.
Lemma normal_ln pdf d mu c x l z : documented_normal pdf -> square d c -> root d l (get c) -> (forall i, (i < d)%nat -> rsum d (fun j => l i j * z j) = x i - mu i) ->
  0 < pdf mu c x /\ ln (pdf mu c x) = - (rsum d (fun i => ln (l i i)) + rsum d (fun i => z i * z i) / 2) - rsum d (fun _ => ln (sqrt (2 * PI))).
Proof.
  intros [_ H] S0 R0 Hz. rewrite (H d mu c x l z S0 R0 Hz). assert (P : 0 < sqrt (2 * PI)) by (apply sqrt_lt_R0; pose proof PI_RGT_0; lra).
  pose proof (proj1 (proj2 R0)) as Pl.
  destruct (rprod_pos d (fun i => sqrt (2 * PI) * l i i)) as [Pp Ep]; [intros i Hi; apply Rmult_lt_0_compat; [exact P|apply Pl; exact Hi]|].
  split; [apply Rdiv_lt_0_compat; [apply exp_pos|exact Pp]|]. unfold Rdiv at 1. rewrite ln_mult, ln_Rinv, ln_exp, Ep by (try assumption; try apply exp_pos; apply Rinv_0_lt_compat; exact Pp).
  rewrite (rsum_ext d (fun i => ln (sqrt (2 * PI) * l i i)) (fun i => ln (sqrt (2 * PI)) + ln (l i i))) by (intros i Hi; apply ln_mult; [exact P|apply Pl; exact Hi]).
  rewrite rsum_plus. unfold Rdiv. ring.
Qed.
Lemma pd_root d c : positive_definite d c -> square d c /\ exists l, root d l (get c).
Proof.
  intros [[S1 S2] [Sy P]]. split; [split; assumption|]. apply root_exists; [|exact P]. intros i j Hi Hj. apply Sy; lia.
Qed.
Lemma normal_pos pdf d mu c x : documented_normal pdf -> positive_definite d c -> 0 < pdf mu c x.
Proof.
  intros H P. destruct (pd_root d c P) as [S0 [l R0]]. destruct (tri_solve d l (fun i => x i - mu i) (root_tri _ _ _ R0)) as [z Hz].
  apply (normal_ln pdf d mu c x l z H S0 R0 Hz).
Qed.
Lemma root_ext d l c c' : (forall a b, (a < d)%nat -> (b < d)%nat -> c a b = c' a b) -> root d l c -> root d l c'.
Proof. intros H [A [B C]]. split; [exact A|]. split; [exact B|]. intros a b Ha Hb. rewrite <- H by assumption. apply C; assumption. Qed.

Lemma comp_ascent pdf d n (kap : nat -> R) (q : nat -> nat -> R) mu c mu' c' : documented_normal pdf -> positive_definite d c -> positive_definite d c' ->
  0 < rsum n kap ->
  (forall j, (j < d)%nat -> mu' j = rsum n (fun i => kap i * q i j) / rsum n kap) ->
  (forall a b, (a < d)%nat -> (b < d)%nat -> get c' a b = rsum n (fun i => kap i * (q i a - mu' a) * (q i b - mu' b)) / rsum n kap) ->
  rsum n (fun i => kap i * ln (pdf mu c (q i))) <= rsum n (fun i => kap i * ln (pdf mu' c' (q i))).
Proof.
  intros H P P' PN Hm Hc. destruct (pd_root d c P) as [S0 [l R0]]. destruct (pd_root d c' P') as [S0' [l' R0']].
  destruct (fin_choice (fun _ : nat => 0) n (fun i z => forall a, (a < d)%nat -> rsum d (fun j => l a j * z j) = q i a - mu a)) as [z Hz].
  { intros i _. apply (tri_solve d l (fun a => q i a - mu a) (root_tri _ _ _ R0)). }
  destruct (fin_choice (fun _ : nat => 0) n (fun i z => forall a, (a < d)%nat -> rsum d (fun j => l' a j * z j) = q i a - mu' a)) as [z' Hz'].
  { intros i _. apply (tri_solve d l' (fun a => q i a - mu' a) (root_tri _ _ _ R0')). }
  set (N := rsum n kap) in *. set (v := fun i => kap i * / N).
  assert (Hv : rsum n v = 1) by (unfold v; rewrite rsum_scal_r; apply Rinv_r; lra).
  assert (B : rsum d (fun a => ln (l' a a)) + rsum n (fun i => v i * rsum d (fun a => z' i a * z' i a)) / 2
    <= rsum d (fun a => ln (l a a)) + rsum n (fun i => v i * rsum d (fun a => z i a * z i a)) / 2).
  { apply (best d n v q mu mu' l l' Hv).
    - intros a Ha. rewrite (Hm a Ha). unfold v, Rdiv. rewrite <- rsum_scal_r. apply rsum_ext. intros; ring.
    - apply (root_ext d l' (get c')); [|exact R0']. intros a b Ha Hb. rewrite (Hc a b Ha Hb). unfold v, Rdiv. rewrite <- rsum_scal_r. apply rsum_ext. intros; ring.
    - exact (root_tri _ _ _ R0).
    - exact Hz.
    - exact Hz'. }
  assert (E : forall (mu : nat -> R) c l (z : nat -> nat -> R), square d c -> root d l (get c) -> (forall i, (i < n)%nat -> forall a, (a < d)%nat -> rsum d (fun j => l a j * z i j) = q i a - mu a) ->
    rsum n (fun i => kap i * ln (pdf mu c (q i))) = - N * (rsum d (fun a => ln (l a a)) + rsum n (fun i => v i * rsum d (fun a => z i a * z i a)) / 2) - N * rsum d (fun _ => ln (sqrt (2 * PI)))).
  { intros m0 c0 l0 z0 Sq Ro Zz. rewrite (rsum_ext n _ (fun i => kap i * - (rsum d (fun a => ln (l0 a a)) + rsum d (fun _ => ln (sqrt (2 * PI)))) + (v i * rsum d (fun a => z0 i a * z0 i a)) * (- N / 2))).
    - rewrite rsum_plus, !rsum_scal_r. fold N. field.
    - intros i Hi. rewrite (proj2 (normal_ln pdf d m0 c0 (q i) l0 (z0 i) H Sq Ro (Zz i Hi))). unfold v. field. lra. }
  rewrite (E mu c l z S0 R0 Hz), (E mu' c' l' z' S0' R0' Hz'). nra.
Qed.

(** ** The root is unique, so the density described by documented_normal exists *)
Lemma orthogonal_identity d T : lower_tri d T -> (forall a b, (a < d)%nat -> (b < d)%nat -> rsum d (fun k => T a k * T b k) = if Nat.eqb a b then 1 else 0) ->
  forall c a, (c < d)%nat -> (a < d)%nat -> T a c = if Nat.eqb a c then 1 else 0.
Proof.
  intros L O c. induction c as [c IH] using lt_wf_ind. intros a Hc Ha.
  assert (R0 : forall a, (a < d)%nat -> rsum d (fun k => T a k * T c k) = T a c * T c c).
  { intros a0 Ha0. rewrite <- (rsum_delta d c (fun k => T a0 k * T c k) Hc). apply rsum_ext. intros k Hk. destruct (Nat.eqb_spec k c) as [->|N]; [reflexivity|].
    destruct (Nat.lt_ge_cases k c) as [C|C]; [rewrite (IH k C c Hk Hc)|rewrite (proj1 L c k) by lia; ring]. destruct (Nat.eqb_spec c k); [lia|ring]. }
  assert (E1 : T c c = 1). { pose proof (O c c Hc Hc) as E. rewrite (R0 c Hc), Nat.eqb_refl in E. pose proof (proj2 L c Hc). nra. }
  pose proof (O a c Ha Hc) as E. rewrite (R0 a Ha), E1, Rmult_1_r in E. exact E.
Qed.
Lemma root_unique d l l' c : root d l c -> root d l' c -> forall a j, (a < d)%nat -> (j < d)%nat -> l a j = l' a j.
Proof.
  intros R0 R1. pose proof (root_tri _ _ _ R0) as L. pose proof (root_tri _ _ _ R1) as L'.
  destruct (fin_choice (fun _ : nat => 0) d (fun j t => forall a, (a < d)%nat -> rsum d (fun k => l a k * t k) = l' a j)) as [T HT].
  { intros j _. apply (tri_solve d l (fun a => l' a j) L). }
  assert (T0 : forall j k, (j < d)%nat -> (k < j)%nat -> T j k = 0).
  { intros j k Hj Hk. apply (tri_zero d l (T j) L j); [|lia|exact Hk]. intros a Ha Haj. rewrite (HT j Hj a Ha). apply (proj1 L'); lia. }
  assert (Td : forall j, (j < d)%nat -> l j j * T j j = l' j j).
  { intros j Hj. rewrite <- (HT j Hj j Hj). symmetry. apply tri_row; [exact L|exact Hj|]. intros k Hk. apply T0; assumption. }
  assert (LT : lower_tri d (fun a k => T k a)).
  { split; [intros i j Hij Hj; apply T0; lia|]. intros i Hi. pose proof (Td i Hi). pose proof (proj2 L i Hi). pose proof (proj2 L' i Hi). nra. }
  assert (E : forall a b, (a < d)%nat -> (b < d)%nat -> rsum d (fun j => l a j * rsum d (fun k => l b k * rsum d (fun i => T i j * T i k))) = rsum d (fun j => l a j * l b j)).
  { intros a b Ha Hb. rewrite <- (proj2 (proj2 R0) a b Ha Hb), (proj2 (proj2 R1) a b Ha Hb).
    rewrite (rsum_ext d (fun k => l' a k * l' b k) (fun i => rsum d (fun j => rsum d (fun k => l a j * (l b k * (T i j * T i k)))))).
    - rewrite (rsum_swap d d (fun i j => rsum d (fun k => l a j * (l b k * (T i j * T i k))))). apply rsum_ext. intros j _. rewrite rsum_swap, <- rsum_scal. apply rsum_ext. intros k _. rewrite !rsum_scal. reflexivity.
    - intros i Hi. rewrite <- (HT i Hi a Ha), <- (HT i Hi b Hb), rsum_mul. apply rsum_ext. intros j _. apply rsum_ext. intros k _. ring. }
  assert (O : forall a b, (a < d)%nat -> (b < d)%nat -> rsum d (fun k => T k a * T k b) = if Nat.eqb a b then 1 else 0).
  { assert (E1 : forall b, (b < d)%nat -> forall j, (j < d)%nat -> rsum d (fun k => l b k * rsum d (fun i => T i j * T i k)) = l b j).
    { intros b0 Hb. apply (tri_inj d l _ _ L). intros a0 Ha. exact (E a0 b0 Ha Hb). }
    intros a b Ha Hb. apply (tri_inj d l (fun k => rsum d (fun i => T i a * T i k)) (fun k => if Nat.eqb a k then 1 else 0) L); [|exact Hb].
    intros b0 Hb0. rewrite (E1 b0 Hb0 a Ha). rewrite <- (rsum_delta d a (fun k => l b0 k) Ha). apply rsum_ext. intros k _.
    rewrite (Nat.eqb_sym k a). destruct (Nat.eqb_spec a k); ring. }
  intros a j Ha Hj. rewrite <- (HT j Hj a Ha).
  pose proof (orthogonal_identity d (fun a k => T k a) LT O j) as I. cbv beta in I.
  rewrite (rsum_ext d _ (fun k => if Nat.eqb k j then l a k else 0)).
  - rewrite (rsum_delta d j (fun k => l a k) Hj). reflexivity.
  - intros k Hk. rewrite (I k Hj Hk). destruct (Nat.eqb k j); ring.
Qed.
(** a number is determined by a property that at most one number has *)
Lemma describe (P : R -> Prop) : (forall x y, P x -> P y -> x = y) -> (forall x, P x -> 0 <= x) -> {y | 0 <= y /\ forall x, P x -> y = x}.
Proof.
  intros U N. destruct (completeness (fun t => t <= 0 \/ exists y, P y /\ t <= y)) as [m [A B]].
  - destruct (classic (exists y, P y)) as [[y Hy]|H].
    + exists y. intros t [Ht|[y' [Hy' Ht]]]; [specialize (N y Hy); lra|]. rewrite (U y y' Hy Hy'). exact Ht.
    + exists 0. intros t [Ht|[y' [Hy' Ht]]]; [exact Ht|]. exfalso. apply H. exists y'. exact Hy'.
  - exists 0. left. lra.
  - exists m. split; [apply A; left; lra|]. intros x Hx. apply Rle_antisym.
    + apply B. intros t [Ht|[y [Hy Ht]]]; [specialize (N x Hx); lra|]. rewrite (U x y Hx Hy). exact Ht.
    + apply A. right. exists x. split; [exact Hx|lra].
Qed.
Definition normal_value (mu : nat -> R) (c : mat R) (x : nat -> R) (y : R) : Prop :=
  exists l z, root (nr c) l (get c) /\ (forall i, (i < nr c)%nat -> rsum (nr c) (fun j => l i j * z j) = x i - mu i) /\
    y = exp (- rsum (nr c) (fun i => z i * z i) / 2) / rprod (nr c) (fun i => sqrt (2 * PI) * l i i).
Lemma rprod_ext d f g : (forall i, (i < d)%nat -> f i = g i) -> rprod d f = rprod d g.
Proof. induction d as [|d IH]; intros H; cbn; [reflexivity|]. rewrite IH, (H d) by (intros; try apply H; lia). reflexivity. Qed.
Lemma normal_value_unique mu c x y y' : normal_value mu c x y -> normal_value mu c x y' -> y = y'.
Proof.
  intros [l [z [R0 [Hz ->]]]] [l' [z' [R1 [Hz' ->]]]]. pose proof (root_unique _ _ _ _ R0 R1) as E.
  assert (Ez : forall i, (i < nr c)%nat -> z i = z' i).
  { apply (tri_inj (nr c) l z z' (root_tri _ _ _ R0)). intros i Hi. rewrite (Hz i Hi), <- (Hz' i Hi). apply rsum_ext. intros j Hj. rewrite E by assumption. reflexivity. }
  rewrite (rsum_ext (nr c) (fun i => z i * z i) (fun i => z' i * z' i)) by (intros i Hi; rewrite Ez by exact Hi; reflexivity).
  rewrite (rprod_ext (nr c) (fun i => sqrt (2 * PI) * l i i) (fun i => sqrt (2 * PI) * l' i i)) by (intros i Hi; rewrite E by exact Hi; reflexivity). reflexivity.
Qed.
Lemma normal_value_nonneg mu c x y : normal_value mu c x y -> 0 <= y.
Proof.
  intros [l [z [R0 [_ ->]]]]. left. apply Rdiv_lt_0_compat; [apply exp_pos|]. apply rprod_pos. intros i Hi. apply Rmult_lt_0_compat; [apply sqrt_lt_R0; pose proof PI_RGT_0; lra|]. apply (proj1 (proj2 R0)). exact Hi.
Qed.
Lemma documented_normal_exists : exists pdf, documented_normal pdf.
Proof.
  exists (fun mu c x => proj1_sig (describe (normal_value mu c x) (fun a b => normal_value_unique mu c x a b) (fun a => normal_value_nonneg mu c x a))). split.
  - intros mu c x. destruct (describe _ _ _) as [y [A B]]. exact A.
  - intros d mu c x l z [S1 _] R0 Hz. destruct (describe _ _ _) as [y [A B]]. cbn [proj1_sig]. apply B. exists l, z. rewrite S1. split; [exact R0|]. split; [exact Hz|reflexivity].
Qed.
