(** The Gumbel coefficients: three closed forms and one recurrence. *)
From Coquelicot Require Import Coquelicot.
From Verif Require Import Base RSumLib Ext M_Special S_Special P_Stirling P_Partitions P_Eulerian M_Gumbel S_Gumbel.
Open Scope R_scope.

Lemma rsum_S n f : rsum (S n) f = rsum n f + f n. Proof. reflexivity. Qed.
(** the recurrence *)
Fixpoint ga (alpha : R) (d k : nat) : R :=
  match d with
  | O => match k with O => 1 | _ => 0 end
  | S m => (INR m - alpha * INR k) * ga alpha m k + match k with O => 0 | S p => alpha * ga alpha m p end
  end.
Lemma ga_S alpha m k : ga alpha (S m) k = (INR m - alpha * INR k) * ga alpha m k + match k with O => 0 | S p => alpha * ga alpha m p end.
Proof. reflexivity. Qed.
Lemma ga_big alpha d : forall k, (d < k)%nat -> ga alpha d k = 0.
Proof. induction d as [|d IH]; intros k H; [destruct k; [lia|reflexivity]|]. rewrite ga_S, IH by lia. destruct k as [|k]; [lia|]. rewrite IH by lia. ring. Qed.
Lemma ga_0 alpha d : (0 < d)%nat -> ga alpha d 0 = 0.
Proof. induction d as [|d IH]; intros H; [lia|]. rewrite ga_S. destruct d as [|d]; [cbn; ring|]. rewrite IH by lia. cbn [INR]. ring. Qed.
Lemma ga_nonneg alpha d : 0 < alpha <= 1 -> forall k, 0 <= ga alpha d k.
Proof.
  intros Ha. induction d as [|d IH]; intros k; [destruct k; cbn; lra|].
  destruct (le_lt_dec k d) as [H|H].
  - rewrite ga_S. apply Rplus_le_le_0_compat.
    + apply Rmult_le_pos; [|apply IH]. assert (INR k <= INR d) by (apply le_INR; exact H). pose proof (pos_INR k). nra.
    + destruct k as [|p]; [lra|]. apply Rmult_le_pos; [lra|apply IH].
  - destruct (Nat.eq_dec k (S d)) as [->|E].
    + rewrite ga_S, (ga_big alpha d (S d)) by lia. pose proof (IH d). nra.
    + rewrite ga_big by lia. lra.
Qed.
Lemma ga_pos alpha d : 0 < alpha < 1 -> forall k, (1 <= k <= d)%nat -> 0 < ga alpha d k.
Proof.
  intros Ha. induction d as [|d IH]; intros k H; [lia|].
  rewrite ga_S. destruct k as [|p]; [lia|].
  assert (N1 := ga_nonneg alpha d ltac:(lra)). 
  destruct (Nat.eq_dec p 0) as [->|Ep].
  - destruct d as [|d]; [cbn; lra|]. assert (0 < ga alpha (S d) 1) by (apply IH; lia). rewrite (ga_0 alpha (S d)) by lia.
    rewrite S_INR. cbn [INR]. pose proof (pos_INR d). nra.
  - assert (0 < ga alpha d p) by (apply IH; lia). assert (0 <= (INR d - alpha * INR (S p)) * ga alpha d (S p)).
    { destruct (le_lt_dec (S p) d) as [L|L].
      - apply Rmult_le_pos; [|apply N1]. assert (INR (S p) <= INR d) by (apply le_INR; exact L). pose proof (pos_INR (S p)). nra.
      - rewrite ga_big by lia. lra. }
    nra.
Qed.
Lemma ga_diag alpha d : ga alpha d d = alpha ^ d.
Proof. induction d as [|d IH]; [reflexivity|]. rewrite ga_S, (ga_big alpha d (S d)) by lia. rewrite IH. cbn [pow]. ring. Qed.
Lemma ga_alpha1 d k : (k < d)%nat -> ga 1 d k = 0.
Proof.
  revert k; induction d as [|d IH]; intros k H; [lia|]. rewrite ga_S. destruct (Nat.eq_dec k d) as [->|E].
  - destruct d as [|p]; [cbn; ring|]. rewrite (IH p) by lia. ring.
  - rewrite (IH k) by lia. destruct k as [|p]; [ring|]. rewrite (IH p) by lia. ring.
Qed.

(** ** Stirling form *)
Definition gst (alpha : R) (d k : nat) : R := rsum (S d) (fun j => alpha ^ j * IZR (s1 d j) * IZR (s2 j k)).
Lemma gst_S alpha d k : gst alpha (S d) k = (alpha * INR k - INR d) * gst alpha d k + match k with O => 0 | S p => alpha * gst alpha d p end.
Proof.
  unfold gst.
  rewrite rsum_Sl.
  replace (alpha ^ 0 * IZR (s1 (S d) 0) * IZR (s2 0 k)) with 0 by (cbn [s1]; ring).
  rewrite (rsum_ext (S d) _ (fun j => alpha * (alpha ^ j * IZR (s1 d j) * IZR (s2 (S j) k)) - INR d * (alpha ^ S j * IZR (s1 d (S j)) * IZR (s2 (S j) k)))).
  2:{ intros j _. rewrite s1_SS, minus_IZR, mult_IZR, <- INR_IZR_INZ. cbn [pow]. ring. }
  rewrite rsum_minus, !rsum_scal.
  assert (T : rsum (S d) (fun j => alpha ^ S j * IZR (s1 d (S j)) * IZR (s2 (S j) k)) =
              rsum (S d) (fun j => alpha ^ j * IZR (s1 d j) * IZR (s2 j k)) - IZR (s1 d 0) * IZR (s2 0 k)).
  { rewrite (rsum_Sl d (fun j => alpha ^ j * IZR (s1 d j) * IZR (s2 j k))). cbn [rsum]. rewrite (s1_big d (S d)) by lia. cbn [pow]. ring. }
  rewrite T.
  assert (Z0 : INR d * (IZR (s1 d 0) * IZR (s2 0 k)) = 0).
  { destruct d as [|d]; [cbn; ring|]. cbn [s1]. ring. }
  destruct k as [|p].
  - rewrite (rsum_zero (S d) (fun j => alpha ^ j * IZR (s1 d j) * IZR (s2 (S j) 0))) by (intros; cbn [s2]; ring).
    cbn [INR]. rewrite Rmult_minus_distr_l, Z0. ring.
  - rewrite (rsum_ext (S d) (fun j => alpha ^ j * IZR (s1 d j) * IZR (s2 (S j) (S p)))
       (fun j => alpha ^ j * IZR (s1 d j) * IZR (s2 j p) + INR (S p) * (alpha ^ j * IZR (s1 d j) * IZR (s2 j (S p))))).
    2:{ intros j _. rewrite s2_SS, plus_IZR, mult_IZR, <- INR_IZR_INZ. ring. }
    rewrite rsum_plus, rsum_scal, Rmult_minus_distr_l, Z0. ring.
Qed.
Lemma pow_m1_S n : (-1) ^ S n = - (-1) ^ n.
Proof. cbn [pow]. ring. Qed.
Lemma gst_ga alpha d : forall k, (-1) ^ (d + k) * gst alpha d k = ga alpha d k.
Proof.
  induction d as [|d IH]; intros k.
  - unfold gst. cbn [rsum]. destruct k as [|k]; cbn; ring.
  - rewrite gst_S, ga_S. cbn [Nat.add]. rewrite pow_m1_S. destruct k as [|p].
    + rewrite <- IH. ring.
    + rewrite <- !IH. rewrite !Nat.add_succ_r, !pow_m1_S. ring.
Qed.

(** ** Sibuya form *)
Lemma rfalling_S x n : rfalling x (S n) = rfalling x n * (x - INR n). Proof. reflexivity. Qed.
Lemma fact_pos n : 0 < INR (fact n). Proof. apply INR_fact_lt_0. Qed.
Lemma fact_S_INR n : INR (fact (S n)) = (INR n + 1) * INR (fact n).
Proof. change (fact (S n)) with (S n * fact n)%nat. rewrite mult_INR, S_INR. reflexivity. Qed.
Lemma rbinom_nat n j : rbinom (INR n) j = IZR (bin n j).
Proof.
  unfold rbinom. revert n. induction j as [|j IH]; intros n.
  - rewrite bin_0. cbn. field.
  - rewrite rfalling_S, fact_S_INR. pose proof (bin_step n j) as B. apply (f_equal IZR) in B.
    rewrite !mult_IZR, plus_IZR, minus_IZR, <- !INR_IZR_INZ in B. specialize (IH n). pose proof (fact_pos j). pose proof (pos_INR j).
    apply (Rmult_eq_reg_l (INR j + 1)); [|lra]. rewrite B. rewrite <- IH. field. lra.
Qed.
(** sum including the term j = 0 *)
Definition gsb (alpha : R) (d k : nat) : R := rsum (S k) (fun j => IZR (bin k j) * rfalling (alpha * INR j) d * (-1) ^ (d + j)).
Lemma gsb_S alpha d k : gsb alpha (S d) k = (INR d - alpha * INR k) * gsb alpha d k + match k with O => 0 | S p => alpha * INR k * gsb alpha d p end.
Proof.
  unfold gsb.
  rewrite (rsum_ext (S k) _ (fun j => (INR d - alpha * INR k) * (IZR (bin k j) * rfalling (alpha * INR j) d * (-1) ^ (d + j))
      + alpha * ((INR k - INR j) * IZR (bin k j)) * rfalling (alpha * INR j) d * (-1) ^ (d + j))).
  2:{ intros j _. rewrite rfalling_S. cbn [Nat.add]. rewrite pow_m1_S. ring. }
  rewrite rsum_plus, rsum_scal. f_equal. destruct k as [|p].
  - cbn. ring.
  - rewrite (rsum_S (S p)). replace (INR (S p) - INR (S p)) with 0 by ring.
    rewrite (rsum_ext (S p) _ (fun j => alpha * INR (S p) * (IZR (bin p j) * rfalling (alpha * INR j) d * (-1) ^ (d + j)))).
    2:{ intros j Hj. assert (B : (INR (S p) - INR j) * IZR (bin (S p) j) = INR (S p) * IZR (bin p j)).
        { destruct j as [|j].
          - rewrite !bin_0. cbn [INR]. ring.
          - rewrite bin_SS. pose proof (bin_step p j) as B. apply (f_equal IZR) in B.
            rewrite !mult_IZR, plus_IZR, minus_IZR, <- !INR_IZR_INZ in B. rewrite plus_IZR, !S_INR. lra. }
        rewrite B. ring. }
    rewrite rsum_scal. ring.
Qed.
Lemma gsb_0 k : gsb 0 0 k = if Nat.eqb k 0 then 1 else 0.
Proof.
  assert (G : forall k, rsum (S k) (fun j => IZR (bin k j) * (-1) ^ j) = if Nat.eqb k 0 then 1 else 0).
  { clear. intros k. destruct k as [|k]; [cbn; ring|].
    assert (G : forall n, rsum (S n) (fun j => IZR (bin (S k) j) * (-1) ^ j) = (-1) ^ n * IZR (bin k n)).
    { induction n as [|n IH]; [cbn [rsum]; rewrite !bin_0; cbn; ring|]. rewrite rsum_S, IH, bin_SS, plus_IZR, pow_m1_S. ring. }
    rewrite G, (bin_big k (S k)) by lia. cbn. ring. }
  unfold gsb. rewrite <- G. apply rsum_ext. intros j _. cbn [rfalling Nat.add]. ring.
Qed.
Lemma gsb_0' alpha k : gsb alpha 0 k = if Nat.eqb k 0 then 1 else 0.
Proof. rewrite <- gsb_0. unfold gsb. apply rsum_ext. intros j _. reflexivity. Qed.
Lemma gsb_ga alpha d : forall k, gsb alpha d k = INR (fact k) * ga alpha d k.
Proof.
  induction d as [|d IH]; intros k.
  - rewrite gsb_0'. destruct k as [|k]; cbn [Nat.eqb ga]; [cbn; ring|ring].
  - rewrite gsb_S, ga_S, IH. destruct k as [|p]; [ring|]. rewrite IH, fact_S_INR, S_INR. ring.
Qed.
Lemma rfalling_0 d : (0 < d)%nat -> rfalling 0 d = 0.
Proof. induction d as [|d IH]; intros H; [lia|]. rewrite rfalling_S. destruct d as [|d]; [cbn; ring|]. rewrite IH by lia. ring. Qed.
Lemma gumbel_a_ga alpha d k : (0 < d)%nat -> gumbel_a alpha d k = ga alpha d k.
Proof.
  intros Hd. unfold gumbel_a, sibuya_sum. pose proof (fact_pos k). pose proof (fact_pos d).
  assert (E : INR (fact d) * rsum k (fun i => let j := S i in rbinom (INR k) j * rbinom (alpha * INR j) d * (-1) ^ (d + j)) = gsb alpha d k).
  { unfold gsb. rewrite rsum_Sl. cbn [INR]. rewrite Rmult_0_r, rfalling_0 by exact Hd. rewrite Rmult_0_r, Rmult_0_l, Rplus_0_l.
    rewrite <- rsum_scal. apply rsum_ext. intros i _. cbv zeta. rewrite rbinom_nat. unfold rbinom. field. lra. }
  set (X := rsum k _) in *. apply (Rmult_eq_reg_l (INR (fact k))); [|lra]. rewrite <- gsb_ga.
  transitivity (INR (fact d) * X); [field; lra|exact E].
Qed.
Lemma sibuya_gumbel alpha d k : (0 < d)%nat -> sibuya_sum alpha d k = INR (fact k) / INR (fact d) * ga alpha d k.
Proof. intros Hd. rewrite <- gumbel_a_ga by exact Hd. unfold gumbel_a. pose proof (fact_pos k). pose proof (fact_pos d). field. lra. Qed.
