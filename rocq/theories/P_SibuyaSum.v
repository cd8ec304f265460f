(** The Sibuya sum is the n-fold convolution of the Sibuya distribution. *)
From Verif Require Import Base RSumLib Ext M_Special S_Special P_Stirling P_Partitions P_Eulerian S_Gumbel P_Gumbel P_GumbelCode P_Sibuya.
Open Scope R_scope.

Lemma binR_S n j : IZR (bin (S n) (S j)) = IZR (bin n j) + IZR (bin n (S j)).
Proof. rewrite bin_SS, plus_IZR. reflexivity. Qed.
(** Vandermonde *)
Lemma rfalling_add a b x : rfalling (a + b) x = rsum (S x) (fun j => IZR (bin x j) * rfalling a j * rfalling b (x - j)).
Proof.
  induction x as [|x IH]; [cbn; ring|]. rewrite rfalling_S, IH.
  rewrite (rsum_Sl (S x)). rewrite bin_0, Nat.sub_0_r.
  rewrite (rsum_ext (S x) (fun i => IZR (bin (S x) (S i)) * rfalling a (S i) * rfalling b (S x - S i))
     (fun i => IZR (bin x i) * rfalling a (S i) * rfalling b (x - i) + IZR (bin x (S i)) * rfalling a (S i) * rfalling b (x - i))).
  2:{ intros i _. rewrite binR_S. cbn [Nat.sub]. ring. }
  rewrite rsum_plus, <- rsum_scal_r.
  rewrite (rsum_ext (S x) (fun i => IZR (bin x i) * rfalling a i * rfalling b (x - i) * (a + b - INR x))
     (fun i => IZR (bin x i) * rfalling a (S i) * rfalling b (x - i) + IZR (bin x i) * rfalling a i * rfalling b (S x - i))).
  2:{ intros i Hi. replace (S x - i)%nat with (S (x - i)) by lia. rewrite !rfalling_S. rewrite minus_INR by lia. ring. }
  rewrite rsum_plus.
  rewrite (rsum_Sl x (fun i => IZR (bin x i) * rfalling a i * rfalling b (S x - i))), bin_0, Nat.sub_0_r.
  rewrite (rsum_S x (fun i => IZR (bin x (S i)) * rfalling a (S i) * rfalling b (x - i))), (bin_big x (S x)) by lia. cbn [Nat.sub]. ring.
Qed.
Lemma rbinom_add a b x : rbinom (a + b) x = rsum (S x) (fun j => rbinom a j * rbinom b (x - j)).
Proof.
  unfold rbinom at 1. rewrite rfalling_add. unfold Rdiv. rewrite <- rsum_scal_r. apply rsum_ext. intros j Hj. unfold rbinom.
  pose proof (bin_fact x j ltac:(lia)) as B. apply (f_equal IZR) in B. rewrite !mult_IZR, !zfact_fact in B. rewrite <- B. field.
  assert (IZR (bin x j) <> 0). { intros Z. rewrite Z in B. rewrite !Rmult_0_l in B. symmetry in B. revert B. apply INR_fact_neq_0. }
  repeat split; try apply INR_fact_neq_0; assumption.
Qed.
Definition tsum (alpha : R) (n x : nat) : R := rsum (S n) (fun j => IZR (bin n j) * rbinom (alpha * INR j) x * (-1) ^ (x + j)).
Lemma tsum_sibuya alpha n x : (0 < x)%nat -> tsum alpha n x = sibuya_sum alpha x n.
Proof.
  intros Hx. unfold tsum, sibuya_sum. rewrite rsum_Sl. cbn [INR]. rewrite Rmult_0_r. unfold rbinom at 1. rewrite rfalling_0 by exact Hx. unfold Rdiv. rewrite Rmult_0_l, Rmult_0_r, Rmult_0_l, Rplus_0_l.
  apply rsum_ext. intros j _. cbv zeta. rewrite rbinom_nat. reflexivity.
Qed.
Lemma tsum_1 alpha l : (0 < l)%nat -> tsum alpha 1 l = - ((-1) ^ l * rbinom alpha l).
Proof.
  intros Hl. rewrite tsum_sibuya by exact Hl. unfold sibuya_sum. cbn [rsum]. cbv zeta. rewrite rbinom_nat. change (bin 1 1) with 1%Z. cbn [INR]. rewrite Rmult_1_r.
  rewrite Nat.add_1_r, pow_m1_S. ring.
Qed.
Lemma tsum_at_0 alpha n : tsum alpha (S n) 0 = 0.
Proof.
  unfold tsum. rewrite (rsum_ext _ _ (fun j => IZR (bin (S n) j) * (-1) ^ j)).
  2:{ intros j _. unfold rbinom. cbn [rfalling fact INR Nat.add]. field. }
  rewrite rsum_Sl, bin_0. rewrite (rsum_ext (S n) _ (fun j => IZR (bin n (S j)) * (-1) ^ S j - IZR (bin n j) * (-1) ^ j)).
  2:{ intros j _. rewrite binR_S, pow_m1_S. ring. }
  rewrite rsum_minus, (rsum_S n (fun j => IZR (bin n (S j)) * (-1) ^ S j)), (bin_big n (S n)), (rsum_Sl n (fun j => IZR (bin n j) * (-1) ^ j)), bin_0 by lia. cbn [pow]. ring.
Qed.
Lemma tsum_S alpha n x : tsum alpha (S n) x = rsum x (fun i => tsum alpha 1 (S i) * tsum alpha n (x - S i)).
Proof.
  assert (E : tsum alpha (S n) x = tsum alpha n x - rsum (S n) (fun j => IZR (bin n j) * rbinom (alpha + alpha * INR j) x * (-1) ^ (x + j))).
  { unfold tsum at 1. rewrite rsum_Sl, bin_0.
    rewrite (rsum_ext (S n) _ (fun j => IZR (bin n (S j)) * rbinom (alpha * INR (S j)) x * (-1) ^ (x + S j) - IZR (bin n j) * rbinom (alpha + alpha * INR j) x * (-1) ^ (x + j))).
    2:{ intros j _. rewrite binR_S. replace (alpha + alpha * INR j) with (alpha * INR (S j)) by (rewrite S_INR; ring). rewrite Nat.add_succ_r, pow_m1_S. ring. }
    rewrite rsum_minus. rewrite (rsum_S n (fun j => IZR (bin n (S j)) * rbinom (alpha * INR (S j)) x * (-1) ^ (x + S j))), (bin_big n (S n)) by lia.
    unfold tsum. rewrite (rsum_Sl n (fun j => IZR (bin n j) * rbinom (alpha * INR j) x * (-1) ^ (x + j))), bin_0. ring. }
  rewrite E. clear E.
  rewrite (rsum_ext (S n) _ (fun j => rsum (S x) (fun l => (-1) ^ l * rbinom alpha l * (IZR (bin n j) * rbinom (alpha * INR j) (x - l) * (-1) ^ (x - l + j))))).
  2:{ intros j _. rewrite rbinom_add. rewrite (Rmult_comm (IZR (bin n j))), Rmult_assoc, <- rsum_scal_r. apply rsum_ext. intros l Hl.
      rewrite (pow_m1_even (x + j) (l + (x - l + j))) by (exists 0%nat; lia). rewrite pow_add. ring. }
  rewrite rsum_swap. rewrite (rsum_ext (S x) _ (fun l => (-1) ^ l * rbinom alpha l * tsum alpha n (x - l))) by (intros l _; rewrite rsum_scal; reflexivity).
  rewrite rsum_Sl, Nat.sub_0_r. replace (rbinom alpha 0) with 1 by (unfold rbinom; cbn; field). rewrite pow_O.
  rewrite (rsum_ext x (fun i => tsum alpha 1 (S i) * tsum alpha n (x - S i)) (fun i => - ((-1) ^ S i * rbinom alpha (S i) * tsum alpha n (x - S i)))).
  2:{ intros i _. rewrite tsum_1 by lia. ring. }
  rewrite rsum_opp. ring.
Qed.
Lemma sibuya_convolution alpha n x : (0 < n)%nat -> sibuya_sum alpha (S x) (S n) = rsum x (fun i => sibuya_sum alpha (S i) 1 * sibuya_sum alpha (x - i) n).
Proof.
  intros Hn. rewrite <- tsum_sibuya, tsum_S, rsum_S by lia. rewrite Nat.sub_diag. destruct n as [|n]; [lia|]. rewrite tsum_at_0, Rmult_0_r, Rplus_0_r.
  apply rsum_ext. intros i Hi. rewrite <- !tsum_sibuya by lia. f_equal.
Qed.
Lemma sibuya_one alpha x : (0 < x)%nat -> sibuya_sum alpha x 1 = (-1) ^ (x - 1) * rbinom alpha x.
Proof. intros Hx. rewrite <- tsum_sibuya, tsum_1 by exact Hx. replace x with (S (x - 1)) at 1 by lia. rewrite pow_m1_S. ring. Qed.
