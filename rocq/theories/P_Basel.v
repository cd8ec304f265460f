(** The sum of the inverse squares (after Hofbauer): with T n = sum over k < 2^n of 1/sin^2((2k+1) pi / 2^(n+2)), T (n+1) = 4 T n. *)
From Coquelicot Require Import Coquelicot.
From Verif Require Import Base RSumLib.
From Coq Require Import Psatz.
Open Scope R_scope.

Lemma rsum_app n m f : rsum (n + m) f = rsum n f + rsum m (fun k => f (n + k)%nat).
Proof. induction m as [|m IH]; [rewrite Nat.add_0_r; cbn; ring|]. rewrite Nat.add_succ_r. cbn [rsum]. rewrite IH. ring. Qed.
Lemma rsum_rev n f : rsum n f = rsum n (fun k => f (n - 1 - k)%nat).
Proof.
  revert f. induction n as [|n IH]; intros f; [reflexivity|]. rewrite rsum_Sl. cbn [rsum]. replace (S n - 1 - n)%nat with 0%nat by lia. rewrite (IH (fun i => f (S i))), Rplus_comm. f_equal.
  apply rsum_ext. intros i Hi. f_equal. lia.
Qed.
Lemma rsum_lt n f g : (0 < n)%nat -> (forall i, (i < n)%nat -> f i < g i) -> rsum n f < rsum n g.
Proof.
  intros Hn H. induction n as [|n IH]; [lia|]. cbn. destruct n; [cbn; specialize (H 0%nat ltac:(lia)); lra|]. specialize (IH ltac:(lia) ltac:(intros; apply H; lia)). specialize (H (S n) ltac:(lia)). lra.
Qed.

Definition angle (n k : nat) : R := (2 * INR k + 1) * PI / 2 ^ (n + 2).
Definition hof (n : nat) : R := rsum (2 ^ n) (fun k => / (sin (angle n k)) ^ 2).
Lemma INR_pow2 n : INR (2 ^ n) = 2 ^ n.
Proof. rewrite pow_INR. reflexivity. Qed.
Lemma angle_range n k : (k < 2 ^ n)%nat -> 0 < angle n k < PI / 2.
Proof.
  intros H. pose proof PI_RGT_0. assert (P : 0 < 2 ^ (n + 2)) by (apply pow_lt; lra). pose proof (pos_INR k).
  assert (E : 2 ^ (n + 2) = 4 * 2 ^ n) by (rewrite pow_add; ring).
  assert (K : INR k + 1 <= 2 ^ n). { rewrite <- INR_pow2, <- S_INR. apply le_INR. lia. }
  unfold angle. split; [apply Rdiv_lt_0_compat; [apply Rmult_lt_0_compat|]; lra|].
  apply Rmult_lt_reg_r with (2 ^ (n + 2)); [exact P|]. unfold Rdiv at 1. rewrite Rmult_assoc, Rinv_l, Rmult_1_r by lra. rewrite E. nra.
Qed.
Lemma half_sin x : 0 < x < PI / 2 -> / (sin (x / 2)) ^ 2 + / (sin (PI / 2 - x / 2)) ^ 2 = 4 * / (sin x) ^ 2.
Proof.
  intros H. rewrite sin_shift. assert (0 < sin (x / 2)) by (apply sin_gt_0; lra). assert (0 < cos (x / 2)) by (apply cos_gt_0; lra).
  assert (E : sin x = 2 * sin (x / 2) * cos (x / 2)) by (rewrite <- sin_2a; f_equal; field). rewrite E.
  pose proof (sin2_cos2 (x / 2)) as S1. unfold Rsqr in S1.
  assert (/ sin (x / 2) ^ 2 + / cos (x / 2) ^ 2 = (sin (x / 2) * sin (x / 2) + cos (x / 2) * cos (x / 2)) / (sin (x / 2) ^ 2 * cos (x / 2) ^ 2)) as -> by (field; lra).
  rewrite S1. field. lra.
Qed.
Lemma hof_step n : hof (S n) = 4 * hof n.
Proof.
  unfold hof. replace (2 ^ S n)%nat with (2 ^ n + 2 ^ n)%nat by (cbn; lia). rewrite rsum_app. rewrite (rsum_rev _ (fun k => / sin (angle (S n) (2 ^ n + k)) ^ 2)). rewrite <- rsum_plus, <- rsum_scal. apply rsum_ext. intros k Hk. cbv beta.
  rewrite <- half_sin by (apply angle_range, Hk). assert (P : 0 < 2 ^ n) by (apply pow_lt; lra).
  assert (E : 2 ^ (S n + 2) = 2 * 2 ^ (n + 2)) by reflexivity. assert (E2 : 2 ^ (n + 2) = 4 * 2 ^ n) by (rewrite pow_add; ring).
  f_equal; do 3 f_equal; unfold angle; rewrite E, E2.
  - field. lra.
  - replace (2 ^ n + (2 ^ n - 1 - k))%nat with (2 * 2 ^ n - 1 - k)%nat by lia. rewrite !minus_INR, mult_INR, INR_pow2 by lia. cbn [INR]. field. lra.
Qed.
Lemma hof_eq n : hof n = 2 * 4 ^ n.
Proof.
  induction n as [|n IH]; [|rewrite hof_step, IH; cbn; ring]. unfold hof. cbn [rsum Nat.pow]. unfold angle. cbn [INR Nat.add].
  replace ((2 * 0 + 1) * PI / 2 ^ 2) with (PI / 4) by field. rewrite sin_PI4. cbn. field_simplify; [|apply Rgt_not_eq, sqrt_lt_R0; lra].
  replace (sqrt 2 ^ 2) with (sqrt 2 * sqrt 2) by ring. rewrite sqrt_sqrt by lra. field.
Qed.
Lemma x_lt_tan x : 0 < x < PI / 2 -> x * cos x < sin x.
Proof.
  intros H. destruct (MVT_gen (fun y => sin y - y * cos y) 0 x (fun y => y * sin y)) as [c [Hc E]].
  - intros y _. auto_derive; [exact I|ring].
  - intros y _. apply continuity_pt_filterlim. apply (ex_derive_continuous (fun y => sin y - y * cos y)). auto_derive. exact I.
  - rewrite Rmin_left, Rmax_right in Hc by lra. rewrite sin_0 in E.
    destruct (Req_dec c 0) as [->|Hn].
    + exfalso. rewrite sin_0 in E.
      (* at c = 0 the difference would vanish: use the interval [x/2, x] instead *)
      destruct (MVT_gen (fun y => sin y - y * cos y) (x / 2) x (fun y => y * sin y)) as [d [Hd E2]].
      * intros y _. auto_derive; [exact I|ring].
      * intros y _. apply continuity_pt_filterlim. apply (ex_derive_continuous (fun y => sin y - y * cos y)). auto_derive. exact I.
      * rewrite Rmin_left, Rmax_right in Hd by lra. destruct (MVT_gen (fun y => sin y - y * cos y) 0 (x / 2) (fun y => y * sin y)) as [e [He E3]].
        -- intros y _. auto_derive; [exact I|ring].
        -- intros y _. apply continuity_pt_filterlim. apply (ex_derive_continuous (fun y => sin y - y * cos y)). auto_derive. exact I.
        -- rewrite Rmin_left, Rmax_right in He by lra. rewrite sin_0 in E3.
           assert (0 < d * sin d) by (apply Rmult_lt_0_compat; [lra|apply sin_gt_0; lra]). assert (0 <= e * sin e) by (apply Rmult_le_pos; [lra|apply sin_ge_0; lra]). nra.
    + assert (0 < c * sin c) by (apply Rmult_lt_0_compat; [lra|apply sin_gt_0; lra]). nra.
Qed.
Lemma inv_sin_bounds x : 0 < x < PI / 2 -> / (sin x) ^ 2 - 1 < / x ^ 2 < / (sin x) ^ 2.
Proof.
  intros H. assert (S0 : 0 < sin x) by (apply sin_gt_0; lra). assert (C0 : 0 < cos x) by (apply cos_gt_0; lra).
  pose proof (sin_lt_x x ltac:(lra)) as S1. pose proof (x_lt_tan x H) as T. pose proof (sin2_cos2 x) as SC. unfold Rsqr in SC. split.
  - assert (E : / sin x ^ 2 - 1 = / (sin x / cos x) ^ 2).
    { transitivity ((1 - sin x * sin x) / sin x ^ 2); [field; lra|]. replace (1 - sin x * sin x) with (cos x ^ 2) by (cbn; lra). field. lra. }
    rewrite E. apply Rinv_lt_contravar; [apply Rmult_lt_0_compat; apply pow_lt; [lra|apply Rdiv_lt_0_compat; lra]|].
    assert (x < sin x / cos x); [|assert (0 < sin x / cos x) by lra; nra]. apply Rmult_lt_reg_r with (cos x); [lra|]. unfold Rdiv. rewrite Rmult_assoc, Rinv_l by lra. lra.
  - apply Rinv_lt_contravar; [apply Rmult_lt_0_compat; apply pow_lt; lra|]. cbn. rewrite !Rmult_1_r. apply Rmult_le_0_lt_compat; lra.
Qed.

Definition odd_sum (n : nat) : R := rsum n (fun k => / (2 * INR k + 1) ^ 2).
Definition sq_sum (n : nat) : R := rsum n (fun k => / (INR k + 1) ^ 2).
Lemma odd_bounds n : PI ^ 2 / 8 * (1 - / (2 * 2 ^ n)) < odd_sum (2 ^ n) < PI ^ 2 / 8.
Proof.
  pose proof PI_RGT_0 as P0. assert (P : 0 < 2 ^ n) by (apply pow_lt; lra). assert (N0 : (0 < 2 ^ n)%nat) by (apply Nat.neq_0_lt_0, Nat.pow_nonzero; lia).
  assert (E : rsum (2 ^ n) (fun k => / (angle n k) ^ 2) = 16 * 4 ^ n / PI ^ 2 * odd_sum (2 ^ n)).
  { unfold odd_sum. rewrite <- rsum_scal. apply rsum_ext. intros k _. unfold angle. assert (E2 : 2 ^ (n + 2) = 4 * 2 ^ n) by (rewrite pow_add; ring). rewrite E2.
    replace 4 with (2 * 2) at 2 by ring. rewrite Rpow_mult_distr. pose proof (pos_INR k). field. lra. }
  pose proof (rsum_lt (2 ^ n) _ _ N0 (fun k Hk => proj2 (inv_sin_bounds _ (angle_range n k Hk)))) as U.
  pose proof (rsum_lt (2 ^ n) _ _ N0 (fun k Hk => proj1 (inv_sin_bounds _ (angle_range n k Hk)))) as D.
  rewrite rsum_minus, rsum_const, INR_pow2 in D. fold (hof n) in U, D. rewrite hof_eq, E in U, D.
  assert (E4 : 4 ^ n = 2 ^ n * 2 ^ n) by (rewrite <- Rpow_mult_distr; f_equal; ring). rewrite E4 in U, D. set (p := 2 ^ n) in *. set (o := odd_sum _) in *.
  assert (P2 : 0 < PI ^ 2) by (apply pow_lt; lra). set (q := PI ^ 2) in *.
  assert (F : 16 * (p * p) / q * o = 2 * (p * p) * (8 * o / q)) by (field; lra). rewrite F in U, D.
  assert (pp : 0 < p * p) by nra.
  assert (8 * o / q < 1) by nra. assert (1 - / (2 * p) < 8 * o / q).
  { apply Rmult_lt_reg_l with (2 * (p * p)); [lra|]. replace (2 * (p * p) * (1 - / (2 * p))) with (2 * (p * p) - p * 1) by (field; lra). exact D. }
  assert (Eo : o = q / 8 * (8 * o / q)) by (field; lra). rewrite Eo. split; [apply Rmult_lt_compat_l; lra|]. rewrite <- (Rmult_1_r (q / 8)) at 2. apply Rmult_lt_compat_l; lra.
Qed.
Lemma sq_odd n : sq_sum (2 * n) = odd_sum n + / 4 * sq_sum n.
Proof.
  induction n as [|n IH]; [cbn; lra|]. replace (2 * S n)%nat with (S (S (2 * n))) by lia. unfold sq_sum, odd_sum in *. cbn [rsum]. rewrite IH. rewrite S_INR, mult_INR. cbn [INR]. pose proof (pos_INR n). field. lra.
Qed.
Lemma small_zero a C : 0 <= C -> (forall n, Rabs a <= C / 2 ^ n) -> a = 0.
Proof.
  intros HC H. destruct (Req_dec a 0) as [E|E]; [exact E|exfalso]. assert (Pa : 0 < Rabs a) by (apply Rabs_pos_lt, E).
  assert (exists n, C / Rabs a < INR n) as [n Hn].
  { destruct (nfloor_ex (C / Rabs a)) as [n Hn]; [apply Rmult_le_pos; [exact HC|left; apply Rinv_0_lt_compat, Pa]|]. exists (S n). rewrite S_INR. lra. }
  assert (INR n <= 2 ^ n).
  { clear. induction n as [|n IH]; [cbn; lra|]. rewrite S_INR. cbn [pow]. assert (1 <= 2 ^ n) by (apply pow_R1_Rle; lra). lra. }
  assert (P : 0 < 2 ^ n) by (apply pow_lt; lra). specialize (H n). apply Rmult_le_compat_r with (r := 2 ^ n) in H; [|lra]. unfold Rdiv in H. rewrite (Rmult_assoc C), Rinv_l, Rmult_1_r in H by lra.
  apply Rmult_lt_compat_r with (r := Rabs a) in Hn; [|lra]. unfold Rdiv in Hn. rewrite (Rmult_assoc C), Rinv_l in Hn by lra. nra.
Qed.
Lemma basel z : (forall n, (0 < n)%nat -> sq_sum n <= z <= sq_sum n + / INR n) -> z = PI ^ 2 / 6.
Proof.
  intros H. cut (3 / 4 * z - PI ^ 2 / 8 = 0); [lra|]. pose proof PI_RGT_0 as P0. assert (P2 : 0 < PI ^ 2) by (apply pow_lt; lra).
  apply small_zero with (1 + PI ^ 2); [lra|]. intros n. assert (P : 0 < 2 ^ n) by (apply pow_lt; lra). assert (N0 : (0 < 2 ^ n)%nat) by (apply Nat.neq_0_lt_0, Nat.pow_nonzero; lia).
  pose proof (odd_bounds n) as O. pose proof (H (2 ^ n)%nat N0) as A. pose proof (H (2 * 2 ^ n)%nat ltac:(lia)) as B. rewrite sq_odd in B. rewrite mult_INR, INR_pow2 in B. rewrite INR_pow2 in A. cbn [INR] in B.
  set (p := 2 ^ n) in *. rewrite Rinv_mult_distr in * by lra. set (i := / p) in *. assert (0 < i) by (apply Rinv_0_lt_compat, P). unfold Rdiv. set (o := odd_sum _) in *. set (s := sq_sum _) in *. set (q := PI ^ 2) in *. fold i.
  apply Rabs_le. nra.
Qed.
