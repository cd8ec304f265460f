(** The loops of the complex dilogarithm and what they leave out. *)
From Coquelicot Require Import Coquelicot.
From Verif Require Import Base RSumLib S_Clausen P_Clausen P_Dilog S_DilogC P_DilogC P_DilogC2 P_DilogC3 P_DilogC4 M_Dilog M_DilogC.
From Coq Require Import Psatz.
Open Scope R_scope.
Local Notation C := Complex.C.

Definition term (w : nat -> R) (z : C) (k : nat) : C := Cmult (RtoC (/ w k)) (cpow z k).
Definition T (w : nat -> R) (z : C) (n : nat) : C := csum n (fun k => term w z (S k)).
Lemma Cmod_sq z : Cmod z ^ 2 = fst z ^ 2 + snd z ^ 2.
Proof. unfold Cmod. apply pow2_sqrt. pose proof (pow2_ge_0 (fst z)). pose proof (pow2_ge_0 (snd z)). lra. Qed.
Lemma cpow_scale (r : R) (u : C) k : cpow (Cmult (RtoC r) u) k = Cmult (RtoC (r ^ k)) (cpow u k).
Proof. induction k as [|k IH]; cbn [cpow pow]; [ring|]. rewrite IH, RtoC_mult. ring. Qed.
(** the loop ends with a partial sum: either it broke off or every k was used *)
Lemma loop_sum w (r : R) (u : C) :
  let z := Cmult (RtoC r) u in
  (forall m, (1 <= m)%nat -> T w z m <> RtoC 0) ->
  forall n m, (1 <= m)%nat ->
  exists N, (m <= N)%nat /\
    series_loop w n (S m) r (1 - fst u) (snd u) (fst (cpow u m)) (snd (cpow u m)) (r ^ m) (fst (T w z m)) (snd (T w z m)) = (fst (T w z N), snd (T w z N))
    /\ (N = (m + n)%nat \/ ((m < N)%nat /\ Cmod (term w z N) < DBL_EPSILON * Cmod (T w z N))).
Proof.
  intros z NZ. induction n as [|n IH]; intros m Hm.
  - exists m. cbn. split; [lia|]. split; [reflexivity|left; lia].
  - cbn [series_loop].
    assert (Ec : fst (cpow u m) - ((1 - fst u) * fst (cpow u m) + snd u * snd (cpow u m)) = fst (cpow u (S m))) by (cbn; ring).
    assert (Es : snd (cpow u m) - ((1 - fst u) * snd (cpow u m) - snd u * fst (cpow u m)) = snd (cpow u (S m))) by (cbn; ring).
    assert (Er : r ^ m * r = r ^ S m) by (cbn; ring). rewrite Ec, Es, Er.
    assert (Tm : term w z (S m) = (r ^ S m / w (S m) * fst (cpow u (S m)), r ^ S m / w (S m) * snd (cpow u (S m)))).
    { unfold term, z. rewrite cpow_scale. unfold Cmult, RtoC. cbn [fst snd]. unfold Rdiv. f_equal; ring. }
    assert (Rr : fst (T w z m) + r ^ S m / w (S m) * fst (cpow u (S m)) = fst (T w z (S m))) by (unfold T; cbn [csum]; rewrite Tm; reflexivity).
    assert (Ri : snd (T w z m) + r ^ S m / w (S m) * snd (cpow u (S m)) = snd (T w z (S m))) by (unfold T; cbn [csum]; rewrite Tm; reflexivity).
    rewrite Rr, Ri. match goal with |- context [Rltb ?a ?b] => destruct (Rltb a b) eqn:B end.
    + exists (S m). split; [lia|]. split; [reflexivity|]. right. split; [lia|]. apply Rltb_true in B.
      assert (P : 0 < Cmod (T w z (S m))) by (apply Cmod_gt_0, NZ; lia). assert (P2 : 0 < Cmod (T w z (S m)) ^ 2) by (apply pow_lt, P).
      assert (Q : square (r ^ S m / w (S m) * fst (cpow u (S m))) + square (r ^ S m / w (S m) * snd (cpow u (S m))) = Cmod (term w z (S m)) ^ 2) by (rewrite Cmod_sq, Tm; unfold square; cbn; ring).
      assert (Q2 : square (fst (T w z (S m))) + square (snd (T w z (S m))) = Cmod (T w z (S m)) ^ 2) by (rewrite Cmod_sq; unfold square; ring).
      rewrite Q, Q2 in B. apply Rabs_def2 in B. destruct B as [B _].
      assert (E : 0 < DBL_EPSILON) by (unfold DBL_EPSILON; lra).
      apply Rsqr_incrst_0; [|apply Cmod_ge_0|left; apply Rmult_lt_0_compat; assumption]. unfold Rsqr.
      apply (Rmult_lt_compat_r _ _ _ P2) in B. unfold Rdiv in B. rewrite Rmult_assoc, Rinv_l, Rmult_1_r in B by lra. unfold square in B. eapply Rle_lt_trans; [|eapply Rlt_le_trans; [exact B|]]; right; ring.
    + destruct (IH (S m) ltac:(lia)) as [N [H1 [H2 H3]]]. exists N. split; [lia|]. split; [exact H2|]. destruct H3 as [H3|H3]; [left; lia|right]. split; [lia|apply H3].
Qed.
(** partial sums stay near the first term *)
Lemma T_near w z (Q : nat -> R) : (forall m, (1 <= m)%nat -> Cmod (term w z (S m)) <= Q m - Q (S m)) -> forall m, (1 <= m)%nat -> Cmod (Cminus (T w z m) (term w z 1)) <= Q 1%nat - Q m.
Proof.
  intros H m Hm. induction m as [|m IH]; [lia|]. destruct m as [|m].
  - replace (Cminus (T w z 1) (term w z 1)) with (RtoC 0) by (unfold T; cbn [csum]; ring). rewrite Cmod_0. lra.
  - specialize (IH ltac:(lia)). specialize (H (S m) ltac:(lia)). replace (Cminus (T w z (S (S m))) (term w z 1)) with (Cplus (Cminus (T w z (S m)) (term w z 1)) (term w z (S (S m)))).
    + eapply Rle_trans; [apply Cmod_triangle|]. lra.
    + unfold T. cbn [csum]. ring.
Qed.
Lemma T_size w z q m : Cmod (Cminus (T w z m) (term w z 1)) <= q -> Cmod (term w z 1) - q <= Cmod (T w z m) <= Cmod (term w z 1) + q.
Proof.
  intros H. pose proof (Cmod_triangle (Cminus (T w z m) (term w z 1)) (term w z 1)) as A. replace (Cplus (Cminus (T w z m) (term w z 1)) (term w z 1)) with (T w z m) in A by ring.
  pose proof (Cmod_triangle (Copp (Cminus (T w z m) (term w z 1))) (T w z m)) as B. replace (Cplus (Copp (Cminus (T w z m) (term w z 1))) (T w z m)) with (term w z 1) in B by ring. rewrite Cmod_opp in B. lra.
Qed.
Lemma term_mod w z k : 0 < w k -> Cmod (term w z k) = Cmod z ^ k / w k.
Proof. intros H. unfold term. rewrite Cmod_mult, Cmod_R, Cmod_pow, Rabs_pos_eq by (left; apply Rinv_0_lt_compat, H). unfold Rdiv. ring. Qed.
Definition w1 (k : nat) : R := INR k * INR k.
Definition w2 (k : nat) : R := INR k * INR k * (INR k + 1).
Lemma INR_1 k : (1 <= k)%nat -> 1 <= INR k. Proof. intros H. apply (le_INR 1) in H. exact H. Qed.
Lemma w1_pos k : (1 <= k)%nat -> 0 < w1 k. Proof. intros H. apply INR_1 in H. unfold w1. nra. Qed.
Lemma w2_pos k : (1 <= k)%nat -> 0 < w2 k. Proof. intros H. apply INR_1 in H. unfold w2. apply Rmult_lt_0_compat; nra. Qed.
Lemma pow_r2 r m : 0 <= r <= 1 -> (1 <= m)%nat -> r ^ S m <= r * r.
Proof. intros H Hm. destruct m as [|m]; [lia|]. cbn. assert (0 <= r ^ m <= 1) by (split; [apply pow_le; lra|rewrite <- (pow1 m); apply pow_incr; lra]). assert (0 <= r * r) by nra. nra. Qed.
Lemma q1 z : Cmod z <= 1 / 4 -> forall m, (1 <= m)%nat -> Cmod (term w1 z (S m)) <= Cmod z / 4 / INR m - Cmod z / 4 / INR (S m).
Proof.
  intros H m Hm. pose proof (Cmod_ge_0 z). rewrite term_mod by (apply w1_pos; lia). pose proof (INR_1 m Hm) as I. pose proof (pow_r2 (Cmod z) m ltac:(lra) Hm) as P. unfold w1. rewrite S_INR.
  replace (Cmod z / 4 / INR m - Cmod z / 4 / (INR m + 1)) with (Cmod z / 4 / (INR m * (INR m + 1))) by (field; lra). unfold Rdiv.
  apply Rmult_le_compat; [apply pow_le; lra|left; apply Rinv_0_lt_compat; nra|nra|]. apply Rinv_le_contravar; nra.
Qed.
Lemma q2 z : Cmod z <= 1 -> forall m, (1 <= m)%nat -> Cmod (term w2 z (S m)) <= Cmod z / 2 / (INR m * (INR m + 1)) - Cmod z / 2 / (INR (S m) * (INR (S m) + 1)).
Proof.
  intros H m Hm. pose proof (Cmod_ge_0 z). rewrite term_mod by (apply w2_pos; lia). pose proof (INR_1 m Hm) as I. pose proof (pow_r2 (Cmod z) m ltac:(lra) Hm) as P. unfold w2. rewrite S_INR.
  replace (Cmod z / 2 / (INR m * (INR m + 1)) - Cmod z / 2 / ((INR m + 1) * (INR m + 1 + 1))) with (Cmod z / (INR m * (INR m + 1) * (INR m + 1 + 1))) by (field; lra). unfold Rdiv.
  assert (0 < INR m * (INR m + 1)) by nra. assert (0 < (INR m + 1) * (INR m + 1)) by nra. assert (0 < (INR m + 1) * (INR m + 1) * (INR m + 1 + 1)) by (apply Rmult_lt_0_compat; lra).
  apply Rmult_le_compat; [apply pow_le; lra|left; apply Rinv_0_lt_compat; lra|nra|]. apply Rinv_le_contravar; [apply Rmult_lt_0_compat; lra|]. apply Rmult_le_compat_r; [lra|nra].
Qed.
Lemma term1 w z : term w z 1 = Cmult (RtoC (/ w 1%nat)) z. Proof. unfold term. cbn [cpow]. ring. Qed.
Lemma T1_size z m : 0 < Cmod z <= 1 / 4 -> (1 <= m)%nat -> 3 / 4 * Cmod z <= Cmod (T w1 z m) <= 5 / 4 * Cmod z.
Proof.
  intros H Hm. pose proof (T_near w1 z (fun m => Cmod z / 4 / INR m) (q1 z ltac:(lra)) m Hm) as N. cbv beta in N. apply T_size in N. rewrite term_mod in N by (apply w1_pos; lia). pose proof (INR_1 m Hm).
  assert (P : 0 <= Cmod z / 4 / INR m) by (apply Rcomplements.Rdiv_le_0_compat; lra). assert (W : w1 1 = 1) by (unfold w1; cbn; ring). rewrite W in N. change (INR 1) with 1 in N. rewrite pow_1 in N. lra.
Qed.
Lemma T2_size z m : 0 < Cmod z <= 1 -> (1 <= m)%nat -> 1 / 4 * Cmod z <= Cmod (T w2 z m) <= 3 / 4 * Cmod z.
Proof.
  intros H Hm. pose proof (T_near w2 z (fun m => Cmod z / 2 / (INR m * (INR m + 1))) (q2 z ltac:(lra)) m Hm) as N. cbv beta in N. apply T_size in N. rewrite term_mod in N by (apply w2_pos; lia). pose proof (INR_1 m Hm).
  assert (P : 0 <= Cmod z / 2 / (INR m * (INR m + 1))) by (apply Rcomplements.Rdiv_le_0_compat; [lra|nra]). assert (W : w2 1 = 2) by (unfold w2; cbn; ring). rewrite W in N. change (INR 1) with 1 in N. rewrite pow_1 in N. lra.
Qed.
(** the sums of P_DilogC4 *)
Definition LiZ (z : C) : C := (dilU (fst z) (snd z), dilV (fst z) (snd z)).
Lemma S1_eq z n : S1 z n 1 = Cminus (LiZ z) (T w1 z n).
Proof.
  unfold S1, Li, LiZ, T. rewrite !Rmult_1_l. apply f_equal. apply csum_ext. intros k _. unfold term, w1. replace (Cmult (RtoC 1) z) with z by ring. rewrite <- RtoC_mult. f_equal. f_equal.
  symmetry. apply Rinv_mult.
Qed.
Lemma S2_eq z n : z <> RtoC 0 -> S2 z n 1 = Cminus (Cminus (LiZ z) (Cplus (RtoC 1) (Cdiv (Cmult (Cminus (RtoC 1) z) (Lg (Cminus (RtoC 1) z))) z))) (T w2 z n).
Proof.
  intros Nz. unfold S2, Li, LiZ, T, E1. rewrite !Rmult_1_l, Rinv_1. replace (Cmult (RtoC 1) z) with z by ring. cbn [csum]. apply f_equal2; [apply f_equal; field; exact Nz|]. apply csum_ext. intros k _. unfold term, w2. rewrite <- !RtoC_mult. f_equal. f_equal.
  rewrite <- (S_INR (S k)). assert (INR (S k) <> 0) by (apply not_0_INR; lia). assert (INR (S (S k)) <> 0) by (apply not_0_INR; lia). field. split; assumption.
Qed.

(** ** hypot, atan2, the logarithm *)
Lemma hypot_mod x y : hypot x y = Cmod (x, y). Proof. unfold hypot, Cmod. cbn [fst snd]. f_equal. ring. Qed.
Lemma arg_cs u v : off u v -> let a := arg u v in let r := Cmod (u, v) in 0 < r /\ - PI < a < PI /\ u = r * cos a /\ v = r * sin a.
Proof.
  intros H a r. pose proof (off_norm u v H) as N. pose proof (off_den u v H) as D. assert (Rp : 0 < r) by (apply sqrt_lt_R0; exact N). assert (R2 : r * r = u ^ 2 + v ^ 2) by (apply sqrt_sqrt; cbn [fst snd]; lra).
  unfold a, arg. change (sqrt (u ^ 2 + v ^ 2)) with r in *. set (t := v / (u + r)). pose proof (atan_bound t) as B. split; [exact Rp|]. split; [lra|].
  assert (Et : t * (u + r) = v) by (unfold t; field; lra). assert (C0 : 0 < cos (atan t)) by (apply cos_gt_0; lra). assert (S0 : sin (atan t) = t * cos (atan t)) by (rewrite <- (tan_atan t) at 2; unfold tan; field; lra).
  pose proof (sin2_cos2 (atan t)) as E. unfold Rsqr in E. rewrite S0 in E. assert (P1 : 0 < 1 + t * t) by nra. assert (C2 : cos (atan t) * cos (atan t) = / (1 + t * t)) by (apply Rmult_eq_reg_l with (1 + t * t); [rewrite Rinv_r by lra; lra|lra]).
  assert (K : (1 + t * t) * (u + r) = 2 * r). { apply Rmult_eq_reg_r with (u + r); [|lra]. transitivity ((u + r) * (u + r) + (t * (u + r)) * (t * (u + r))); [ring|]. rewrite Et. transitivity (u * u + 2 * u * r + r * r + v ^ 2); [ring|]. nra. }
  assert (X : / (1 + t * t) = (u + r) / (2 * r)) by (apply Rmult_eq_reg_l with (1 + t * t); [rewrite Rinv_r by lra; unfold Rdiv; rewrite <- Rmult_assoc, K; field; lra|lra]).
  split.
  - rewrite cos_2a_cos. transitivity (r * (2 * (cos (atan t) * cos (atan t)) - 1)); [rewrite C2, X; field; lra|ring].
  - rewrite sin_2a, S0. transitivity (r * (2 * t * (cos (atan t) * cos (atan t)))); [rewrite C2, X; rewrite <- Et; field; lra|ring].
Qed.
Lemma atan2_arg u v : off u v -> atan2 v u = arg u v.
Proof.
  intros H. destruct (arg_cs u v H) as [Rp [Ba [Eu Ev]]]. set (a := arg u v) in *. set (r := Cmod (u, v)) in *. pose proof PI_RGT_0.
  assert (TQ : cos a <> 0 -> v / u = tan a) by (intros C0; rewrite Eu, Ev; unfold tan; field; split; [exact C0|lra]).
  assert (Neg : cos a < 0 -> a < - (PI / 2) \/ PI / 2 < a). { intros C0. destruct (Rle_or_lt a (PI / 2)) as [G|G]; [|right; exact G]. destruct (Rle_or_lt (- (PI / 2)) a) as [G'|G']; [|left; exact G']. exfalso. pose proof (cos_ge_0 a ltac:(lra) ltac:(lra)). lra. }
  unfold atan2. destruct (Rltb 0 u) eqn:B1; [apply Rltb_true in B1|apply Rltb_false in B1].
  - assert (C0 : 0 < cos a) by nra. rewrite TQ by lra. apply atan_tan. split.
    + destruct (Rlt_or_le (- (PI / 2)) a) as [G|G]; [exact G|exfalso]. destruct G as [G|G].
      * assert (cos (- a) < 0) by (apply cos_lt_0; lra). rewrite cos_neg in *. lra.
      * rewrite G, cos_neg, cos_PI2 in C0. lra.
    + destruct (Rlt_or_le a (PI / 2)) as [G|G]; [exact G|exfalso]. destruct G as [G|G].
      * assert (cos a < 0) by (apply cos_lt_0; lra). lra.
      * rewrite <- G, cos_PI2 in C0. lra.
  - destruct (Rltb u 0) eqn:B2; [apply Rltb_true in B2|apply Rltb_false in B2].
    + assert (C0 : cos a < 0) by nra. rewrite TQ by lra. assert (V0 : v <> 0) by (destruct H; [lra|assumption]). destruct (Rleb 0 v) eqn:B3; [apply Rleb_true in B3|apply Rleb_false in B3].
      * assert (S0 : 0 < sin a) by nra. assert (A0 : 0 < a). { destruct (Rlt_or_le 0 a) as [G|G]; [exact G|exfalso]. destruct G as [G|G]; [assert (sin a < 0) by (apply sin_lt_0_var; lra); lra|rewrite G, sin_0 in S0; lra]. }
        destruct (Neg C0) as [G|G]; [lra|]. replace (tan a) with (tan (a - PI)); [rewrite atan_tan by lra; lra|]. unfold tan. rewrite sin_minus, cos_minus, cos_PI, sin_PI. field. lra.
      * assert (S0 : sin a < 0) by nra. assert (A0 : a < 0). { destruct (Rlt_or_le a 0) as [G|G]; [exact G|exfalso]. destruct G as [G|G]; [assert (0 < sin a) by (apply sin_gt_0; lra); lra|rewrite <- G, sin_0 in S0; lra]. }
        destruct (Neg C0) as [G|G]; [|lra]. replace (tan a) with (tan (a + PI)); [rewrite atan_tan by lra; lra|]. unfold tan. rewrite neg_sin, neg_cos. field. lra.
    + assert (U0 : u = 0) by lra. assert (V0 : v <> 0) by (destruct H; [lra|assumption]). unfold a, arg. rewrite U0. replace (0 ^ 2 + v ^ 2) with (Rsqr v) by (unfold Rsqr; ring). rewrite sqrt_Rsqr_abs, Rplus_0_l.
      destruct (Rltb 0 v) eqn:B3; [apply Rltb_true in B3; rewrite Rabs_pos_eq by lra; replace (v / v) with 1 by (field; lra); rewrite atan_1; lra|apply Rltb_false in B3].
      rewrite (proj2 (Rltb_true v 0)) by lra. rewrite Rabs_left by lra. replace (v / - v) with (- (1)) by (field; lra). rewrite atan_opp, atan_1. lra.
Qed.
Lemma lnabs_mod u v : 0 < Cmod (u, v) -> lnabs u v = ln (Cmod (u, v)).
Proof.
  intros H. unfold lnabs. replace (u ^ 2 + v ^ 2) with (Cmod (u, v) * Cmod (u, v)) by (pose proof (Cmod_sq (u, v)) as E; cbn [fst snd] in E; rewrite <- E; ring). rewrite ln_mult by exact H. field.
Qed.
Lemma complex_log_Lg u v : off u v -> complex_log u v = (Some (lnabs u v), Some (arg u v)).
Proof.
  intros H. pose proof (off_norm u v H) as N. unfold complex_log. rewrite (atan2_arg u v H).
  assert (B : Reqb u 0 && Reqb v 0 = false). { destruct (Reqb u 0) eqn:A; [|reflexivity]. destruct (Reqb v 0) eqn:A'; [|reflexivity]. apply Reqb_true in A. apply Reqb_true in A'. rewrite A, A' in N. lra. }
  rewrite B. f_equal. f_equal. unfold lnabs.
  assert (K : forall p q, 0 < p -> ln p + 1 / 2 * ln (1 + square (q / p)) = ln (p ^ 2 + q ^ 2) / 2).
  { intros p q P. replace (p ^ 2 + q ^ 2) with (p * p * (1 + square (q / p))) by (unfold square; field; lra). assert (0 <= square (q / p)) by (unfold square; nra). rewrite !ln_mult; try lra; nra. }
  assert (Eu : Rabs u ^ 2 = u ^ 2) by (rewrite RPow_abs; apply Rabs_pos_eq, pow2_ge_0). assert (Ev : Rabs v ^ 2 = v ^ 2) by (rewrite RPow_abs; apply Rabs_pos_eq, pow2_ge_0).
  destruct (Rle_or_lt (Rabs u) (Rabs v)) as [G|G].
  - rewrite Rmin_left, Rmax_right by lra. rewrite K, Eu, Ev; [f_equal; f_equal; ring|]. destruct (Rabs_pos v) as [P|P]; [exact P|exfalso]. rewrite <- P in Ev, G. pose proof (Rabs_pos u). assert (Z : Rabs u = 0) by lra. rewrite Z in Eu. lra.
  - rewrite Rmin_right, Rmax_left by lra. rewrite K, Eu, Ev; [reflexivity|]. pose proof (Rabs_pos v). lra.
Qed.

(** ** the two series *)
Lemma eps_pos : 0 < DBL_EPSILON < 1 / 10 ^ 15. Proof. unfold DBL_EPSILON. split; [lra|]. lra. Qed.
Lemma unit_split x y : 0 < Cmod (x, y) -> let r := Cmod (x, y) in Cmult (RtoC r) (x / r, y / r) = (x, y).
Proof. intros H r. unfold Cmult, RtoC. cbn [fst snd]. f_equal; field; fold r in H; lra. Qed.
Lemma loop_from w x y n (h : R) : let r := Cmod (x, y) in 0 < r -> h = / w 1%nat -> (forall m, (1 <= m)%nat -> T w (x, y) m <> RtoC 0) ->
  exists N, (1 <= N)%nat /\ series_loop w n 2 r (1 - x / r) (y / r) (x / r) (y / r) r (h * r * (x / r)) (h * r * (y / r)) = (fst (T w (x, y) N), snd (T w (x, y) N))
    /\ (N = (1 + n)%nat \/ ((1 < N)%nat /\ Cmod (term w (x, y) N) < DBL_EPSILON * Cmod (T w (x, y) N))).
Proof.
  intros r Hr Eh NZ. pose proof (loop_sum w r (x / r, y / r)) as L. cbv zeta in L. pose proof (unit_split x y Hr) as U. cbv zeta in U. fold r in U. rewrite U in L. specialize (L NZ n 1%nat ltac:(lia)). destruct L as [N [H1 [H2 H3]]]. exists N. split; [exact H1|]. split; [|exact H3]. rewrite <- H2.
  assert (A1 : cpow (x / r, y / r) 1 = (x / r, y / r)) by (cbn [cpow]; ring). assert (A2 : T w (x, y) 1 = (h * r * (x / r), h * r * (y / r))).
  { unfold T. cbn [csum]. rewrite term1, <- Eh. unfold Cplus, Cmult, RtoC. cbn [fst snd]. f_equal; field; lra. }
  rewrite A1, A2, pow_1. reflexivity.
Qed.
Lemma pair_eta (z : C) : (fst z, snd z) = z. Proof. destruct z. reflexivity. Qed.
Lemma nz_of x y : 0 < Cmod (x, y) -> (x, y) <> RtoC 0. Proof. intros H E. rewrite E, Cmod_0 in H. lra. Qed.
Lemma quarter_pow : (1 / 4) ^ 50 <= 1 / 10 ^ 20.
Proof. lra. Qed.
Lemma series_1_acc x y : 0 < Cmod (x, y) <= 1 / 4 -> cle (Cminus (dilogc_series_1 (Cmod (x, y)) x y) (LiZ (x, y))) DBL_EPSILON.
Proof.
  intros H. set (r := Cmod (x, y)) in *. unfold dilogc_series_1. set (n := (50 + trunc (- 22 / ln r) - 2)%nat). assert (Hn : (48 <= n)%nat) by (unfold n; lia).
  assert (NZ : forall m, (1 <= m)%nat -> T w1 (x, y) m <> RtoC 0). { intros m Hm E. pose proof (T1_size (x, y) m H Hm) as K. rewrite E, Cmod_0 in K. fold r in K. lra. }
  destruct (loop_from w1 x y n 1 (proj1 H) ltac:(unfold w1; cbn; field) NZ) as [N [H1 [H2 H3]]]. fold r in H2. rewrite !Rmult_1_l in H2. change (fun k => INR k * INR k) with w1. rewrite H2, pair_eta.
  pose proof (S1_bound (x, y) ltac:(fold r; lra) (nz_of x y (proj1 H)) N) as B. rewrite S1_eq in B. fold r in B.
  assert (Bd : r ^ S N / (1 - r) / INR (S N) / INR (S N) <= DBL_EPSILON).
  { pose proof (T1_size (x, y) N H H1) as Sz. fold r in Sz. pose proof (INR_1 N H1) as I. pose proof eps_pos as E. rewrite S_INR. destruct H3 as [H3|[_ H3]].
    - assert (P : r ^ S N <= 1 / 10 ^ 20). { eapply Rle_trans; [|apply quarter_pow]. rewrite H3. replace (S (1 + n)) with (50 + (n - 48))%nat by lia. rewrite pow_add. assert (r ^ 50 <= (1 / 4) ^ 50) by (apply pow_incr; lra).
        assert (0 <= r ^ (n - 48) <= 1) by (split; [apply pow_le; lra|rewrite <- (pow1 (n - 48)); apply pow_incr; lra]). assert (0 <= r ^ 50) by (apply pow_le; lra). nra. }
      assert (P0 : 0 <= r ^ S N) by (apply pow_le; lra). replace (r ^ S N / (1 - r) / (INR N + 1) / (INR N + 1)) with (r ^ S N * / ((1 - r) * ((INR N + 1) * (INR N + 1)))) by (field; lra).
      assert (Q : / ((1 - r) * ((INR N + 1) * (INR N + 1))) <= 1) by (rewrite <- Rinv_1; apply Rinv_le_contravar; nra). assert (Q0 : 0 < / ((1 - r) * ((INR N + 1) * (INR N + 1)))) by (apply Rinv_0_lt_compat; nra).
      apply Rle_trans with (1 / 10 ^ 20); [nra|]. unfold DBL_EPSILON. lra.
    - rewrite term_mod in H3 by (apply w1_pos; lia). unfold w1 in H3 at 1. fold r in H3.
      replace (r ^ S N / (1 - r) / (INR N + 1) / (INR N + 1)) with (r ^ N * (r / (1 - r)) * / ((INR N + 1) * (INR N + 1))) by (cbn; field; lra).
      assert (F : r / (1 - r) <= 1 / 3) by (apply Rmult_le_reg_r with (1 - r); [lra|]; unfold Rdiv; rewrite Rmult_assoc, Rinv_l by lra; lra). assert (F0 : 0 < r / (1 - r)) by (apply Rdiv_lt_0_compat; lra).
      assert (G : / ((INR N + 1) * (INR N + 1)) <= / (INR N * INR N)) by (apply Rinv_le_contravar; nra). assert (G0 : 0 < / (INR N * INR N)) by (apply Rinv_0_lt_compat; nra). assert (P0 : 0 <= r ^ N) by (apply pow_le; lra).
      unfold Rdiv in H3 at 1. apply Rle_trans with (r ^ N * (1 / 3) * / (INR N * INR N)).
      + apply Rmult_le_compat; [apply Rmult_le_pos; lra|left; apply Rinv_0_lt_compat; nra|apply Rmult_le_compat_l; lra|exact G].
      + nra. }
  destruct B as [B1 B2]. split; [replace (fst (Cminus (T w1 (x, y) N) (LiZ (x, y)))) with (- fst (Cminus (LiZ (x, y)) (T w1 (x, y) N))) by (cbn; ring)|replace (snd (Cminus (T w1 (x, y) N) (LiZ (x, y)))) with (- snd (Cminus (LiZ (x, y)) (T w1 (x, y) N))) by (cbn; ring)]; rewrite Rabs_Ropp; lra.
Qed.
Lemma exp_mul_nat x n : exp (INR n * x) = exp x ^ n.
Proof. induction n as [|n IH]; [cbn; rewrite Rmult_0_l; apply exp_0|]. rewrite S_INR, Rmult_plus_distr_r, Rmult_1_l, exp_plus, IH. cbn. ring. Qed.
Lemma exp_m18 : exp (- 18) <= / 31000000.
Proof.
  assert (A : 265 / 100 <= exp 1). { pose proof (exp_ineq1_le (1 / 20)) as K. assert (Q : exp 1 = exp (1 / 20) ^ 20) by (rewrite <- (exp_mul_nat (1 / 20) 20); f_equal; cbn; lra). rewrite Q. apply Rle_trans with ((21 / 20) ^ 20); [lra|]. apply pow_incr. lra. }
  replace (- 18) with (- (18)) by lra. rewrite exp_Ropp. apply Rinv_le_contravar; [lra|]. assert (Q : exp 18 = exp 1 ^ 18) by (rewrite <- (exp_mul_nat 1 18); f_equal; cbn; lra). rewrite Q. apply Rle_trans with ((265 / 100) ^ 18); [lra|]. apply pow_incr. lra.
Qed.
Lemma trunc_ge X : 0 <= X -> X - 1 <= INR (trunc X).
Proof.
  intros H. destruct (base_Int_part X) as [A B]. unfold trunc. rewrite INR_IZR_INZ, Z2Nat.id; [lra|]. assert (K : IZR (-1) < IZR (Int_part X)) by (cbn; lra). apply lt_IZR in K. lia.
Qed.
Lemma tail_18 r N : 1 / 4 < r <= 98 / 100 -> N = (29 + trunc (18 / (- ln r)))%nat -> r ^ S N / (1 - r) / INR (S N) / INR (S (S N)) / INR (S N) <= 2 / 10 ^ 12.
Proof.
  intros H EN. assert (L0 : ln r < 0) by (rewrite <- ln_1; apply ln_increasing; lra). set (X := 18 / (- ln r)) in *. assert (HX : 0 < X) by (apply Rdiv_lt_0_compat; lra). pose proof (trunc_ge X ltac:(lra)) as TG.
  assert (SN : INR (S N) = 30 + INR (trunc X)). { rewrite EN. replace (S (29 + trunc X)) with (30 + trunc X)%nat by lia. rewrite plus_INR. cbn; lra. } pose proof (pos_INR (trunc X)) as TP.
  assert (XL : X * ln r = - 18) by (unfold X; field; lra).
  assert (P : r ^ S N <= r * / 31000000).
  { assert (E1 : r ^ S N = exp (INR (S N) * ln r)) by (rewrite (exp_mul_nat (ln r) (S N)), exp_ln by lra; reflexivity). rewrite E1. apply Rle_trans with (exp (ln r + - 18)).
    - destruct (Req_dec (INR (S N) * ln r) (ln r + -18)) as [Q|Q]; [rewrite Q; lra|]. left. apply exp_increasing. assert (INR (S N) * ln r <= (29 + X) * ln r) by (rewrite SN; nra). nra.
    - rewrite exp_plus, exp_ln by lra. apply Rmult_le_compat_l; [lra|apply exp_m18]. }
  assert (LB : - ln r <= (1 - r) / r). { pose proof (exp_ineq1_le (- ln r)) as K. rewrite exp_Ropp, exp_ln in K by lra. replace ((1 - r) / r) with (/ r - 1) by (field; lra). lra. }
  assert (XB : 18 * r <= (1 - r) * X). { unfold X. apply Rmult_le_reg_r with (- ln r); [lra|]. replace ((1 - r) * (18 / - ln r) * - ln r) with (18 * (1 - r)) by (field; lra). replace (18 * (1 - r)) with (18 * r * ((1 - r) / r)) by (field; lra). apply Rmult_le_compat_l; [lra|exact LB]. }
  assert (SSN : X <= INR (S (S N))) by (rewrite S_INR, SN; lra). assert (D1 : 18 * r <= (1 - r) * INR (S (S N))) by nra. assert (D2 : 900 <= INR (S N) * INR (S N)) by (rewrite SN; nra).
  assert (SN0 : 0 < INR (S N)) by lra. assert (SSN0 : 0 < INR (S (S N))) by lra.
  replace (r ^ S N / (1 - r) / INR (S N) / INR (S (S N)) / INR (S N)) with (r ^ S N * / ((1 - r) * INR (S (S N)) * (INR (S N) * INR (S N)))) by (field; lra).
  apply Rle_trans with (r * / 31000000 * / (18 * r * 900)).
  - apply Rmult_le_compat; [apply pow_le; lra|left; apply Rinv_0_lt_compat; apply Rmult_lt_0_compat; nra|exact P|]. apply Rinv_le_contravar; [nra|]. apply Rmult_le_compat; nra.
  - replace (r * / 31000000 * / (18 * r * 900)) with (/ 31000000 * / 16200) by (field; lra). lra.
Qed.
Lemma off_disk x y : Cmod (x, y) < 1 -> off (1 - x) (- y).
Proof. intros H. left. pose proof (re_le (x, y)) as K. cbn [fst] in K. apply Rabs_le_between in K. lra. Qed.
Lemma series_2_acc x y : 1 / 4 < Cmod (x, y) <= 98 / 100 -> exists p, dilogc_series_2 (Cmod (x, y)) x y = some2 p /\ cle (Cminus p (LiZ (x, y))) (2 / 10 ^ 12).
Proof.
  intros H. set (r := Cmod (x, y)) in *. unfold dilogc_series_2. pose proof eps_pos as E. rewrite (proj2 (Rleb_false (Rabs r) (DBL_EPSILON * 10))) by (rewrite Rabs_pos_eq by lra; lra).
  rewrite (complex_log_Lg (1 - x) (- y)) by (apply off_disk; fold r; lra). unfold series_2_c. set (n := (30 + trunc (18 / - ln r) - 2)%nat).
  assert (NZ : forall m, (1 <= m)%nat -> T w2 (x, y) m <> RtoC 0). { intros m Hm Q. pose proof (T2_size (x, y) m ltac:(fold r; lra) Hm) as K. rewrite Q, Cmod_0 in K. fold r in K. lra. }
  destruct (loop_from w2 x y n (1 / 2) ltac:(fold r; lra) ltac:(unfold w2; cbn; field) NZ) as [N [H1 [H2 H3]]]. fold r in H2. change (fun k => INR k * INR k * (INR k + 1)) with w2. rewrite H2. cbn [fst snd].
  pose proof (nz_of x y ltac:(fold r; lra)) as Nz. pose proof (S2_bound (x, y) ltac:(fold r; lra) Nz N) as B. rewrite (S2_eq _ _ Nz) in B. fold r in B.
  assert (R2 : square r = x ^ 2 + y ^ 2) by (pose proof (Cmod_sq (x, y)) as Q; cbn [fst snd] in Q; fold r in Q; unfold square; lra). assert (R0 : 0 < square r) by (unfold square; nra).
  eexists. split; [reflexivity|].
  match goal with |- cle (Cminus ?p _) _ => replace (Cminus p (LiZ (x, y))) with (Copp (Cminus (Cminus (LiZ (x, y)) (Cplus (RtoC 1) (Cdiv (Cmult (Cminus (RtoC 1) (x, y)) (Lg (Cminus (RtoC 1) (x, y)))) (x, y)))) (T w2 (x, y) N))) end.
  - assert (Bd : r ^ S N / (1 - r) / INR (S N) / INR (S (S N)) / INR (S N) <= 2 / 10 ^ 12).
    { destruct H3 as [H3|[H4 H3]]; [apply tail_18; [exact H|]; rewrite H3; unfold n; lia|].
      rewrite term_mod in H3 by (apply w2_pos; lia). fold r in H3. pose proof (T2_size (x, y) N ltac:(fold r; lra) H1) as Sz. fold r in Sz. pose proof (INR_1 N H1) as I. pose proof (w2_pos N H1) as W. rewrite !S_INR.
      assert (W' : w2 N <= (INR N + 1) * (INR N + 1 + 1) * (INR N + 1)) by (unfold w2; assert (INR N * INR N <= (INR N + 1) * (INR N + 1 + 1)) by nra; nra).
      replace (r ^ S N / (1 - r) / (INR N + 1) / (INR N + 1 + 1) / (INR N + 1)) with (r ^ N * (r / (1 - r)) * / ((INR N + 1) * (INR N + 1 + 1) * (INR N + 1))) by (cbn; field; lra).
      assert (F : r / (1 - r) <= 49) by (apply Rmult_le_reg_r with (1 - r); [lra|]; unfold Rdiv; rewrite Rmult_assoc, Rinv_l by lra; lra). assert (F0 : 0 < r / (1 - r)) by (apply Rdiv_lt_0_compat; lra).
      assert (P0 : 0 <= r ^ N) by (apply pow_le; lra). apply Rle_trans with (r ^ N * 49 * / w2 N).
      + apply Rmult_le_compat; [apply Rmult_le_pos; lra|left; apply Rinv_0_lt_compat; lra|apply Rmult_le_compat_l; lra|apply Rinv_le_contravar; assumption].
      + unfold Rdiv in H3. nra. }
    destruct B as [B1 B2]. split; cbn [fst snd Copp]; rewrite Rabs_Ropp; lra.
  - cbn in R2. unfold LiZ, Lg, Cminus, Cplus, Copp, Cdiv, Cmult, Cinv, RtoC. cbn [fst snd]. replace (1 + - x) with (1 - x) by ring. replace (0 + - y) with (- y) by ring. rewrite R2. f_equal; cbn; field; lra.
Qed.
