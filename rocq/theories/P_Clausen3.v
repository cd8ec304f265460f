(** Accuracy of the Clausen table, continued: bounds for pi and the approximation of x cot x. *)
From Coq Require Import QArith Qreals Qabs Machin.
From Coquelicot Require Import Coquelicot.
From Verif Require Import Base RSumLib M_Specfunc M_DebyeSeries M_Clausen S_Clausen PolyQ PolyZ P_Dilog P_DebyeSeries P_DebyeSeries2 P_Clausen P_Clausen2.
From Coq Require Import Psatz.
Local Close Scope Q_scope. Open Scope R_scope.
Opaque fact.

(** ** bounds for pi *)
Definition mz (k : nat) : Z := (let m := Z.of_nat (2 * k + 1) in 10 ^ 32 * (2 * 7 ^ m + 3 ^ m) / (m * 21 ^ m))%Z.
Fixpoint zsum (n : nat) : Z := match n with O => 0 | S k => zsum k + (if Nat.even k then mz k else - mz k) end%Z.
Lemma zdiv_R a b : (0 < b)%Z -> IZR (a / b) <= IZR a / IZR b <= IZR (a / b) + 1.
Proof.
  intros H. pose proof (Z.mul_div_le a b H) as L. pose proof (Z.mul_succ_div_gt a b H) as G. apply IZR_le in L. apply IZR_lt in G. rewrite mult_IZR in L, G. rewrite succ_IZR in G. apply IZR_lt in H.
  split; apply Rmult_le_reg_r with (IZR b); try lra; unfold Rdiv; rewrite Rmult_assoc, Rinv_l, Rmult_1_r by lra; nra.
Qed.
Lemma even_sign n : (-1) ^ n = if Nat.even n then 1 else -1.
Proof.
  rewrite <- (Nat.negb_odd n). destruct (Nat.odd n) eqn:E; cbn [negb].
  - rewrite Nat.odd_spec in E. destruct E as [k ->]. rewrite pow_add, pow_mult. replace ((-1) ^ 2) with 1 by ring. rewrite pow1. ring.
  - assert (E' : Nat.even n = true) by (rewrite <- Nat.negb_odd, E; reflexivity). rewrite Nat.even_spec in E'. destruct E' as [k ->]. rewrite pow_mult. replace ((-1) ^ 2) with 1 by ring. rewrite pow1. reflexivity.
Qed.
Lemma mz_R k : IZR (mz k) <= 10 ^ 32 * PI_2_3_7_tg k <= IZR (mz k) + 1.
Proof.
  unfold mz. set (m := Z.of_nat (2 * k + 1)). assert (M : (0 < m)%Z) by (unfold m; lia). replace (10 ^ 32 * PI_2_3_7_tg k) with (IZR (10 ^ 32 * (2 * 7 ^ m + 3 ^ m)) / IZR (m * 21 ^ m)).
  - apply zdiv_R. apply Z.mul_pos_pos; [exact M|]. apply Z.pow_pos_nonneg; lia.
  - unfold PI_2_3_7_tg, Ratan_seq. rewrite !mult_IZR, plus_IZR, mult_IZR. unfold m. rewrite <- !pow_IZR, <- INR_IZR_INZ, !pow_inv. change (10 ^ 32)%Z with (10 ^ Z.of_nat 32)%Z. rewrite <- pow_IZR. replace 21 with (3 * 7) by ring. rewrite Rpow_mult_distr.
    generalize (10 ^ 32). intros t. pose proof (pow_lt 3 (2 * k + 1) ltac:(lra)). pose proof (pow_lt 7 (2 * k + 1) ltac:(lra)). assert (0 < INR (2 * k + 1)) by (apply lt_0_INR; lia). field. lra.
Qed.
Lemma zsum_R n : Rabs (IZR (zsum n) - 10 ^ 32 * rsum n (tg_alt PI_2_3_7_tg)) <= INR n.
Proof.
  induction n as [|n IH]; [cbn [zsum rsum INR]; rewrite Rmult_0_r, Rminus_0_r, Rabs_R0; lra|]. cbn [zsum rsum]. rewrite S_INR, plus_IZR. pose proof (mz_R n) as M. unfold tg_alt at 2. rewrite even_sign.
  set (t := 10 ^ 32) in *. apply Rabs_le_between in IH. apply Rabs_le_between. destruct (Nat.even n); [|rewrite opp_IZR]; lra.
Qed.
Definition pilo : Q := (31415926535897932384626433832 # 10000000000000000000000000000)%Q.
Definition pihi : Q := (31415926535897932384626433833 # 10000000000000000000000000000)%Q.
Lemma check_pi : (31415926535897932384626433832 * 10000 <=? 4 * (zsum 30 - 30))%Z && (4 * (zsum 29 + 29) <=? 31415926535897932384626433833 * 10000)%Z = true. Proof. vm_compute. reflexivity. Qed.
Lemma Qle_R a b : Qle_bool a b = true -> Q2R a <= Q2R b. Proof. intros H. apply Qle_Rle, Qle_bool_iff, H. Qed.
Lemma pi_bounds : Q2R pilo <= PI <= Q2R pihi.
Proof.
  pose proof check_pi as C. apply andb_true_iff in C. destruct C as [C1 C2]. apply Z.leb_le, IZR_le in C1, C2. rewrite !mult_IZR, minus_IZR in C1. rewrite !mult_IZR, plus_IZR in C2. pose proof (PI_2_3_7_ineq 14) as B. change (S (2 * 14)) with 29%nat in B. change (2 * 14)%nat with 28%nat in B. rewrite !sum_rsum in B.
  pose proof (zsum_R 30) as S1. pose proof (zsum_R 29) as S2. apply Rabs_le_between in S1, S2. rewrite INR_IZR_INZ in S1, S2. change (Z.of_nat 30) with 30%Z in S1. change (Z.of_nat 29) with 29%Z in S2. unfold Q2R. cbn [Qnum Qden pilo pihi].
  set (a := rsum 30 _) in *. set (b := rsum 29 _) in *. set (c := IZR (zsum 30)) in *. set (d := IZR (zsum 29)) in *. clearbody a b c d. lra.
Qed.
Definition p2lo : Q := (986960440108935861883449099 # 100000000000000000000000000)%Q.
Definition p2hi : Q := (986960440108935861883449101 # 100000000000000000000000000)%Q.
Lemma check_p2 : Qle_bool p2lo (pilo * pilo) && Qle_bool (pihi * pihi) p2hi && Qle_bool p2hi 10 = true. Proof. vm_compute. reflexivity. Qed.
Lemma p2_bounds : Q2R p2lo <= PI ^ 2 <= Q2R p2hi /\ PI ^ 2 <= 10.
Proof.
  pose proof check_p2 as C. apply andb_true_iff in C. destruct C as [C C3]. apply andb_true_iff in C. destruct C as [C1 C2]. apply Qle_R in C1, C2, C3. rewrite Q2R_mult in C1, C2. pose proof pi_bounds as B. replace (Q2R 10) with 10 in * by (unfold Q2R; cbn; field).
  assert (0 <= Q2R pilo) by (rewrite <- Q2R_0; apply Qle_R; reflexivity). assert (Q2R pilo * Q2R pilo <= PI ^ 2 <= Q2R pihi * Q2R pihi) by (cbn [pow]; rewrite Rmult_1_r; split; apply Rmult_le_compat; lra). lra.
Qed.

(** ** x cot x *)
Lemma cot_generic (S1 S2 : Z) (rp wq sp cp : list Q) (x : R) : (forall w, peval rp w = 1 - peval wq w) -> (0 < S1)%Z -> (0 < S2)%Z -> (forall r s c e, toZ S1 10 rp = Some r -> toZ S2 10 sp = Some s -> toZ (S1 * S2) 10 cp = Some c -> zadd (zmul r s) (zscal (-1) c) = 0%Z :: e ->
  zbound r S1 4 = true -> zbound e (S1 * S2) (3 # 1000000000000000000000) = true -> Rabs (cos (x / 2) - peval cp (x ^ 2)) <= T32 * x ^ 2 -> Rabs (sin (x / 2) / (x / 2) - peval sp (x ^ 2)) <= T32 * x ^ 2 ->
  0 < x <= PI -> Rabs (1 - x / 2 * cos (x / 2) / sin (x / 2) - peval wq (x ^ 2)) <= 7 / 10 ^ 22 * x ^ 2).
Proof.
  intros RP P1 P2 r s c e E1 E2 E3 E4 C2 C3 TC TS Hx. pose proof PI_RGT_0 as P. assert (V : 0 < x ^ 2 <= 10). { split; [apply pow_lt; lra|]. apply Rle_trans with (PI ^ 2); [apply pow_incr; lra|apply p2_bounds]. }
  set (z := x ^ 2 / 10). assert (Hz : 0 <= z <= 1) by (unfold z; lra). apply (zbound_R _ _ _ z Hz) in C2, C3.
  apply (toZ_eval 10 z) in E1, E2, E3. replace (IZR 10 * z) with (x ^ 2) in * by (unfold z; field). assert (E : zeval (0%Z :: e) z = IZR S1 * IZR S2 * (peval rp (x ^ 2) * peval sp (x ^ 2) - peval cp (x ^ 2))).
  { rewrite <- E4, zeval_add, zeval_mul, zeval_scal, E1, E2, E3, mult_IZR. ring. }
  cbn [zeval] in E. rewrite Rplus_0_l in E. rewrite mult_IZR in C3. rewrite E1 in C2. clear E1 E2 E3 E4.
  apply IZR_lt in P1, P2.
  replace (Q2R (3 # 1000000000000000000000)) with (3 / 10 ^ 21) in C3 by (unfold Q2R; cbn [Qnum Qden]; lra). replace (Q2R 4) with 4 in C2 by (unfold Q2R; cbn; field).
  rewrite Rabs_mult, (Rabs_pos_eq (IZR S1)) in C2 by lra. apply Rmult_le_reg_l in C2; [|exact P1].
  assert (B : Rabs (peval rp (x ^ 2) * peval sp (x ^ 2) - peval cp (x ^ 2)) <= 3 / 10 ^ 22 * x ^ 2).
  { apply Rmult_le_reg_l with (IZR S1 * IZR S2); [apply Rmult_lt_0_compat; lra|]. rewrite <- (Rabs_pos_eq (IZR S1 * IZR S2)) at 1 by (apply Rmult_le_pos; lra). rewrite <- Rabs_mult, <- E, Rabs_mult, (Rabs_pos_eq z) by lra.
    apply Rle_trans with (z * (IZR S1 * IZR S2 * (3 / 10 ^ 21))); [apply Rmult_le_compat_l; lra|]. right. unfold z. replace (10 ^ 22) with (10 * 10 ^ 21) by reflexivity. field. }
  clear E C3. assert (R : peval rp (x ^ 2) = 1 - peval wq (x ^ 2)). apply RP.
  pose proof (sinc_half (x / 2) ltac:(lra)) as SH. assert (S0 : 0 < sin (x / 2)) by (apply sin_gt_0; lra).
  set (w := x ^ 2) in *. set (rho := peval rp w) in *. set (sn := peval sp w) in *. set (cn := peval cp w) in *. set (si := sin (x / 2) / (x / 2)) in *.
  replace (1 - x / 2 * cos (x / 2) / sin (x / 2) - peval wq w) with ((rho * sn - cn + rho * (si - sn) - (cos (x / 2) - cn)) * / si) by (rewrite R; unfold si; field; lra).
  rewrite Rabs_mult, (Rabs_inv si), (Rabs_pos_eq si) by lra. assert (IS : 0 < / si <= 2). { split; [apply Rinv_0_lt_compat; lra|]. rewrite <- (Rinv_inv 2). apply Rinv_le_contravar; lra. }
  assert (N : Rabs (rho * sn - cn + rho * (si - sn) - (cos (x / 2) - cn)) <= 3 / 10 ^ 22 * w + 4 * (T32 * w) + T32 * w).
  { eapply Rle_trans; [apply Rabs_triang|]. rewrite Rabs_Ropp. apply Rplus_le_compat; [|exact TC]. eapply Rle_trans; [apply Rabs_triang|]. apply Rplus_le_compat; [exact B|]. rewrite Rabs_mult. apply Rmult_le_compat; try apply Rabs_pos; assumption. }
  assert (TT : 10 * T32 <= 1 / 10 ^ 22). { unfold T32. lra. }
  pose proof (Rabs_pos (rho * sn - cn + rho * (si - sn) - (cos (x / 2) - cn))) as NN. apply Rle_trans with ((3 / 10 ^ 22 * w + 4 * (T32 * w) + T32 * w) * 2); [apply Rmult_le_compat; lra|]. 
  replace ((3 / 10 ^ 22 * w + 4 * (T32 * w) + T32 * w) * 2) with ((6 / 10 ^ 22 + 10 * T32) * w) by field. apply Rmult_le_compat_r; lra.
Qed.
Lemma cot_bound x : 0 < x <= PI -> Rabs (1 - x / 2 * cos (x / 2) / sin (x / 2) - peval (weight 2 0 qpoly) (x ^ 2)) <= 7 / 10 ^ 22 * x ^ 2.
Proof.
  intros Hx. destruct (check_of_inv _ _ _ check_cot_true) as (r & s & c & e & E1 & E2 & E3 & E4 & C2 & C3).
  exact (cot_generic SR SS rpoly (weight 2 0 qpoly) (altern 1 shp) (altern 1 chp) x rpoly_eval eq_refl eq_refl r s c e E1 E2 E3 E4 C2 C3 (cos_tail x Hx) (sin_tail x Hx) Hx).
Qed.
