(** The Debye functions: hyperbolic series and Chebyshev tables on [0, 4], exponential series above. *)
From Coq Require Import QArith Qreals Qabs.
From Coquelicot Require Import Coquelicot.
From Verif Require Import Base RSumLib Ext S_Archimedean P_Debye P_Debye2 M_Specfunc M_DebyeSeries PolyQ PolyZ P_Basel P_Dilog.
From Coq Require Import Psatz.
Local Close Scope Q_scope. Open Scope R_scope.

(** ** hyperbolic functions and their Taylor polynomials *)
Definition ch (y : R) : R := (exp y + exp (- y)) / 2.
Definition sh (y : R) : R := (exp y - exp (- y)) / 2.
Lemma ch_derive y : is_derive ch y (sh y). Proof. unfold ch, sh. auto_derive; [exact Logic.I|field]. Qed.
Lemma sh_derive y : is_derive sh y (ch y). Proof. unfold ch, sh. auto_derive; [exact Logic.I|field]. Qed.
Definition chn (n : nat) (y : R) : R := ch y - rsum n (fun j => y ^ (2 * j) / INR (fact (2 * j))).
Definition shn (n : nat) (y : R) : R := sh y - rsum n (fun j => y ^ (2 * j + 1) / INR (fact (2 * j + 1))).
Lemma fact_pos n : 0 < INR (fact n). Proof. apply lt_0_INR, lt_O_fact. Qed.
Lemma mono_derive k y : is_derive (fun y => y ^ S k / INR (fact (S k))) y (y ^ k / INR (fact k)).
Proof.
  pose proof (fact_pos k). pose proof (INR_S_pos k). auto_derive; [exact Logic.I|]. change (fact k + k * fact k)%nat with (fact (S k)). fixinr.
  change (fact (S k)) with (S k * fact k)%nat. rewrite mult_INR. field. lra.
Qed.
Lemma shn_derive n y : is_derive (shn n) y (chn n y).
Proof.
  unfold shn, chn. apply (is_derive_minus (K := R_AbsRing) (V := R_NormedModule) sh); [apply sh_derive|].
  apply (is_derive_rsum n (fun j y => y ^ (2 * j + 1) / INR (fact (2 * j + 1)))). intros j _. rewrite Nat.add_1_r. apply mono_derive.
Qed.
Lemma chn_derive n y : is_derive (chn (S n)) y (shn n y).
Proof.
  unfold shn, chn. apply (is_derive_minus (K := R_AbsRing) (V := R_NormedModule) ch); [apply ch_derive|].
  apply (is_derive_ext (fun y => 1 + rsum n (fun j => y ^ S (2 * j + 1) / INR (fact (S (2 * j + 1)))))).
  { intros z. rewrite rsum_Sl. f_equal; [change (1 = 1 / 1); field|]. apply rsum_ext. intros j _. replace (2 * S j)%nat with (S (2 * j + 1)) by lia. reflexivity. }
  rewrite <- (Rplus_0_l (rsum _ _)). apply (is_derive_plus (K := R_AbsRing) (V := R_NormedModule) (fun _ => 1)); [apply (is_derive_const (K := R_AbsRing) (V := R_NormedModule))|].
  apply (is_derive_rsum n (fun j y => y ^ S (2 * j + 1) / INR (fact (S (2 * j + 1))))). intros j _. apply mono_derive.
Qed.
Lemma chn_0 n : chn (S n) 0 = 0.
Proof.
  unfold chn, ch. rewrite Ropp_0, exp_0, rsum_Sl, rsum_zero; [cbn; field|]. intros j _. rewrite pow_ne_zero by lia. unfold Rdiv. ring.
Qed.
Lemma shn_0 n : shn n 0 = 0.
Proof. unfold shn, sh. rewrite Ropp_0, rsum_zero; [field|]. intros j _. rewrite pow_ne_zero by lia. unfold Rdiv. ring. Qed.
(** a derivative between 0 and C y^k / k! *)
Lemma climb (f f' : R -> R) C k Y : f 0 = 0 -> (forall y, is_derive f y (f' y)) -> (forall y, 0 <= y <= Y -> 0 <= f' y <= C * (y ^ k / INR (fact k))) ->
  forall y, 0 <= y <= Y -> 0 <= f y <= C * (y ^ S k / INR (fact (S k))).
Proof.
  intros F0 DF B y Hy. destruct (Req_dec y 0) as [->|Ny]; [rewrite F0, pow_ne_zero by lia; unfold Rdiv; lra|].
  split.
  - destruct (MVT_gen f 0 y f') as [c [Hc E]]; rewrite ?Rmin_left, ?Rmax_right in * by lra; [intros; apply DF|intros; eapply cont_of_derive, DF|]. rewrite F0, !Rminus_0_r in E. specialize (B c ltac:(lra)). nra.
  - set (g := fun y => C * (y ^ S k / INR (fact (S k))) - f y). assert (DG : forall y, is_derive g y (C * (y ^ k / INR (fact k)) - f' y)).
    { intros z. apply (is_derive_minus (K := R_AbsRing) (V := R_NormedModule) (fun y => C * (y ^ S k / INR (fact (S k)))) f); [|apply DF]. apply (is_derive_scal (fun y => y ^ S k / INR (fact (S k)))), mono_derive. }
    destruct (MVT_gen g 0 y (fun y => C * (y ^ k / INR (fact k)) - f' y)) as [c [Hc E]]; rewrite ?Rmin_left, ?Rmax_right in * by lra; [intros; apply DG|intros; eapply cont_of_derive, DG|].
    specialize (B c ltac:(lra)). assert (G0 : g 0 = 0) by (unfold g; rewrite F0, pow_ne_zero by lia; unfold Rdiv; ring). rewrite G0, !Rminus_0_r in E. unfold g in E at 1. nra.
Qed.
Lemma taylor Y C : (forall y, 0 <= y <= Y -> 0 <= ch y <= C) -> forall n y, 0 <= y <= Y ->
  (0 <= chn n y <= C * (y ^ (2 * n) / INR (fact (2 * n)))) /\ (0 <= shn n y <= C * (y ^ (2 * n + 1) / INR (fact (2 * n + 1)))).
Proof.
  intros B0. assert (A : forall n y, 0 <= y <= Y -> 0 <= chn n y <= C * (y ^ (2 * n) / INR (fact (2 * n)))).
  { induction n as [|n IH]; intros y Hy; [unfold chn; cbn; specialize (B0 y Hy); lra|].
    assert (S1 : forall y, 0 <= y <= Y -> 0 <= shn n y <= C * (y ^ S (2 * n) / INR (fact (S (2 * n))))) by (apply (climb (shn n) (chn n)); [apply shn_0|apply shn_derive|exact IH]).
    replace (2 * S n)%nat with (S (S (2 * n))) by lia. revert y Hy. apply (climb (chn (S n)) (shn n)); [apply chn_0|apply chn_derive|exact S1]. }
  intros n y Hy. split; [apply A, Hy|]. rewrite Nat.add_1_r. revert y Hy. apply (climb (shn n) (chn n)); [apply shn_0|apply shn_derive|apply A].
Qed.
Lemma ch_le y : 0 <= y <= 2 -> 0 <= ch y <= 5.
Proof.
  intros H. unfold ch. pose proof (exp_pos y). pose proof (exp_pos (- y)). assert (exp y <= 9). { apply Rle_trans with (exp 2); [destruct (Req_dec y 2) as [->|]; [lra|left; apply exp_increasing; lra]|]. replace 2 with (1 + 1) by ring. rewrite exp_plus. pose proof exp_le_3. pose proof (exp_pos 1). nra. }
  assert (exp (- y) <= 1). { rewrite <- exp_0. destruct (Req_dec y 0) as [->|]; [rewrite Ropp_0; lra|left; apply exp_increasing; lra]. } lra.
Qed.

(** ** polynomials in w = x^2 *)
Definition NT : nat := 18.
Definition qfact (n : nat) : Q := inject_Z (fold_right (fun i z => (Z.of_nat i * z)%Z) 1%Z (seq 1 n)).
Lemma fact_fold n : fold_right (fun i z => (Z.of_nat i * z)%Z) 1%Z (seq 1 n) = Z.of_nat (fact n).
Proof.
  induction n as [|n IH]; [reflexivity|]. rewrite seq_S, fold_right_app. cbn [fold_right]. rewrite Z.mul_1_r. change (fact (S n)) with (S n * fact n)%nat. rewrite Nat2Z.inj_mul, <- IH.
  generalize (seq 1 n). intros l. cbn [Nat.add]. generalize (Z.of_nat (S n)). intros z. induction l as [|a l IHl]; cbn [fold_right]; [ring|]. rewrite IHl. ring.
Qed.
Lemma qfact_R n : Q2R (qfact n) = INR (fact n).
Proof. unfold qfact. rewrite fact_fold. unfold Q2R, inject_Z. cbn [Qnum Qden]. rewrite INR_IZR_INZ. field. Qed.
Definition q4 (j : nat) : Q := inject_Z (4 ^ Z.of_nat j).
Lemma q4_R j : Q2R (q4 j) = 4 ^ j.
Proof. unfold q4, Q2R, inject_Z. cbn [Qnum Qden]. rewrite <- (pow_IZR 4 j). field. Qed.
Definition chp : list Q := map (fun j => Qred (/ (q4 j * qfact (2 * j)))%Q) (seq 0 NT).
Definition shp : list Q := map (fun j => Qred (/ (q4 j * qfact (2 * j + 1)))%Q) (seq 0 NT).
Lemma Qnz (a : Q) : Q2R a <> 0 -> ~ (a == 0)%Q.
Proof. intros H E. apply H. rewrite (Qeq_eqR _ _ E). apply Q2R_0. Qed.
Lemma coef_R j n : Q2R (Qred (/ (q4 j * qfact n))%Q) = / (4 ^ j * INR (fact n)).
Proof. rewrite Q2R_red. assert (E : Q2R (q4 j * qfact n) = 4 ^ j * INR (fact n)) by (rewrite Q2R_mult, q4_R, qfact_R; reflexivity). rewrite Q2R_inv; [rewrite E; reflexivity|]. apply Qnz. rewrite E. pose proof (fact_pos n). pose proof (pow_lt 4 j ltac:(lra)). nra. Qed.
Lemma chp_eval x : peval chp (x ^ 2) = rsum NT (fun j => (x / 2) ^ (2 * j) / INR (fact (2 * j))).
Proof. unfold chp. rewrite peval_seq. apply rsum_ext. intros j _. rewrite coef_R, !pow_mult. pose proof (fact_pos (2 * j)). pose proof (pow_lt 4 j ltac:(lra)). replace ((x / 2) ^ 2) with (x ^ 2 * / 4) by field. rewrite Rpow_mult_distr, pow_inv. field. lra. Qed.
Lemma shp_eval x : x / 2 * peval shp (x ^ 2) = rsum NT (fun j => (x / 2) ^ (2 * j + 1) / INR (fact (2 * j + 1))).
Proof. unfold shp. rewrite peval_seq, <- rsum_scal. apply rsum_ext. intros j _. rewrite coef_R, pow_add, !pow_mult, pow_1. pose proof (fact_pos (2 * j + 1)). pose proof (pow_lt 4 j ltac:(lra)). replace ((x / 2) ^ 2) with (x ^ 2 * / 4) by field. rewrite Rpow_mult_distr, pow_inv. field. lra. Qed.

Opaque fact.
Definition TAIL : R := / 10 ^ 30.
Lemma tails x : 0 < x <= 4 -> Rabs (ch (x / 2) - peval chp (x ^ 2)) <= TAIL /\ Rabs (sh (x / 2) / (x / 2) - peval shp (x ^ 2)) <= TAIL.
Proof.
  intros Hx. destruct (taylor 2 5 ch_le NT (x / 2) ltac:(lra)) as [A B]. unfold chn, shn in A, B. rewrite <- chp_eval in A. rewrite <- shp_eval in B. replace (2 * NT)%nat with 36%nat in A, B by reflexivity. replace (36 + 1)%nat with 37%nat in B by reflexivity.
  assert (F36 : INR (fact 36) = IZR (fold_right (fun i z => (Z.of_nat i * z)%Z) 1%Z (seq 1 36))) by (rewrite fact_fold, INR_IZR_INZ; reflexivity).
  assert (F37 : INR (fact 37) = 37 * INR (fact 36)) by (rewrite (fact_simpl 36), mult_INR; f_equal; cbn; ring).
  assert (P : 0 <= (x / 2) ^ 36 <= 2 ^ 36) by (split; [apply pow_le; lra|apply pow_incr; lra]).
  assert (T1 : 5 * ((x / 2) ^ 36 / INR (fact 36)) <= TAIL).
  { apply Rle_trans with (5 * (2 ^ 36 / INR (fact 36))); [apply Rmult_le_compat_l; [lra|]; apply Rmult_le_compat_r; [left; apply Rinv_0_lt_compat, fact_pos|exact (proj2 P)]|]. rewrite F36. unfold TAIL.
    apply Rmult_le_reg_r with (10 ^ 30 * IZR (fold_right (fun i z => (Z.of_nat i * z)%Z) 1%Z (seq 1 36))); [rewrite <- F36; apply Rmult_lt_0_compat; [apply pow_lt; lra|apply fact_pos]|].
    pose proof (fact_pos 36) as FP. rewrite F36 in FP. pose proof (pow_lt 10 30 ltac:(lra)). set (z := IZR (fold_right _ 1%Z (seq 1 36))) in *. replace (5 * (2 ^ 36 / z) * (10 ^ 30 * z)) with (5 * 2 ^ 36 * 10 ^ 30) by (field; lra). replace (/ 10 ^ 30 * (10 ^ 30 * z)) with z by (field; lra). subst z.
    rewrite !pow_IZR, <- !mult_IZR. apply IZR_le. vm_compute. discriminate. }
  split; [apply Rabs_le; unfold TAIL in *; pose proof (pow_lt 10 30 ltac:(lra)) as Q; apply Rinv_0_lt_compat in Q; lra|].
  replace (sh (x / 2) / (x / 2) - peval shp (x ^ 2)) with ((sh (x / 2) - x / 2 * peval shp (x ^ 2)) * / (x / 2)) by (field; lra).
  assert (I : 0 < / (x / 2)) by (apply Rinv_0_lt_compat; lra). rewrite Rabs_pos_eq by (apply Rmult_le_pos; lra).
  apply Rle_trans with (5 * ((x / 2) ^ 37 / INR (fact 37)) * / (x / 2)); [apply Rmult_le_compat_r; lra|]. rewrite F37. pose proof (fact_pos 36).
  replace (5 * ((x / 2) ^ 37 / (37 * INR (fact 36))) * / (x / 2)) with (/ 37 * (5 * ((x / 2) ^ 36 / INR (fact 36)))) by (cbn [pow]; field; lra).
  assert (0 <= 5 * ((x / 2) ^ 36 / INR (fact 36))) by (apply Rmult_le_pos; [lra|]; apply Rmult_le_pos; [lra|left; apply Rinv_0_lt_compat; lra]). lra.
Qed.
(** the kernel t/(e^t - 1) = (t/2) coth(t/2) - t/2 *)
Lemma k1_coth x : 0 < x -> k1 x + x / 2 = ch (x / 2) / (sh (x / 2) / (x / 2)).
Proof.
  intros H. rewrite k1_nz by lra. unfold ch, sh. pose proof (expm1_pos x H). assert (E : exp x = exp (x / 2) * exp (x / 2)) by (rewrite <- exp_plus; f_equal; field). rewrite exp_Ropp. pose proof (exp_pos (x / 2)). rewrite E in *. set (e := exp (x / 2)) in *. field. repeat split; try lra; nra.
Qed.
Lemma shc_ge_1 x : 0 < x -> 1 <= sh (x / 2) / (x / 2).
Proof.
  intros H. apply Rmult_le_reg_r with (x / 2); [lra|]. replace (sh (x / 2) / (x / 2) * (x / 2)) with (sh (x / 2)) by (field; lra). rewrite Rmult_1_l.
  destruct (MVT_gen sh 0 (x / 2) ch) as [c [Hc E]]; [intros; apply sh_derive|intros; eapply cont_of_derive, sh_derive|]. unfold sh in E at 2. rewrite Ropp_0 in E.
  assert (1 <= ch c). { unfold ch. rewrite exp_Ropp. pose proof (exp_pos c). assert (exp c * / exp c = 1) by (apply Rinv_r; lra). assert (0 < / exp c) by (apply Rinv_0_lt_compat; lra). set (a := exp c) in *. set (b := / a) in *. pose proof (pow2_ge_0 (a - b)). assert (4 <= (a + b) * (a + b)) by nra. apply Rnot_lt_le. intros N. nra. } nra.
Qed.
(** an approximation k(x^2) of the kernel *)
Lemma kernel_approx k kb b x : 0 < x <= 4 -> Rabs (peval k (x ^ 2)) <= Q2R kb -> Rabs (peval (padd chp (popp (pmul k shp))) (x ^ 2)) <= Q2R b ->
  Rabs (peval k (x ^ 2) - (k1 x + x / 2)) <= Q2R b + TAIL * (1 + Q2R kb).
Proof.
  intros [Hx Hx4] B1 B2. rewrite peval_add, peval_opp, peval_mul in B2. destruct (tails x ltac:(lra)) as [T1 T2].
  rewrite (k1_coth x Hx). pose proof (shc_ge_1 x Hx) as S1. set (C := ch (x / 2)) in *. set (S := sh (x / 2) / (x / 2)) in *. set (kk := peval k (x ^ 2)) in *. set (cp := peval chp (x ^ 2)) in *. set (sp := peval shp (x ^ 2)) in *.
  assert (E : Rabs (C - kk * S) <= Q2R b + TAIL * (1 + Q2R kb)).
  { replace (C - kk * S) with ((cp + - (kk * sp)) + (C - cp) - kk * (S - sp)) by ring.
    assert (Rabs (kk * (S - sp)) <= Q2R kb * TAIL) by (rewrite Rabs_mult; apply Rmult_le_compat; try apply Rabs_pos; assumption).
    apply Rabs_le_between in B2. apply Rabs_le_between in T1. apply Rabs_le_between in H. apply Rabs_le. lra. }
  replace (kk - C / S) with (- (C - kk * S) * / S) by (field; lra). rewrite Rabs_mult, Rabs_Ropp. rewrite <- (Rmult_1_r (Q2R b + TAIL * (1 + Q2R kb))). apply Rmult_le_compat; try apply Rabs_pos; [exact E|].
  rewrite Rabs_pos_eq by (left; apply Rinv_0_lt_compat; lra). rewrite <- Rinv_1. apply Rinv_le_contravar; lra.
Qed.
(** checked on [0, 4] by exact integer arithmetic in the Chebyshev basis; Sk, Ss clear the denominators *)
Definition kernel_cheb_check (Sk Ss : Z) (k : list Q) (kb b : Q) : bool :=
  match toZ Sk 16 k, toZ Ss 16 shp, toZ (Sk * Ss) 16 chp with
  | Some kz, Some sz, Some cz => (0 <? Sk)%Z && (0 <? Ss)%Z && zbound kz Sk kb && zbound (zadd cz (zscal (-1) (zmul kz sz))) (Sk * Ss) b
  | _, _, _ => false
  end.
Lemma kernel_cheb Sk Ss k kb b x : kernel_cheb_check Sk Ss k kb b = true -> 0 < x <= 4 -> Rabs (peval k (x ^ 2) - (k1 x + x / 2)) <= Q2R b + TAIL * (1 + Q2R kb).
Proof.
  intros C Hx. unfold kernel_cheb_check in C. destruct (toZ Sk 16 k) as [kz|] eqn:E1; [|discriminate]. destruct (toZ Ss 16 shp) as [sz|] eqn:E2; [|discriminate]. destruct (toZ (Sk * Ss) 16 chp) as [cz|] eqn:E3; [|discriminate].
  apply andb_prop in C. destruct C as [C C2]. apply andb_prop in C. destruct C as [C C1]. apply andb_prop in C. destruct C as [P1 P2]. apply Z.ltb_lt, IZR_lt in P1. apply Z.ltb_lt, IZR_lt in P2.
  set (z := x ^ 2 / 16). assert (Hz : 0 <= z <= 1) by (unfold z; nra). assert (W : IZR 16 * z = x ^ 2) by (unfold z; field).
  pose proof (toZ_eval 16 z _ _ _ E1) as F1. pose proof (toZ_eval 16 z _ _ _ E2) as F2. pose proof (toZ_eval 16 z _ _ _ E3) as F3. rewrite W in *.
  apply (zbound_R _ _ _ z Hz) in C1. apply (zbound_R _ _ _ z Hz) in C2. rewrite zeval_add, zeval_scal, zeval_mul, F1, F2, F3, mult_IZR in C2. rewrite F1, Rabs_mult, Rabs_pos_eq in C1 by lra. apply Rmult_le_reg_l in C1; [|exact P1].
  apply kernel_approx; [exact Hx|exact C1|]. rewrite peval_add, peval_opp, peval_mul. apply (Rmult_le_reg_l (IZR Sk * IZR Ss)); [apply Rmult_lt_0_compat; assumption|]. rewrite <- (Rabs_pos_eq (IZR Sk * IZR Ss)) at 1 by (apply Rmult_le_pos; lra). rewrite <- Rabs_mult.
  eapply Rle_trans; [|exact C2]. right. f_equal. ring.
Qed.
(** checked near 0 by absolute values *)
Definition kernel_check (bound : list Q -> Q) (k : list Q) (kb b : Q) : bool := Qle_bool (bound k) kb && Qle_bool (bound (padd chp (popp (pmul k shp)))) b.
Lemma sumabs_R p w : 0 <= w <= 1 -> Rabs (peval p w) <= Q2R (sumabs p).
Proof.
  intros H. induction p as [|a r IH]; cbn [peval sumabs fold_right]; [rewrite Rabs_R0, Q2R_0; lra|]. rewrite qplus_R, Q2R_abs. eapply Rle_trans; [apply Rabs_triang|]. apply Rplus_le_compat_l. rewrite Rabs_mult, (Rabs_pos_eq w) by lra. fold (sumabs r).
  pose proof (Rabs_pos (peval r w)). nra.
Qed.
Definition hbound (W : Q) (p : list Q) : Q := match p with a :: b :: r => qplus (Qabs a) (qmult W (qplus (Qabs b) (qmult W (sumabs r)))) | _ => sumabs p end.
Lemma hbound_R W p w : Q2R W <= 1 -> 0 <= w <= Q2R W -> Rabs (peval p w) <= Q2R (hbound W p).
Proof.
  intros HW H. destruct p as [|a [|b r]]; [apply sumabs_R; lra|apply sumabs_R; lra|]. cbn [peval hbound]. rewrite !qplus_R, !qmult_R, qplus_R, !Q2R_abs, qmult_R. pose proof (sumabs_R r w ltac:(lra)) as B.
  eapply Rle_trans; [apply Rabs_triang|]. apply Rplus_le_compat_l. rewrite Rabs_mult, (Rabs_pos_eq w) by lra. apply Rmult_le_compat; [lra|apply Rabs_pos|lra|]. eapply Rle_trans; [apply Rabs_triang|]. apply Rplus_le_compat_l. rewrite Rabs_mult, (Rabs_pos_eq w) by lra. apply Rmult_le_compat; [lra|apply Rabs_pos|lra|exact B].
Qed.
Lemma kernel_small W k kb b x : Q2R W <= 1 -> kernel_check (hbound W) k kb b = true -> 0 < x <= 4 -> x ^ 2 <= Q2R W -> Rabs (peval k (x ^ 2) - (k1 x + x / 2)) <= Q2R b + TAIL * (1 + Q2R kb).
Proof.
  intros HW C Hx Hw. apply andb_prop in C. destruct C as [C1 C2]. assert (P : 0 <= x ^ 2) by (apply pow_le; lra). apply Qle_bool_iff, Qle_Rle in C1. apply Qle_bool_iff, Qle_Rle in C2.
  apply kernel_approx; [exact Hx| |]; (eapply Rle_trans; [apply (hbound_R W); [exact HW|split; assumption]|assumption]).
Qed.
