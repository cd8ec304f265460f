(** Property C81: the library's debye_1 and debye_2 (/repo/copulae/special/_specfunc.pyx:262-337) against the integrals that define the
    Debye functions, for every real argument. *)
From Coq Require Import QArith Qreals Qabs.
From Coquelicot Require Import Coquelicot.
From Verif Require Import Base RSumLib Ext S_Archimedean M_Archimedean M_Debye P_Debye P_Debye2 M_Specfunc M_DebyeSeries P_DebyeSeries P_DebyeSeries2 P_DebyeSeries3.
From Coq Require Import Psatz.
Local Close Scope Q_scope. Open Scope R_scope.

Ltac dec := unfold decimal; cbn [fst snd]; repeat match goal with |- context [Z.to_nat ?z] => let n := eval compute in (Z.to_nat z) in change (Z.to_nat z) with n end.
Lemma dec_small : SQRT_DBL_EPSILON = 14901161193847656 / 10 ^ 24. Proof. reflexivity. Qed.
Lemma cut_value : X_CUT = 7083964185322641 / 10 ^ 13. Proof. unfold X_CUT, LOG_DBL_MIN. dec. cbn [pow]. lra. Qed.
Lemma ln_value : 35 <= - (M_LN2 + LOG_DBL_EPSILON) <= 36.
Proof. unfold M_LN2, LOG_DBL_EPSILON. dec. cbn [pow]. lra. Qed.
Lemma sqrt2_value : 0 < M_SQRT2 <= 15 / 10. Proof. unfold M_SQRT2. dec. cbn [pow]. lra. Qed.
Lemma eps_value : 0 < SQRT_DBL_EPSILON <= 1 / 50000000. Proof. unfold SQRT_DBL_EPSILON. dec. cbn [pow]. lra. Qed.
Lemma cut_bound : 700 <= X_CUT. Proof. rewrite cut_value. cbn [pow]. lra. Qed.
Lemma nexp_bound x : 4 < x -> 70 <= INR (S (Z.to_nat (Int_part (X_CUT / x)))) * x.
Proof.
  intros Hx. pose proof cut_bound. destruct (base_Int_part (X_CUT / x)) as [B1 B2]. assert (P : 0 < X_CUT / x) by (apply Rdiv_lt_0_compat; lra).
  assert (Z0 : (0 <= Int_part (X_CUT / x))%Z). { apply Zlt_succ_le. apply lt_IZR. rewrite succ_IZR. lra. }
  rewrite S_INR, INR_IZR_INZ, Z2Nat.id by exact Z0. assert (X_CUT / x < IZR (Int_part (X_CUT / x)) + 1) by lra. assert (E : X_CUT = X_CUT / x * x) by (field; lra). nra.
Qed.
Lemma one_term x : A 1 x = exp (- x) * (x + 1) /\ B 1 x = (2 + 2 * x + x ^ 2) * exp (- x).
Proof. unfold A, B. cbn [rsum INR]. rewrite !Rplus_0_l, Rmult_1_l. split; field. Qed.

(** every positive argument: closer than 2.5e-16 and 4e-17 to the defining integrals *)
Theorem C81_debye_1 : forall x, 0 < x -> exists v, debye_1 x = Some v /\ Rabs (v - 1 / x * RInt (fun t => if Reqb t 0 then 1 else t / (exp t - 1)) 0 x) <= 247 / 10 ^ 18.
Proof.
  intros x Hx. assert (D : 1 / x * RInt (fun t => if Reqb t 0 then 1 else t / (exp t - 1)) 0 x = debye 1 x).
  { unfold debye. rewrite pow_1. change (INR 1) with 1. f_equal. apply RInt_ext. intros t _. unfold debye_kernel. cbn [Nat.eqb]. rewrite pow_1. reflexivity. }
  rewrite D. unfold debye_1. rewrite (proj2 (Rltb_false _ _)) by lra. eexists. split; [reflexivity|]. cbv zeta. pose proof eps_value. pose proof ln_value. pose proof cut_bound. assert (K : / 10 ^ 17 <= 247 / 10 ^ 18) by (cbn [pow]; lra). assert (K2 : 2 / 10 ^ 18 <= 247 / 10 ^ 18) by (cbn [pow]; lra).
  destruct (Rltb x (2 * SQRT_DBL_EPSILON)) eqn:B1; [apply Rltb_true in B1; eapply Rle_trans; [apply small1; lra|exact K2]|apply Rltb_false in B1].
  destruct (Rleb x 4) eqn:B2; [apply Rleb_true in B2; apply table1; lra|apply Rleb_false in B2].
  destruct (Rleb x _) eqn:B3; [apply Rleb_true in B3|apply Rleb_false in B3].
  - rewrite loop1 by lra. rewrite <- Rdiv_minus_distr. eapply Rle_trans; [apply series1; [lra|apply nexp_bound; lra]|exact K].
  - destruct (Rltb x X_CUT) eqn:B4; [apply Rltb_true in B4|apply Rltb_false in B4].
    + rewrite <- (proj1 (one_term x)). eapply Rle_trans; [apply series1; [lra|cbn [INR]; lra]|exact K].
    + replace (decimal (164493406684822644%Z, 17%Z)) with (decimal (164493406684822644%Z, 17%Z) - A 0 x) by (unfold A; cbn [rsum]; ring). eapply Rle_trans; [apply series1; [lra|cbn [INR]; lra]|exact K].
Qed.
Print Assumptions C81_debye_1.
Theorem C81_debye_2 : forall x, 0 < x -> exists v, debye_2 x = Some v /\ Rabs (v - 2 / x ^ 2 * RInt (fun t => if Reqb t 0 then 0 else t ^ 2 / (exp t - 1)) 0 x) <= 40 / 10 ^ 18.
Proof.
  intros x Hx. assert (D : 2 / x ^ 2 * RInt (fun t => if Reqb t 0 then 0 else t ^ 2 / (exp t - 1)) 0 x = debye 2 x) by (unfold debye; replace (INR 2) with 2 by (cbn; ring); reflexivity).
  rewrite D. unfold debye_2. rewrite (proj2 (Rltb_false _ _)) by lra. eexists. split; [reflexivity|]. cbv zeta. pose proof eps_value. pose proof ln_value. pose proof cut_bound. pose proof sqrt2_value. assert (K : / 10 ^ 17 <= 40 / 10 ^ 18) by (cbn [pow]; lra). assert (K2 : 4 / 10 ^ 18 <= 40 / 10 ^ 18) by (cbn [pow]; lra).
  destruct (Rltb x (2 * M_SQRT2 * SQRT_DBL_EPSILON)) eqn:B1; [apply Rltb_true in B1; eapply Rle_trans; [apply small2; nra|exact K2]|apply Rltb_false in B1].
  destruct (Rleb x 4) eqn:B2; [apply Rleb_true in B2; apply table2; lra|apply Rleb_false in B2].
  destruct (Rltb x (- _)) eqn:B3; [apply Rltb_true in B3|apply Rltb_false in B3].
  - rewrite (loop2 x) by lra. rewrite <- Rdiv_minus_distr. eapply Rle_trans; [apply series2; [lra|apply nexp_bound; lra]|exact K].
  - destruct (Rltb x X_CUT) eqn:B4; [apply Rltb_true in B4|apply Rltb_false in B4].
    + rewrite Rmult_assoc, <- (proj2 (one_term x)). eapply Rle_trans; [apply series2; [lra|cbn [INR]; lra]|exact K].
    + replace (decimal (480822761263837714%Z, 17%Z)) with (decimal (480822761263837714%Z, 17%Z) - 2 * B 0 x) by (unfold B; cbn [rsum]; ring). eapply Rle_trans; [apply series2; [lra|cbn [INR]; lra]|exact K].
Qed.
Print Assumptions C81_debye_2.
(** nan exactly below 0; at 0 the limit of the functions *)
Theorem C81_domain : forall x, (debye_1 x = None <-> x < 0) /\ (debye_2 x = None <-> x < 0).
Proof.
  intros x. unfold debye_1, debye_2. destruct (Rltb x 0) eqn:B; [apply Rltb_true in B|apply Rltb_false in B]; split; split; intros; try reflexivity; try discriminate; lra.
Qed.
Print Assumptions C81_domain.
Theorem C81_zero : debye_1 0 = Some 1 /\ debye_2 0 = Some 1 /\
  (forall e, 0 < e -> exists d, 0 < d /\ forall x, 0 < x < d ->
    Rabs (1 / x * RInt (fun t => if Reqb t 0 then 1 else t / (exp t - 1)) 0 x - 1) < e /\
    Rabs (2 / x ^ 2 * RInt (fun t => if Reqb t 0 then 0 else t ^ 2 / (exp t - 1)) 0 x - 1) < e).
Proof.
  pose proof eps_value. pose proof sqrt2_value. split; [|split].
  - unfold debye_1. rewrite (proj2 (Rltb_false 0 0)), (proj2 (Rltb_true _ _)) by lra. f_equal. field.
  - unfold debye_2. rewrite (proj2 (Rltb_false 0 0)), (proj2 (Rltb_true _ _)) by nra. f_equal. field.
  - intros e He. exists (Rmin 1 e). split; [apply Rmin_glb_lt; lra|]. intros x [Hx Hd]. pose proof (Rmin_l 1 e). pose proof (Rmin_r 1 e).
    assert (K : forall t, 0 < t -> 1 - t / 2 <= k1 t <= 1).
    { intros t Ht. split; [|apply kernel1_le_1; lra]. rewrite k1_nz by lra. pose proof (expm1_pos t Ht) as E.
      assert (Q : 0 < (t - 2) * exp t + t + 2).
      { apply (positive_of_derive (fun t => (t - 2) * exp t + t + 2) (fun t => (t - 1) * exp t + 1)); [rewrite exp_0; ring| | |exact Ht].
        - intros y. auto_derive; [exact Logic.I|ring].
        - intros y Hy. pose proof (exp_lt_quot y Hy). lra. }
      apply Rminus_le_0. replace (t / (exp t - 1) - (1 - t / 2)) with (((t - 2) * exp t + t + 2) / (2 * (exp t - 1))) by (field; lra). apply Rlt_le, Rdiv_lt_0_compat; lra. }
    split.
    + replace (RInt (fun t => if Reqb t 0 then 1 else t / (exp t - 1)) 0 x) with (RInt k1 0 x) by (apply RInt_ext; intros t _; unfold debye_kernel; cbn [Nat.eqb]; rewrite pow_1; reflexivity).
      destruct (MVT_cor2 (fun t => RInt k1 0 t) k1 0 x Hx) as [c [E C]]; [intros t _; apply is_derive_Reals, debye_int_derive|]. rewrite int_0 in E. specialize (K c ltac:(lra)).
      replace (1 / x * RInt k1 0 x - 1) with (k1 c - 1) by (replace (RInt k1 0 x) with (k1 c * x) by lra; field; lra). apply Rabs_def1; lra.
    + change (RInt (fun t => if Reqb t 0 then 0 else t ^ 2 / (exp t - 1)) 0 x) with (RInt k2 0 x).
      destruct (MVT_cor2 (fun t => RInt k2 0 t - t ^ 2 / 2) (fun t => k2 t - t) 0 x Hx) as [c [E C]].
      { intros t _. apply is_derive_Reals. apply (is_derive_minus (K := R_AbsRing) (V := R_NormedModule) (fun t => RInt k2 0 t) (fun t => t ^ 2 / 2)); [apply int2_derive|auto_derive; [exact Logic.I|field]]. }
      rewrite int_0, k2_k1 in E. specialize (K c ltac:(lra)). replace (2 / x ^ 2 * RInt k2 0 x - 1) with (2 * (k1 c - 1) * (c / x)) by (replace (RInt k2 0 x) with (x ^ 2 / 2 + (c * k1 c - c) * x) by lra; field; lra).
      assert (0 <= c / x <= 1). { split; [apply Rdiv_le_0_compat; lra|]. apply (Rmult_le_reg_r x); [lra|]. unfold Rdiv. rewrite Rmult_assoc, Rinv_l, Rmult_1_r by lra. lra. }
      apply Rabs_def1; nra.
Qed.
Print Assumptions C81_zero.

(** Frank's tau and rho computed with these routines, for every theta outside [-1e-8, 1e-8]; [debye n] is the integral above, also for
    negative arguments (S_Archimedean) *)
Theorem C81_frank : forall th, / 100000000 < Rabs th -> exists t r,
  frank_tau_code debye_1 th = Some t /\ Rabs (t - (1 + 4 / th * (debye 1 th - 1))) <= / 10 ^ 15 / Rabs th /\
  frank_rho_code debye_1 debye_2 th = Some r /\ Rabs (r - (1 + 12 / th * (debye 2 th - debye 1 th))) <= 4 / 10 ^ 15 / Rabs th.
Proof.
  intros th H. assert (Hz : th <> 0) by (intros ->; rewrite Rabs_R0 in H; lra). assert (P : 0 < Rabs th) by (apply Rabs_pos_lt, Hz).
  destruct (C81_debye_1 (Rabs th) P) as [v1 [E1 B1]]. destruct (C81_debye_2 (Rabs th) P) as [v2 [E2 B2]].
  assert (D1 : 1 / Rabs th * RInt (fun t => if Reqb t 0 then 1 else t / (exp t - 1)) 0 (Rabs th) = debye 1 (Rabs th)).
  { unfold debye. rewrite pow_1. change (INR 1) with 1. f_equal. apply RInt_ext. intros t _. unfold debye_kernel. cbn [Nat.eqb]. rewrite pow_1. reflexivity. }
  assert (D2 : 2 / Rabs th ^ 2 * RInt (fun t => if Reqb t 0 then 0 else t ^ 2 / (exp t - 1)) 0 (Rabs th) = debye 2 (Rabs th)) by (unfold debye; replace (INR 2) with 2 by (cbn; ring); reflexivity).
  rewrite D1 in B1. rewrite D2 in B2.
  assert (X : exists d1 d2, frank_debye1 debye_1 th = Some d1 /\ frank_debye2 debye_2 th = Some d2 /\ Rabs (d1 - debye 1 th) <= 247 / 10 ^ 18 /\ Rabs (d2 - debye 2 th) <= 40 / 10 ^ 18).
  { unfold frank_debye1, frank_debye2. rewrite E1, E2. do 2 eexists. do 2 (split; [reflexivity|]). destruct (Rltb th 0) eqn:S; [apply Rltb_true in S|apply Rltb_false in S].
    - rewrite (Rabs_left th S) in *. rewrite (debye1_opp th Hz) in B1. rewrite (debye2_opp th Hz) in B2. split; [replace (v1 - th / 2 - debye 1 th) with (v1 - (debye 1 th + th / 2)) by ring|replace (v2 - 2 / 3 * th - debye 2 th) with (v2 - (debye 2 th + 2 / 3 * th)) by ring]; assumption.
    - rewrite (Rabs_pos_eq th S) in *. auto. }
  destruct X as [d1 [d2 [F1 [F2 [X1 X2]]]]]. unfold frank_tau_code, frank_rho_code. rewrite (proj2 (Rleb_false _ _) H), F1, F2. do 2 eexists. split; [reflexivity|]. split; [|split; [reflexivity|]].
  - unfold frank_tau_. replace (1 + 4 * (d1 - 1) / th - (1 + 4 / th * (debye 1 th - 1))) with (4 * (d1 - debye 1 th) / th) by (field; exact Hz). unfold Rdiv at 1. rewrite Rabs_mult, Rabs_Rinv by exact Hz.
    apply Rmult_le_compat_r; [apply Rlt_le, Rinv_0_lt_compat, P|]. rewrite Rabs_mult, (Rabs_pos_eq 4) by lra. assert (4 * (247 / 10 ^ 18) <= / 10 ^ 15) by (cbn [pow]; lra). lra.
  - unfold frank_rho. rewrite (proj2 (Rleb_false _ _) H). replace (1 + 12 / th * (d2 - d1) - (1 + 12 / th * (debye 2 th - debye 1 th))) with (12 * ((d2 - debye 2 th) - (d1 - debye 1 th)) / th) by (field; exact Hz). unfold Rdiv at 1. rewrite Rabs_mult, Rabs_Rinv by exact Hz.
    apply Rmult_le_compat_r; [apply Rlt_le, Rinv_0_lt_compat, P|]. rewrite Rabs_mult, (Rabs_pos_eq 12) by lra. apply Rabs_le_between in X1. apply Rabs_le_between in X2. assert (12 * (287 / 10 ^ 18) <= 4 / 10 ^ 15) by (cbn [pow]; lra). assert (Rabs (d2 - debye 2 th - (d1 - debye 1 th)) <= 287 / 10 ^ 18) by (apply Rabs_le_between; lra). lra.
Qed.
Print Assumptions C81_frank.
(** all five branches occur: the polynomial, the table, the series, one term, none; and Frank at a negative theta *)
Example C81_case : (exists v, debye_1 (/ 10 ^ 8) = Some v) /\ (exists v, debye_1 1 = Some v) /\ (exists v, debye_2 5 = Some v) /\ (exists v, debye_2 100 = Some v) /\
  debye_1 1000 = Some (decimal (164493406684822644, 17)%Z / 1000) /\ / 100000000 < Rabs (-5).
Proof.
  pose proof eps_value. pose proof ln_value. assert (0 < / 10 ^ 8) by (apply Rinv_0_lt_compat, pow_lt; lra).
  split; [destruct (C81_debye_1 (/ 10 ^ 8)) as [v [E _]]; [assumption|exists v; exact E]|]. split; [destruct (C81_debye_1 1) as [v [E _]]; [lra|exists v; exact E]|]. split; [destruct (C81_debye_2 5) as [v [E _]]; [lra|exists v; exact E]|]. split; [destruct (C81_debye_2 100) as [v [E _]]; [lra|exists v; exact E]|]. split; [|rewrite Rabs_left; lra].
  unfold debye_1. rewrite (proj2 (Rltb_false _ _)), (proj2 (Rltb_false _ _)), (proj2 (Rleb_false _ _)), (proj2 (Rleb_false _ _)), (proj2 (Rltb_false _ _)); try lra; [reflexivity|]. rewrite cut_value. cbn [pow]. lra.
Qed.
