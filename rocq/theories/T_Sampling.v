(** C100, C101: rows of the Clayton and Frank samplers in three or more dimensions. *)
From Coquelicot Require Import Coquelicot.
From Verif Require Import Base RSumLib Ext S_Archimedean P_Gen P_Arch P_Arch2 P_ArchCode M_Archimedean M_Special M_Stats T_Stats M_Sampling S_Sampling P_Sampling.
From Coq Require Import Psatz.
Local Close Scope Z_scope. Open Scope R_scope.

(** A Clayton row: given the gamma variate v, the row is below us with probability prod (b v), and the mean of that over the gamma
    distribution with shape 1 / theta is the cdf of the copula at us. *)
Theorem C100_clayton : forall th, / 10000000 <= th ->
  exists G, 0 < G /\ half_line (fun v => Rpower v (1 / th - 1) * exp (- v)) G /\
  forall us, inside us ->
  exists (b : R -> list R) (c : R), clayton_cdf th (map Fin us) = Ok (Fin c) /\
    (forall v, 0 < v -> below_iff (clayton_random_row th v) us (b v)) /\
    half_line (fun v => gamma_density (1 / th) G v * prod (b v)) c.
Proof.
  intros th Hth. assert (T0 : 0 < th) by lra. destruct (gamma_exists (1 / th) ltac:(apply Rdiv_lt_0_compat; lra)) as [G [HG H]].
  exists G. split; [exact HG|]. split; [exact H|]. intros us Hus. pose proof (cp_gen th T0) as GEN.
  assert (I2 : forall s, 0 <= s -> 0 < cp_psi th s /\ cp_f th (cp_psi th s) = s) by (intros s Hs; destruct (cp_inv2 th s T0 Hs) as [A B]; split; [lra|exact B]).
  exists (fun v => map (fun u => exp (- (v * cp_f th u))) us), (rcdf (cp_psi th) (cp_f th) us). split; [|split].
  - apply clayton_cdf_pos; [exact T0|]. unfold unit_cube, inside in *. eapply Forall_impl; [|exact Hus]. cbv beta. intros; lra.
  - intros v Hv. unfold clayton_random_row, below_iff. rewrite Rltb_ge by (rewrite Rabs_pos_eq; lra).
    exact (row_below (cp_psi th) (cp_f th) (clayton_psi th) GEN I2 (fun s Hs => clayton_psi_pos th s T0 Hs) v us Hv Hus).
  - assert (R0 : rcdf (cp_psi th) (cp_f th) us = Rpower (1 + lsum (map (cp_f th) us)) (- (1 / th))).
    { unfold rcdf. destruct (existsb _ us) eqn:E0; [|unfold cp_psi; f_equal; field; lra]. apply existsb_exists in E0. destruct E0 as [x [Ix Ex]]. apply Reqb_true in Ex. unfold inside in Hus. rewrite Forall_forall in Hus. specialize (Hus x Ix). lra. }
    rewrite R0. eapply half_ext; [|apply (gamma_laplace (1 / th) G (lsum (map (cp_f th) us)) HG); [apply (f_sum_pos _ _ GEN us Hus)|exact H]].
    intros v Hv. cbv beta. rewrite (row_prod (cp_f th)). reflexivity.
Qed.
Print Assumptions C100_clayton.
Example C100_clayton_case : / 10000000 <= 1 /\ inside [1 / 2; 1 / 3; 3 / 4] /\ half_line (fun v => Rpower v (1 / 1 - 1) * exp (- v)) 1 /\
  exists c, clayton_cdf 1 (map Fin [1 / 2; 1 / 3; 3 / 4]) = Ok (Fin c) /\ c = 3 / 13.
Proof.
  split; [lra|]. split; [repeat constructor; lra|]. split; [replace (1 / 1 - 1) with (1 - 1) by lra; exact exp_half|].
  exists (rcdf (cp_psi 1) (cp_f 1) [1 / 2; 1 / 3; 3 / 4]). split; [apply clayton_cdf_pos; [lra|repeat constructor; lra]|].
  unfold rcdf. cbn [existsb]. rewrite !Reqb_neq by lra. cbn [orb]. unfold cp_psi, cp_f, lsum. cbn [map fold_right].
  replace (-1 / 1) with (- (1)) by lra. rewrite !Rpower_Ropp, !Rpower_1; try lra. rewrite !Rpower_1; lra.
Qed.

Lemma mapM_nth (g : R -> result ext) (h : R -> R) ws : (forall w, In w ws -> g w = Ok (Fin (h w))) -> mapM g ws = Ok (map Fin (map h ws)).
Proof. induction ws as [|w ws IH]; intros H; cbn [mapM map]; [reflexivity|]. rewrite H by (left; reflexivity). rewrite IH by (intros x Ix; apply H; right; exact Ix). reflexivity. Qed.
Lemma ln2_below : ln 2 < 3 / 4.
Proof.
  rewrite <- (ln_exp (3 / 4)). apply ln_increasing; [lra|]. replace (3 / 4) with (1 / 8 + (1 / 8 + (1 / 8 + (1 / 8 + (1 / 8 + 1 / 8))))) by lra. rewrite !exp_plus. pose proof (exp_ineq1_le (1 / 8)). assert (E2 : 81 / 64 <= exp (1 / 8) * exp (1 / 8)) by nra. assert (E3 : 729 / 512 <= exp (1 / 8) * (exp (1 / 8) * exp (1 / 8))) by nra. nra.
Qed.
Lemma guard_nz th : 0 < th -> Reqb (ln (1 - exp (- th))) 0 = false.
Proof.
  intros H. apply Reqb_neq. assert (0 < exp (- th) < 1) by (split; [apply exp_pos|rewrite <- exp_0; apply exp_increasing; lra]). assert (ln (1 - exp (- th)) < 0) by (rewrite <- ln_1; apply ln_increasing; lra). lra.
Qed.
(** A Frank row with theta > 3: the frailty is a uniform, and each entry of the row is below a number smaller than 1/4 with probability
    above 2/3, though it should be uniform. *)
Theorem C101_frank_margin_refuted : forall th, 3 < th ->
  exists (x0 : R) (b : R -> R) (pr : R), 0 < x0 < 1 / 4 /\ 2 / 3 < pr /\ is_RInt b 0 1 pr /\
    (forall v, 0 < v < 1 -> 0 < b v < 1) /\
    forall fuel v u2 ws, 0 < v < 1 -> inside ws ->
      exists r, frank_random_row (S fuel) th v u2 ws = Some (Ok (map Fin r)) /\ length r = length ws /\
        forall i, (i < length ws)%nat -> (nth i r 0 <= x0 <-> nth i ws 0 <= b v).
Proof.
  intros th Hth. pose proof (fr_gen th ltac:(lra)) as GEN. pose proof ln2_below as L2. assert (L0 : 0 < ln 2) by (rewrite <- ln_1; apply ln_increasing; lra).
  assert (X : 0 < fr_psi th (ln 2) < 1 / 4).
  { unfold fr_psi. replace (exp (- ln 2)) with (/ 2) by (rewrite exp_Ropp, exp_ln; lra). assert (0 < exp (- th) < 1) by (split; [apply exp_pos|rewrite <- exp_0; apply exp_increasing; lra]).
    assert (A1 : ln (1 + (exp (- th) - 1) * / 2) < 0) by (rewrite <- ln_1; apply ln_increasing; lra).
    assert (A2 : - ln 2 < ln (1 + (exp (- th) - 1) * / 2)) by (rewrite <- ln_Rinv by lra; apply ln_increasing; lra).
    split; [apply Rdiv_lt_0_compat; lra|]. apply Rmult_lt_reg_r with th; [lra|]. unfold Rdiv at 1. rewrite Rmult_assoc, Rinv_l by lra. lra. }
  assert (I2 : forall s, 0 <= s -> 0 < fr_psi th s /\ fr_f th (fr_psi th s) = s).
  { intros s Hs. split; [|apply fr_inv2; lra]. unfold fr_psi. assert (0 < exp (- th) < 1) by (split; [apply exp_pos|rewrite <- exp_0; apply exp_increasing; lra]). assert (0 < exp (- s) <= 1) by (split; [apply exp_pos|rewrite <- exp_0; apply exp_mono; lra]). apply Rdiv_lt_0_compat; [|lra]. assert (ln (1 + (exp (- th) - 1) * exp (- s)) < 0); [|lra]. rewrite <- ln_1. apply ln_increasing; nra. }
  exists (fr_psi th (ln 2)), (fun v => exp (- (v * ln 2))), ((1 - exp (- ln 2)) / ln 2). split; [exact X|]. split; [|split; [|split]].
  - replace (exp (- ln 2)) with (/ 2) by (rewrite exp_Ropp, exp_ln; lra). apply Rmult_lt_reg_r with (ln 2); [exact L0|]. unfold Rdiv at 2. rewrite Rmult_assoc, Rinv_l by lra. lra.
  - replace ((1 - exp (- ln 2)) / ln 2) with (minus ((fun v => - exp (- (v * ln 2)) / ln 2) 1) ((fun v => - exp (- (v * ln 2)) / ln 2) 0)).
    + apply (is_RInt_derive (V := R_CompleteNormedModule) (fun v => - exp (- (v * ln 2)) / ln 2)).
      * intros x _. evar_last; [auto_derive; [exact Logic.I|reflexivity]|]. field. lra.
      * intros x _. apply (ex_derive_continuous (fun v => exp (- (v * ln 2)))). auto_derive. exact Logic.I.
    + unfold minus, plus, opp. cbn. rewrite Rmult_0_l, Ropp_0, exp_0, Rmult_1_l. field. lra.
  - intros v Hv. split; [apply exp_pos|]. rewrite <- exp_0. apply exp_increasing. nra.
  - intros fuel v u2 ws Hv Hws. exists (map (fun w => fr_psi th (- ln w / v)) ws).
    assert (FP : forall s, 0 <= s -> frank_psi th (Fin s) = Ok (Fin (fr_psi th s))) by (intros s Hs; apply frank_psi_pos; lra).
    split; [|split; [apply map_length|]].
    + unfold frank_random_row. rewrite Rltb_ge by (rewrite Rabs_pos_eq; lra). rewrite guard_nz by lra.
      rewrite (proj1 (C50_large_refuted fuel (- th) [v] [u2] ltac:(lra) ltac:(repeat constructor; lra))). cbn [map option_map]. f_equal.
      apply mapM_nth. intros w Iw. unfold inside in Hws. rewrite Forall_forall in Hws. apply (one_entry (fr_psi th) (frank_psi th) FP v w); [lra|apply Hws, Iw].
    + intros i Hi. rewrite (nth_indep _ 0 (fr_psi th (- ln 0 / v))) by (rewrite map_length; exact Hi). rewrite (map_nth (fun w => fr_psi th (- ln w / v))). unfold inside in Hws. rewrite Forall_forall in Hws.
      rewrite <- (proj2 (I2 (ln 2) ltac:(lra))) at 2. apply (entry_iff (fr_psi th) (fr_f th) (frank_psi th) GEN I2 FP); [lra|apply Hws, nth_In, Hi|lra].
Qed.
Print Assumptions C101_frank_margin_refuted.
(** A Frank row with theta up to 3: a set of draws of positive probability gives nan in every entry. *)
Theorem C101_frank_nan_refuted : forall th u1 u2 ws fuel, / 10000000 <= th <= 3 -> 0 <= u2 < 1 ->
  0 < u1 < (1 - exp (u2 * - th)) * (1 - exp (u2 * - th)) ->
  frank_random_row fuel th u1 u2 ws = Some (Ok (map (fun _ => Nan) ws)).
Proof.
  intros th u1 u2 ws fuel Hth H2 H1. unfold frank_random_row. rewrite Rltb_ge by (rewrite Rabs_pos_eq; lra). rewrite guard_nz by lra.
  rewrite (proj1 (C50_small_refuted (- th) u1 u2 ltac:(lra) H2 ltac:(lra) fuel)). rewrite Reqb_neq by lra. reflexivity.
Qed.
Print Assumptions C101_frank_nan_refuted.
Example C101_frank_nan_case : / 10000000 <= 2 <= 3 /\ 0 <= / 2 < 1 /\ 0 < / 10 < (1 - exp (/ 2 * - (2))) * (1 - exp (/ 2 * - (2))).
Proof.
  assert (E : exp (/ 2 * - (2)) < 1 / 2). { replace (/ 2 * - (2)) with (- (1)) by lra. rewrite exp_Ropp. pose proof (exp_ineq1 1 ltac:(lra)). replace (1 / 2) with (/ 2) by lra. apply Rinv_lt_contravar; lra. }
  split; [lra|]. split; [lra|]. nra.
Qed.
