(** C118, continued: the variates of the stable distribution follow Nolan's density for every alpha other than 1 and 2. *)
From Coquelicot Require Import Coquelicot.
From Verif Require Import Base RSumLib Ext S_StablePdf P_StableInt M_Archimedean M_Special M_Specfunc M_Stable M_StablePdf P_StablePdf P_StablePdf3 P_StablePdf4 P_StablePdf6 T_StableRvs.
From Verif Require P_Arch T_Stable T_StablePdf.
Open Scope R_scope.

(** the angle of the uniform draw (stable.py:155) *)
Definition angle (u : R) : R := PI * (u - 1 / 2).
Lemma angle_range u : 0 < u < 1 -> - (PI / 2) < angle u < PI / 2.
Proof. intros H. pose proof PI_RGT_0. unfold angle. nra. Qed.
Lemma clip_id a : - (PI / 2) <= a <= PI / 2 -> Rmin (Rmax (- (PI / 2)) a) (PI / 2) = a.
Proof. intros H. rewrite Rmax_right by lra. apply Rmin_left. lra. Qed.
(** c (stable.py:162) in terms of the angle *)
Lemma scale_cos al bt : 0 < al -> Rpower (1 + bt ^ 2) (1 / (2 * al)) = exp (- (ln (cos (atan bt)) / al)).
Proof.
  intros A. unfold Rpower. f_equal. rewrite cos_atan. assert (P : 0 < 1 + bt ^ 2) by nra. assert (Q : 0 < sqrt (1 + bt²)) by (apply sqrt_lt_R0; unfold Rsqr; nra).
  replace (1 / sqrt (1 + bt²)) with (/ sqrt (1 + bt²)) by (unfold Rdiv; ring). rewrite ln_Rinv by exact Q. rewrite <- (Rpower_sqrt (1 + bt²)) by (unfold Rsqr; nra). unfold Rpower. rewrite ln_exp. replace (1 + bt²) with (1 + bt ^ 2) by (unfold Rsqr; ring). field. lra.
Qed.

Section Law.
  Variables al be : R.
  Hypothesis A : 0 < al < 2. Hypothesis N : al <> 1. Hypothesis B : -1 <= be <= 1. Hypothesis Sd : al < 1 -> -1 < be.
  Let t0 := nolan_theta0 al be.
  Let zeta := nolan_zeta al be.
  Let bt := be * tanpi2 al.
  Lemma bt_tan : bt = be * tan (PI * al / 2). Proof. unfold bt, tanpi2. replace (al * PI / 2) with (PI * al / 2) by field. reflexivity. Qed.
  Lemma zeta_bt : zeta = - bt. Proof. unfold zeta, nolan_zeta. rewrite bt_tan. ring. Qed.
  Lemma t0_bt : al * t0 = atan bt. Proof. unfold t0, nolan_theta0. rewrite bt_tan. field. lra. Qed.
  Lemma okx xm : 0 < xm -> ok al t0 xm. Proof. apply theta0_ok; assumption. Qed.
  (** the factor of the power of the exponential draw *)
  Let V (th : R) : R := exp (- (ln (cos (al * t0)) / al)) * sin (al * (th + t0)) * exp (-1 / al * ln (cos th)).
  Lemma cos_pos th : - (PI / 2) < th < PI / 2 -> 0 < cos th /\ 0 < cos (th - al * (th + t0)).
  Proof.
    intros T. pose proof PI_RGT_0 as PP. pose proof (okx 1 Rlt_0_1) as O. split; [apply cos_gt_0; lra|]. destruct (Rlt_le_dec (- t0) th) as [I|I].
    - destruct (angles al t0 1 th O ltac:(split; lra)) as (_ & _ & _ & C). replace (th - al * (th + t0)) with (- ((th + t0) * al - th)) by ring. rewrite cos_neg. exact C.
    - destruct I as [I|I]; [|rewrite I; replace (- t0 - al * (- t0 + t0)) with (- t0) by ring; apply cos_gt_0; lra].
      assert (O' : ok al (- t0) 1).
      { unfold t0. rewrite <- theta0_opp. apply theta0_ok; try assumption; try lra. intros L. destruct (Req_dec be 1) as [E|E]; [|lra]. exfalso. destruct O as (_ & _ & O1 & _). unfold t0 in *. rewrite E in *.
        assert (Q : nolan_theta0 al 1 = PI / 2); [|lra]. unfold nolan_theta0. rewrite Rmult_1_l, atan_tan by nra. field. lra. }
      destruct (angles al (- t0) 1 (- th) O' ltac:(split; lra)) as (_ & _ & _ & C). replace (th - al * (th + t0)) with ((- th + - t0) * al - - th) by ring. exact C.
  Qed.
  Lemma z_value u w : 0 < u < 1 -> 0 < w -> stable_z al be u w = Fin (V (angle u) * exp ((1 - al) / al * ln (cos (angle u - al * (angle u + t0)) / w)) + zeta).
  Proof.
    intros Hu Hw. destruct (cos_pos (angle u) (angle_range u Hu)) as (C1 & C2). unfold stable_z. fold bt. fold (angle u). pose proof (okx 1 Rlt_0_1) as (_ & _ & T & _).
    assert (E : atan bt / al = t0) by (rewrite <- t0_bt; field; lra). rewrite E, clip_id by lra. rewrite epow_exp by exact C1. rewrite epow_exp by (apply Rdiv_lt_0_compat; assumption).
    rewrite scale_cos by lra. rewrite <- t0_bt. rewrite zeta_bt. reflexivity.
  Qed.
  (** the sign of a variate relative to zeta is the side of the angle *)
  Lemma V_sign th : - (PI / 2) < th < PI / 2 -> (0 < V th <-> - t0 < th).
  Proof.
    intros T. pose proof PI_RGT_0 as PP. pose proof (okx 1 Rlt_0_1) as O. unfold V. pose proof (exp_pos (- (ln (cos (al * t0)) / al))) as E1. pose proof (exp_pos (-1 / al * ln (cos th))) as E2. set (e1 := exp _) in *. set (e2 := exp (-1 / al * ln (cos th))) in *. clearbody e1 e2.
    assert (Q : 0 < e1 * sin (al * (th + t0)) * e2 <-> 0 < sin (al * (th + t0))).
    { split; intros H.
      - destruct (Rlt_le_dec 0 (sin (al * (th + t0)))) as [L|L]; [exact L|]. exfalso. assert (e1 * sin (al * (th + t0)) * e2 <= 0); [|lra]. assert (e1 * sin (al * (th + t0)) <= 0) by nra. nra.
      - apply Rmult_lt_0_compat; [apply Rmult_lt_0_compat; assumption|exact E2]. }
    rewrite Q. split; intros H.
    - destruct (Rlt_le_dec (- t0) th) as [L|L]; [exact L|]. exfalso. destruct L as [L|L]; [|rewrite L in H; replace (al * (- t0 + t0)) with 0 in H by ring; rewrite sin_0 in H; lra].
      assert (S : 0 <= sin (al * (- th - t0))).
      { destruct (half_angle_tan al A N) as (H1 & _). pose proof (theta0_bound al be A N B) as TB. unfold half_angle in *. rewrite <- bt_tan, <- t0_bt in TB. apply Rabs_le_between in TB. apply sin_ge_0; [nra|]. destruct (Rlt_dec al 1); nra. }
      replace (al * (th + t0)) with (- (al * (- th - t0))) in H by ring. rewrite sin_neg in H. lra.
    - destruct (angles al t0 1 th O ltac:(split; lra)) as (_ & _ & S & _). replace (al * (th + t0)) with ((th + t0) * al) by ring. exact S.
  Qed.
  (** the event of the exponential draw *)
  Lemma event th w x : inside t0 th -> 0 < w -> zeta < x ->
    let z := V th * exp ((1 - al) / al * ln (cos (th - al * (th + t0)) / w)) + zeta in
    (1 < al -> (z <= x <-> w <= nolan_g al t0 (x - zeta) th)) /\ (al < 1 -> (z <= x <-> nolan_g al t0 (x - zeta) th <= w)).
  Proof.
    intros I Hw Hx z. set (xm := x - zeta). assert (Xm : 0 < xm) by (unfold xm; lra). pose proof (okx xm Xm) as O. rewrite (exp_W_nolan al t0 xm th O I). destruct (angles al t0 xm th O I) as (C & _ & S & D).
    assert (C0 : 0 < cos (al * t0)) by (apply cos_gt_0; destruct O as (_ & _ & _ & _ & Q & _); lra).
    assert (EZ : z - zeta = exp (ln xm + (al - 1) / al * (ln w - W al t0 xm th))).
    { unfold z, V. replace (th - al * (th + t0)) with (- ((th + t0) * al - th)) by ring. rewrite cos_neg. replace (al * (th + t0)) with ((th + t0) * al) by ring. rewrite ln_div by assumption.
      rewrite <- (exp_ln (sin ((th + t0) * al)) S) at 1. transitivity (exp (- (ln (cos (al * t0)) / al) + ln (sin ((th + t0) * al)) + -1 / al * ln (cos th) + (1 - al) / al * (ln (cos ((th + t0) * al - th)) - ln w))).
      - rewrite !exp_plus. ring.
      - f_equal. unfold W. field. lra. }
    assert (M : z <= x <-> (al - 1) / al * (ln w - W al t0 xm th) <= 0).
    { split; intros H.
      - assert (L : z - zeta <= exp (ln xm)) by (rewrite (exp_ln xm Xm); unfold xm; lra). rewrite EZ in L. destruct (Rle_dec ((al - 1) / al * (ln w - W al t0 xm th)) 0) as [G|G]; [exact G|]. exfalso. pose proof (exp_increasing (ln xm) (ln xm + (al - 1) / al * (ln w - W al t0 xm th)) ltac:(lra)). lra.
      - assert (L : z - zeta <= exp (ln xm)); [|rewrite (exp_ln xm Xm) in L; unfold xm in L; lra]. rewrite EZ. apply P_Arch.exp_mono. lra. }
    assert (LW : forall q, w <= exp q <-> ln w <= q).
    { intros q. split; intros H.
      - rewrite <- (ln_exp q). destruct H as [H|H]; [left; apply ln_increasing; assumption|right; rewrite H; reflexivity].
      - rewrite <- (exp_ln w Hw). apply P_Arch.exp_mono, H. }
    assert (LW' : forall q, exp q <= w <-> q <= ln w).
    { intros q. split; intros H.
      - rewrite <- (ln_exp q). destruct H as [H|H]; [left; apply ln_increasing; [apply exp_pos|exact H]|right; rewrite H; reflexivity].
      - rewrite <- (exp_ln w Hw). apply P_Arch.exp_mono, H. }
    split; intros G; rewrite M.
    - rewrite LW. assert (K : 0 < (al - 1) / al) by (apply Rdiv_lt_0_compat; lra). split; intros H; nra.
    - rewrite LW'. assert (K : 0 < (1 - al) / al) by (apply Rdiv_lt_0_compat; lra). replace ((al - 1) / al) with (- ((1 - al) / al)) by (field; lra). split; intros H; nra.
  Qed.
End Law.

Lemma primitive_angle a M (f P : R -> R) k : 0 <= M -> primitive_on (- a) (PI / 2) M f P ->
  primitive_on (1 / 2 - a / PI) 1 (Rabs k * M) (fun u => k * f (angle u)) (fun u => k / PI * P (angle u)).
Proof.
  intros HM (L & IN). pose proof PI_RGT_0 as PP. split.
  - intros x y. replace (k / PI * P (angle x) - k / PI * P (angle y)) with (k / PI * (P (angle x) - P (angle y))) by ring. rewrite Rabs_mult. specialize (L (angle x) (angle y)).
    replace (angle x - angle y) with (PI * (x - y)) in L by (unfold angle; ring). rewrite (Rabs_mult PI), (Rabs_pos_eq PI) in L by lra. unfold Rdiv. rewrite Rabs_mult, (Rabs_pos_eq (/ PI)) by (left; apply Rinv_0_lt_compat; lra).
    apply Rle_trans with (Rabs k * / PI * (M * (PI * Rabs (x - y)))); [apply Rmult_le_compat_l; [apply Rmult_le_pos; [apply Rabs_pos|left; apply Rinv_0_lt_compat; lra]|exact L]|]. right. field. lra.
  - intros u w U W. assert (R : forall v, 1 / 2 - a / PI < v < 1 -> - a < angle v < PI / 2).
    { intros v [V1 V2]. unfold angle. split; [|nra]. apply (Rmult_lt_compat_l PI) in V1; [|lra]. replace (PI * (1 / 2 - a / PI)) with (PI * (1 / 2) - a) in V1 by (field; lra). lra. }
    specialize (IN (angle u) (angle w) (R u U) (R w W)).
    assert (I2 : is_RInt (fun y => scal PI (f (PI * y + - (PI / 2)))) u w (P (angle w) - P (angle u))).
    { apply (is_RInt_comp_lin f PI (- (PI / 2)) u w). replace (PI * u + - (PI / 2)) with (angle u) by (unfold angle; field). replace (PI * w + - (PI / 2)) with (angle w) by (unfold angle; field). exact IN. }
    apply (is_RInt_scal (V := R_NormedModule) _ u w (k / PI)) in I2.
    replace (k / PI * P (angle w) - k / PI * P (angle u)) with (k / PI * (P (angle w) - P (angle u))) by ring.
    refine (is_RInt_ext _ _ _ _ _ _ I2). intros y _. unfold scal; cbn. unfold mult; cbn. replace (PI * y + - (PI / 2)) with (angle y) by (unfold angle; field). field. lra.
Qed.

(** For alpha other than 1 and 2 the variates follow Nolan's density, which is what pdf computes (C90).  Given the uniform draw u the variate lies right of zeta exactly
    when u > u0; then it is at most x exactly when the exponential draw is on one side of Nolan's exponent g, an event of probability 1 - exp(-g) for alpha > 1 and
    exp(-g) for alpha < 1.  The derivatives of these conditional probabilities add up to the density at x (of the standardised law, divided by the scale).  The part left of zeta
    is mirrored (C118_mirror; nolan_density is defined by reflection there). *)
Theorem C118_law : forall argmax cauchy alpha beta gamma delta x, 0 < alpha < 2 -> alpha <> 1 -> ~ near_cauchy alpha beta -> -1 <= beta <= 1 -> (alpha < 1 -> -1 < beta) -> 0 < gamma ->
  let t0 := nolan_theta0 alpha beta in let zeta := nolan_zeta alpha beta in let u0 := 1 / 2 - t0 / PI in
  let g x u := nolan_g alpha t0 ((x - delta) / gamma - zeta) (PI * (u - 1 / 2)) in
  zeta < (x - delta) / gamma ->
  (forall u w, 0 < u < 1 -> 0 < w -> exists z, stable_rvs argmax cauchy alpha beta gamma delta 0 u w = Ok (Fin z) /\ (u0 < u <-> delta + gamma * zeta < z) /\
     (u0 < u -> (1 < alpha -> (z <= x <-> w <= g x u)) /\ (alpha < 1 -> (z <= x <-> g x u <= w)))) /\
  exists h d, nolan_density alpha beta ((x - delta) / gamma) d /\
    (forall u, u0 < u < 1 -> is_derive (fun x => if Rlt_dec 1 alpha then 1 - exp (- g x u) else exp (- g x u)) x (h u)) /\ integral_on u0 1 h (d / gamma).
Proof.
  intros argmax cauchy al be gam delta x A N NC B Sd G t0 zeta u0 g Hx. pose proof PI_RGT_0 as PP. set (xm := (x - delta) / gam - zeta) in *. assert (Xm : 0 < xm) by (unfold xm; lra).
  pose proof (okx al be A N B Sd xm Xm) as O. fold t0 in O.
  assert (U0 : forall u, u0 < u <-> - t0 < angle u).
  { intros u. unfold u0, angle. split; intros H.
    - apply (Rmult_lt_compat_l PI) in H; [|lra]. replace (PI * (1 / 2 - t0 / PI)) with (PI * (1 / 2) - t0) in H by (field; lra). lra.
    - apply (Rmult_lt_reg_l PI); [lra|]. replace (PI * (1 / 2 - t0 / PI)) with (PI * (1 / 2) - t0) by (field; lra). lra. }
  split.
  - intros u w Hu Hw. rewrite rvs_z by exact NC.
    replace (stable_check al be gam 0) with (@Ok unit tt).
    2:{ symmetry. apply (proj2 (proj1 (T_Stable.C72_validation al be gam 0))). repeat split; try lra. lia. }
    cbn [bind]. rewrite (z_value al be A N B Sd u w Hu Hw). fold t0 zeta. cbn [escal eadd].
    set (e := exp ((1 - al) / al * ln (cos (angle u - al * (angle u + t0)) / w))). assert (E : 0 < e) by apply exp_pos.
    pose proof (V_sign al be A N B Sd (angle u) (angle_range u Hu)) as VS. fold t0 in VS. eexists. split; [reflexivity|]. split.
    + rewrite U0, <- VS. set (v := _ * exp (-1 / al * ln (cos (angle u)))) in *. split; intros H.
      * assert (0 < v * e) by (apply Rmult_lt_0_compat; assumption). nra.
      * destruct (Rlt_le_dec 0 v) as [L|L]; [exact L|]. exfalso. assert (v * e <= 0) by nra. nra.
    + intros U. rewrite U0 in U. pose proof (angle_range u Hu) as AR. destruct (event al be A N B Sd (angle u) w ((x - delta) / gam) ltac:(split; fold t0; lra) Hw Hx) as [E1 E2]. fold t0 zeta in E1, E2. fold e in E1, E2. unfold g. fold (angle u). fold xm in E1, E2 |- *.
      assert (Q : forall z, gam * z + delta <= x <-> z <= (x - delta) / gam).
      { intros z. split; intros H.
        - apply (Rmult_le_reg_l gam); [exact G|]. replace (gam * ((x - delta) / gam)) with (x - delta) by (field; lra). lra.
        - apply (Rmult_le_compat_l gam) in H; [|lra]. replace (gam * ((x - delta) / gam)) with (x - delta) in H by (field; lra). lra. }
      split; intros K; rewrite Q; [apply E1, K|apply E2, K].
  - destruct (fN_primitive al t0 xm O) as (P & HP). set (k := al / (Rabs (al - 1) * xm) / gam).
    exists (fun u => k * fN al t0 xm (angle u)), (al / (PI * Rabs (al - 1) * xm) * (P (PI / 2) - P (- t0))).
    assert (ab : - t0 < PI / 2) by (destruct O as (_ & _ & T & _); lra). assert (AB : 0 < Rabs (al - 1)) by (apply Rabs_pos_lt; lra). split; [|split].
    + left. split; [exact Hx|]. apply right_of_fN; [exact O|]. apply (integral_of_primitive _ _ 1); assumption.
    + intros u U. assert (I : inside t0 (angle u)) by (split; [apply U0; lra|unfold angle; nra]). unfold fN. rewrite <- (exp_W_nolan al t0 xm (angle u) O I).
      assert (D : is_derive (fun x => g x u) x (al / (al - 1) * (nolan_g al t0 xm (angle u) / xm) / gam)).
      { unfold g. fold (angle u). unfold nolan_g, Rpower. set (v := nolan_V al t0 (angle u)). auto_derive; [unfold xm in Xm; unfold Rdiv, Rminus in Xm; lra|].
        fold (x - delta). fold ((x - delta) / gam). fold ((x - delta) / gam - zeta). unfold xm. set (e := exp _). field. repeat split; try lra. unfold xm in Xm. intros Z. apply (Rlt_irrefl 0). rewrite <- Z at 2. replace (x - delta - zeta * gam) with (((x - delta) / gam - zeta) * gam) by (field; lra). apply Rmult_lt_0_compat; lra. }
      set (q := nolan_g al t0 xm (angle u)) in *. assert (EQ : g x u = q) by reflexivity.
      assert (DE : is_derive (fun x => exp (- g x u)) x (- (al / (al - 1) * (q / xm) / gam) * exp (- q))).
      { evar_last; [apply (is_derive_comp exp (fun x => - g x u)); [apply is_derive_exp|apply (is_derive_opp (V := R_NormedModule)), D]|]. rewrite EQ. reflexivity. }
      destruct (Rlt_dec 1 al) as [L|L].
      * evar_last; [apply (is_derive_minus (V := R_NormedModule)); [apply (is_derive_const (V := R_NormedModule))|exact DE]|]. unfold k, minus, plus, opp, zero; cbn. rewrite Rabs_pos_eq by lra. field. repeat split; lra.
      * replace (k * (q * exp (- q))) with (- (al / (al - 1) * (q / xm) / gam) * exp (- q)); [exact DE|]. unfold k. rewrite Rabs_left by lra. field. repeat split; lra.
    + pose proof (primitive_angle t0 1 _ P k ltac:(lra) HP) as HQ. assert (ab' : u0 < 1). { unfold u0. apply (Rmult_lt_reg_l PI); [lra|]. replace (PI * (1 / 2 - t0 / PI)) with (PI * (1 / 2) - t0) by (field; lra). lra. }
      pose proof (integral_of_primitive _ _ _ _ _ ab' HQ) as HI. cbv beta in HI. replace (angle 1) with (PI / 2) in HI by (unfold angle; field). replace (angle u0) with (- t0) in HI by (unfold angle, u0; field; lra). replace (al / (PI * Rabs (al - 1) * xm) * (P (PI / 2) - P (- t0)) / gam) with (k / PI * P (PI / 2) - k / PI * P (- t0)); [exact HI|]. unfold k. field. repeat split; lra.
Qed.
Print Assumptions C118_law.
(** Finding: by default rvs uses another parametrisation than pdf.  The default variate is the variate of the default parametrisation of pdf moved by
    beta gamma tan(pi alpha/2), which is not 0 for beta <> 0: the default density at x belongs to the default variates at another point. *)
Theorem C118_defaults_refuted : forall argmax cauchy alpha beta gamma delta u w z, 0 < alpha < 2 -> alpha <> 1 -> ~ near_cauchy alpha beta -> 0 < gamma -> beta <> 0 ->
  stable_rvs argmax cauchy alpha beta gamma delta pdf_pm u w = Ok (Fin z) ->
  stable_rvs argmax cauchy alpha beta gamma delta rvs_pm u w = Ok (Fin (z + beta * gamma * tan (PI * alpha / 2))) /\ beta * gamma * tan (PI * alpha / 2) <> 0.
Proof.
  intros argmax cauchy al be gam delta u w z A N NC G B E. split.
  - unfold pdf_pm in E. rewrite rvs_z in E by exact NC. unfold rvs_pm, stable_rvs. replace (stable_check al be gam 1) with (stable_check al be gam 0) by reflexivity. destruct (stable_check al be gam 0); [|discriminate E]. cbn [bind parameterize] in *.
    match goal with |- context [if ?b then Fin cauchy else _] => assert (Eb : b = false) end.
    { apply not_true_is_false. intros H. apply andb_prop in H. destruct H as [E1 E2]. apply Rleb_true in E1. apply Rleb_true in E2. rewrite Rabs_R1 in E1. rewrite Rabs_R0 in E2. rewrite Rminus_0_r in E2. apply NC. split; lra. }
    rewrite Eb. unfold omega. rewrite (proj2 (Reqb_false al 1)), (proj2 (Reqb_false al 2)) by lra. cbn [negb orb]. unfold tanpi2. replace (al * PI / 2) with (PI * al / 2) by field.
    destruct (stable_z al be u w) as [y| | |]; cbn [escal eadd] in *.
    + injection E as <-. do 2 f_equal. ring.
    + exfalso. destruct (Rltb 0 gam); [discriminate E|destruct (Rltb gam 0); discriminate E].
    + exfalso. destruct (Rltb 0 gam); [discriminate E|destruct (Rltb gam 0); discriminate E].
    + discriminate E.
  - destruct (half_angle_tan al A N) as (_ & H & T). intros Z. apply Rmult_integral in Z. destruct Z as [Z|Z]; [apply Rmult_integral in Z; lra|]. rewrite Z, Rabs_R0 in H. destruct (half_angle_tan al A N) as ((H1 & H2) & _ & _). pose proof (tan_gt_0 (half_angle al) ltac:(lra) ltac:(lra)). lra.
Qed.
Print Assumptions C118_defaults_refuted.
(** the hypotheses are met by alpha = 3/2 and by the one-sided law alpha = 1/2, beta = 1 *)
Example C118_law_case : ~ near_cauchy (3 / 2) (/ 2) /\ ~ near_cauchy (1 / 2) 1 /\ nolan_zeta (1 / 2) 1 < (0 - 0) / 1 /\ nolan_theta0 (1 / 2) 1 = PI / 2.
Proof.
  pose proof PI_RGT_0. split; [|split; [|split]].
  - intros [Q _]. rewrite Rabs_pos_eq in Q by lra. lra.
  - intros [_ Q]. rewrite Rabs_R1 in Q. lra.
  - unfold nolan_zeta. replace (PI * (1 / 2) / 2) with (PI / 4) by field. rewrite tan_PI4. lra.
  - unfold nolan_theta0. replace (PI * (1 / 2) / 2) with (PI / 4) by field. rewrite tan_PI4, Rmult_1_r, atan_1. field.
Qed.
