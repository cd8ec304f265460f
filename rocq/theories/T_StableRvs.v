(** C118: the variates of the stable distribution (stats/stable/stable.py:147-169) follow its density. *)
From Coquelicot Require Import Coquelicot.
From Verif Require Import Base RSumLib Ext S_StablePdf S_StableOne P_StableInt M_Archimedean M_Special M_Specfunc M_Stable M_StablePdf M_StableOne P_StablePdf P_StablePdf3 P_StableOne.
From Verif Require Import P_GaussInt P_StablePdf6.
From Verif Require P_Arch T_Stable T_StableOne.
Open Scope R_scope.

Lemma epow_same a b : a = b -> forall y, epow (Fin a) y = epow (Fin b) y.
Proof. intros ->. reflexivity. Qed.
(** np.isclose(alpha, 1) and np.isclose(beta, 0) (stable.py:152) *)
Definition near_cauchy (alpha beta : R) : Prop := Rabs (alpha - 1) <= / 100000000 + / 100000 /\ Rabs beta <= / 100000000.
Lemma rvs_z argmax cauchy alpha beta gamma delta u w : ~ near_cauchy alpha beta ->
  stable_rvs argmax cauchy alpha beta gamma delta 0 u w =
  bind (stable_check alpha beta gamma 0) (fun _ => Ok (eadd (escal gamma (stable_z alpha beta u w)) (Fin delta))).
Proof.
  intros N. unfold stable_rvs. destruct (stable_check alpha beta gamma 0); [|reflexivity]. cbn [bind parameterize].
  match goal with |- context [if ?b then Fin cauchy else _] => assert (E : b = false) end.
  { apply not_true_is_false. intros E. apply andb_prop in E. destruct E as [E1 E2]. apply Rleb_true in E1. apply Rleb_true in E2.
    rewrite Rabs_R1 in E1. rewrite Rabs_R0 in E2. rewrite Rminus_0_r in E2. apply N. split; lra. }
  rewrite E. reflexivity.
Qed.
Lemma clip_opp a : Rmin (Rmax (- (PI / 2)) (- a)) (PI / 2) = - Rmin (Rmax (- (PI / 2)) a) (PI / 2).
Proof. pose proof PI_RGT_0. unfold Rmin, Rmax. repeat destruct (Rle_dec _ _); lra. Qed.
Lemma stable_z_mirror alpha beta u w : stable_z alpha (- beta) (1 - u) w = eopp (stable_z alpha beta u w).
Proof.
  unfold stable_z. replace (PI * (1 - u - 1 / 2)) with (- (PI * (u - 1 / 2))) by field. rewrite Ropp_mult_distr_l_reverse.
  rewrite atan_opp. replace (- atan (beta * tanpi2 alpha) / alpha) with (- (atan (beta * tanpi2 alpha) / alpha)) by (unfold Rdiv; ring). rewrite clip_opp.
  set (t0 := Rmin _ _). set (th := PI * (u - 1 / 2)). set (bt := beta * tanpi2 alpha).
  replace (alpha * (- th + - t0)) with (- (alpha * (th + t0))) by ring. replace (- th - - (alpha * (th + t0))) with (- (th - alpha * (th + t0))) by ring.
  rewrite !cos_neg, sin_neg. replace ((- bt) ^ 2) with (bt ^ 2) by ring.
  destruct (epow (Fin (cos th)) _); try reflexivity. destruct (epow _ _); try reflexivity. cbn [eopp]. f_equal. ring.
Qed.
(** Changing the sign of beta and reflecting the uniform draw reflects the variate at delta: the law is mirrored, as the density is (C91). *)
Theorem C118_mirror : forall argmax cauchy alpha beta gamma delta u w z, ~ near_cauchy alpha beta ->
  stable_rvs argmax cauchy alpha beta gamma delta 0 u w = Ok (Fin z) ->
  stable_rvs argmax cauchy alpha (- beta) gamma delta 0 (1 - u) w = Ok (Fin (2 * delta - z)).
Proof.
  intros argmax cauchy alpha beta gamma delta u w z N E. rewrite rvs_z in E by exact N. rewrite rvs_z.
  2:{ intros [A B]. rewrite Rabs_Ropp in B. apply N. split; assumption. }
  assert (C : stable_check alpha (- beta) gamma 0 = stable_check alpha beta gamma 0) by (unfold stable_check; rewrite Rabs_Ropp; reflexivity).
  rewrite C. destruct (stable_check alpha beta gamma 0); [|discriminate E]. cbn [bind] in *. rewrite stable_z_mirror.
  destruct (stable_z alpha beta u w) as [y| | |]; cbn [escal eopp eadd] in *; try discriminate E.
  - injection E as <-. do 2 f_equal. ring.
  - destruct (Rltb 0 gamma); [discriminate E|destruct (Rltb gamma 0); discriminate E].
  - destruct (Rltb 0 gamma); [discriminate E|destruct (Rltb gamma 0); discriminate E].
Qed.
Print Assumptions C118_mirror.

(** ** alpha = 1 *)
Lemma stable_z_one beta u w : 0 < u < 1 -> 0 < w -> stable_z 1 beta u w = Fin (tan (PI * (u - 1 / 2))).
Proof.
  intros Hu Hw. pose proof PI_RGT_0 as PP. unfold stable_z. set (th := PI * (u - 1 / 2)). set (bt := beta * tanpi2 1).
  assert (T : - (PI / 2) < th < PI / 2) by (unfold th; nra). assert (C : 0 < cos th) by (apply cos_gt_0; lra).
  pose proof (atan_bound bt) as AB. replace (atan bt / 1) with (atan bt) by field.
  replace (Rmin (Rmax (- (PI / 2)) (atan bt)) (PI / 2)) with (atan bt). 2:{ rewrite Rmax_right by lra. rewrite Rmin_left by lra. reflexivity. }
  replace (1 * (th + atan bt)) with (th + atan bt) by ring. replace (th - (th + atan bt)) with (- atan bt) by ring. rewrite cos_neg.
  assert (CA : 0 < cos (atan bt)) by (apply cos_gt_0; lra).
  rewrite epow_pos by exact C. rewrite epow_pos by (apply Rdiv_lt_0_compat; assumption).
  replace ((1 - 1) / 1) with 0 by field. rewrite Rpower_O by (apply Rdiv_lt_0_compat; assumption).
  replace (-1 / 1) with (Ropp 1) by field. rewrite Rpower_Ropp, Rpower_1 by exact C.
  replace (1 / (2 * 1)) with (/ 2) by field. rewrite Rpower_sqrt by nra. f_equal.
  rewrite sin_plus, sin_atan, cos_atan. assert (Q : 0 < sqrt (1 + bt ^ 2)) by (apply sqrt_lt_R0; nra).
  replace (1 + bt²) with (1 + bt ^ 2) by (unfold Rsqr; ring). unfold tan. field. split; lra.
Qed.
Lemma xe_inv y : 0 < y -> y * exp (- y) <= / y.
Proof.
  intros H. assert (E : y * y <= exp y).
  { assert (A : y <= exp (y / 2)). { pose proof (exp_ineq1_le (y / 2 - 1)) as B. replace (y / 2) with (1 + (y / 2 - 1)) by ring. rewrite exp_plus. pose proof (exp_ineq1_le 1). pose proof (exp_pos (y / 2 - 1)). destruct (Rle_dec 0 (1 + (y / 2 - 1))); nra. }
    replace y with (y / 2 + y / 2) at 3 by field. rewrite exp_plus. apply Rmult_le_compat; lra. }
  rewrite exp_Ropp. pose proof (exp_pos y). apply (Rmult_le_reg_r (y * exp y)); [nra|]. replace (y * / exp y * (y * exp y)) with (y * y) by (field; lra). replace (/ y * (y * exp y)) with (exp y) by (field; lra). exact E.
Qed.
Lemma xcos_sin p : 0 < p < PI -> p * cos p <= sin p.
Proof.
  intros P. assert (D : forall y, is_derive (fun y => sin y - y * cos y) y (y * sin y)) by (intros y; auto_derive; [exact Logic.I|]; ring).
  destruct (MVT_gen (fun y => sin y - y * cos y) 0 p (fun y => y * sin y)) as (c & Hc & E).
  - intros y _. apply D.
  - intros y _. apply continuity_pt_filterlim. apply (ex_derive_continuous (V := R_NormedModule) (fun y => sin y - y * cos y) y). exists (y * sin y). apply D.
  - rewrite Rmin_left, Rmax_right in Hc by lra. rewrite sin_0 in E. pose proof (sin_ge_0 c ltac:(lra) ltac:(lra)). assert (0 <= c * sin c * (p - 0)) by (apply Rmult_le_pos; [apply Rmult_le_pos|]; lra). lra.
Qed.
(** Nolan's exponent at beta = 1 is at least its limit at the left end *)
Lemma V1_low th : - (PI / 2) < th < PI / 2 -> 2 / PI * / exp 1 <= nolan1_V 1 th.
Proof.
  intros T. pose proof PI_RGT_0 as PP. unfold nolan1_V. replace (1 / 1) with 1 by field. rewrite !Rmult_1_l. set (ph := PI / 2 + th). assert (P : 0 < ph < PI) by (unfold ph; lra).
  assert (C : cos th = sin ph). { unfold ph. rewrite sin_plus, sin_PI2, cos_PI2. ring. }
  assert (S : sin th = - cos ph). { unfold ph. rewrite cos_plus, sin_PI2, cos_PI2. ring. }
  pose proof (sin_gt_0 ph ltac:(lra) ltac:(lra)) as SP. pose proof (sin_lt_x ph ltac:(lra)) as SX. pose proof (xcos_sin ph P) as XC.
  rewrite C. unfold tan. rewrite C, S.
  assert (A : 1 <= ph / sin ph). { apply (Rmult_le_reg_r (sin ph)); [exact SP|]. unfold Rdiv. rewrite Rmult_assoc, Rinv_l by lra. lra. }
  assert (B : / exp 1 <= exp (ph * (- cos ph / sin ph))).
  { rewrite <- exp_Ropp. apply P_Arch.exp_mono. replace (ph * (- cos ph / sin ph)) with (- (ph * cos ph / sin ph)) by (field; lra). apply Ropp_le_contravar.
    apply (Rmult_le_reg_r (sin ph)); [exact SP|]. unfold Rdiv. rewrite Rmult_assoc, Rinv_l by lra. lra. }
  assert (I : 0 < / exp 1) by (apply Rinv_0_lt_compat, exp_pos). rewrite Rmult_assoc. apply Rmult_le_compat_l; [left; apply Rdiv_lt_0_compat; lra|].
  rewrite <- (Rmult_1_l (/ exp 1)). apply Rmult_le_compat; lra.
Qed.
Lemma exp_mult_nat_12 y : exp y ^ 12 = exp (12 * y).
Proof. replace (12 * y) with (y + (y + (y + (y + (y + (y + (y + (y + (y + (y + (y + y))))))))))) by ring. rewrite !exp_plus. ring. Qed.
(** far to the left the skew density is far below the Cauchy density *)
Lemma nolan1_left x d : x <= -10 -> nolan1_density 1 x d -> d < / (PI * (1 + x ^ 2)).
Proof.
  intros X (I & HI & ->). pose proof PI_RGT_0 as PP. pose proof PI_4 as P4. pose proof PI2_3_2 as P3. assert (B : 0 < 1 <= 1) by lra. assert (ab : - (PI / 2) < PI / 2) by lra.
  destruct (f1_primitive 1 x B) as (P & HP). pose proof (integral_of_primitive _ _ _ _ _ ab HP) as HI2.
  assert (EI : I = P (PI / 2) - P (- (PI / 2))).
  { apply (integral_unique _ _ _ _ _ ab HI). apply (integral_on_ext _ _ (f1 1 x)); [exact ab| |exact HI2]. intros y Y. unfold f1. rewrite <- (g_W1 1 x B y Y). reflexivity. }
  set (s := exp (- PI * x / 2)). assert (Sp : 0 < s) by apply exp_pos.
  set (g0 := s * (2 / PI * / exp 1)). assert (E0 : 0 < / exp 1) by (apply Rinv_0_lt_compat, exp_pos). assert (G0 : 0 < g0) by (unfold g0; repeat apply Rmult_lt_0_compat; try assumption; try lra; apply Rinv_0_lt_compat; lra).
  pose proof (primitive_bound (- (PI / 2)) (PI / 2) 1 (f1 1 x) P (- (PI / 2)) (PI / 2) (/ g0) ab ltac:(lra) ltac:(lra) HP ltac:(left; apply Rinv_0_lt_compat, G0)) as PB.
  assert (BD : forall th, - (PI / 2) < th < PI / 2 -> 0 <= f1 1 x th <= / g0).
  { intros th T. split; [left; apply f1_bound|]. unfold f1. rewrite <- (g_W1 1 x B th T). assert (G : g0 <= nolan1_g 1 x th).
    { unfold nolan1_g, g0. replace (- PI * x / (2 * 1)) with (- PI * x / 2) by field. apply Rmult_le_compat_l; [left; apply exp_pos|apply V1_low, T]. }
    apply Rle_trans with (/ nolan1_g 1 x th); [apply xe_inv; lra|apply Rinv_le_contravar; assumption]. }
  specialize (PB BD). rewrite <- EI in PB. rewrite Rabs_R1. replace (1 / (2 * 1)) with (/ 2) by field.
  replace (PI / 2 - - (PI / 2)) with PI in PB by field.
  assert (K : / 2 * (/ g0 * PI) < / (PI * (1 + x ^ 2))).
  { assert (S1 : 48 * (1 + x ^ 2) < s).
    { set (t := - x / 8). assert (T : 10 / 8 <= t) by (unfold t; lra). apply Rlt_le_trans with ((1 + t) ^ 12).
      - replace (x ^ 2) with (64 * t ^ 2) by (unfold t; field). change 12%nat with (10 + 2)%nat. rewrite pow_add.
        assert (Q : (9 / 4) ^ 10 <= (1 + t) ^ 10) by (apply pow_incr; lra). assert (Q2 : 3325 <= (9 / 4) ^ 10) by (cbn [pow]; lra). nra.
      - unfold s. replace (- PI * x / 2) with (12 * (PI / 3 * t)) by (unfold t; field).
        assert (EP : exp (12 * (PI / 3 * t)) = exp (PI / 3 * t) ^ 12) by (symmetry; apply exp_mult_nat_12).
        rewrite EP. apply pow_incr. split; [lra|]. apply Rle_trans with (1 + PI / 3 * t); [nra|apply exp_ineq1_le]. }
    pose proof exp_le_3 as E3. pose proof (exp_pos 1) as E1.
    assert (W : 0 < 1 + x ^ 2) by nra.
    apply (Rmult_lt_reg_r (PI * (1 + x ^ 2) * s)); [apply Rmult_lt_0_compat; [apply Rmult_lt_0_compat; lra|lra]|].
    replace (/ (PI * (1 + x ^ 2)) * (PI * (1 + x ^ 2) * s)) with s by (field; lra).
    replace (/ 2 * (/ g0 * PI) * (PI * (1 + x ^ 2) * s)) with (PI * PI * PI * exp 1 / 4 * (1 + x ^ 2)) by (unfold g0; field; repeat split; lra).
    apply Rle_lt_trans with (48 * (1 + x ^ 2)); [|exact S1]. apply Rmult_le_compat_r; [lra|].
    assert (PI * PI <= 16) by nra. assert (PI * PI * PI <= 64) by nra. assert (0 <= PI * PI * PI) by nra. nra. }
  lra.
Qed.
(** Finding: at alpha = 1 the skewness is ignored.  For every beta the variate is the tangent of a uniform angle, whatever finite number
    tanpi2(1) is in the place of the infinite tan(pi/2): a Cauchy variate (its distribution function is 1/2 + atan(x)/pi).  The density
    for beta = 1 is a different one: left of -10 it is strictly below the density of the variates.  (In floats bt is about 1.6e16 beta, and the
    last subtraction cancels all digits of the Cauchy variate.) *)
Theorem C118_alpha_one_refuted : forall argmax cauchy beta u w, ~ near_cauchy 1 beta -> -1 <= beta <= 1 -> 0 < u < 1 -> 0 < w ->
  exists z, stable_rvs argmax cauchy 1 beta 1 0 0 u w = Ok (Fin z) /\ (forall x, z <= x <-> u <= 1 / 2 + atan x / PI) /\
    (forall x, is_derive (fun x => 1 / 2 + atan x / PI) x (/ (PI * (1 + x ^ 2)))) /\
    (forall x, x <= -10 -> exists d, 0 < d /\ nolan1_density 1 x d /\ d < / (PI * (1 + x ^ 2))).
Proof.
  intros argmax cauchy beta u w N B Hu Hw. pose proof PI_RGT_0 as PP. exists (tan (PI * (u - 1 / 2))). split; [|split; [|split]].
  - rewrite rvs_z by exact N. replace (stable_check 1 beta 1 0) with (@Ok unit tt).
    + cbn [bind]. rewrite stable_z_one by assumption. cbn [escal eadd]. do 2 f_equal. ring.
    + symmetry. unfold stable_check. rewrite !(proj2 (Rleb_true _ _)) by (try apply Rabs_le; lra). rewrite (proj2 (Rltb_true 0 1)) by lra. reflexivity.
  - intros x. set (th := PI * (u - 1 / 2)). assert (T : - (PI / 2) < th < PI / 2) by (unfold th; nra).
    assert (EU : u = 1 / 2 + th / PI) by (unfold th; field; lra). assert (M : u <= 1 / 2 + atan x / PI <-> th <= atan x).
    { rewrite EU. split; intros H.
      - apply (Rmult_le_reg_r (/ PI)); [apply Rinv_0_lt_compat, PP|]. unfold Rdiv in H. lra.
      - apply Rplus_le_compat_l. unfold Rdiv. apply Rmult_le_compat_r; [left; apply Rinv_0_lt_compat, PP|exact H]. }
    rewrite M. pose proof (atan_bound x) as AB. split; intros H.
    + destruct (Rle_dec th (atan x)) as [L|L]; [exact L|]. exfalso. pose proof (tan_increasing (atan x) th ltac:(lra) ltac:(lra) ltac:(lra)) as TI. rewrite tan_atan in TI. lra.
    + destruct (Req_dec th (atan x)) as [->|L]; [rewrite tan_atan; lra|]. pose proof (tan_increasing th (atan x) ltac:(lra) ltac:(lra) ltac:(lra)) as TI. rewrite tan_atan in TI. lra.
  - intros x. auto_derive; [exact Logic.I|]. field; repeat split; try lra; nra.
  - intros x X. destruct (T_StableOne.C93_density_exists 1 x ltac:(lra)) as (d & P & D & _). exists d. split; [exact P|]. split; [exact D|]. apply (nolan1_left x d X D).
Qed.
Print Assumptions C118_alpha_one_refuted.

(** ** alpha = 2 *)
Lemma stable_z_two beta u w : 0 < u < 1 -> 0 < w -> stable_z 2 beta u w = Fin (2 * sin (PI * (u - 1 / 2)) * sqrt w).
Proof.
  intros Hu Hw. pose proof PI_RGT_0 as PP. unfold stable_z. set (th := PI * (u - 1 / 2)).
  assert (T : - (PI / 2) < th < PI / 2) by (unfold th; nra). assert (C : 0 < cos th) by (apply cos_gt_0; lra).
  assert (B : beta * tanpi2 2 = 0). { unfold tanpi2. replace (2 * PI / 2) with PI by field. rewrite tan_PI. ring. }
  rewrite B, atan_0. replace (0 / 2) with 0 by field. rewrite Rmax_right, Rmin_left by (try rewrite Rmax_right; lra).
  replace (th - 2 * (th + 0)) with (- th) by ring. rewrite cos_neg. replace (2 * (th + 0)) with (2 * th) by ring.
  rewrite epow_pos by exact C. rewrite epow_pos by (apply Rdiv_lt_0_compat; assumption). f_equal.
  replace (1 + 0 ^ 2) with 1 by ring. replace (Rpower 1 (1 / (2 * 2))) with 1 by (unfold Rpower; rewrite ln_1, Rmult_0_r, exp_0; reflexivity).
  replace (-1 / 2) with (- / 2) by field. replace ((1 - 2) / 2) with (- / 2) by field. rewrite !Rpower_Ropp.
  rewrite !Rpower_sqrt by (try apply Rdiv_lt_0_compat; assumption). rewrite sqrt_div_alt by exact Hw. rewrite sin_2a.
  assert (Q : 0 < sqrt (cos th)) by (apply sqrt_lt_R0, C). assert (Q2 : 0 < sqrt w) by (apply sqrt_lt_R0, Hw). pose proof (sqrt_sqrt (cos th) ltac:(lra)) as E.
  transitivity (2 * sin th * sqrt w * (cos th * / (sqrt (cos th) * sqrt (cos th)))); [field; split; lra|]. rewrite E. field. lra.
Qed.
(** given the angle, the variate is at most x when the exponential draw is at most this *)
Definition w_bound (x u : R) : R := x ^ 2 / (4 * sin (PI * (u - 1 / 2)) ^ 2).
Section Normal.
  Variable x : R.
  Hypothesis X : 0 < x.
  Let th (u : R) : R := PI * (u - 1 / 2).
  Let F (u : R) : R := - (exp (- x ^ 2 / 4) / (PI * sqrt 2)) * gI (x / sqrt 2 * (cos (th u) / sin (th u))).
  Let f (u : R) : R := x / (2 * sin (th u) ^ 2) * exp (- w_bound x u).
  Lemma sin_half u : 1 / 2 < u < 1 -> 0 < sin (th u) /\ 0 < cos (th u).
  Proof. intros U. pose proof PI_RGT_0. assert (0 < th u < PI / 2) by (unfold th; nra). split; [apply sin_gt_0; lra|apply cos_gt_0; lra]. Qed.
  Lemma F2_derive u : 1 / 2 < u < 1 -> is_derive F u (f u).
  Proof.
    intros U. destruct (sin_half u U) as (S & C). pose proof PI_RGT_0 as PP. assert (Q : 0 < sqrt 2) by (apply sqrt_lt_R0; lra). pose proof (sqrt_sqrt 2 ltac:(lra)) as E2.
    pose proof (sin2_cos2 (th u)) as SC. unfold Rsqr in SC.
    assert (D : is_derive (fun u => x / sqrt 2 * (cos (th u) / sin (th u))) u (- (x / sqrt 2 * PI / sin (th u) ^ 2))).
    { unfold th in *. auto_derive; [apply Rgt_not_eq; exact S|]. change (u + - (1 / 2)) with (u - 1 / 2). set (S0 := sin (PI * (u - 1 / 2))) in *. set (C0 := cos (PI * (u - 1 / 2))) in *.
      replace (- (x / sqrt 2 * PI / S0 ^ 2)) with (- (x / sqrt 2 * PI * (S0 * S0 + C0 * C0) / S0 ^ 2)) by (rewrite SC; field; lra). field. lra. }
    evar_last; [apply (is_derive_scal (fun u => gI (x / sqrt 2 * (cos (th u) / sin (th u)))) u (- (exp (- x ^ 2 / 4) / (PI * sqrt 2)))); apply (is_derive_comp gI _ u _ _ (gI_derive _) D)|].
    unfold scal; cbn -[pow]. unfold mult; cbn -[pow]. unfold gk, f, w_bound. fold (th u).
    replace (- (x ^ 2 / (4 * sin (th u) ^ 2))) with (- x ^ 2 / 4 + - (x / sqrt 2 * (cos (th u) / sin (th u)) * (x / sqrt 2 * (cos (th u) / sin (th u)))) / 2).
    2:{ transitivity (- x ^ 2 / 4 * (1 + cos (th u) * cos (th u) / sin (th u) ^ 2)).
        - replace (- (x / sqrt 2 * (cos (th u) / sin (th u)) * (x / sqrt 2 * (cos (th u) / sin (th u)))) / 2) with (- (x * x * (cos (th u) * cos (th u)) / (sin (th u) ^ 2 * (sqrt 2 * sqrt 2))) / 2) by (field; lra). rewrite E2. field. lra.
        - replace (cos (th u) * cos (th u)) with (1 - sin (th u) * sin (th u)) by lra. field. lra. }
    rewrite exp_plus. set (A := exp (- x ^ 2 / 4)). set (G := exp (_ / 2)).
    transitivity (x / ((sqrt 2 * sqrt 2) * sin (th u) ^ 2) * (A * G)); [field; repeat split; lra|]. rewrite E2. reflexivity.
  Qed.
  Lemma F2_cont u : 1 / 2 < u < 1 -> continuous f u.
  Proof.
    intros U. destruct (sin_half u U) as (S & _). apply (ex_derive_continuous (V := R_NormedModule)). unfold f, w_bound, th in *. auto_derive.
    change (u + - (1 / 2)) with (u - 1 / 2). set (S0 := sin (PI * (u - 1 / 2))) in *. assert (S0 * (S0 * 1) <> 0) by (apply Rgt_not_eq; nra). repeat split; lra.
  Qed.
  Lemma cot_right : filterlim (fun u => x / sqrt 2 * (cos (th u) / sin (th u))) (at_right (1 / 2)) (Rbar_locally p_infty).
  Proof.
    pose proof PI_RGT_0 as PP. assert (Q : 0 < sqrt 2) by (apply sqrt_lt_R0; lra).
    apply (filterlim_ext_loc (fun u => (fun y => y * (x / sqrt 2)) (tan (PI / 2 - th u)))).
    { exists (mkposreal _ (ltac:(lra) : 0 < 1 / 2)). intros u B U. change (Rabs (u - 1 / 2) < 1 / 2) in B. apply Rabs_lt_between in B. unfold tan. rewrite sin_shift, cos_shift. apply Rmult_comm. }
    apply (filterlim_comp _ _ _ (fun u => tan (PI / 2 - th u)) (fun y => y * (x / sqrt 2)) _ (Rbar_locally p_infty)).
    - apply (filterlim_comp _ _ _ (fun u => PI / 2 - th u) tan _ (at_left (PI / 2))); [|exact tan_left].
      intros P (d & HP). assert (D : 0 < d / PI) by (apply Rdiv_lt_0_compat; [apply cond_pos|exact PP]). exists (mkposreal _ D). intros u B U. apply HP; [|unfold th; nra].
      change (Rabs (u - 1 / 2) < d / PI) in B. change (Rabs (PI / 2 - th u - PI / 2) < d). replace (PI / 2 - th u - PI / 2) with (- (PI * (u - 1 / 2))) by (unfold th; ring). rewrite Rabs_Ropp, Rabs_mult, (Rabs_pos_eq PI) by lra.
      apply (Rmult_lt_compat_l PI) in B; [|exact PP]. replace (PI * (d / PI)) with (pos d) in B by (field; lra). exact B.
    - intros P (M & HM). assert (K : 0 < x / sqrt 2) by (apply Rdiv_lt_0_compat; assumption). exists (M / (x / sqrt 2)). intros y Y. apply HM. apply (Rmult_lt_compat_r (x / sqrt 2)) in Y; [|exact K]. replace (M / (x / sqrt 2) * (x / sqrt 2)) with M in Y by (field; split; lra). exact Y.
  Qed.
  Lemma normal_integral : integral_on (1 / 2) 1 f (exp (- x ^ 2 / 4) / (2 * sqrt PI)).
  Proof.
    pose proof PI_RGT_0 as PP. assert (Q : 0 < sqrt 2) by (apply sqrt_lt_R0; lra). pose proof (sqrt_sqrt 2 ltac:(lra)) as E2. assert (QP : 0 < sqrt PI) by (apply sqrt_lt_R0; lra). pose proof (sqrt_sqrt PI ltac:(lra)) as EP.
    set (k := - (exp (- x ^ 2 / 4) / (PI * sqrt 2))).
    assert (L : filterlim F (at_right (1 / 2)) (locally (k * sqrt (PI / 2)))).
    { apply (filterlim_comp _ _ _ (fun u => gI (x / sqrt 2 * (cos (th u) / sin (th u)))) (fun y => k * y) _ (locally (sqrt (PI / 2)))); [|apply (continuous_scal_r (K := R_AbsRing) (V := R_NormedModule) k (fun y => y) (sqrt (PI / 2))), continuous_id].
      apply (filterlim_comp _ _ _ _ gI _ (Rbar_locally p_infty)); [exact cot_right|exact gI_lim]. }
    assert (L1 : filterlim F (at_left 1) (locally 0)).
    { assert (Z : F 1 = 0). { unfold F. replace (th 1) with (PI / 2) by (unfold th; field). rewrite cos_PI2. unfold Rdiv at 4. rewrite Rmult_0_l, Rmult_0_r. unfold gI. rewrite RInt_point. apply Rmult_0_r. }
      rewrite <- Z. apply (filterlim_filter_le_1 (F := locally 1)); [apply filter_le_within|]. change (continuous F 1). apply (ex_derive_continuous (K := R_AbsRing) (V := R_NormedModule)).
      assert (D : ex_derive (fun u => x / sqrt 2 * (cos (th u) / sin (th u))) 1). { unfold th. auto_derive. change (1 + - (1 / 2)) with (1 - 1 / 2). replace (PI * (1 - 1 / 2)) with (PI / 2) by field. rewrite sin_PI2. lra. }
      destruct D as (l & D). eexists. apply (is_derive_scal (fun u => gI (x / sqrt 2 * (cos (th u) / sin (th u)))) 1 k). exact (is_derive_comp gI _ 1 _ _ (gI_derive _) D). }
    replace (exp (- x ^ 2 / 4) / (2 * sqrt PI)) with (0 - k * sqrt (PI / 2)).
    2:{ unfold k. rewrite sqrt_div_alt by lra. transitivity (exp (- x ^ 2 / 4) * (sqrt PI / (sqrt 2 * sqrt 2 * PI))); [field; split; lra|]. rewrite E2. replace (2 * PI) with (2 * (sqrt PI * sqrt PI)) by (rewrite EP; reflexivity). field. lra. }
    assert (ab : 1 / 2 < 1) by lra.
    apply (integral_on_ext _ _ (Derive F)); [exact ab|intros u U; apply is_derive_unique, F2_derive, U|]. unfold integral_on. apply (is_RInt_gen_Derive (Fa := at_right (1 / 2)) (Fb := at_left 1)); try assumption.
    - apply filter_imp with (2 := near_ab (1 / 2) 1 ab). intros p (U & W) y Y. eexists. apply F2_derive. apply (between_ab _ _ (fst p) (snd p)); assumption.
    - apply filter_imp with (2 := near_ab (1 / 2) 1 ab). intros p (U & W) y Y. assert (Jy : 1 / 2 < y < 1) by (apply (between_ab _ _ (fst p) (snd p)); assumption).
      apply (continuous_ext_loc _ f); [|apply F2_cont, Jy]. assert (D : 0 < Rmin (y - 1 / 2) (1 - y)) by (apply Rmin_glb_lt; lra). exists (mkposreal _ D). intros z Hz. change (Rabs (z - y) < Rmin (y - 1 / 2) (1 - y)) in Hz. symmetry. apply is_derive_unique, F2_derive.
      apply Rabs_lt_between in Hz. pose proof (Rmin_l (y - 1 / 2) (1 - y)). pose proof (Rmin_r (y - 1 / 2) (1 - y)). lra.
  Qed.
End Normal.
(** At alpha = 2 the variates follow the normal density with variance 2 that pdf uses (stable.py:84-85): a positive variate comes from u > 1/2,
    it is at most x exactly when the exponential draw is at most w_bound x u, an event of probability 1 - exp(-w_bound x u), and the derivatives
    of these conditional probabilities add up to the normal density at x.  The negative half is mirrored (C118_mirror, with beta = 0). *)
Theorem C118_normal : forall argmax cauchy beta x, -1 <= beta <= 1 -> 0 < x ->
  (forall u w, 0 < u < 1 -> 0 < w -> exists z, stable_rvs argmax cauchy 2 beta 1 0 0 u w = Ok (Fin z) /\ (0 < z <-> 1 / 2 < u) /\ (1 / 2 < u -> (z <= x <-> w <= w_bound x u))) /\
  exists h, (forall u, 1 / 2 < u < 1 -> is_derive (fun x => 1 - exp (- w_bound x u)) x (h u)) /\ integral_on (1 / 2) 1 h (exp (- x ^ 2 / (2 * (sqrt 2) ^ 2)) / (sqrt 2 * sqrt (2 * PI))).
Proof.
  intros argmax cauchy beta x B X. pose proof PI_RGT_0 as PP. split.
  - intros u w Hu Hw. exists (2 * sin (PI * (u - 1 / 2)) * sqrt w). assert (Q : 0 < sqrt w) by (apply sqrt_lt_R0, Hw). pose proof (sqrt_sqrt w ltac:(lra)) as E.
    split; [|split].
    + rewrite rvs_z. 2:{ intros [A _]. rewrite Rabs_pos_eq in A by lra. lra. }
      replace (stable_check 2 beta 1 0) with (@Ok unit tt).
      * cbn [bind]. rewrite stable_z_two by assumption. cbn [escal eadd]. do 2 f_equal. ring.
      * symmetry. unfold stable_check. rewrite !(proj2 (Rleb_true _ _)) by (try apply Rabs_le; lra). rewrite (proj2 (Rltb_true 0 2)) by lra. reflexivity.
    + split; intros H.
      * destruct (Rlt_dec (1 / 2) u) as [L|L]; [exact L|]. exfalso. assert (S : sin (PI * (u - 1 / 2)) <= 0). { replace (PI * (u - 1 / 2)) with (- (PI * (1 / 2 - u))) by ring. rewrite sin_neg. pose proof (sin_ge_0 (PI * (1 / 2 - u)) ltac:(nra) ltac:(nra)). lra. } nra.
      * assert (S : 0 < sin (PI * (u - 1 / 2))) by (apply sin_gt_0; nra). assert (0 < 2 * sin (PI * (u - 1 / 2)) * sqrt w) by (apply Rmult_lt_0_compat; lra). assumption.
    + intros L. destruct (sin_half u ltac:(lra)) as (S & _). unfold w_bound. set (s := sin (PI * (u - 1 / 2))) in *.
      assert (S2 : 0 < 4 * s ^ 2) by (apply Rmult_lt_0_compat; [lra|apply pow_lt, S]).
      assert (M : w <= x ^ 2 / (4 * s ^ 2) <-> (2 * s * sqrt w) * (2 * s * sqrt w) <= x * x).
      { replace (2 * s * sqrt w * (2 * s * sqrt w)) with (w * (4 * s ^ 2)) by (rewrite <- E at 1; ring). split; intros H.
        - apply (Rmult_le_compat_r (4 * s ^ 2)) in H; [|lra]. replace (x ^ 2 / (4 * s ^ 2) * (4 * s ^ 2)) with (x * x) in H by (field; lra). exact H.
        - apply (Rmult_le_reg_r (4 * s ^ 2)); [exact S2|]. replace (x ^ 2 / (4 * s ^ 2) * (4 * s ^ 2)) with (x * x) by (field; lra). exact H. }
      rewrite M. assert (Z : 0 < 2 * s * sqrt w) by (apply Rmult_lt_0_compat; lra). split; intros H; nra.
  - exists (fun u => x / (2 * sin (PI * (u - 1 / 2)) ^ 2) * exp (- w_bound x u)). split.
    + intros u U. destruct (sin_half u U) as (S & _). unfold w_bound. auto_derive; [exact Logic.I|]. cbn -[pow]. set (s := sin (PI * (u - 1 / 2))) in *. 
      replace (x * (x * 1) * / (4 * (s * (s * 1)))) with (x ^ 2 / (4 * s ^ 2)) by (unfold Rdiv; cbn [pow]; reflexivity). field. lra.
    + assert (Q : 0 < sqrt 2) by (apply sqrt_lt_R0; lra). pose proof (sqrt_sqrt 2 ltac:(lra)) as E2. assert (QP : 0 < sqrt PI) by (apply sqrt_lt_R0; lra).
      replace (sqrt 2 ^ 2) with 2 by (rewrite <- E2 at 1; ring). rewrite sqrt_mult by lra. replace (sqrt 2 * (sqrt 2 * sqrt PI)) with (2 * sqrt PI) by (rewrite <- E2 at 1; ring).
      replace (2 * 2) with 4 by ring. apply normal_integral, X.
Qed.
Print Assumptions C118_normal.
(** the hypotheses are met *)
Example C118_case : ~ near_cauchy 1 1 /\ ~ near_cauchy (1 / 2) 0 /\ stable_z 2 1 (3 / 4) 4 = Fin (2 * sin (PI * (3 / 4 - 1 / 2)) * sqrt 4).
Proof.
  split; [|split].
  - intros [_ B]. rewrite Rabs_R1 in B. lra.
  - intros [A _]. rewrite Rabs_left in A by lra. lra.
  - apply stable_z_two; lra.
Qed.
