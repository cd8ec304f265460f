(** Nolan's exponent: the code's formula, positivity, derivative, monotonicity; the values of the code's g1. *)
From Coquelicot Require Import Coquelicot.
From Verif Require Import Base RSumLib Ext S_StablePdf P_StableInt M_Archimedean M_Special M_Specfunc M_Stable M_StablePdf.
Open Scope R_scope.

Definition ok (al t0 xm : R) : Prop :=
  0 < al < 2 /\ al <> 1 /\ - (PI / 2) < t0 <= PI / 2 /\ al * (PI / 2 + t0) <= PI /\ - (PI / 2) < al * t0 < PI / 2 /\ 0 < xm.
Definition inside (t0 th : R) : Prop := - t0 < th < PI / 2.
Lemma angles al t0 xm th : ok al t0 xm -> inside t0 th -> 0 < cos th /\ 0 < (th + t0) * al < PI /\ 0 < sin ((th + t0) * al) /\ 0 < cos ((th + t0) * al - th).
Proof.
  intros (A & N & T & L & _ & _) (H1 & H2). pose proof PI_RGT_0 as PP.
  assert (S : 0 < (th + t0) * al < PI). { split; [apply Rmult_lt_0_compat; lra|]. nra. }
  split; [apply cos_gt_0; lra|]. split; [exact S|]. split; [apply sin_gt_0; lra|]. apply cos_gt_0.
  - destruct (Rlt_le_dec 1 al); [|assert (al < 1) by lra]; nra.
  - destruct (Rlt_le_dec 1 al); [|assert (al < 1) by lra]; nra.
Qed.
Definition W (al t0 xm th : R) : R :=
  ln (cos ((th + t0) * al - th)) + (ln (cos (al * t0)) + ln (cos th) + al * (ln xm - ln (sin ((th + t0) * al)))) / (al - 1).
Lemma exp_W_nolan al t0 xm th : ok al t0 xm -> inside t0 th -> nolan_g al t0 xm th = exp (W al t0 xm th).
Proof.
  intros O I. destruct (angles al t0 xm th O I) as (C & _ & S & B). destruct O as (A & N & T & L & C0 & X).
  assert (C0' : 0 < cos (al * t0)) by (apply cos_gt_0; lra).
  unfold nolan_g, nolan_V. replace (al * (t0 + th)) with ((th + t0) * al) by ring. replace (al * t0 + (al - 1) * th) with ((th + t0) * al - th) by ring.
  unfold Rpower. rewrite ln_div by assumption. replace (cos ((th + t0) * al - th) / cos th) with (exp (ln (cos ((th + t0) * al - th)) - ln (cos th))) by (unfold Rminus at 1; rewrite exp_plus, exp_Ropp, !exp_ln by assumption; reflexivity).
  rewrite <- !exp_plus. f_equal. unfold W. field. lra.
Qed.
Lemma epow_exp x y : 0 < x -> epow (Fin x) y = Fin (exp (y * ln x)).
Proof. intros H. rewrite (epow_pos x y H). reflexivity. Qed.
Lemma npow_pos x y : 0 < x -> npow (Fin x) y = Fin (exp (y * ln x)).
Proof. intros H. unfold npow. rewrite (proj2 (Rltb_false x 0)) by lra. apply epow_exp, H. Qed.
Lemma g1_inside al t0 xm th : ok al t0 xm -> inside t0 th -> 14 / 10 ^ 15 < Rabs (PI2 - sgn (al - 1) * th) -> g1 al t0 xm th = Fin (exp (W al t0 xm th)).
Proof.
  intros O I D. destruct (angles al t0 xm th O I) as (C & _ & S & B). destruct O as (A & N & T & L & C0 & X).
  assert (C0' : 0 < cos (al * t0)) by (apply cos_gt_0; lra).
  unfold g1. rewrite (proj2 (Rleb_false _ _) D). unfold over. rewrite (proj2 (Reqb_false _ 0)) by lra.
  assert (Q : 0 < xm / sin ((th + t0) * al)) by (apply Rdiv_lt_0_compat; assumption).
  rewrite (npow_pos _ _ Q). cbn [escal]. rewrite npow_pos by (apply Rmult_lt_0_compat; [apply Rmult_lt_0_compat; assumption|apply exp_pos]).
  cbn [escal]. f_equal. rewrite ln_mult, ln_mult, ln_exp, ln_div by (try assumption; try apply exp_pos; apply Rmult_lt_0_compat; assumption).
  replace (cos ((th + t0) * al - th)) with (exp (ln (cos ((th + t0) * al - th)))) at 1 by (apply exp_ln, B). rewrite <- exp_plus. f_equal. unfold W. field. lra.
Qed.

(** the derivative of W is - Q / (al - 1) with Q > 0 *)
Definition Qd (al t0 th : R) : R :=
  let A := (th + t0) * al in let B := A - th in
  ((sin A * sin B - al * cos th) ^ 2 + (sin A * cos B) ^ 2) / (cos th * cos B * sin A).
Lemma Qd_pos al t0 xm th : ok al t0 xm -> inside t0 th -> 0 < Qd al t0 th.
Proof.
  intros O I. destruct (angles al t0 xm th O I) as (C & _ & S & B). unfold Qd. apply Rdiv_lt_0_compat.
  - apply Rplus_le_lt_0_compat; [apply pow2_ge_0|]. apply pow_lt, Rmult_lt_0_compat; assumption.
  - apply Rmult_lt_0_compat; [apply Rmult_lt_0_compat|]; assumption.
Qed.
Lemma W_derive al t0 xm th : ok al t0 xm -> inside t0 th -> is_derive (W al t0 xm) th (- (Qd al t0 th) / (al - 1)).
Proof.
  intros O I. destruct (angles al t0 xm th O I) as (C & _ & S & B). destruct O as (Aa & N & _).
  unfold W. auto_derive. { unfold Rminus in B. repeat split; assumption. }
  unfold Qd. change ((th + t0) * al + - th) with ((th + t0) * al - th). set (A := (th + t0) * al) in *.
  assert (E1 : sin A = sin (A - th) * cos th + cos (A - th) * sin th) by (rewrite <- sin_plus; f_equal; ring).
  assert (E2 : cos A = cos (A - th) * cos th - sin (A - th) * sin th) by (rewrite <- cos_plus; f_equal; ring).
  set (sb := sin (A - th)) in *. set (cb := cos (A - th)) in *. set (sa := sin A) in *. set (ca := cos A) in *. set (s := sin th) in *. set (c := cos th) in *.
  assert (P1 : s * s + c * c = 1) by (unfold s, c; pose proof (sin2_cos2 th) as H; unfold Rsqr in H; lra).
  assert (P2 : sb * sb + cb * cb = 1) by (unfold sb, cb; pose proof (sin2_cos2 (A - th)) as H; unfold Rsqr in H; lra).
  match goal with |- ?l = ?r => cut ((l - r) * ((al - 1) * c * cb * sa) = 0) end.
  { intros Z. apply Rmult_integral in Z. destruct Z as [Z|Z]; [lra|]. exfalso. assert ((al - 1) * c * cb * sa <> 0); [|lra]. repeat apply Rmult_integral_contrapositive_currified; lra. }
  match goal with |- (?l - ?r) * _ = 0 => replace ((l - r) * ((al - 1) * c * cb * sa)) with
    (- (al - 1) ^ 2 * sb * c * sa - s * cb * sa - al ^ 2 * ca * c * cb + ((sa * sb - al * c) ^ 2 + (sa * cb) ^ 2)) by (field; repeat split; lra) end.
  assert (F : (al ^ 2) * c * (c - sb * sa - ca * cb) + al * 0 + sa * (sa * (sb * sb + cb * cb) - sb * c - s * cb) = 0).
  { rewrite P2. replace (c - sb * sa - ca * cb) with (c - c * (sb * sb + cb * cb)) by (rewrite E1, E2; ring). rewrite P2. replace (sa * 1 - sb * c - s * cb) with 0 by (rewrite E1; ring). ring. }
  rewrite <- F. ring.
Qed.
Lemma W_order al t0 xm u v : ok al t0 xm -> inside t0 u -> inside t0 v -> u < v ->
  (1 < al -> W al t0 xm v < W al t0 xm u) /\ (al < 1 -> W al t0 xm u < W al t0 xm v).
Proof.
  intros O U V UV. split; intros A.
  - assert (- W al t0 xm u < - W al t0 xm v); [|lra].
    apply (incr_function (fun th => - W al t0 xm th) (Finite (- t0)) (Finite (PI / 2)) (fun th => - (- (Qd al t0 th) / (al - 1)))).
    + intros x X Y. apply (is_derive_opp (W al t0 xm)), W_derive; [exact O|split; assumption].
    + intros x X Y. replace (- (- Qd al t0 x / (al - 1))) with (Qd al t0 x / (al - 1)) by (field; lra). apply Rdiv_lt_0_compat; [apply (Qd_pos al t0 xm); [exact O|split; assumption]|lra].
    + apply U.
    + exact UV.
    + apply V.
  - apply (incr_function (W al t0 xm) (Finite (- t0)) (Finite (PI / 2)) (fun th => - (Qd al t0 th) / (al - 1))).
    + intros x X Y. apply W_derive; [exact O|split; assumption].
    + intros x X Y. replace (- Qd al t0 x / (al - 1)) with (Qd al t0 x / (1 - al)) by (field; lra). apply Rdiv_lt_0_compat; [apply (Qd_pos al t0 xm); [exact O|split; assumption]|lra].
    + apply U.
    + exact UV.
    + apply V.
Qed.
(** the integrand *)
Definition fN (al t0 xm th : R) : R := exp (W al t0 xm th) * exp (- exp (W al t0 xm th)).
Lemma xe_bound v : 0 < v -> 0 < v * exp (- v) <= 1.
Proof.
  intros V. split; [apply Rmult_lt_0_compat; [exact V|apply exp_pos]|]. rewrite exp_Ropp. pose proof (exp_ineq1_le v). pose proof (exp_pos v).
  apply (Rmult_le_reg_r (exp v)); [assumption|]. rewrite Rmult_assoc, Rinv_l by lra. lra.
Qed.
Lemma fN_bound al t0 xm th : 0 < fN al t0 xm th <= 1.
Proof. apply xe_bound, exp_pos. Qed.
Lemma fN_cont al t0 xm th : ok al t0 xm -> inside t0 th -> continuous (fN al t0 xm) th.
Proof.
  intros O I. assert (C : continuous (W al t0 xm) th). { apply (ex_derive_continuous (W al t0 xm)). eexists. apply W_derive; assumption. }
  unfold fN. assert (CE : continuous (fun x => exp (W al t0 xm x)) th) by (apply (continuous_comp (W al t0 xm) exp); [exact C|apply continuous_exp]).
  apply (continuous_mult (K := R_AbsRing) (fun x => exp (W al t0 xm x))); [exact CE|].
  apply (continuous_comp (fun x => - exp (W al t0 xm x)) exp); [|apply continuous_exp]. apply (continuous_opp (V := R_NormedModule)), CE.
Qed.
Lemma fN_primitive al t0 xm : ok al t0 xm -> exists P, primitive_on (- t0) (PI / 2) 1 (fN al t0 xm) P.
Proof.
  intros O. apply bounded_primitive; [destruct O as (_ & _ & T & _); lra|lra|intros x X; apply fN_cont; assumption|].
  intros x X. pose proof (fN_bound al t0 xm x). rewrite Rabs_pos_eq; lra.
Qed.
Lemma fN_far al t0 xm th : LARGE_EXP_POW < exp (W al t0 xm th) -> 0 <= fN al t0 xm th <= / 10 ^ 20.
Proof.
  intros H. unfold fN. set (v := exp (W al t0 xm th)) in *. assert (V : 708 < v) by (unfold LARGE_EXP_POW in H; lra).
  pose proof (xe_bound (v / 2) ltac:(lra)) as (B1 & B2). split; [pose proof (xe_bound v ltac:(lra)); lra|].
  replace (- v) with (- (v / 2) + - (v / 2)) by field. rewrite exp_plus. replace (v * (exp (- (v / 2)) * exp (- (v / 2)))) with (2 * (v / 2 * exp (- (v / 2))) * exp (- (v / 2))) by field.
  assert (E : exp (- (v / 2)) <= / 2 ^ 70). { rewrite exp_Ropp. apply Rinv_le_contravar; [apply pow_lt; lra|].
    apply Rle_trans with (exp 1 ^ 70). { apply pow_incr. pose proof (exp_ineq1 1 ltac:(lra)). lra. }
    rewrite <- Rpower_pow by apply exp_pos. unfold Rpower. rewrite ln_exp, Rmult_1_r, INR_IZR_INZ. left. apply exp_increasing. simpl. lra. }
  pose proof (exp_pos (- (v / 2))). assert (2 * / 2 ^ 70 <= / 10 ^ 20) by lra. nra.
Qed.

(** values of the code's g1 at the end points and near them *)
Definition cut : R := 14 / 10 ^ 15.
Lemma cut_small : 0 < cut < 1 / 10 ^ 10. Proof. unfold cut. split; lra. Qed.
Lemma g1_pi_high al t0 xm : 1 < al -> forall th, PI / 2 - cut <= th <= PI / 2 -> g1 al t0 xm th = Fin 0.
Proof.
  intros A th H. unfold g1. rewrite (sgn_pos (al - 1)) by lra. rewrite (proj2 (Rleb_true _ _)); [reflexivity|]. unfold PI2. fold cut. rewrite Rmult_1_l, Rabs_pos_eq; lra.
Qed.
Lemma sin_over_0 xm : over xm 0 = Pinf.
Proof. unfold over. rewrite Reqb_refl. reflexivity. Qed.
Lemma escal_pinf c : 0 < c -> escal c Pinf = Pinf.
Proof. intros H. cbn. rewrite (proj2 (Rltb_true 0 c) H). reflexivity. Qed.
Lemma g1_t0_high al t0 xm : ok al t0 xm -> 1 < al -> - t0 < PI / 2 - cut -> g1 al t0 xm (- t0) = Pinf.
Proof.
  intros (A & N & T & L & C0 & X) H D. pose proof PI_RGT_0 as PP. assert (T2 : t0 < PI / 2) by nra.
  unfold g1. rewrite (sgn_pos (al - 1)) by lra. pose proof cut_small. rewrite (proj2 (Rleb_false _ _)); [|unfold PI2; fold cut; rewrite Rabs_pos_eq; lra].
  replace ((- t0 + t0) * al) with 0 by ring. rewrite sin_0, sin_over_0. cbn [npow]. rewrite epow_inf_pos by lra.
  rewrite escal_pinf. 2:{ apply Rmult_lt_0_compat; apply cos_gt_0; lra. }
  cbn [npow]. rewrite epow_inf_pos by (apply Rdiv_lt_0_compat; lra). apply escal_pinf, cos_gt_0; lra.
Qed.
Lemma g1_t0_low al t0 xm : ok al t0 xm -> al < 1 -> cut < PI / 2 - t0 -> g1 al t0 xm (- t0) = Fin 0.
Proof.
  intros (A & N & T & L & C0 & X) H D. unfold g1. rewrite (sgn_neg (al - 1)) by lra. rewrite (proj2 (Rleb_false _ _)); [|unfold PI2; fold cut; rewrite Rabs_pos_eq; lra].
  replace ((- t0 + t0) * al) with 0 by ring. rewrite sin_0, sin_over_0. cbn [npow]. rewrite epow_inf_pos by lra. pose proof cut_small.
  rewrite escal_pinf. 2:{ apply Rmult_lt_0_compat; apply cos_gt_0; lra. }
  cbn [npow]. rewrite epow_inf_neg. { cbn. f_equal. ring. }
  unfold Rdiv. rewrite Rmult_1_l. apply Rinv_lt_0_compat. lra.
Qed.
Lemma g1_pi_low al t0 xm : ok al t0 xm -> al < 1 -> g1 al t0 xm (PI / 2) = Pinf.
Proof.
  intros (A & N & T & L & C0 & X) H. pose proof PI_RGT_0 as PP. pose proof PI2_1. pose proof cut_small.
  unfold g1. rewrite (sgn_neg (al - 1)) by lra. rewrite (proj2 (Rleb_false _ _)); [|unfold PI2; fold cut; rewrite Rabs_pos_eq; lra].
  assert (S : 0 < (PI / 2 + t0) * al < PI) by nra. assert (SP : 0 < sin ((PI / 2 + t0) * al)) by (apply sin_gt_0; lra).
  unfold over. rewrite (proj2 (Reqb_false _ 0)) by lra. rewrite npow_pos by (apply Rdiv_lt_0_compat; assumption). cbn [escal]. rewrite cos_PI2, Rmult_0_r, Rmult_0_l.
  unfold npow. rewrite Rltb_irrefl. rewrite epow_0_neg. 2:{ unfold Rdiv. rewrite Rmult_1_l. apply Rinv_lt_0_compat. lra. }
  apply escal_pinf. rewrite cos_minus, cos_PI2, sin_PI2. lra.
Qed.
