(** Nolan's integral: it exists, is positive, and at alpha = 1/2, beta = 1 is the Levy density; the case the code takes for an empty interval. *)
From Coquelicot Require Import Coquelicot.
From Coq Require Import Classical.
From Verif Require Import Base RSumLib Ext S_StablePdf P_StableInt M_Archimedean M_Special M_Specfunc M_Stable M_StablePdf P_StablePdf P_StablePdf2 P_StablePdf3 P_StablePdf4 P_StablePdf5 P_GaussInt.
Open Scope R_scope.

Lemma fN_total al t0 xm : ok al t0 xm -> exists I, integral_on (- t0) (PI / 2) (fN al t0 xm) I /\ 0 < I.
Proof.
  intros O. pose proof O as (A & N & T0 & _). destruct (fN_primitive al t0 xm O) as (P & HP). assert (ab : - t0 < PI / 2) by lra.
  exists (P (PI / 2) - P (- t0)). split; [apply (integral_of_primitive _ _ 1); assumption|].
  set (u := - t0 + (PI / 2 + t0) / 3). set (w := - t0 + 2 * (PI / 2 + t0) / 3).
  assert (U : - t0 < u < w) by (unfold u, w; lra). assert (Hw : w < PI / 2) by (unfold w; lra).
  assert (F : forall x, 0 <= fN al t0 xm x <= 1) by (intros x; pose proof (fN_bound al t0 xm x); lra).
  pose proof (primitive_bound _ _ _ _ P (- t0) u 1 ab ltac:(lra) ltac:(lra) HP ltac:(lra) (fun x _ => F x)) as B1.
  pose proof (primitive_bound _ _ _ _ P w (PI / 2) 1 ab ltac:(lra) ltac:(lra) HP ltac:(lra) (fun x _ => F x)) as B2.
  assert (M : 0 < P w - P u). { pose proof (proj2 HP u w ltac:(lra) ltac:(lra)) as Iw. rewrite <- (is_RInt_unique _ _ _ _ Iw). apply RInt_gt_0; [lra|intros x X; apply fN_bound|].
    intros x X. apply fN_cont; [exact O|unfold inside; lra]. }
  lra.
Qed.
Lemma integrand_fN al t0 xm th : ok al t0 xm -> inside t0 th -> nolan_g al t0 xm th * exp (- nolan_g al t0 xm th) = fN al t0 xm th.
Proof. intros O I. rewrite (exp_W_nolan al t0 xm th O I). reflexivity. Qed.
Lemma right_of_fN al t0 xm I : ok al t0 xm -> integral_on (- t0) (PI / 2) (fN al t0 xm) I -> nolan_right al t0 xm (al / (PI * Rabs (al - 1) * xm) * I).
Proof.
  intros O H. exists I. split; [|reflexivity]. pose proof O as (A & N & T0 & _). apply (integral_on_ext _ _ (fN al t0 xm)); [lra| |exact H]. intros x X. symmetry. apply integrand_fN; assumption.
Qed.
Lemma right_unique al t0 xm d d' : - t0 < PI / 2 -> nolan_right al t0 xm d -> nolan_right al t0 xm d' -> d = d'.
Proof. intros T (I & HI & ->) (J & HJ & ->). f_equal. exact (integral_unique _ _ _ _ _ T HI HJ). Qed.
Lemma coef_pos al t0 xm : ok al t0 xm -> 0 < al / (PI * Rabs (al - 1) * xm).
Proof. intros (A & N & _ & _ & _ & X). pose proof PI_RGT_0. apply Rdiv_lt_0_compat; [lra|]. apply Rmult_lt_0_compat; [apply Rmult_lt_0_compat; [lra|apply Rabs_pos_lt; lra]|exact X]. Qed.

(** the side of zeta on which x lies, as one statement *)
Lemma density_side al be x d : x <> nolan_zeta al be ->
  (nolan_density al be x d <-> nolan_right al (if Rltb x (nolan_zeta al be) then - nolan_theta0 al be else nolan_theta0 al be) (Rabs (x - nolan_zeta al be)) d).
Proof.
  intros N. unfold nolan_density. rewrite theta0_opp, zeta_opp. destruct (Rltb x (nolan_zeta al be)) eqn:E.
  - apply Rltb_true in E. rewrite Rabs_left by lra. replace (- (x - nolan_zeta al be)) with (- x - - nolan_zeta al be) by ring. split; [intros [(H & _)|(_ & H)]; [lra|exact H]|intros H; right; split; [exact E|exact H]].
  - apply Rltb_false in E. rewrite Rabs_pos_eq by lra. split; [intros [(_ & H)|(H & _)]; [exact H|lra]|intros H; left; split; [lra|exact H]].
Qed.

Lemma tan_left : filterlim tan (at_left (PI / 2)) (Rbar_locally p_infty).
Proof.
  pose proof PI_RGT_0 as PP. intros P (M & HM). pose proof (atan_bound (Rabs M)) as B. assert (A : - (PI / 2) < atan (Rabs M) < PI / 2) by (pose proof (Ratan.atan_bound (Rabs M)); lra).
  assert (D : 0 < PI / 2 - atan (Rabs M)) by lra. exists (mkposreal _ D). intros y Y L. apply HM. apply (ball_abs (PI / 2)) in Y. cbn in Y. apply Rabs_lt_between in Y.
  apply Rle_lt_trans with (Rabs M); [apply Rle_abs|]. rewrite <- (tan_atan (Rabs M)). apply tan_increasing; lra.
Qed.
Section Levy.
  Variable xm : R.
  Hypothesis X : 0 < xm.
  Let phi (th : R) : R := th / 2 + PI / 4.
  Lemma phi_in th : inside (PI / 2) th -> 0 < sin (phi th) /\ 0 < cos (phi th).
  Proof. intros (H1 & H2). pose proof PI_RGT_0. unfold phi. split; [apply sin_gt_0; lra|apply cos_gt_0; lra]. Qed.
  Lemma levy_g th : inside (PI / 2) th -> nolan_g (1 / 2) (PI / 2) xm th = / (2 * xm * (cos (phi th)) ^ 2).
  Proof.
    intros J. destruct (phi_in th J) as (S & C). unfold nolan_g, nolan_V.
    assert (C2 : cos th = 2 * sin (phi th) * cos (phi th)). { rewrite <- sin_2a. replace (2 * phi th) with (PI / 2 - - th) by (unfold phi; field). rewrite sin_shift, cos_neg. reflexivity. }
    replace (1 / 2 * (PI / 2)) with (PI / 4) by field. replace (1 / 2 / (1 / 2 - 1)) with (- (1)) by field. replace (1 / (1 / 2 - 1)) with (- (1 + 1)) by field.
    replace (1 / 2 * (PI / 2 + th)) with (phi th) by (unfold phi; field). replace (PI / 4 + (1 / 2 - 1) * th) with (PI / 2 - phi th) by (unfold phi; field). rewrite cos_shift, C2.
    assert (Q : 0 < 2 * sin (phi th) * cos (phi th)) by (apply Rmult_lt_0_compat; lra).
    rewrite !Rpower_Ropp, Rpower_plus, !Rpower_1; [|apply Rdiv_lt_0_compat; assumption|rewrite cos_PI4; apply Rdiv_lt_0_compat; [lra|apply sqrt_lt_R0; lra]|exact X].
    replace (cos (PI / 4) * cos (PI / 4)) with (/ 2). 2:{ rewrite cos_PI4. pose proof (sqrt_sqrt 2 ltac:(lra)) as E. assert (sqrt 2 <> 0) by (apply Rgt_not_eq, sqrt_lt_R0; lra). replace (1 / sqrt 2 * (1 / sqrt 2)) with (/ (sqrt 2 * sqrt 2)) by (field; assumption). rewrite E. reflexivity. }
    field. repeat split; lra.
  Qed.
  Let c := / sqrt xm * exp (- / (2 * xm)).
  Let F (th : R) : R := c * gI (tan (phi th) / sqrt xm).
  Lemma F_derive th : inside (PI / 2) th -> is_derive F th (nolan_g (1 / 2) (PI / 2) xm th * exp (- nolan_g (1 / 2) (PI / 2) xm th)).
  Proof.
    intros J. destruct (phi_in th J) as (S & C). rewrite (levy_g th J). assert (Q : 0 < sqrt xm) by (apply sqrt_lt_R0, X). pose proof (sqrt_sqrt xm ltac:(lra)) as E.
    set (s := tan (phi th) / sqrt xm).
    assert (D : is_derive (fun th => tan (phi th) / sqrt xm) th (/ (2 * sqrt xm * (cos (phi th)) ^ 2))).
    { unfold phi, tan in *. auto_derive; [repeat split; lra|]. pose proof (sin2_cos2 (th / 2 + PI / 4)) as SC. unfold Rsqr in SC.
      change (th * / 2) with (th / 2). set (S0 := sin (th / 2 + PI / 4)) in *. set (C0 := cos (th / 2 + PI / 4)) in *.
      replace (1 * / 2 * C0 * / C0 + S0 * (- (1 * / 2 * - S0) * / (C0 * C0))) with ((S0 * S0 + C0 * C0) / (2 * C0 ^ 2)) by (field; lra). rewrite SC. field. lra. }
    evar_last; [apply (is_derive_scal (fun th => gI (tan (phi th) / sqrt xm)) th c); apply (is_derive_comp gI (fun th => tan (phi th) / sqrt xm) th _ _ (gI_derive _) D)|].
    unfold scal; cbn. unfold mult; cbn. unfold gk, c.
    replace (- / (2 * xm * (cos (phi th) * (cos (phi th) * 1)))) with (- / (2 * xm) + - (s * s) / 2).
    2:{ unfold s, tan. pose proof (sin2_cos2 (phi th)) as SC. unfold Rsqr in SC. replace (sin (phi th) / cos (phi th) / sqrt xm * (sin (phi th) / cos (phi th) / sqrt xm)) with ((1 - cos (phi th) * cos (phi th)) / (cos (phi th) * cos (phi th) * xm)). 2:{ replace (sin (phi th) / cos (phi th) / sqrt xm * (sin (phi th) / cos (phi th) / sqrt xm)) with (sin (phi th) * sin (phi th) / (cos (phi th) * cos (phi th) * (sqrt xm * sqrt xm))) by (field; lra). rewrite E. f_equal. lra. } field. lra. }
    rewrite exp_plus. fold s.
    replace (/ (2 * xm * (cos (phi th) * (cos (phi th) * 1)))) with (/ (2 * sqrt xm * (cos (phi th) * (cos (phi th) * 1))) * / sqrt xm). 2:{ transitivity (/ (2 * (sqrt xm * sqrt xm) * (cos (phi th) * (cos (phi th) * 1)))); [field; lra|rewrite E; reflexivity]. }
    ring.
  Qed.
  Lemma phi_left : filterlim phi (at_left (PI / 2)) (at_left (PI / 2)).
  Proof.
    intros P (d & HP). exists d. intros y Y L. apply HP; [|unfold phi; lra]. apply (ball_abs (PI / 2)) in Y. change (Rabs (phi y - PI / 2) < d). replace (phi y - PI / 2) with ((y - PI / 2) / 2) by (unfold phi; field).
    unfold Rdiv. rewrite Rabs_mult, (Rabs_pos_eq (/ 2)) by lra. pose proof (Rabs_pos (y - PI / 2)). lra.
  Qed.
  Lemma F_right_end : filterlim F (at_left (PI / 2)) (locally (c * sqrt (PI / 2))).
  Proof.
    assert (Q : 0 < sqrt xm) by (apply sqrt_lt_R0, X).
    apply (filterlim_comp _ _ _ (fun th => gI (tan (phi th) / sqrt xm)) (fun y => c * y) _ (locally (sqrt (PI / 2)))); [|apply (continuous_scal_r (K := R_AbsRing) (V := R_NormedModule) c (fun y => y) (sqrt (PI / 2))), continuous_id].
    apply (filterlim_comp _ _ _ (fun th => tan (phi th) / sqrt xm) gI _ (Rbar_locally p_infty)); [|exact gI_lim].
    apply (filterlim_comp _ _ _ phi (fun y => tan y / sqrt xm) _ (at_left (PI / 2))); [exact phi_left|].
    apply (filterlim_comp _ _ _ tan (fun y => y / sqrt xm) _ (Rbar_locally p_infty)); [exact tan_left|].
    intros P (M & HM). exists (M * sqrt xm). intros y Y. apply HM. apply (Rmult_lt_reg_r (sqrt xm)); [exact Q|]. unfold Rdiv. rewrite Rmult_assoc, Rinv_l by lra. lra.
  Qed.
  Lemma F_left_end : filterlim F (at_right (- (PI / 2))) (locally 0).
  Proof.
    assert (Z : F (- (PI / 2)) = 0). { unfold F. replace (phi (- (PI / 2))) with 0 by (unfold phi; field). rewrite tan_0. unfold Rdiv at 1. rewrite Rmult_0_l. unfold gI. rewrite RInt_point. apply Rmult_0_r. }
    rewrite <- Z. apply (filterlim_filter_le_1 (F := locally (- (PI / 2)))); [apply filter_le_within|].
    change (continuous F (- (PI / 2))). apply (ex_derive_continuous (K := R_AbsRing) (V := R_NormedModule)).
    assert (Q : 0 < sqrt xm) by (apply sqrt_lt_R0, X).
    assert (D : ex_derive (fun th => tan (phi th) / sqrt xm) (- (PI / 2))). { unfold phi, tan. auto_derive. replace (- (PI / 2) * / 2 + PI / 4) with 0 by field. rewrite cos_0. repeat split; lra. }
    destruct D as (l & D). eexists. apply (is_derive_scal (fun th => gI (tan (phi th) / sqrt xm)) _ c). exact (is_derive_comp gI (fun th => tan (phi th) / sqrt xm) _ _ _ (gI_derive _) D).
  Qed.
  Lemma levy_ok : ok (1 / 2) (PI / 2) xm.
  Proof. pose proof PI_RGT_0. unfold ok. repeat split; try lra. Qed.
  Lemma levy_integral : integral_on (- (PI / 2)) (PI / 2) (fun th => nolan_g (1 / 2) (PI / 2) xm th * exp (- nolan_g (1 / 2) (PI / 2) xm th)) (c * sqrt (PI / 2)).
  Proof.
    pose proof PI_RGT_0 as PP. assert (ab : - (PI / 2) < PI / 2) by lra.
    destruct (fN_total (1 / 2) (PI / 2) xm levy_ok) as (I & HI & _). destruct (fN_primitive _ _ _ levy_ok) as (P & HP).
    pose proof (integral_of_primitive _ _ _ _ _ ab HP) as HI2.
    assert (K : exists k, forall th, inside (PI / 2) th -> F th = P th + k).
    { exists (F 0 - P 0). intros th J. assert (Z : inside (PI / 2) 0) by (unfold inside; lra).
      pose proof (proj2 HP 0 th Z J) as R1.
      assert (R2 : is_RInt (fN (1 / 2) (PI / 2) xm) 0 th (F th - F 0)).
      { apply (is_RInt_ext (fun th => nolan_g (1 / 2) (PI / 2) xm th * exp (- nolan_g (1 / 2) (PI / 2) xm th))).
        - intros y Y. apply integrand_fN; [exact levy_ok|]. apply (between_ab (- (PI / 2)) (PI / 2) 0 th); [exact Z|exact J|lra].
        - apply (is_RInt_derive (V := R_CompleteNormedModule)); intros y Y; assert (Jy : inside (PI / 2) y) by (apply (between_ab (- (PI / 2)) (PI / 2) 0 th); [exact Z|exact J|lra]).
          + apply F_derive, Jy.
          + apply (continuous_ext_loc _ (fN (1 / 2) (PI / 2) xm)); [|apply fN_cont; [exact levy_ok|exact Jy]].
            unfold inside in Jy. assert (D : 0 < Rmin (y - - (PI / 2)) (PI / 2 - y)) by (apply Rmin_glb_lt; lra). exists (mkposreal _ D). intros z Hz. apply (ball_abs y) in Hz. cbn in Hz. symmetry. apply integrand_fN; [exact levy_ok|].
            apply Rabs_lt_between in Hz. pose proof (Rmin_l (y - - (PI / 2)) (PI / 2 - y)). pose proof (Rmin_r (y - - (PI / 2)) (PI / 2 - y)). unfold inside. lra. }
      pose proof (is_RInt_unique _ _ _ _ R1) as E1. rewrite (is_RInt_unique _ _ _ _ R2) in E1. lra. }
    destruct K as (k & K).
    assert (Pc : forall y, continuous P y) by (intros y; apply (lipschitz_continuous 1), HP).
    assert (Near : forall (Fl : (R -> Prop) -> Prop) (a l : R), ProperFilter' Fl -> filter_le Fl (locally a) -> Fl (inside (PI / 2)) -> filterlim F Fl (locally l) -> l = P a + k).
    { intros Fl a l PF Le In Lim. apply (filterlim_locally_unique (F := Fl) F); [exact Lim|].
      apply (filterlim_ext_loc (fun th => P th + k)). { generalize In. apply filter_imp. intros th J. symmetry. apply K, J. }
      apply (filterlim_filter_le_1 (F := locally a)); [exact Le|]. change (continuous (fun th => P th + k) a). apply (continuous_plus (V := R_NormedModule)); [apply Pc|apply continuous_const]. }
    assert (D : 0 < PI) by lra.
    assert (E1 : c * sqrt (PI / 2) = P (PI / 2) + k). { apply (Near (at_left (PI / 2))); [apply Proper_StrongProper, at_left_proper_filter|apply filter_le_within| |exact F_right_end]. exists (mkposreal _ D). intros y Y L. apply (ball_abs (PI / 2)) in Y. cbn in Y. apply Rabs_lt_between in Y. unfold inside. lra. }
    assert (E2 : 0 = P (- (PI / 2)) + k). { apply (Near (at_right (- (PI / 2)))); [apply Proper_StrongProper, at_right_proper_filter|apply filter_le_within| |exact F_left_end]. exists (mkposreal _ D). intros y Y L. apply (ball_abs (- (PI / 2))) in Y. cbn in Y. apply Rabs_lt_between in Y. unfold inside. lra. }
    replace (c * sqrt (PI / 2)) with (P (PI / 2) - P (- (PI / 2))) by lra.
    apply (integral_on_ext _ _ (fN (1 / 2) (PI / 2) xm)); [exact ab| |exact HI2]. intros y Y. symmetry. apply integrand_fN; [exact levy_ok|exact Y].
  Qed.
End Levy.
