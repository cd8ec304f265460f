(** The t kernel, its limit along the diagonal, and the bivariate Cauchy distribution function. *)
From Coquelicot Require Import Coquelicot.
From Verif Require Import Base RSumLib Ext S_Linalg S_Stats S_EllipDensity S_Archimedean P_GaussInt P_EllipDensity P_EllipDensity2.
Open Scope R_scope.

Definition tsl (nu rho x : R) : R := sqrt ((nu + 1) / ((nu + x * x) * (1 - rho * rho))).
Lemma tsl_arg nu rho x : 0 < nu -> -1 < rho < 1 -> 0 < (nu + 1) / ((nu + x * x) * (1 - rho * rho)).
Proof. intros Hn H. pose proof (one_minus_sq rho H). apply Rdiv_lt_0_compat; [lra|]. apply Rmult_lt_0_compat; nra. Qed.
Lemma tsl_pos nu rho x : 0 < nu -> -1 < rho < 1 -> 0 < tsl nu rho x.
Proof. intros Hn H. apply sqrt_lt_R0, tsl_arg; assumption. Qed.
Lemma tsl_cont nu rho x : 0 < nu -> -1 < rho < 1 -> continuous (tsl nu rho) x.
Proof.
  intros Hn H. pose proof (tsl_arg nu rho x Hn H) as A. pose proof (one_minus_sq rho H). apply (ex_derive_continuous (V := R_NormedModule)). unfold tsl. auto_derive.
  split; [|split; [exact A|exact Logic.I]]. assert (0 < (nu + x * x) * (1 - rho * rho)) by (apply Rmult_lt_0_compat; nra). unfold Rminus in *. lra.
Qed.
Lemma tsl_even nu rho x : tsl nu rho (- x) = tsl nu rho x.
Proof. unfold tsl. replace (- x * - x) with (x * x) by ring. reflexivity. Qed.
Lemma t_density_even gamma nu x : t_density gamma nu (- x) = t_density gamma nu x.
Proof. unfold t_density. replace (- x * - x) with (x * x) by ring. reflexivity. Qed.
Lemma t_base nu x : 0 < nu -> 0 < 1 + x * x / nu.
Proof. intros H. assert (0 <= x * x / nu) by (apply Rmult_le_pos; [nra|left; apply Rinv_0_lt_compat; exact H]). lra. Qed.
Lemma half_power a : 0 < a -> sqrt a = exp (/ 2 * ln a).
Proof. intros H. rewrite <- Rpower_sqrt by exact H. reflexivity. Qed.
(** mvt(x, y) = t_nu(x) * t_(nu+1)(z) * dz/dy *)
Lemma t_km gamma nu rho x y : (forall a, 0 < a -> 0 < gamma a) -> 0 < nu -> -1 < rho < 1 ->
  km (t_density gamma nu) (t_density gamma (nu + 1)) (tsl nu rho) rho x y = t2 gamma nu rho x y.
Proof.
  intros G Hn H. pose proof (one_minus_sq rho H) as P. destruct (sqrt_rho rho H) as [S1 S2]. pose proof PI_RGT_0 as Ppi.
  pose proof (G (nu / 2) ltac:(lra)). pose proof (G ((nu + 1) / 2) ltac:(lra)). pose proof (G ((nu + 2) / 2) ltac:(lra)).
  pose proof (t_base nu x Hn) as PA. set (A := 1 + x * x / nu) in *.
  set (B := 1 + (x * x - 2 * rho * x * y + y * y) / ((1 - rho * rho) * nu)).
  assert (PB : 0 < B).
  { assert (0 <= (x * x - 2 * rho * x * y + y * y) / ((1 - rho * rho) * nu)); [|unfold B; lra].
    apply Rmult_le_pos; [pose proof (Rle_0_sqr (y - rho * x)); pose proof (Rle_0_sqr x); unfold Rsqr in *; nra|left; apply Rinv_0_lt_compat; nra]. }
  assert (SL : tsl nu rho x = sqrt (nu + 1) / (sqrt nu * sqrt (1 - rho * rho)) * exp (- / 2 * ln A)).
  { unfold tsl. replace ((nu + x * x) * (1 - rho * rho)) with (nu * (1 - rho * rho) * A) by (unfold A; field; lra).
    assert (0 < nu * (1 - rho * rho)) by nra. rewrite sqrt_div, (sqrt_mult (nu * (1 - rho * rho)) A), (sqrt_mult nu (1 - rho * rho)) by nra.
    replace (- / 2 * ln A) with (- (/ 2 * ln A)) by ring. rewrite exp_Ropp, <- half_power by exact PA. pose proof (sqrt_lt_R0 A PA). pose proof (sqrt_lt_R0 nu Hn). field. lra. }
  assert (SQ : tsl nu rho x * tsl nu rho x = (nu + 1) / (nu * A * (1 - rho * rho))).
  { unfold tsl. rewrite sqrt_sqrt by (left; apply tsl_arg; assumption). f_equal. unfold A. field. lra. }
  assert (Z : 1 + kz (tsl nu rho) rho x y * kz (tsl nu rho) rho x y / (nu + 1) = B / A).
  { unfold kz. replace (tsl nu rho x * (y - rho * x) * (tsl nu rho x * (y - rho * x))) with (tsl nu rho x * tsl nu rho x * ((y - rho * x) * (y - rho * x))) by ring.
    rewrite SQ. assert (PA' : A * nu = nu + x * x) by (unfold A; field; lra).
    transitivity ((A * nu * (1 - rho * rho) + (y - rho * x) * (y - rho * x)) / (A * nu * (1 - rho * rho))); [field; repeat split; lra|].
    transitivity (B * (nu * (1 - rho * rho)) / (A * nu * (1 - rho * rho))); [|field; repeat split; lra].
    f_equal. rewrite PA'. unfold B. field. split; lra. }
  unfold km, t_density, t2. rewrite Z. fold A. fold B. rewrite SL.
  replace (nu + 1 + 1) with (nu + 2) by ring.
  assert (LN : ln (B / A) = ln B + - ln A) by (unfold Rdiv; rewrite ln_mult, ln_Rinv by (try apply Rinv_0_lt_compat; assumption); reflexivity).
  unfold Rpower. rewrite LN.
  pose proof (sqrt_lt_R0 PI Ppi). pose proof (sqrt_lt_R0 nu Hn). pose proof (sqrt_lt_R0 (nu + 1) ltac:(lra)).
  rewrite !sqrt_mult by lra.
  assert (EP : sqrt PI * sqrt PI = PI) by (apply sqrt_sqrt; lra). assert (EN : sqrt nu * sqrt nu = nu) by (apply sqrt_sqrt; lra).
  transitivity (gamma ((nu + 2) / 2) / (gamma (nu / 2) * (sqrt nu * sqrt nu * (sqrt PI * sqrt PI)) * sqrt (1 - rho * rho))
    * (exp (- ((nu + 1) / 2) * ln A) * exp (- ((nu + 2) / 2) * (ln B + - ln A)) * exp (- / 2 * ln A))); [field; repeat split; lra|].
  rewrite EP, EN, <- !exp_plus. f_equal. f_equal. field.
Qed.
Lemma t2_sym gamma nu rho x y : t2 gamma nu rho x y = t2 gamma nu rho y x.
Proof. unfold t2. replace (y * y - 2 * rho * y * x + x * x) with (x * x - 2 * rho * x * y + y * y) by ring. reflexivity. Qed.

(** the argument of the conditional distribution along the diagonal, far below *)
Lemma t_kz_lim nu rho : 0 < nu -> -1 < rho < 1 -> is_lim (fun x => kz (tsl nu rho) rho x x) m_infty (- sqrt ((nu + 1) * (1 - rho) / (1 + rho))).
Proof.
  intros Hn H. set (k := (nu + 1) * (1 - rho) / (1 + rho)). assert (K : 0 < k) by (apply Rdiv_lt_0_compat; nra).
  apply (is_lim_ext_loc (fun x => - sqrt (k * (1 - nu / (nu + x * x))))).
  { exists 0. intros x Hx. unfold kz, tsl. pose proof (one_minus_sq rho H). assert (Q : 0 < nu + x * x) by nra.
    replace (x - rho * x) with (- (- x * (1 - rho))) by ring. rewrite Ropp_mult_distr_r_reverse. f_equal.
    rewrite <- (sqrt_square (- x * (1 - rho))) by nra. rewrite <- sqrt_mult by first [left; apply tsl_arg; assumption|apply Rle_0_sqr]. f_equal.
    unfold k. replace (1 - rho * rho) with ((1 - rho) * (1 + rho)) by ring. field. split; [lra|split; lra]. }
  replace (Finite (- sqrt k)) with (Rbar_opp (sqrt k)) by reflexivity. apply is_lim_opp.
  assert (L : is_lim (fun x => k * (1 - nu / (nu + x * x))) m_infty k).
  { replace (Finite k) with (Rbar_mult k 1) by (cbn; f_equal; ring). apply is_lim_scal_l.
    replace (Finite 1) with (Rbar_minus 1 0) by (cbn; f_equal; ring). apply is_lim_minus'; [apply is_lim_const|].
    apply (is_lim_le_le_loc (fun _ => 0) (fun x => nu * / (- x))).
    - exists (-1). intros x Hx. assert (0 < nu + x * x) by nra. split; [apply Rlt_le, Rdiv_lt_0_compat; lra|].
      apply Rmult_le_compat_l; [lra|]. apply Rinv_le_contravar; [lra|]. nra.
    - apply is_lim_const.
    - replace (Finite 0) with (Rbar_mult nu 0) by (cbn; f_equal; ring). apply is_lim_scal_l.
      replace (Finite 0) with (Rbar_inv p_infty) by reflexivity. apply is_lim_inv; [|discriminate]. change p_infty with (Rbar_opp m_infty). apply is_lim_opp, is_lim_id. }
  apply (is_lim_comp sqrt (fun x => k * (1 - nu / (nu + x * x))) m_infty (sqrt k) k); [|exact L|].
  - apply is_lim_continuity, continuity_pt_sqrt. lra.
  - exists (-1). intros x Hx E. injection E as E. assert (0 < nu / (nu + x * x)) by (apply Rdiv_lt_0_compat; nra). nra.
Qed.
Lemma lim_0_of_m_infty F f q (g : R -> R) (L : R) : distribution F f -> quantile F q -> is_lim g m_infty L -> lim_0 (fun u => g (q u)) L.
Proof.
  intros DF Hq H e He. apply is_lim_spec in H. destruct (H (mkposreal e He)) as [A HA]. destruct (quantile_0 F f DF q Hq A) as [d [Hd K]].
  exists (Rmin d 1). split; [apply Rmin_pos; lra|]. intros u Hu. pose proof (Rmin_l d 1). pose proof (Rmin_r d 1). apply HA, K; lra.
Qed.
Lemma lim_of_cont (F1 : R -> R) z L : continuous F1 L -> is_lim z m_infty L -> is_lim (fun x => 2 * F1 (z x)) m_infty (2 * F1 L).
Proof.
  intros C H. apply is_lim_spec in H. apply is_lim_spec. intros eps.
  assert (C' : continuity_pt F1 L) by (apply continuity_pt_filterlim; exact C).
  destruct (C' (eps / 2)) as [d [Hd K]]; [pose proof (cond_pos eps); lra|].
  destruct (H (mkposreal d Hd)) as [A HA]. exists A. intros x Hx. specialize (HA x Hx). cbn in HA.
  destruct (Req_dec (z x) L) as [->|N]. { rewrite Rminus_eq_0, Rabs_R0. apply cond_pos. }
  specialize (K (z x)). cbn in K. unfold R_dist in K. assert (Q : Rabs (F1 (z x) - F1 L) < eps / 2) by (apply K; split; [split; [exact Logic.I|auto]|exact HA]).
  replace (2 * F1 (z x) - 2 * F1 L) with (2 * (F1 (z x) - F1 L)) by ring. rewrite Rabs_mult, (Rabs_pos_eq 2) by lra. lra.
Qed.

(** ** one degree of freedom: explicit distribution functions *)
(** Gamma(1/2), Gamma(1), Gamma(3/2) up to a positive interpolation *)
Definition gamma_half (a : R) : R := if Rle_dec a (1 / 2) then sqrt PI else if Rle_dec a 1 then 1 else sqrt PI / 2.
Lemma gamma_half_pos a : 0 < gamma_half a.
Proof. pose proof PI_RGT_0. pose proof (sqrt_lt_R0 PI PI_RGT_0). unfold gamma_half. destruct (Rle_dec a (1 / 2)); [lra|]. destruct (Rle_dec a 1); lra. Qed.
Lemma gamma_half_values : gamma_half (1 / 2) = sqrt PI /\ gamma_half 1 = 1 /\ gamma_half (3 / 2) = sqrt PI / 2.
Proof.
  unfold gamma_half. repeat split.
  - destruct (Rle_dec (1 / 2) (1 / 2)); [reflexivity|lra].
  - destruct (Rle_dec 1 (1 / 2)); [lra|]. destruct (Rle_dec 1 1); [reflexivity|lra].
  - destruct (Rle_dec (3 / 2) (1 / 2)); [lra|]. destruct (Rle_dec (3 / 2) 1); [lra|reflexivity].
Qed.
Definition T1 (x : R) : R := 1 / 2 + atan x / PI.
Definition T2 (x : R) : R := 1 / 2 + x / (2 * sqrt (2 + x * x)).
Lemma t_density_1 x : t_density gamma_half 1 x = / (PI * (1 + x * x)).
Proof.
  destruct gamma_half_values as [G1 [G2 G3]]. unfold t_density. replace ((1 + 1) / 2) with 1 by field. rewrite G1, G2, Rmult_1_l.
  replace (1 + x * x / 1) with (1 + x * x) by field. rewrite Rpower_Ropp, Rpower_1 by nra. pose proof PI_RGT_0. pose proof (sqrt_lt_R0 PI PI_RGT_0).
  assert (E : sqrt PI * sqrt PI = PI) by (apply sqrt_sqrt; lra). rewrite E. field. split; [nra|lra].
Qed.
Lemma t_density_2 x : t_density gamma_half (1 + 1) x = / ((2 + x * x) * sqrt (2 + x * x)).
Proof.
  destruct gamma_half_values as [G1 [G2 G3]]. unfold t_density. replace ((1 + 1) / 2) with 1 by field. replace ((1 + 1 + 1) / 2) with (3 / 2) by field. rewrite G2, G3.
  assert (P : 0 < 2 + x * x) by nra. replace (1 + x * x / (1 + 1)) with ((2 + x * x) / 2) by field.
  pose proof PI_RGT_0. pose proof (sqrt_lt_R0 PI PI_RGT_0). pose proof (sqrt_lt_R0 2 ltac:(lra)). pose proof (sqrt_lt_R0 _ P).
  rewrite Rpower_Ropp. replace (3 / 2) with (1 + / 2) by field. rewrite Rpower_plus, Rpower_1, Rpower_sqrt by lra. replace (1 + 1) with 2 by ring. rewrite sqrt_mult, sqrt_div by lra.
  field. repeat split; lra.
Qed.
Lemma atan_lim_p : is_lim atan p_infty (PI / 2).
Proof.
  pose proof PI_RGT_0 as P. apply is_lim_spec. intros eps. pose proof (cond_pos eps) as E. set (a := Rmax 0 (PI / 2 - eps / 2)).
  assert (A : 0 <= a /\ a < PI / 2 /\ PI / 2 - eps / 2 <= a) by (unfold a; split; [apply Rmax_l|split; [apply Rmax_lub_lt; lra|apply Rmax_r]]).
  exists (tan a). intros x Hx. pose proof (atan_increasing _ _ Hx) as I. rewrite atan_tan in I by lra. pose proof (atan_bound x). apply Rabs_def1; lra.
Qed.
Lemma even_limits (G : R -> R) (L : R) : (forall x, G (- x) = - G x) -> is_lim G p_infty L -> is_lim G m_infty (- L).
Proof.
  intros O H. apply (is_lim_ext (fun x => - G (- x))); [intros x; rewrite O; ring|]. replace (Finite (- L)) with (Rbar_opp L) by reflexivity. apply is_lim_opp.
  apply (is_lim_comp G (fun x => - x) m_infty L p_infty); [exact H| |exists 0; intros; discriminate]. change p_infty with (Rbar_opp m_infty). apply is_lim_opp, is_lim_id.
Qed.
Lemma half_limits (G : R -> R) : (forall x, G (- x) = - G x) -> is_lim G p_infty (1 / 2) -> is_lim (fun x => 1 / 2 + G x) m_infty 0 /\ is_lim (fun x => 1 / 2 + G x) p_infty 1.
Proof.
  intros O H. split.
  - replace (Finite 0) with (Finite (1 / 2 + - (1 / 2))) by (f_equal; lra). apply is_lim_plus'; [apply is_lim_const|apply even_limits; assumption].
  - replace (Finite 1) with (Finite (1 / 2 + 1 / 2)) by (f_equal; lra). apply is_lim_plus'; [apply is_lim_const|exact H].
Qed.
Lemma T1_distribution : distribution T1 (t_density gamma_half 1).
Proof.
  pose proof PI_RGT_0 as P.
  split; [|split; [|split]].
  - intros x. rewrite t_density_1. unfold T1.
    replace (/ (PI * (1 + x * x))) with (plus 0 (scal (/ PI) (/ (1 + x * x)))) by (unfold plus, scal; cbn; unfold mult; cbn; field; split; nra).
    apply (is_derive_plus (fun _ => 1 / 2) (fun x => atan x / PI)); [apply (is_derive_const (1 / 2))|].
    apply (is_derive_ext (fun x => scal (/ PI) (atan x))); [intros t; unfold scal; cbn; unfold mult; cbn; apply Rmult_comm|].
    apply is_derive_scal. apply is_derive_Reals. evar_last; [apply derivable_pt_lim_atan|]. field. nra.
  - intros x. rewrite t_density_1. apply Rinv_0_lt_compat. nra.
  - intros x. apply (continuous_ext (fun x => / (PI * (1 + x * x)))); [intros; symmetry; apply t_density_1|]. apply (ex_derive_continuous (V := R_NormedModule)). auto_derive. nra.
  - apply half_limits; [intros x; rewrite atan_opp; field; lra|].
    replace (Finite (1 / 2)) with (Rbar_mult (PI / 2) (/ PI)) by (cbn; f_equal; field; lra). apply is_lim_scal_r, atan_lim_p.
Qed.
Lemma T2_distribution : distribution T2 (t_density gamma_half (1 + 1)).
Proof.
  assert (PX : forall x, 0 < 2 + x * x) by (intros; nra). assert (PS : forall x, 0 < sqrt (2 + x * x)) by (intros; apply sqrt_lt_R0, PX).
  split; [|split; [|split]].
  - intros x. rewrite t_density_2. pose proof (PX x). pose proof (PS x). assert (E : sqrt (2 + x * x) * sqrt (2 + x * x) = 2 + x * x) by (apply sqrt_sqrt; lra).
    unfold T2. auto_derive; [split; [exact H|split; [lra|exact Logic.I]]|]. set (s := sqrt (2 + x * x)) in *.
    transitivity ((s * s - x * x) / (2 * (s * s) * s)); [field; lra|]. rewrite E. field. lra.
  - intros x. rewrite t_density_2. apply Rinv_0_lt_compat, Rmult_lt_0_compat; [apply PX|apply PS].
  - intros x. apply (continuous_ext (fun x => / ((2 + x * x) * sqrt (2 + x * x)))); [intros; symmetry; apply t_density_2|]. apply (ex_derive_continuous (V := R_NormedModule)). auto_derive.
    pose proof (PX x). pose proof (PS x). split; [exact H|]. split; [|exact Logic.I]. apply Rgt_not_eq, Rmult_lt_0_compat; assumption.
  - apply half_limits.
    + intros x. replace (- x * - x) with (x * x) by ring. pose proof (PS x). field. lra.
    + apply (is_lim_ext_loc (fun x => / 2 * sqrt (1 - 2 * / (2 + x * x)))).
      { exists 0. intros x Hx. pose proof (PX x). pose proof (PS x). replace (1 - 2 * / (2 + x * x)) with (x * x / (2 + x * x)) by (field; lra).
        rewrite sqrt_div, sqrt_square by nra. field. lra. }
      replace (Finite (1 / 2)) with (Rbar_mult (/ 2) 1) by (cbn; f_equal; lra). apply is_lim_scal_l. replace (Finite 1) with (Finite (sqrt 1)) by (rewrite sqrt_1; reflexivity).
      apply (is_lim_comp sqrt (fun x => 1 - 2 * / (2 + x * x)) p_infty (sqrt 1) 1).
      * apply is_lim_continuity, continuity_pt_sqrt. lra.
      * replace (Finite 1) with (Rbar_minus 1 0) by (cbn; f_equal; ring). apply is_lim_minus'; [apply is_lim_const|].
        apply (is_lim_le_le_loc (fun _ => 0) (fun x => 2 * / x)).
        -- exists 1. intros x Hx. pose proof (PX x). split; [apply Rlt_le, Rmult_lt_0_compat; [lra|apply Rinv_0_lt_compat; lra]|].
           apply Rmult_le_compat_l; [lra|]. apply Rinv_le_contravar; nra.
        -- apply is_lim_const.
        -- replace (Finite 0) with (Rbar_mult 2 0) by (cbn; f_equal; ring). apply is_lim_scal_l. replace (Finite 0) with (Rbar_inv p_infty) by reflexivity. apply is_lim_inv; [apply is_lim_id|discriminate].
      * exists 0. intros x _ E. injection E as E. pose proof (Rinv_0_lt_compat _ (PX x)). lra.
Qed.

(** the bivariate Cauchy distribution function *)
Definition bvq (rho x y : R) : R := 1 - rho * rho + x * x + y * y - 2 * rho * x * y.
Definition bvc (rho x y : R) : R := 1 / 4 + (atan x + atan y + atan ((rho + x * y) / sqrt (bvq rho x y))) / (2 * PI).
Lemma bvq_pos rho x y : -1 < rho < 1 -> 0 < bvq rho x y.
Proof. intros H. pose proof (one_minus_sq rho H). unfold bvq. pose proof (Rle_0_sqr (y - rho * x)). unfold Rsqr in *. nra. Qed.
Lemma bvc_kz rho x y : -1 < rho < 1 -> T2 (kz (tsl 1 rho) rho x y) = 1 / 2 + (y - rho * x) / (2 * sqrt (bvq rho x y)).
Proof.
  intros H. pose proof (bvq_pos rho x y H) as Q. pose proof (one_minus_sq rho H) as P. pose proof (tsl_pos 1 rho x ltac:(lra) H) as S.
  assert (SQ : tsl 1 rho x * tsl 1 rho x = 2 / ((1 + x * x) * (1 - rho * rho))).
  { unfold tsl. rewrite sqrt_sqrt by (left; apply tsl_arg; [lra|exact H]). replace (1 + 1) with 2 by ring. reflexivity. }
  unfold T2, kz. f_equal. set (s := tsl 1 rho x) in *.
  assert (E : 2 + s * (y - rho * x) * (s * (y - rho * x)) = s * s * bvq rho x y).
  { replace (s * (y - rho * x) * (s * (y - rho * x))) with (s * s * ((y - rho * x) * (y - rho * x))) by ring. rewrite SQ. unfold bvq. field. split; [lra|nra]. }
  rewrite E, sqrt_mult, sqrt_square by nra. pose proof (sqrt_lt_R0 _ Q). field. lra.
Qed.
Lemma bvc_derive_x rho x y : -1 < rho < 1 -> is_derive (fun x => bvc rho x y) x (t_density gamma_half 1 x * T2 (kz (tsl 1 rho) rho x y)).
Proof.
  intros H. pose proof (bvq_pos rho x y H) as Q. pose proof (sqrt_lt_R0 _ Q) as S. pose proof PI_RGT_0 as P.
  assert (E : sqrt (bvq rho x y) * sqrt (bvq rho x y) = bvq rho x y) by (apply sqrt_sqrt; lra).
  rewrite bvc_kz, t_density_1 by exact H.
  assert (W : is_derive (fun x => (rho + x * y) / sqrt (bvq rho x y)) x ((1 + y * y) * (y - rho * x) / (bvq rho x y * sqrt (bvq rho x y)))).
  { unfold bvq in *. auto_derive.
    - unfold Rminus in *. split; [exact Q|split; [lra|exact Logic.I]].
    - set (s := sqrt _) in *. unfold Rminus in *.
      transitivity ((y * (s * s) - (rho + x * y) * (x - rho * y)) / (s * s * s)); [field; lra|]. rewrite E. f_equal. ring. }
  assert (D : is_derive (fun x => atan ((rho + x * y) / sqrt (bvq rho x y))) x ((y - rho * x) / ((1 + x * x) * sqrt (bvq rho x y)))).
  { evar_last; [apply (is_derive_comp atan (fun x => (rho + x * y) / sqrt (bvq rho x y))); [apply is_derive_Reals, derivable_pt_lim_atan|exact W]|].
    unfold scal; cbn; unfold mult; cbn. set (s := sqrt (bvq rho x y)) in *. rewrite Rmult_1_r.
    assert (F : 1 + (rho + x * y) / s * ((rho + x * y) / s) = (1 + x * x) * (1 + y * y) / (s * s)).
    { transitivity ((s * s + (rho + x * y) * (rho + x * y)) / (s * s)); [field; lra|]. f_equal. rewrite E. unfold bvq. ring. }
    rewrite F. rewrite <- E. field. repeat split; nra. }
  assert (A : is_derive atan x (/ (1 + x * x))) by (apply is_derive_Reals; evar_last; [apply derivable_pt_lim_atan|field; nra]).
  unfold bvc.
  evar_last.
  - apply (is_derive_plus (fun _ => 1 / 4) (fun x => (atan x + atan y + atan ((rho + x * y) / sqrt (bvq rho x y))) / (2 * PI))); [apply (is_derive_const (1 / 4))|].
    apply (is_derive_ext (fun x => scal (/ (2 * PI)) (atan x + atan y + atan ((rho + x * y) / sqrt (bvq rho x y))))); [intros t; unfold scal; cbn; unfold mult; cbn; unfold Rdiv; apply Rmult_comm|].
    apply is_derive_scal. apply (is_derive_plus (fun x => atan x + atan y) (fun x => atan ((rho + x * y) / sqrt (bvq rho x y)))); [|exact D].
    apply (is_derive_plus atan (fun _ => atan y)); [exact A|apply (is_derive_const (atan y))].
  - unfold plus, scal, zero; cbn; unfold mult; cbn. field. repeat split; nra.
Qed.
Lemma bvc_lim_x rho y : -1 < rho < 1 -> is_lim (fun x => bvc rho x y) m_infty 0.
Proof.
  intros H. pose proof PI_RGT_0 as P.
  assert (L1 : is_lim atan m_infty (- (PI / 2))) by (apply even_limits; [apply atan_opp|apply atan_lim_p]).
  assert (LW : is_lim (fun x => (rho + x * y) / sqrt (bvq rho x y)) m_infty (- y)).
  { apply (is_lim_ext_loc (fun x => (rho * / x + y) / - sqrt ((1 - rho * rho + y * y) * (/ x * / x) + 1 + - (2 * rho * y) * / x))).
    { exists (-1). intros x Hx. pose proof (bvq_pos rho x y H) as Q. pose proof (sqrt_lt_R0 _ Q) as S.
      replace ((1 - rho * rho + y * y) * (/ x * / x) + 1 + - (2 * rho * y) * / x) with (bvq rho x y / (- x * - x)) by (unfold bvq; field; lra).
      rewrite sqrt_div, sqrt_square by nra. field. lra. }
    assert (LI : is_lim (fun x => / x) m_infty 0) by (replace (Finite 0) with (Rbar_inv m_infty) by reflexivity; apply is_lim_inv; [apply is_lim_id|discriminate]).
    set (g := fun w => (rho * w + y) / - sqrt ((1 - rho * rho + y * y) * (w * w) + 1 + - (2 * rho * y) * w)).
    assert (C : continuous g 0).
    { apply (ex_derive_continuous (V := R_NormedModule)). unfold g. auto_derive.
      split; [match goal with |- 0 < ?e => replace e with 1 by ring end; lra|split; [|exact Logic.I]].
      match goal with |- context [sqrt ?e] => replace e with 1 by ring end. rewrite sqrt_1. lra. }
    replace (- y) with (g 0).
    2: { unfold g. replace ((1 - rho * rho + y * y) * (0 * 0) + 1 + - (2 * rho * y) * 0) with 1 by ring. rewrite sqrt_1. field. }
    apply (is_lim_comp g (fun x => / x) m_infty (g 0) 0); [apply is_lim_continuity, continuity_pt_filterlim, C|exact LI|].
    exists 0. intros x Hx E. injection E as E. pose proof (Rinv_lt_0_compat x Hx). lra. }
  assert (LA : is_lim (fun x => atan ((rho + x * y) / sqrt (bvq rho x y))) m_infty (- atan y)).
  { rewrite <- atan_opp. apply is_lim_spec in LW. apply is_lim_spec. intros eps.
    assert (C : continuity_pt atan (- y)) by (apply derivable_continuous_pt, derivable_pt_atan).
    destruct (C eps (cond_pos eps)) as [d [Hd K]]. destruct (LW (mkposreal d Hd)) as [A HA]. exists A. intros x Hx. specialize (HA x Hx). cbn in HA.
    destruct (Req_dec ((rho + x * y) / sqrt (bvq rho x y)) (- y)) as [->|N]; [rewrite Rminus_eq_0, Rabs_R0; apply cond_pos|].
    apply (K ((rho + x * y) / sqrt (bvq rho x y))). split; [split; [exact Logic.I|auto]|exact HA]. }
  unfold bvc. replace (Finite 0) with (Finite (1 / 4 + (- (PI / 2) + atan y + - atan y) * / (2 * PI))) by (f_equal; field; lra).
  apply is_lim_plus'; [apply is_lim_const|].
  apply (is_lim_scal_r (fun x => atan x + atan y + atan ((rho + x * y) / sqrt (bvq rho x y))) (/ (2 * PI)) m_infty (Finite (- (PI / 2) + atan y + - atan y))).
  apply is_lim_plus'; [|exact LA]. apply is_lim_plus'; [exact L1|apply is_lim_const].
Qed.
Lemma bvc_sym rho x y : bvc rho x y = bvc rho y x.
Proof.
  unfold bvc, bvq. replace (1 - rho * rho + y * y + x * x - 2 * rho * y * x) with (1 - rho * rho + x * x + y * y - 2 * rho * x * y) by ring.
  rewrite (Rmult_comm y x), (Rplus_comm (atan y) (atan x)). reflexivity.
Qed.
Lemma bvc_joint rho : -1 < rho < 1 -> joint_cdf (t2 gamma_half 1 rho) (bvc rho).
Proof.
  intros H.
  assert (A : forall s y, integral_up_to (t2 gamma_half 1 rho s) y (t_density gamma_half 1 s * T2 (kz (tsl 1 rho) rho s y))).
  { intros s y. assert (E : integral_up_to (km (t_density gamma_half 1) (t_density gamma_half (1 + 1)) (tsl 1 rho) rho s) y (t_density gamma_half 1 s * T2 (kz (tsl 1 rho) rho s y))).
    { apply (gen_value _ (fun y => t_density gamma_half 1 s * T2 (kz (tsl 1 rho) rho s y))).
      - intros t. apply (G_derive _ T2); exact T2_distribution.
      - intros t. apply (km_cont2 _ T2); exact T2_distribution.
      - apply (G_lim (t_density gamma_half 1) T2 (t_density gamma_half (1 + 1))); [exact T2_distribution|intros; apply tsl_pos; [lra|exact H]]. }
    unfold integral_up_to in *. refine (is_RInt_gen_ext _ _ _ _ E). apply filter_forall. intros ab t _. apply t_km; [intros; apply gamma_half_pos|lra|exact H]. }
  assert (B : forall x y, integral_up_to (fun s => t_density gamma_half 1 s * T2 (kz (tsl 1 rho) rho s y)) x (bvc rho x y)).
  { intros x y. apply (gen_value _ (fun x => bvc rho x y)); [intros; apply bvc_derive_x, H| |apply bvc_lim_x, H].
    intros t. apply (G_cont1 T1 _ T2 (t_density gamma_half (1 + 1))); [exact T1_distribution|exact T2_distribution|intros; apply tsl_cont; [lra|exact H]]. }
  split.
  - exists (fun s y => t_density gamma_half 1 s * T2 (kz (tsl 1 rho) rho s y)). split; [exact A|exact B].
  - exists (fun x t => t_density gamma_half 1 t * T2 (kz (tsl 1 rho) rho t x)). split.
    + intros x t. unfold integral_up_to in *. refine (is_RInt_gen_ext _ _ _ _ (A t x)). apply filter_forall. intros ab s _. apply t2_sym.
    + intros x y. rewrite bvc_sym. apply B.
Qed.
