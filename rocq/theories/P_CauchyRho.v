(** Spearman's rho of the bivariate Cauchy copula is smaller than that of the Gaussian copula, for small positive correlations. *)
From Coquelicot Require Import Coquelicot.
From Verif Require Import Base RSumLib Ext S_Linalg S_Stats S_EllipDensity S_Archimedean S_Concord P_GaussInt P_EllipDensity P_EllipDensity2 P_EllipDensity3 P_Kendall P_Spearman P_Clausen3.
Open Scope R_scope.

Section Quantile.
  Variables F f q : R -> R.
  Hypothesis DF : distribution F f.
  Hypothesis Hq : quantile F q.
  Lemma qlim_m_0 (G : R -> R) (a : R) : is_lim G m_infty a -> lim_0 (fun v => G (q v)) a.
  Proof.
    intros L e He. apply is_lim_spec in L. destruct (L (mkposreal e He)) as [A HA]. destruct (quantile_0 F f DF q Hq A) as [d [Hd Q]].
    exists (Rmin d 1). split; [apply Rmin_pos; lra|]. intros v Hv. pose proof (Rmin_l d 1). pose proof (Rmin_r d 1). apply HA, Q; lra.
  Qed.
  Lemma qlim_p_1 (G : R -> R) (a : R) : is_lim G p_infty a -> lim_1 (fun v => G (q v)) a.
  Proof.
    intros L e He. apply is_lim_spec in L. destruct (L (mkposreal e He)) as [A HA]. destruct (quantile_1 F f DF q Hq A) as [d [Hd Q]].
    exists (Rmin (1 - d) 1). split; [apply Rmin_pos; lra|]. intros v Hv. pose proof (Rmin_l (1 - d) 1). pose proof (Rmin_r (1 - d) 1). apply HA, Q; lra.
  Qed.
  Lemma integral_quantile (g G : R -> R) (a b : R) : (forall y, is_derive G y (g y * f y)) -> (forall y, continuous g y) ->
    is_lim G m_infty a -> is_lim G p_infty b -> integral_01 (fun v => g (q v)) (b - a).
  Proof.
    intros D C La Lb. apply (integral_primitive _ (fun v => G (q v))).
    - intros v Hv. pose proof (proj1 (proj2 DF) (q v)).
      evar_last; [apply (is_derive_comp G q); [apply D|apply (quantile_derive F f DF q Hq v Hv)]|]. unfold scal; cbn; unfold mult; cbn. field. lra.
    - intros v Hv. apply (continuous_comp q g); [|apply C]. apply (ex_derive_continuous (V := R_NormedModule)). eexists. apply (quantile_derive F f DF q Hq v Hv).
    - apply qlim_m_0, La.
    - apply qlim_p_1, Lb.
  Qed.
End Quantile.

Lemma atan_derive x : is_derive atan x (/ (1 + x * x)).
Proof. evar_last; [apply is_derive_Reals, derivable_pt_lim_atan|]. unfold Rsqr. field. nra. Qed.
(** ** the distribution function as a function of the correlation *)
Lemma bvc_derive_r r x y : -1 < r < 1 -> is_derive (fun r => bvc r x y) r (/ (2 * PI * sqrt (bvq r x y))).
Proof.
  intros H. pose proof (bvq_pos r x y H) as Q. pose proof (sqrt_lt_R0 _ Q) as S. pose proof PI_RGT_0.
  assert (E : sqrt (bvq r x y) * sqrt (bvq r x y) = bvq r x y) by (apply sqrt_sqrt; lra).
  assert (D : is_derive (fun r => (r + x * y) / sqrt (bvq r x y)) r ((1 + x * x) * (1 + y * y) / (bvq r x y * sqrt (bvq r x y)))).
  { unfold bvq at 1. auto_derive.
    - change (0 < 1 + - (r * r) + x * x + y * y + - (2 * r * x * y) /\ sqrt (1 + - (r * r) + x * x + y * y + - (2 * r * x * y)) <> 0 /\ True).
      replace (1 + - (r * r) + x * x + y * y + - (2 * r * x * y)) with (bvq r x y) by (unfold bvq; ring). repeat split; lra.
    - replace (1 + - (r * r) + x * x + y * y + - (2 * r * x * y)) with (bvq r x y) by (unfold bvq; ring). set (s := sqrt (bvq r x y)) in *.
      transitivity ((s * s + (r + x * y) * (r + x * y)) / (s * s * s)); [field; lra|]. rewrite E. f_equal. unfold bvq. ring. }
  unfold bvc. evar_last.
  - apply (is_derive_ext (fun r => plus (1 / 4 + (atan x + atan y) / (2 * PI)) (scal (/ (2 * PI)) (atan ((r + x * y) / sqrt (bvq r x y)))))); [intros t; unfold plus, scal; cbn; unfold mult; cbn; unfold Rdiv; ring|].
    apply (is_derive_plus (fun _ => 1 / 4 + (atan x + atan y) / (2 * PI))); [apply (is_derive_const (1 / 4 + (atan x + atan y) / (2 * PI)))|].
    apply is_derive_scal. apply (is_derive_comp atan (fun r => (r + x * y) / sqrt (bvq r x y))); [apply atan_derive|exact D].
  - unfold plus, zero, scal; cbn; unfold mult; cbn. set (s := sqrt (bvq r x y)) in *.
    assert (X : 1 + ((r + x * y) / s) ^ 2 = (1 + x * x) * (1 + y * y) / bvq r x y).
    { rewrite <- E. replace (1 + ((r + x * y) / s) ^ 2) with ((s * s + (r + x * y) * (r + x * y)) / (s * s)) by (field; lra). f_equal. rewrite E. unfold bvq. ring. }
    replace ((r + x * y) / s * ((r + x * y) / s)) with (((r + x * y) / s) ^ 2) by ring. rewrite X. field. repeat split; nra.
Qed.
Definition r3 (x y : R) : R := sqrt (1 + x * x + y * y).
Lemma r3_pos x y : 0 < 1 + x * x + y * y /\ 0 < r3 x y /\ r3 x y * r3 x y = 1 + x * x + y * y.
Proof. assert (0 < 1 + x * x + y * y) by nra. split; [assumption|]. split; [apply sqrt_lt_R0; assumption|apply sqrt_sqrt; lra]. Qed.
Lemma bvc_bound rho x y : 0 < rho < 1 -> bvc rho x y <= bvc 0 x y + rho / (2 * PI * sqrt (1 - rho)) * / r3 x y.
Proof.
  intros H. pose proof PI_RGT_0. destruct (MVT_gen (fun r => bvc r x y) 0 rho (fun r => / (2 * PI * sqrt (bvq r x y)))) as [c [Hc Ec]].
  - intros r Hr. rewrite Rmin_left, Rmax_right in Hr by lra. apply bvc_derive_r. lra.
  - intros r Hr. rewrite Rmin_left, Rmax_right in Hr by lra. apply derivable_continuous_pt. exists (/ (2 * PI * sqrt (bvq r x y))). apply is_derive_Reals, bvc_derive_r. lra.
  - rewrite Rmin_left, Rmax_right in Hc by lra. destruct (r3_pos x y) as [P1 [P2 P3]].
    assert (B : sqrt (1 - rho) * r3 x y <= sqrt (bvq c x y)).
    { unfold r3. rewrite <- sqrt_mult by lra. apply sqrt_le_1_alt. unfold bvq. pose proof (Rle_0_sqr (x - y)). unfold Rsqr in *. nra. }
    assert (S1 : 0 < sqrt (1 - rho)) by (apply sqrt_lt_R0; lra). assert (S2 : 0 < sqrt (1 - rho) * r3 x y) by (apply Rmult_lt_0_compat; assumption).
    assert (I : / (2 * PI * sqrt (bvq c x y)) <= / (2 * PI * (sqrt (1 - rho) * r3 x y))) by (apply Rinv_le_contravar; nra).
    replace (rho / (2 * PI * sqrt (1 - rho)) * / r3 x y) with (/ (2 * PI * (sqrt (1 - rho) * r3 x y)) * rho) by (field; repeat split; lra).
    assert (/ (2 * PI * sqrt (bvq c x y)) * (rho - 0) <= / (2 * PI * (sqrt (1 - rho) * r3 x y)) * rho) by (rewrite Rminus_0_r; apply Rmult_le_compat_r; lra). lra.
Qed.
Lemma bvc_0_reflect x y : bvc 0 x y + bvc 0 x (- y) = T1 x.
Proof.
  pose proof PI_RGT_0. unfold bvc, T1, bvq. replace (1 - 0 * 0 + x * x + - y * - y - 2 * 0 * x * - y) with (1 - 0 * 0 + x * x + y * y - 2 * 0 * x * y) by ring.
  set (s := sqrt _). replace ((0 + x * - y) / s) with (- ((0 + x * y) / s)) by (unfold Rdiv; ring). rewrite !atan_opp. field. lra.
Qed.

(** ** the inner integral *)
Lemma lim_ratio a : 0 < a -> is_lim (fun y => y / sqrt (a + y * y)) p_infty 1.
Proof.
  intros Ha. apply (is_lim_le_le_loc (fun y => 1 - a * / y) (fun _ => 1)).
  - exists 1. intros y Hy. assert (P : 0 < a + y * y) by nra. pose proof (sqrt_lt_R0 _ P) as S. assert (E : sqrt (a + y * y) * sqrt (a + y * y) = a + y * y) by (apply sqrt_sqrt; lra).
    set (s := sqrt (a + y * y)) in *. assert (Ys : y < s) by nra. split.
    + apply Rmult_le_reg_r with (s * y); [nra|]. replace ((1 - a * / y) * (s * y)) with (s * (y - a)) by (field; lra). replace (y / s * (s * y)) with (y * y) by (field; lra).
      destruct (Rle_lt_dec y a); [nra|]. assert (s * (y - a) <= y * y); [|assumption]. assert (s <= y + a) by nra. nra.
    + apply Rmult_le_reg_r with s; [lra|]. replace (y / s * s) with y by (field; lra). lra.
  - replace (Finite 1) with (Finite (1 - a * 0)) by (f_equal; ring). apply is_lim_minus'; [apply is_lim_const|]. apply (is_lim_scal_l Rinv a p_infty 0).
    replace (Finite 0) with (Rbar_inv p_infty) by reflexivity. apply is_lim_inv; [apply is_lim_id|discriminate].
  - apply is_lim_const.
Qed.
Lemma ratio_derive x y : is_derive (fun y => y / r3 x y) y ((1 + x * x) / ((1 + x * x + y * y) * r3 x y)).
Proof.
  destruct (r3_pos x y) as [P1 [P2 P3]]. unfold r3 at 1. auto_derive; [fold (r3 x y); repeat split; lra|]. fold (r3 x y). rewrite <- P3. set (s := r3 x y) in *.
  transitivity ((s * s - y * y) / (s * s * s)); [field; lra|]. rewrite P3. replace (1 + x * x + y * y - y * y) with (1 + x * x) by ring. rewrite <- P3. reflexivity.
Qed.
Lemma ratio_lim x : is_lim (fun y => y / r3 x y) p_infty 1.
Proof. apply (lim_ratio (1 + x * x)). nra. Qed.
Lemma r3_cont x y : continuous (fun y => / r3 x y) y.
Proof. destruct (r3_pos x y) as [P1 [P2 P3]]. apply (ex_derive_continuous (V := R_NormedModule)). unfold r3 in *. auto_derive. repeat split; lra. Qed.

Section Cauchy.
  Variable q : R -> R.
  Hypothesis Hq : quantile T1 q.
  Lemma r3_integral_nz x : x <> 0 -> integral_01 (fun v => / r3 x (q v)) (2 * atan x / (PI * x)).
  Proof.
    intros Hx. pose proof PI_RGT_0. replace (2 * atan x / (PI * x)) with (atan x / (PI * x) - - (atan x / (PI * x))) by (field; lra).
    assert (L : is_lim (fun y => atan (x * (y / r3 x y)) / (PI * x)) p_infty (atan x / (PI * x))).
    { apply (is_lim_scal_r (fun y => atan (x * (y / r3 x y))) (/ (PI * x)) p_infty (atan x)).
      replace (atan x) with (atan (x * 1)) by (f_equal; ring). apply (is_lim_comp_continuous (fun y => x * (y / r3 x y)) atan p_infty (x * 1)); [apply (is_lim_scal_l _ x p_infty 1), ratio_lim|].
      apply (ex_derive_continuous (V := R_NormedModule)). eexists. apply atan_derive. }
    apply (integral_quantile T1 (t_density gamma_half 1) q T1_distribution Hq (fun y => / r3 x y) (fun y => atan (x * (y / r3 x y)) / (PI * x))); [|intros; apply r3_cont| |exact L].
    - intros y. destruct (r3_pos x y) as [P1 [P2 P3]]. rewrite t_density_1. evar_last.
      + apply (is_derive_ext (fun y => scal (/ (PI * x)) (atan (x * (y / r3 x y))))); [intros t; unfold scal; cbn; unfold mult; cbn; unfold Rdiv; ring|]. apply is_derive_scal.
        apply (is_derive_comp atan (fun y => x * (y / r3 x y))); [apply atan_derive|]. apply (is_derive_scal (fun y => y / r3 x y) y x), ratio_derive.
      + unfold scal; cbn; unfold mult; cbn. set (s := r3 x y) in *.
        replace (1 + x * (y / s) * (x * (y / s))) with ((s * s + x * x * (y * y)) / (s * s)) by (field; lra). rewrite P3.
        replace (1 + x * x + y * y + x * x * (y * y)) with ((1 + x * x) * (1 + y * y)) by ring. field. repeat split; nra.
    - apply even_limits; [|exact L]. intros y. unfold r3. replace (- y * - y) with (y * y) by ring. replace (x * (- y / sqrt (1 + x * x + y * y))) with (- (x * (y / sqrt (1 + x * x + y * y)))) by (unfold Rdiv; ring).
      rewrite atan_opp. unfold Rdiv. ring.
  Qed.
  Lemma r3_integral_z : integral_01 (fun v => / r3 0 (q v)) (2 / PI).
  Proof.
    pose proof PI_RGT_0. replace (2 / PI) with (1 / PI - - (1 / PI)) by (field; lra).
    assert (L : is_lim (fun y => y / r3 0 y / PI) p_infty (1 / PI)) by (apply (is_lim_scal_r (fun y => y / r3 0 y) (/ PI) p_infty 1), ratio_lim).
    apply (integral_quantile T1 (t_density gamma_half 1) q T1_distribution Hq (fun y => / r3 0 y) (fun y => y / r3 0 y / PI)); [|intros; apply r3_cont| |exact L].
    - intros y. destruct (r3_pos 0 y) as [P1 [P2 P3]]. rewrite t_density_1. evar_last.
      + apply (is_derive_ext (fun y => scal (/ PI) (y / r3 0 y))); [intros t; unfold scal; cbn; unfold mult; cbn; unfold Rdiv; ring|]. apply is_derive_scal, ratio_derive.
      + unfold scal; cbn; unfold mult; cbn. field. repeat split; nra.
    - apply even_limits; [|exact L]. intros y. unfold r3. replace (- y * - y) with (y * y) by ring. unfold Rdiv. ring.
  Qed.
  Definition w1 (x : R) : R := sqrt (1 + x * x).
  Lemma w1_pos x : 0 < 1 + x * x /\ 0 < w1 x /\ w1 x * w1 x = 1 + x * x /\ 1 <= w1 x.
  Proof. assert (0 < 1 + x * x) by nra. split; [assumption|]. assert (0 < w1 x) by (apply sqrt_lt_R0; assumption). assert (E : w1 x * w1 x = 1 + x * x) by (apply sqrt_sqrt; lra). split; [assumption|]. split; [exact E|nra]. Qed.
  Lemma half_tan_derive x : is_derive (fun x => x / (1 + w1 x)) x (/ (w1 x * (1 + w1 x))).
  Proof.
    destruct (w1_pos x) as [P1 [P2 [P3 P4]]]. unfold w1 at 1. auto_derive; [fold (w1 x); repeat split; lra|]. fold (w1 x). set (s := w1 x) in *.
    transitivity ((s * (1 + s) - x * x) / (s * (1 + s) * (1 + s))); [field; lra|]. replace (x * x) with (s * s - 1) by lra. field. lra.
  Qed.
  Lemma atan_half x : 0 <= x -> atan x <= 2 * x / (1 + w1 x).
  Proof.
    intros [Hx| <-]; [|rewrite atan_0; unfold Rdiv; lra].
    destruct (MVT_gen (fun x => 2 * (x / (1 + w1 x)) - atan x) 0 x (fun x => 2 * / (w1 x * (1 + w1 x)) - / (1 + x * x))) as [c [Hc Ec]].
    - intros r _. apply (is_derive_minus (fun x => 2 * (x / (1 + w1 x))) atan); [apply (is_derive_scal (fun x => x / (1 + w1 x)) r 2), half_tan_derive|]. apply atan_derive.
    - intros r _. apply derivable_continuous_pt. exists (2 * / (w1 r * (1 + w1 r)) - / (1 + r * r)). apply is_derive_Reals.
      apply (is_derive_minus (fun x => 2 * (x / (1 + w1 x))) atan); [apply (is_derive_scal (fun x => x / (1 + w1 x)) r 2), half_tan_derive|]. apply atan_derive.
    - rewrite atan_0 in Ec. destruct (w1_pos c) as [P1 [P2 [P3 P4]]].
      assert (0 <= 2 * / (w1 c * (1 + w1 c)) - / (1 + c * c)).
      { rewrite <- P3. replace (2 * / (w1 c * (1 + w1 c)) - / (w1 c * w1 c)) with ((w1 c - 1) * / (w1 c * w1 c * (1 + w1 c))) by (field; lra).
        apply Rmult_le_pos; [lra|]. left. apply Rinv_0_lt_compat. repeat apply Rmult_lt_0_compat; lra. }
      replace (2 * x / (1 + w1 x)) with (2 * (x / (1 + w1 x))) by (unfold Rdiv; ring). replace (0 / (1 + w1 0)) with 0 in Ec by (unfold Rdiv; ring). nra.
  Qed.
  Lemma w1_even x : w1 (- x) = w1 x.
  Proof. unfold w1. f_equal. ring. Qed.
  Lemma r3_integral x : exists l, integral_01 (fun v => / r3 x (q v)) l /\ l <= 4 / PI * / (1 + w1 x).
  Proof.
    pose proof PI_RGT_0 as P. destruct (w1_pos x) as [P1 [P2 [P3 P4]]].
    assert (K : forall x, 0 < x -> 2 * atan x / (PI * x) <= 4 / PI * / (1 + w1 x)).
    { intros y Hy. destruct (w1_pos y) as [Q1 [Q2 [Q3 Q4]]]. pose proof (atan_half y ltac:(lra)) as A. apply Rmult_le_reg_r with (PI * y / 2); [nra|].
      replace (2 * atan y / (PI * y) * (PI * y / 2)) with (atan y) by (field; lra). replace (4 / PI * / (1 + w1 y) * (PI * y / 2)) with (2 * y / (1 + w1 y)) by (field; lra). exact A. }
    destruct (Rtotal_order x 0) as [L|[-> |L]].
    - exists (2 * atan x / (PI * x)). split; [apply r3_integral_nz; lra|]. specialize (K (- x) ltac:(lra)). rewrite atan_opp, w1_even in K.
      replace (2 * - atan x / (PI * - x)) with (2 * atan x / (PI * x)) in K by (field; lra). exact K.
    - exists (2 / PI). split; [exact r3_integral_z|]. unfold w1. replace (1 + 0 * 0) with 1 by ring. rewrite sqrt_1. right. field. lra.
    - exists (2 * atan x / (PI * x)). split; [apply r3_integral_nz; lra|apply K, L].
  Qed.
  (** ** the outer integral *)
  Lemma w1_integral : integral_01 (fun u => / (1 + w1 (q u))) (1 - 2 / PI).
  Proof.
    pose proof PI_RGT_0 as P. replace (1 - 2 / PI) with ((PI / 2 - 1) / PI - - ((PI / 2 - 1) / PI)) by (field; lra).
    assert (HL : is_lim (fun x => x / (1 + w1 x)) p_infty 1).
    { apply (is_lim_ext_loc (fun x => / (/ x + 1 / (x / sqrt (1 + x * x))))).
      { exists 0. intros x Hx. destruct (w1_pos x) as [P1 [P2 [P3 P4]]]. fold (w1 x). field. repeat split; lra. }
      replace (Finite 1) with (Rbar_inv (0 + 1 / 1)) by (cbn; f_equal; field). apply is_lim_inv; [|cbn; intros E; injection E as E; lra].
      apply (is_lim_plus' Rinv (fun x => 1 / (x / sqrt (1 + x * x))) p_infty 0 (1 / 1)).
      - replace (Finite 0) with (Rbar_inv p_infty) by reflexivity. apply is_lim_inv; [apply is_lim_id|discriminate].
      - apply (is_lim_div (fun _ => 1) (fun x => x / sqrt (1 + x * x)) p_infty 1 1); [apply is_lim_const|apply lim_ratio; lra|intros E; injection E as E; lra|exact Logic.I]. }
    assert (L : is_lim (fun x => (atan x - x / (1 + w1 x)) / PI) p_infty ((PI / 2 - 1) / PI)).
    { apply (is_lim_scal_r (fun x => atan x - x / (1 + w1 x)) (/ PI) p_infty (PI / 2 - 1)). apply is_lim_minus'; [apply atan_lim_p|exact HL]. }
    apply (integral_quantile T1 (t_density gamma_half 1) q T1_distribution Hq (fun x => / (1 + w1 x)) (fun x => (atan x - x / (1 + w1 x)) / PI)); [| | |exact L].
    - intros x. destruct (w1_pos x) as [P1 [P2 [P3 P4]]]. rewrite t_density_1. evar_last.
      + apply (is_derive_ext (fun x => scal (/ PI) (minus (atan x) (x / (1 + w1 x))))); [intros t; unfold scal, minus, plus, opp; cbn; unfold mult; cbn; unfold Rdiv; ring|]. apply is_derive_scal.
        apply (is_derive_minus atan (fun x => x / (1 + w1 x))); [apply atan_derive|apply half_tan_derive].
      + unfold scal, minus, plus, opp; cbn; unfold mult; cbn. rewrite <- P3. field. lra.
    - intros x. destruct (w1_pos x) as [P1 [P2 [P3 P4]]]. apply (ex_derive_continuous (V := R_NormedModule)). unfold w1 in *. auto_derive. repeat split; lra.
    - apply even_limits; [|exact L]. intros x. rewrite atan_opp, w1_even. unfold Rdiv. ring.
  Qed.

  Lemma cauchy_bound rho r : 0 < rho <= 1 / 10 -> spearman_rho (fun u v => bvc rho (q u) (q v)) r -> r < asin (rho / 2) * 6 / PI.
  Proof.
    intros H [I [HI HO]]. pose proof PI_RGT_0 as P. set (c := rho / (2 * PI * sqrt (1 - rho))).
    assert (S1 : 0 < sqrt (1 - rho)) by (apply sqrt_lt_R0; lra). assert (c0 : 0 < c) by (apply Rdiv_lt_0_compat; nra).
    assert (RF : forall v, 0 < v < 1 -> q (1 - v) = - q v).
    { intros v Hv. apply (quantile_reflect T1 (t_density gamma_half 1) T1_distribution q Hq); [|exact Hv]. intros x. rewrite !t_density_1. replace (- x * - x) with (x * x) by ring. reflexivity. }
    assert (B : forall u, 0 < u < 1 -> I u <= 1 / 2 * u + c * (4 / PI) * / (1 + w1 (q u))).
    { intros u Hu. destruct (r3_integral (q u)) as [l [Hl Bl]].
      assert (X : 1 * I u + 1 * I u <= u + (c * l + c * l)).
      { apply (integral_le (fun v => 1 * bvc rho (q u) (q v) + 1 * bvc rho (q u) (q (1 - v))) (fun v => u + (c * / r3 (q u) (q v) + c * / r3 (q u) (q v)))).
        - intros v Hv. rewrite RF by exact Hv. pose proof (bvc_bound rho (q u) (q v) ltac:(lra)) as B1. pose proof (bvc_bound rho (q u) (- q v) ltac:(lra)) as B2.
          pose proof (bvc_0_reflect (q u) (q v)) as B3. rewrite (Hq u Hu) in B3. fold c in B1, B2. unfold r3 in B2. replace (- q v * - q v) with (q v * q v) in B2 by ring. fold (r3 (q u) (q v)) in B2. lra.
        - apply integral_plus; apply (integral_scal _ 1); [apply HI, Hu|]. apply (integral_reflect (fun v => bvc rho (q u) (q v))), HI, Hu.
        - apply integral_plus; [apply integral_const|]. apply integral_plus; apply integral_scal, Hl. }
      assert (c * l <= c * (4 / PI * / (1 + w1 (q u)))) by (apply Rmult_le_compat_l; lra). lra. }
    assert (X : (r + 3) / 12 <= 1 / 2 * (1 / 2) + c * (4 / PI) * (1 - 2 / PI)).
    { apply (integral_le I (fun u => 1 / 2 * u + c * (4 / PI) * / (1 + w1 (q u)))); [exact B|exact HO|]. apply integral_plus; apply integral_scal; [exact integral_id|exact w1_integral]. }
    assert (A : rho / 2 <= asin (rho / 2)).
    { pose proof (asin_bound (rho / 2)) as AB. assert (E : sin (asin (rho / 2)) = rho / 2) by (apply sin_asin; lra).
      destruct (Rle_lt_dec (rho / 2) (asin (rho / 2))) as [|N]; [assumption|]. exfalso.
      destruct (Rle_lt_dec (asin (rho / 2)) 0) as [L|L].
      - assert (sin (asin (rho / 2)) <= 0); [|lra]. rewrite <- sin_0. destruct L as [L| ->]; [|lra]. left. apply sin_increasing_1; lra.
      - pose proof (sin_lt_x _ L). lra. }
    assert (PB : PI < 32 / 10) by (pose proof (proj2 pi_bounds) as Z; unfold Q2R in Z; cbn in Z; lra).
    assert (SB : 9486 / 10000 <= sqrt (1 - rho)).
    { rewrite <- (sqrt_square (9486 / 10000)) by lra. apply sqrt_le_1_alt. lra. }
    assert (Y : c * (4 / PI) * (1 - 2 / PI) < rho / (4 * PI)).
    { unfold c. replace (rho / (2 * PI * sqrt (1 - rho)) * (4 / PI) * (1 - 2 / PI)) with (rho / (4 * PI) * (8 * (PI - 2) / (PI * PI * sqrt (1 - rho)))) by (field; repeat split; lra).
      assert (0 < rho / (4 * PI)) by (apply Rdiv_lt_0_compat; lra). rewrite <- (Rmult_1_r (rho / (4 * PI))) at 2. apply Rmult_lt_compat_l; [assumption|].
      assert (0 < PI * PI * sqrt (1 - rho)) by nra. apply Rmult_lt_reg_r with (PI * PI * sqrt (1 - rho)); [assumption|]. unfold Rdiv at 1. rewrite Rmult_assoc, Rinv_l, Rmult_1_r, Rmult_1_l by lra.
      apply Rlt_le_trans with (PI * PI * (9486 / 10000)); [|apply Rmult_le_compat_l; nra]. pose proof PI2_1. nra. }
    assert (Z : rho / (4 * PI) <= asin (rho / 2) / (2 * PI)).
    { replace (rho / (4 * PI)) with (rho / 2 * / (2 * PI)) by (field; lra). apply Rmult_le_compat_r; [left; apply Rinv_0_lt_compat; lra|exact A]. }
    assert (W : (asin (rho / 2) * 6 / PI + 3) / 12 = 1 / 4 + asin (rho / 2) / (2 * PI)) by (field; lra). lra.
  Qed.
End Cauchy.
