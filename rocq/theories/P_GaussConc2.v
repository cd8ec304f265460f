(** Spearman's rho and Kendall's tau of the bivariate normal distribution. *)
From Coquelicot Require Import Coquelicot.
From Verif Require Import Base RSumLib S_Archimedean S_Concord S_EllipDensity P_GaussInt P_EllipDensity P_EllipDensity2 P_Kendall P_GaussConc.
Open Scope R_scope.

Ltac pos2 := repeat split; first [exact Logic.I | apply sqrt_lt_R0; nra | apply Rgt_not_eq; apply sqrt_lt_R0; nra | nra | lra].

(** ** Limits of bvn *)
Lemma bvn_int_lim_m rho y : -1 < rho < 1 -> is_lim (fun x => RInt (fun r => normal2 r x y) 0 rho) m_infty 0.
Proof.
  intros H. apply (is_lim_ext (fun x => bvn rho x y - Phi x * Phi y)); [intros; unfold bvn; ring|].
  replace (Finite 0) with (Rbar_minus 0 (Rbar_mult 0 (Phi y))) by (cbn; f_equal; ring). apply is_lim_minus'; [apply bvn_lim_x, H|].
  apply (is_lim_scal_r Phi (Phi y) m_infty 0), Phi_lim_m.
Qed.
Lemma bvn_int_lim_p rho y : -1 < rho < 1 -> is_lim (fun x => RInt (fun r => normal2 r x y) 0 rho) p_infty 0.
Proof.
  intros H. apply (is_lim_ext (fun x => RInt (fun r => normal2 r (- x) (- y)) 0 rho)).
  - intros x. apply RInt_ext. intros r _. unfold normal2. do 3 f_equal. ring.
  - apply (is_lim_comp (fun x => RInt (fun r => normal2 r x (- y)) 0 rho) (fun x => - x) p_infty 0 m_infty); [apply bvn_int_lim_m, H| |exists 0; intros; discriminate].
    change m_infty with (Rbar_opp p_infty). apply is_lim_opp, is_lim_id.
Qed.
Lemma bvn_lim_p rho y : -1 < rho < 1 -> is_lim (fun x => bvn rho x y) p_infty (Phi y).
Proof.
  intros H. unfold bvn. replace (Finite (Phi y)) with (Rbar_plus (Rbar_mult 1 (Phi y)) 0) by (cbn; f_equal; ring). apply is_lim_plus'; [|apply bvn_int_lim_p, H].
  apply (is_lim_scal_r Phi (Phi y) p_infty 1), Phi_lim_p.
Qed.
Lemma bvn_derive_y rho x y : -1 < rho < 1 -> is_derive (fun y => bvn rho x y) y (normal_density y * Phi (kz (nsl rho) rho y x)).
Proof. intros H. apply (is_derive_ext (fun y => bvn rho y x)); [intros; apply bvn_sym|]. apply bvn_derive_x, H. Qed.
Lemma bvn_cont_y rho x y : -1 < rho < 1 -> continuous (fun y => bvn rho x y) y.
Proof. intros H. apply (ex_derive_continuous (V := R_NormedModule)). eexists. apply bvn_derive_y, H. Qed.
Lemma bvn_cont_x rho x y : -1 < rho < 1 -> continuous (fun x => bvn rho x y) x.
Proof. intros H. apply (ex_derive_continuous (V := R_NormedModule)). eexists. apply bvn_derive_x, H. Qed.

(** ** the quadrant probability *)
Lemma asin_derive x : -1 < x < 1 -> is_derive asin x (/ sqrt (1 - x * x)).
Proof.
  intros H. apply is_derive_Reals. replace (/ sqrt (1 - x * x)) with (1 / sqrt (1 - x²)) by (unfold Rsqr, Rdiv; ring).
  rewrite <- (derive_pt_asin x H). exact (proj2_sig (derivable_pt_asin x H)).
Qed.
Lemma bvn_00 rho : -1 < rho < 1 -> bvn rho 0 0 = 1 / 4 + asin rho / (2 * PI).
Proof.
  intros H. pose proof PI_RGT_0. unfold bvn. rewrite Phi_0. f_equal; [lra|].
  apply is_RInt_unique. replace (asin rho / (2 * PI)) with (minus (asin rho / (2 * PI)) (asin 0 / (2 * PI))) by (rewrite asin_0; unfold minus, plus, opp; cbn; field; lra).
  apply (is_RInt_derive (V := R_CompleteNormedModule) (fun r => asin r / (2 * PI))).
  - intros r Hr. apply (between_0 rho r H) in Hr. destruct (sqrt_rho r Hr) as [S _].
    evar_last; [apply (is_derive_ext (fun r => scal (/ (2 * PI)) (asin r))); [intros t; unfold scal; cbn; unfold mult; cbn; unfold Rdiv; ring|]; apply is_derive_scal, asin_derive, Hr|].
    unfold normal2. replace (- (0 * 0 - 2 * r * 0 * 0 + 0 * 0) / (2 * (1 - r * r))) with 0 by (pose proof (one_minus_sq r Hr); field; lra). rewrite exp_0. field. lra.
  - intros r Hr. apply normal2_cont_r, (between_0 rho r H Hr).
Qed.

(** ** the mean of the distribution function over one coordinate *)
Definition sK (x r : R) : R := exp (- (x * x) / (2 - r * r)) / (2 * PI * sqrt (2 - r * r)).
Definition sal (r : R) : R := sqrt (2 - r * r) / sqrt (1 - r * r).
Definition sbe (x r : R) : R := - (r * x) / (sqrt (2 - r * r) * sqrt (1 - r * r)).
Lemma two_sq r : -1 < r < 1 -> 0 < 2 - r * r.
Proof. nra. Qed.
Lemma sqrt_two r : -1 < r < 1 -> 0 < sqrt (2 - r * r) /\ sqrt (2 - r * r) * sqrt (2 - r * r) = 2 - r * r.
Proof. intros H. pose proof (two_sq r H). split; [apply sqrt_lt_R0; lra|apply sqrt_sqrt; lra]. Qed.
Lemma sK_cont x r : -1 < r < 1 -> continuous (sK x) r.
Proof.
  intros H. pose proof (two_sq r H). destruct (sqrt_two r H). pose proof PI_RGT_0. apply (ex_derive_continuous (V := R_NormedModule)). unfold sK. auto_derive.
  replace (2 + - (r * r)) with (2 - r * r) by ring. repeat split; try lra; nra.
Qed.
Lemma sal_cont r : -1 < r < 1 -> continuous sal r.
Proof.
  intros H. pose proof (two_sq r H). pose proof (one_minus_sq r H). destruct (sqrt_two r H). destruct (sqrt_rho r H). apply (ex_derive_continuous (V := R_NormedModule)). unfold sal. auto_derive.
  replace (2 + - (r * r)) with (2 - r * r) by ring. replace (1 + - (r * r)) with (1 - r * r) by ring. repeat split; try lra; nra.
Qed.
Lemma sbe_cont x r : -1 < r < 1 -> continuous (sbe x) r.
Proof.
  intros H. pose proof (two_sq r H). pose proof (one_minus_sq r H). destruct (sqrt_two r H). destruct (sqrt_rho r H). apply (ex_derive_continuous (V := R_NormedModule)). unfold sbe. auto_derive.
  replace (2 + - (r * r)) with (2 - r * r) by ring. replace (1 + - (r * r)) with (1 - r * r) by ring. repeat split; try lra; nra.
Qed.
Lemma sal_pos r : -1 < r < 1 -> 0 < sal r.
Proof. intros H. apply Rdiv_lt_0_compat; [apply sqrt_two, H|apply sqrt_rho, H]. Qed.
Lemma s_product x t r : -1 < r < 1 -> dfam (sK x) sal (sbe x) t r = normal2 r x t * normal_density t.
Proof.
  intros H. pose proof (two_sq r H). pose proof (one_minus_sq r H). destruct (sqrt_two r H) as [S1 S2]. destruct (sqrt_rho r H) as [S3 S4]. pose proof PI_RGT_0. pose proof sqrt_2pi.
  unfold dfam, normal2, normal_density.
  assert (E : - (x * x) / (2 - r * r) + - ((sal r * t + sbe x r) * (sal r * t + sbe x r)) / 2 = - (x * x - 2 * r * x * t + t * t) / (2 * (1 - r * r)) + - (t * t) / 2).
  { unfold sal, sbe. set (c := sqrt (2 - r * r)) in *. set (e := sqrt (1 - r * r)) in *.
    replace ((c / e * t + - (r * x) / (c * e)) * (c / e * t + - (r * x) / (c * e))) with (((c * c) * t - r * x) * ((c * c) * t - r * x) / ((c * c) * (e * e))) by (field; lra).
    rewrite S2, S4. field. lra. }
  unfold sK. transitivity (exp (- (x * x) / (2 - r * r)) * exp (- ((sal r * t + sbe x r) * (sal r * t + sbe x r)) / 2) / (2 * PI * sqrt (1 - r * r) * sqrt (2 * PI))).
  - unfold sal at 1. field. lra.
  - rewrite <- exp_plus, E, exp_plus. field. lra.
Qed.
Definition sT (rho x t : R) : R := Phi x * (Phi t * Phi t / 2) + RInt (fam (sK x) sal (sbe x) t) 0 rho.
Lemma sT_derive rho x t : -1 < rho < 1 -> is_derive (sT rho x) t (bvn rho x t * normal_density t).
Proof.
  intros H. unfold sT.
  evar_last.
  - apply (is_derive_plus (fun t => Phi x * (Phi t * Phi t / 2)) (fun t => RInt (fam (sK x) sal (sbe x) t) 0 rho)).
    + apply (is_derive_ext (fun t => scal (Phi x / 2) (Phi t * Phi t))); [intros u; unfold scal; cbn; unfold mult; cbn; field|].
      apply is_derive_scal. apply (is_derive_mult Phi Phi); [apply Phi_derive|apply Phi_derive|intros; apply Rmult_comm].
    + apply fam_int_derive; [exact H|apply sK_cont|apply sal_cont|apply sbe_cont].
  - rewrite (RInt_ext _ (fun r => scal (normal_density t) (normal2 r x t))).
    2: { intros r Hr. rewrite s_product; [unfold scal; cbn; unfold mult; cbn; ring|]. apply (between_0 rho r H). lra. }
    rewrite (RInt_scal (V := R_CompleteNormedModule)) by (apply seg_int; [exact H|intros; apply normal2_cont_r; assumption]).
    unfold bvn, plus, scal; cbn; unfold mult; cbn. field.
Qed.
Lemma sT_lim_m rho x : -1 < rho < 1 -> is_lim (sT rho x) m_infty 0.
Proof.
  intros H. unfold sT. replace (Finite 0) with (Rbar_plus (Phi x * (0 * 0 * / 2)) 0) by (cbn; f_equal; ring). apply is_lim_plus'.
  - apply (is_lim_scal_l (fun t => Phi t * Phi t / 2) (Phi x) m_infty (0 * 0 * / 2)). apply (is_lim_scal_r (fun t => Phi t * Phi t) (/ 2) m_infty (0 * 0)).
    apply (is_lim_mult Phi Phi m_infty 0 0); [apply Phi_lim_m|apply Phi_lim_m|exact Logic.I].
  - apply fam_lim_m; [exact H|apply sK_cont|apply sal_cont|apply sbe_cont|apply sal_pos].
Qed.
Lemma sqrt2_pos : 0 < sqrt 2 /\ sqrt 2 * sqrt 2 = 2.
Proof. split; [apply sqrt_lt_R0; lra|apply sqrt_sqrt; lra]. Qed.
Lemma half_rho rho : -1 < rho < 1 -> -1 < rho / sqrt 2 < 1.
Proof.
  intros H. destruct sqrt2_pos as [P E]. assert (1 < sqrt 2) by nra.
  split; apply Rmult_lt_reg_r with (sqrt 2); try lra; unfold Rdiv; rewrite Rmult_assoc, Rinv_l by lra; lra.
Qed.
Lemma sK_int rho x : -1 < rho < 1 -> RInt (sK x) 0 rho = RInt (fun q => normal2 q x 0) 0 (rho / sqrt 2).
Proof.
  intros H. destruct sqrt2_pos as [P E].
  assert (EX : ex_RInt (fun q => normal2 q x 0) (/ sqrt 2 * 0 + 0) (/ sqrt 2 * rho + 0)).
  { replace (/ sqrt 2 * 0 + 0) with 0 by ring. replace (/ sqrt 2 * rho + 0) with (rho / sqrt 2) by (unfold Rdiv; ring). apply seg_int; [apply half_rho, H|intros; apply normal2_cont_r; assumption]. }
  pose proof (RInt_comp_lin (V := R_CompleteNormedModule) (fun q => normal2 q x 0) (/ sqrt 2) 0 0 rho EX) as Q.
  replace (/ sqrt 2 * 0 + 0) with 0 in Q by ring. replace (/ sqrt 2 * rho + 0) with (rho / sqrt 2) in Q by (unfold Rdiv; ring).
  rewrite <- Q. apply RInt_ext. intros r Hr. assert (B : -1 < r < 1) by (apply (between_0 rho r H); lra). pose proof (two_sq r B). destruct (sqrt_two r B) as [S1 S2]. pose proof PI_RGT_0.
  unfold sK, normal2, scal; cbn; unfold mult; cbn.
  assert (A : 1 - (/ sqrt 2 * r + 0) * (/ sqrt 2 * r + 0) = (2 - r * r) / 2).
  { replace ((/ sqrt 2 * r + 0) * (/ sqrt 2 * r + 0)) with (r * r / (sqrt 2 * sqrt 2)) by (field; lra). rewrite E. field. }
  rewrite A. rewrite sqrt_div by lra. replace (- (x * x - 2 * (/ sqrt 2 * r + 0) * x * 0 + 0 * 0) / (2 * ((2 - r * r) / 2))) with (- (x * x) / (2 - r * r)) by (field; lra).
  field. lra.
Qed.
Lemma sT_lim_p rho x : -1 < rho < 1 -> is_lim (sT rho x) p_infty (bvn (rho / sqrt 2) x 0).
Proof.
  intros H. unfold sT. replace (Finite (bvn (rho / sqrt 2) x 0)) with (Rbar_plus (Phi x * (1 * 1 * / 2)) (RInt (sK x) 0 rho)).
  2: { assert (E : bvn (rho / sqrt 2) x 0 = Phi x * (1 * 1 * / 2) + RInt (sK x) 0 rho) by (unfold bvn; rewrite Phi_0, sK_int by exact H; field). rewrite E. reflexivity. }
  apply is_lim_plus'.
  - apply (is_lim_scal_l (fun t => Phi t * Phi t / 2) (Phi x) p_infty (1 * 1 * / 2)). apply (is_lim_scal_r (fun t => Phi t * Phi t) (/ 2) p_infty (1 * 1)).
    apply (is_lim_mult Phi Phi p_infty 1 1); [apply Phi_lim_p|apply Phi_lim_p|exact Logic.I].
  - apply fam_lim_p; [exact H|apply sK_cont|apply sal_cont|apply sbe_cont|apply sal_pos].
Qed.
Lemma bvn_half rho : -1 < rho < 1 -> bvn (rho / sqrt 2 / sqrt 2) 0 0 = 1 / 4 + asin (rho / 2) / (2 * PI).
Proof.
  intros H. destruct sqrt2_pos as [P E]. rewrite bvn_00 by (apply half_rho, half_rho, H). replace (rho / sqrt 2 / sqrt 2) with (rho / (sqrt 2 * sqrt 2)) by (field; lra). rewrite E. reflexivity.
Qed.

(** ** Spearman's rho *)
Lemma normal_spearman rho q : -1 < rho < 1 -> quantile Phi q -> spearman_rho (fun u v => bvn rho (q u) (q v)) (asin (rho / 2) * 6 / PI).
Proof.
  intros H Hq. pose proof PI_RGT_0. exists (fun u => bvn (rho / sqrt 2) (q u) 0). split.
  - intros u Hu. replace (bvn (rho / sqrt 2) (q u) 0) with (bvn (rho / sqrt 2) (q u) 0 - 0) by ring.
    apply (integral_line q Hq (fun y => bvn rho (q u) y) (sT rho (q u))); [intros; apply sT_derive, H|intros; apply bvn_cont_y, H|apply sT_lim_m, H|apply sT_lim_p, H].
  - pose proof (half_rho rho H) as H'. replace ((asin (rho / 2) * 6 / PI + 3) / 12) with (bvn (rho / sqrt 2 / sqrt 2) 0 0 - 0) by (rewrite bvn_half by exact H; field; lra).
    apply (integral_line q Hq (fun x => bvn (rho / sqrt 2) x 0) (sT (rho / sqrt 2) 0)); [|intros; apply bvn_cont_x, H'|apply sT_lim_m, H'|apply sT_lim_p, H'].
    intros x. rewrite bvn_sym. apply sT_derive, H'.
Qed.
