(** Kendall's tau of the bivariate normal distribution. *)
From Coquelicot Require Import Coquelicot.
From Verif Require Import Base RSumLib S_Archimedean S_Concord S_EllipDensity P_GaussInt P_EllipDensity P_EllipDensity2 P_Kendall P_GaussConc P_GaussConc2.
Open Scope R_scope.

Section Tau.
  Variable rho : R.
  Hypothesis H : -1 < rho < 1.
  Let s := sqrt (1 - rho * rho).
  Let w := sqrt (2 - rho * rho).
  Lemma s_facts : 0 < s /\ s * s = 1 - rho * rho.
  Proof. apply sqrt_rho, H. Qed.
  Lemma w_facts : 0 < w /\ w * w = 2 - rho * rho.
  Proof. apply sqrt_two, H. Qed.

  (** *** the mean of the conditional distribution function *)
  Definition lq : R := - / w.
  Definition lX (x : R) : R := - (rho * x) / w.
  Lemma lq_range : -1 < lq < 1.
  Proof.
    destruct w_facts as [W1 W2]. destruct s_facts as [S1 S2]. assert (1 < w) by nra. unfold lq.
    assert (0 < / w) by (apply Rinv_0_lt_compat; lra). assert (/ w < 1) by (rewrite <- Rinv_1; apply Rinv_lt_contravar; lra). lra.
  Qed.
  Lemma lq_sqrt : sqrt (1 - lq * lq) = s / w.
  Proof.
    destruct w_facts as [W1 W2]. destruct s_facts as [S1 S2]. replace (1 - lq * lq) with ((s / w) * (s / w)); [apply sqrt_square, Rlt_le, Rdiv_lt_0_compat; lra|].
    unfold lq. replace (s / w * (s / w)) with (s * s / (w * w)) by (field; lra). replace (1 - - / w * - / w) with ((w * w - 1) / (w * w)) by (field; lra). rewrite S2, W2. f_equal. ring.
  Qed.
  Lemma l_derive x t : is_derive (fun t => bvn lq (lX x) t) t (normal_density t * Phi (kz (nsl rho) rho x t)).
  Proof.
    destruct w_facts as [W1 W2]. destruct s_facts as [S1 S2]. evar_last; [apply bvn_derive_y, lq_range|]. do 2 f_equal. unfold kz, nsl. rewrite lq_sqrt. fold s. unfold lX, lq. field. lra.
  Qed.
  Lemma l_lim_m x : is_lim (fun t => bvn lq (lX x) t) m_infty 0.
  Proof. apply (is_lim_ext (fun t => bvn lq t (lX x))); [intros; apply bvn_sym|]. apply bvn_lim_x, lq_range. Qed.
  Lemma l_lim_p x : is_lim (fun t => bvn lq (lX x) t) p_infty (Phi (lX x)).
  Proof. apply (is_lim_ext (fun t => bvn lq t (lX x))); [intros; apply bvn_sym|]. apply bvn_lim_p, lq_range. Qed.
  Lemma lX_kz x : kz (nsl (rho / sqrt 2)) (rho / sqrt 2) x 0 = lX x.
  Proof.
    destruct w_facts as [W1 W2]. destruct sqrt2_pos as [P E]. pose proof (two_sq rho H). unfold kz, nsl, lX.
    replace (1 - rho / sqrt 2 * (rho / sqrt 2)) with ((2 - rho * rho) / 2). 2: { replace (rho / sqrt 2 * (rho / sqrt 2)) with (rho * rho / (sqrt 2 * sqrt 2)) by (field; lra). rewrite E. field. }
    rewrite sqrt_div by lra. fold w. field. lra.
  Qed.
  Lemma lX_cont x : continuous lX x.
  Proof. destruct w_facts. apply (ex_derive_continuous (V := R_NormedModule)). unfold lX. auto_derive. exact Logic.I. Qed.

  (** *** the product of two normal densities *)
  Definition dd (r : R) : R := 2 - r * r - rho * rho.
  Definition qq (r : R) : R := 4 - (r + rho) * (r + rho).
  Lemma dd_pos r : -1 < r < 1 -> 0 < dd r.
  Proof. intros B. unfold dd. nra. Qed.
  Lemma qq_pos r : -1 < r < 1 -> 0 < qq r.
  Proof. intros B. unfold qq. nra. Qed.
  Lemma sqrt_dd r : -1 < r < 1 -> 0 < sqrt (dd r) /\ sqrt (dd r) * sqrt (dd r) = dd r.
  Proof. intros B. pose proof (dd_pos r B). split; [apply sqrt_lt_R0; lra|apply sqrt_sqrt; lra]. Qed.
  Lemma sqrt_qq r : -1 < r < 1 -> 0 < sqrt (qq r) /\ sqrt (qq r) * sqrt (qq r) = qq r.
  Proof. intros B. pose proof (qq_pos r B). split; [apply sqrt_lt_R0; lra|apply sqrt_sqrt; lra]. Qed.
  Definition nK (x r : R) : R := exp (- (qq r / dd r * (x * x)) / 2) / (2 * PI * sqrt (2 * PI) * sqrt (dd r)).
  Definition nal (r : R) : R := sqrt (dd r) / (sqrt (1 - r * r) * s).
  Definition nbe (x r : R) : R := - ((r + rho) * (1 - r * rho) * x) / (sqrt (dd r) * (sqrt (1 - r * r) * s)).
  Definition oK (r : R) : R := / (2 * PI * sqrt (qq r)).
  Definition oal (r : R) : R := sqrt (qq r) / sqrt (dd r).
  Ltac facts r B := pose proof (dd_pos r B); pose proof (qq_pos r B); destruct (sqrt_dd r B); destruct (sqrt_qq r B); destruct (sqrt_rho r B); pose proof (one_minus_sq r B); destruct s_facts; pose proof PI_RGT_0; pose proof sqrt_2pi.
  Lemma dd_derive r : is_derive dd r (- 2 * r).
  Proof. unfold dd. auto_derive; [exact Logic.I|ring]. Qed.
  Lemma sdd_cont r : -1 < r < 1 -> continuous (fun r => sqrt (dd r)) r.
  Proof. intros B. facts r B. apply (ex_derive_continuous (V := R_NormedModule)). unfold dd in *. auto_derive. lra. Qed.
  Lemma sqq_cont r : -1 < r < 1 -> continuous (fun r => sqrt (qq r)) r.
  Proof. intros B. facts r B. apply (ex_derive_continuous (V := R_NormedModule)). unfold qq in *. auto_derive. lra. Qed.
  Lemma inv_cont (f : R -> R) r : continuous f r -> f r <> 0 -> continuous (fun r => / f r) r.
  Proof. intros C N. apply (continuous_comp f Rinv); [exact C|]. apply continuous_Rinv, N. Qed.
  Lemma nK_cont x r : -1 < r < 1 -> continuous (nK x) r.
  Proof.
    intros B. facts r B. unfold nK. apply (continuous_mult (fun r => exp (- (qq r / dd r * (x * x)) / 2)) (fun r => / (2 * PI * sqrt (2 * PI) * sqrt (dd r)))).
    - apply (ex_derive_continuous (V := R_NormedModule)). unfold qq, dd in *. auto_derive. lra.
    - apply inv_cont; [|assert (0 < 2 * PI * sqrt (2 * PI)) by (apply Rmult_lt_0_compat; lra); apply Rgt_not_eq, Rmult_lt_0_compat; lra]. apply (continuous_mult (fun _ => 2 * PI * sqrt (2 * PI)) (fun r => sqrt (dd r))); [apply continuous_const|apply sdd_cont, B].
  Qed.
  Lemma s1_cont r : -1 < r < 1 -> continuous (fun r => sqrt (1 - r * r) * s) r.
  Proof. intros B. facts r B. apply (continuous_mult (fun r => sqrt (1 - r * r)) (fun _ => s)); [|apply continuous_const]. apply (ex_derive_continuous (V := R_NormedModule)). auto_derive. lra. Qed.
  Lemma nal_cont r : -1 < r < 1 -> continuous nal r.
  Proof. intros B. facts r B. apply (continuous_mult (fun r => sqrt (dd r)) (fun r => / (sqrt (1 - r * r) * s))); [apply sdd_cont, B|]. apply inv_cont; [apply s1_cont, B|nra]. Qed.
  Lemma nbe_cont x r : -1 < r < 1 -> continuous (nbe x) r.
  Proof.
    intros B. facts r B. apply (continuous_mult (fun r => - ((r + rho) * (1 - r * rho) * x)) (fun r => / (sqrt (dd r) * (sqrt (1 - r * r) * s)))).
    - apply (ex_derive_continuous (V := R_NormedModule)). auto_derive. exact Logic.I.
    - apply inv_cont; [apply (continuous_mult (fun r => sqrt (dd r)) (fun r => sqrt (1 - r * r) * s)); [apply sdd_cont, B|apply s1_cont, B]|].
      apply Rgt_not_eq. repeat apply Rmult_lt_0_compat; lra.
  Qed.
  Lemma nal_pos r : -1 < r < 1 -> 0 < nal r.
  Proof. intros B. facts r B. apply Rdiv_lt_0_compat; [lra|]. nra. Qed.
  Lemma oK_cont r : -1 < r < 1 -> continuous oK r.
  Proof. intros B. facts r B. apply inv_cont; [|nra]. apply (continuous_mult (fun _ => 2 * PI) (fun r => sqrt (qq r))); [apply continuous_const|apply sqq_cont, B]. Qed.
  Lemma oal_cont r : -1 < r < 1 -> continuous oal r.
  Proof. intros B. facts r B. apply (continuous_mult (fun r => sqrt (qq r)) (fun r => / sqrt (dd r))); [apply sqq_cont, B|]. apply inv_cont; [apply sdd_cont, B|lra]. Qed.
  Lemma oal_pos r : -1 < r < 1 -> 0 < oal r.
  Proof. intros B. facts r B. apply Rdiv_lt_0_compat; lra. Qed.
  Lemma n_product x t r : -1 < r < 1 -> dfam (nK x) nal (nbe x) t r = normal2 r x t * normal2 rho x t.
  Proof.
    intros B. facts r B. unfold dfam, normal2, normal_density. fold s.
    assert (E : - (qq r / dd r * (x * x)) / 2 + - ((nal r * t + nbe x r) * (nal r * t + nbe x r)) / 2
                = - (x * x - 2 * r * x * t + t * t) / (2 * (1 - r * r)) + - (x * x - 2 * rho * x * t + t * t) / (2 * (1 - rho * rho))).
    { unfold nal, nbe. set (c := sqrt (dd r)) in *. set (e := sqrt (1 - r * r)) in *.
      replace ((c / (e * s) * t + - ((r + rho) * (1 - r * rho) * x) / (c * (e * s))) * (c / (e * s) * t + - ((r + rho) * (1 - r * rho) * x) / (c * (e * s))))
        with (((c * c) * t - (r + rho) * (1 - r * rho) * x) * ((c * c) * t - (r + rho) * (1 - r * rho) * x) / ((c * c) * ((e * e) * (s * s)))) by (field; lra).
      replace (c * c) with (dd r) by lra. replace (e * e) with (1 - r * r) by lra. replace (s * s) with (1 - rho * rho) by lra. unfold qq, dd in *. field. pose proof (one_minus_sq rho H). lra. }
    assert (E2 : sqrt (2 * PI) * sqrt (2 * PI) = 2 * PI) by (apply sqrt_sqrt; lra).
    unfold nK. transitivity (exp (- (qq r / dd r * (x * x)) / 2) * exp (- ((nal r * t + nbe x r) * (nal r * t + nbe x r)) / 2) / (2 * PI * (sqrt (2 * PI) * sqrt (2 * PI)) * (sqrt (1 - r * r) * s))).
    - unfold nal at 1. field. lra.
    - rewrite <- exp_plus, E, exp_plus, E2. field. lra.
  Qed.
  Lemma o_product x r : -1 < r < 1 -> dfam oK oal (fun _ => 0) x r = nK x r.
  Proof.
    intros B. facts r B. unfold dfam, oK, nK, normal_density.
    replace (- ((oal r * x + 0) * (oal r * x + 0)) / 2) with (- (qq r / dd r * (x * x)) / 2).
    - unfold oal. field. lra.
    - unfold oal. replace (qq r) with (sqrt (qq r) * sqrt (qq r)) by lra. replace (dd r) with (sqrt (dd r) * sqrt (dd r)) at 1 by lra. rewrite sqrt_square by lra. field. lra.
  Qed.
  Lemma oK_int : RInt oK 0 rho = (asin rho - asin (rho / 2)) / (2 * PI).
  Proof.
    pose proof PI_RGT_0. apply is_RInt_unique.
    replace ((asin rho - asin (rho / 2)) / (2 * PI)) with (minus (asin ((rho + rho) / 2) / (2 * PI)) (asin ((0 + rho) / 2) / (2 * PI))).
    2: { replace ((rho + rho) / 2) with rho by field. replace (0 + rho) with rho by ring. unfold minus, plus, opp; cbn. field. lra. }
    apply (is_RInt_derive (V := R_CompleteNormedModule) (fun r => asin ((r + rho) / 2) / (2 * PI))).
    - intros r Hr. apply (between_0 rho r H) in Hr. facts r Hr.
      evar_last; [apply (is_derive_ext (fun r => scal (/ (2 * PI)) (asin ((r + rho) / 2)))); [intros t; unfold scal; cbn; unfold mult; cbn; unfold Rdiv; ring|]; apply is_derive_scal, (is_derive_comp asin (fun r => (r + rho) / 2)); [apply asin_derive; lra|auto_derive; [exact Logic.I|reflexivity]]|].
      unfold oK, scal; cbn; unfold mult; cbn.
      replace (1 - (r + rho) / 2 * ((r + rho) / 2)) with (qq r / (2 * 2)) by (unfold qq; field). rewrite sqrt_div, sqrt_square by lra. field. lra.
    - intros r Hr. apply oK_cont, (between_0 rho r H Hr).
  Qed.

  (** *** inner integral *)
  Definition Fx (x t : R) : R := normal_density x * Phi (kz (nsl rho) rho x t).
  Lemma Fx_derive x t : is_derive (Fx x) t (normal2 rho x t).
  Proof. rewrite <- normal_km by exact H. apply (G_derive normal_density Phi); exact Phi_distribution. Qed.
  Definition inner (x t : R) : R :=
    (bvn rho x t * Fx x t - (Phi x * (Phi t * Fx x t - normal_density x * bvn lq (lX x) t) + RInt (fam (nK x) nal (nbe x) t) 0 rho)) / normal_density x.
  Definition J (x : R) : R := Phi x * Phi (lX x) - RInt (nK x) 0 rho / normal_density x.
  Lemma inner_derive x t : is_derive (inner x) t (Phi (kz (nsl rho) rho x t) * Phi (kz (nsl rho) rho t x) * normal_density t).
  Proof.
    pose proof (normal_density_pos x) as P.
    assert (DN : is_derive (fun t => RInt (fam (nK x) nal (nbe x) t) 0 rho) t (normal2 rho x t * RInt (fun r => normal2 r x t) 0 rho)).
    { evar_last; [apply fam_int_derive; [exact H|apply nK_cont|apply nal_cont|apply nbe_cont]|].
      rewrite (RInt_ext _ (fun r => scal (normal2 rho x t) (normal2 r x t))).
      2: { intros r Hr. rewrite n_product; [unfold scal; cbn; unfold mult; cbn; ring|]. apply (between_0 rho r H). lra. }
      rewrite (RInt_scal (V := R_CompleteNormedModule)) by (apply seg_int; [exact H|intros; apply normal2_cont_r; assumption]). reflexivity. }
    pose proof (bvn_derive_y rho x t H) as D1. pose proof (Fx_derive x t) as D2. pose proof (Phi_derive t) as D3. pose proof (l_derive x t) as D4.
    unfold inner. evar_last.
    - apply (is_derive_ext (fun t => scal (/ normal_density x) (minus (bvn rho x t * Fx x t) (plus (scal (Phi x) (minus (Phi t * Fx x t) (scal (normal_density x) (bvn lq (lX x) t)))) (RInt (fam (nK x) nal (nbe x) t) 0 rho))))).
      { intros y. unfold scal, minus, plus, opp; cbn; unfold mult; cbn. field. lra. }
      apply is_derive_scal. apply (is_derive_minus (fun t => bvn rho x t * Fx x t)).
      + apply (is_derive_mult (fun t => bvn rho x t) (Fx x)); [exact D1|exact D2|intros; apply Rmult_comm].
      + apply (is_derive_plus (fun t => scal (Phi x) (minus (Phi t * Fx x t) (scal (normal_density x) (bvn lq (lX x) t))))); [|exact DN].
        apply is_derive_scal. apply (is_derive_minus (fun t => Phi t * Fx x t) (fun t => scal (normal_density x) (bvn lq (lX x) t))).
        * apply (is_derive_mult Phi (Fx x)); [exact D3|exact D2|intros; apply Rmult_comm].
        * apply is_derive_scal. exact D4.
    - unfold Fx, bvn. revert P. generalize (normal_density x), (RInt (fun r => normal2 r x t) 0 rho), (normal2 rho x t), (normal_density t), (Phi (kz (nsl rho) rho t x)), (Phi (kz (nsl rho) rho x t)), (Phi x), (Phi t).
      intros nx I n2 nt a b px pt P. unfold minus, plus, opp, scal; cbn; unfold mult; cbn. field. lra.
  Qed.
  Lemma Fx_lim_p x : is_lim (Fx x) p_infty (normal_density x).
  Proof.
    unfold Fx. replace (Finite (normal_density x)) with (Rbar_mult (normal_density x) 1) by (cbn; f_equal; ring). apply is_lim_scal_l.
    apply (is_lim_comp Phi (kz (nsl rho) rho x) p_infty 1 p_infty); [apply Phi_lim_p|apply kz_lim_p; intros; apply nsl_pos, H|exists 0; intros; discriminate].
  Qed.
  Lemma Fx_lim_m x : is_lim (Fx x) m_infty 0.
  Proof. apply (G_lim normal_density Phi normal_density); [exact Phi_distribution|intros; apply nsl_pos, H]. Qed.
  Lemma lim_combo (z : Rbar) (F f P L N : R -> R) (c k a b p l n : R) :
    is_lim F z a -> is_lim f z b -> is_lim P z p -> is_lim L z l -> is_lim N z n ->
    is_lim (fun t => (F t * f t - (c * (P t * f t - k * L t) + N t)) / k) z ((a * b - (c * (p * b - k * l) + n)) / k).
  Proof.
    intros HF Hf HP HL HN. apply (is_lim_scal_r _ (/ k) z (a * b - (c * (p * b - k * l) + n))).
    apply (is_lim_minus' (fun t => F t * f t) (fun t => c * (P t * f t - k * L t) + N t) z (a * b) (c * (p * b - k * l) + n)).
    - apply (is_lim_mult F f z a b); [exact HF|exact Hf|exact Logic.I].
    - apply (is_lim_plus' (fun t => c * (P t * f t - k * L t)) N z (c * (p * b - k * l)) n); [|exact HN].
      apply (is_lim_scal_l (fun t => P t * f t - k * L t) c z (p * b - k * l)). apply (is_lim_minus' (fun t => P t * f t) (fun t => k * L t) z (p * b) (k * l)).
      + apply (is_lim_mult P f z p b); [exact HP|exact Hf|exact Logic.I].
      + apply (is_lim_scal_l L k z l), HL.
  Qed.
  Lemma inner_lim_m x : is_lim (inner x) m_infty 0.
  Proof.
    pose proof (normal_density_pos x) as P.
    pose proof (lim_combo m_infty (fun t => bvn rho x t) (Fx x) Phi (fun t => bvn lq (lX x) t) (fun t => RInt (fam (nK x) nal (nbe x) t) 0 rho) (Phi x) (normal_density x) 0 0 0 0 0) as Q.
    replace ((0 * 0 - (Phi x * (0 * 0 - normal_density x * 0) + 0)) / normal_density x) with 0 in Q by (field; lra).
    apply Q; [apply (is_lim_ext (fun t => bvn rho t x)); [intros; apply bvn_sym|]; apply bvn_lim_x, H|apply Fx_lim_m|apply Phi_lim_m|apply l_lim_m|].
    apply fam_lim_m; [exact H|apply nK_cont|apply nal_cont|apply nbe_cont|apply nal_pos].
  Qed.
  Lemma inner_lim_p x : is_lim (inner x) p_infty (J x).
  Proof.
    pose proof (normal_density_pos x) as P.
    pose proof (lim_combo p_infty (fun t => bvn rho x t) (Fx x) Phi (fun t => bvn lq (lX x) t) (fun t => RInt (fam (nK x) nal (nbe x) t) 0 rho) (Phi x) (normal_density x)
      (Phi x) (normal_density x) 1 (Phi (lX x)) (RInt (nK x) 0 rho)) as Q.
    replace ((Phi x * normal_density x - (Phi x * (1 * normal_density x - normal_density x * Phi (lX x)) + RInt (nK x) 0 rho)) / normal_density x) with (J x) in Q by (unfold J; field; lra).
    apply Q; [apply (is_lim_ext (fun t => bvn rho t x)); [intros; apply bvn_sym|]; apply bvn_lim_p, H|apply Fx_lim_p|apply Phi_lim_p|apply l_lim_p|].
    apply fam_lim_p; [exact H|apply nK_cont|apply nal_cont|apply nbe_cont|apply nal_pos].
  Qed.

  (** *** outer integral *)
  Lemma nK_int x : RInt (nK x) 0 rho = RInt (dfam oK oal (fun _ => 0) x) 0 rho.
  Proof. apply RInt_ext. intros r Hr. symmetry. apply o_product, (between_0 rho r H). lra. Qed.
  Lemma J_cont x : continuous J x.
  Proof.
    pose proof (normal_density_pos x) as P. unfold J. apply (continuous_minus (fun x => Phi x * Phi (lX x)) (fun x => RInt (nK x) 0 rho / normal_density x)).
    - apply (continuous_mult Phi (fun x => Phi (lX x))); [apply Phi_cont|]. apply (continuous_comp lX Phi); [apply lX_cont|apply Phi_cont].
    - apply (continuous_mult (fun x => RInt (nK x) 0 rho) (fun x => / normal_density x)); [|apply inv_cont; [apply normal_density_cont|lra]].
      apply (continuous_ext (fun x => RInt (dfam oK oal (fun _ => 0) x) 0 rho)); [intros; symmetry; apply nK_int|].
      apply dfam_int_cont; [exact H|apply oK_cont|apply oal_cont|intros; apply continuous_const].
  Qed.
  Definition outer (x : R) : R := Phi x * bvn (rho / sqrt 2) x 0 - sT (rho / sqrt 2) 0 x - RInt (fam oK oal (fun _ => 0) x) 0 rho.
  Lemma outer_derive x : is_derive outer x (J x * normal_density x).
  Proof.
    pose proof (half_rho rho H) as H'. pose proof (normal_density_pos x) as P.
    pose proof (Phi_derive x) as D1. pose proof (bvn_derive_x (rho / sqrt 2) x 0 H') as D2. pose proof (sT_derive (rho / sqrt 2) 0 x H') as D3. rewrite lX_kz in D2.
    assert (D4 : is_derive (fun x => RInt (fam oK oal (fun _ => 0) x) 0 rho) x (RInt (dfam oK oal (fun _ => 0) x) 0 rho))
      by (apply fam_int_derive; [exact H|apply oK_cont|apply oal_cont|intros; apply continuous_const]).
    unfold outer. evar_last.
    - apply (is_derive_minus (fun x => Phi x * bvn (rho / sqrt 2) x 0 - sT (rho / sqrt 2) 0 x)); [|exact D4].
      apply (is_derive_minus (fun x => Phi x * bvn (rho / sqrt 2) x 0)); [|exact D3].
      apply (is_derive_mult Phi (fun x => bvn (rho / sqrt 2) x 0)); [exact D1|exact D2|intros; apply Rmult_comm].
    - unfold J. rewrite nK_int, (bvn_sym (rho / sqrt 2) 0 x). unfold minus, plus, opp, scal; cbn; unfold mult; cbn. field. lra.
  Qed.
  Lemma outer_lim_m : is_lim outer m_infty 0.
  Proof.
    pose proof (half_rho rho H) as H'. unfold outer. replace (Finite 0) with (Rbar_minus (0 * 0 - 0) 0) by (cbn; f_equal; ring).
    apply is_lim_minus'; [apply (is_lim_minus' _ _ m_infty (0 * 0) 0)|].
    - apply (is_lim_mult Phi (fun x => bvn (rho / sqrt 2) x 0) m_infty 0 0); [apply Phi_lim_m|apply bvn_lim_x, H'|exact Logic.I].
    - apply sT_lim_m, H'.
    - apply fam_lim_m; [exact H|apply oK_cont|apply oal_cont|intros; apply continuous_const|apply oal_pos].
  Qed.
  Lemma outer_lim_p : is_lim outer p_infty (1 / 4 - asin rho / (2 * PI)).
  Proof.
    pose proof (half_rho rho H) as H'. pose proof PI_RGT_0.
    assert (E : 1 / 4 - asin rho / (2 * PI) = 1 * (1 / 2) - bvn (rho / sqrt 2 / sqrt 2) 0 0 - RInt oK 0 rho) by (rewrite oK_int, bvn_half by exact H; field; lra).
    rewrite E. unfold outer.
    apply (is_lim_minus' _ _ p_infty (1 * (1 / 2) - bvn (rho / sqrt 2 / sqrt 2) 0 0) (RInt oK 0 rho)); [apply (is_lim_minus' _ _ p_infty (1 * (1 / 2)) (bvn (rho / sqrt 2 / sqrt 2) 0 0))|].
    - apply (is_lim_mult Phi (fun x => bvn (rho / sqrt 2) x 0) p_infty 1 (1 / 2)); [apply Phi_lim_p|rewrite <- Phi_0; apply bvn_lim_p, H'|exact Logic.I].
    - apply sT_lim_p, H'.
    - apply fam_lim_p; [exact H|apply oK_cont|apply oal_cont|intros; apply continuous_const|apply oal_pos].
  Qed.
End Tau.

Lemma normal_kendall rho q : -1 < rho < 1 -> quantile Phi q -> kendall_tau (fun u v => bvn rho (q u) (q v)) (2 * asin rho / PI).
Proof.
  intros H Hq. pose proof PI_RGT_0.
  exists (fun u v => Phi (kz (nsl rho) rho (q u) (q v))), (fun u v => Phi (kz (nsl rho) rho (q v) (q u))), (fun u => J rho (q u)). split; [|split].
  - intros u v Hu Hv. pose proof (normal_density_pos (q u)). pose proof (normal_density_pos (q v)). split.
    + evar_last; [apply (is_derive_comp (fun x => bvn rho x (q v)) q); [apply bvn_derive_x, H|apply (quantile_derive Phi normal_density Phi_distribution q Hq u Hu)]|]. unfold scal; cbn; unfold mult; cbn. field. lra.
    + evar_last; [apply (is_derive_comp (fun y => bvn rho (q u) y) q); [apply bvn_derive_y, H|apply (quantile_derive Phi normal_density Phi_distribution q Hq v Hv)]|]. unfold scal; cbn; unfold mult; cbn. field. lra.
  - intros u Hu. replace (J rho (q u)) with (J rho (q u) - 0) by ring.
    apply (integral_line q Hq (fun y => Phi (kz (nsl rho) rho (q u) y) * Phi (kz (nsl rho) rho y (q u))) (inner rho (q u))); [intros; apply inner_derive, H| |apply inner_lim_m, H|apply inner_lim_p, H].
    intros y. apply (continuous_mult (fun y => Phi (kz (nsl rho) rho (q u) y)) (fun y => Phi (kz (nsl rho) rho y (q u)))).
    + apply (continuous_comp (kz (nsl rho) rho (q u)) Phi); [|apply Phi_cont]. apply (ex_derive_continuous (V := R_NormedModule)). eexists. apply kz_derive.
    + apply (continuous_comp (fun y => kz (nsl rho) rho y (q u)) Phi); [|apply Phi_cont]. apply kz_cont1. intros; apply nsl_cont.
  - replace ((1 - 2 * asin rho / PI) / 4) with (1 / 4 - asin rho / (2 * PI) - 0) by (field; lra).
    apply (integral_line q Hq (J rho) (outer rho)); [intros; apply outer_derive, H|intros; apply J_cont, H|apply outer_lim_m, H|apply outer_lim_p, H].
Qed.
