(** The normal and the t kernels; the bivariate normal and the bivariate Cauchy distribution functions. *)
From Coquelicot Require Import Coquelicot.
From Verif Require Import Base RSumLib Ext S_Linalg S_Stats S_EllipDensity S_Archimedean P_GaussInt P_EllipDensity.
Open Scope R_scope.

(** ** the normal distribution *)
Definition Phi (x : R) : R := 1 / 2 + gI x / sqrt (2 * PI).
Lemma sqrt_2pi : 0 < sqrt (2 * PI).
Proof. apply sqrt_lt_R0. pose proof PI_RGT_0. lra. Qed.
Lemma Phi_derive x : is_derive Phi x (normal_density x).
Proof.
  pose proof sqrt_2pi. unfold Phi, normal_density.
  replace (exp (- (x * x) / 2) / sqrt (2 * PI)) with (plus 0 (scal (/ sqrt (2 * PI)) (gk x))) by (unfold plus, scal, gk; cbn; unfold mult; cbn; unfold Rdiv; ring).
  apply (is_derive_plus (fun _ => 1 / 2) (fun x => gI x / sqrt (2 * PI))); [apply (is_derive_const (1 / 2))|].
  apply (is_derive_ext (fun x => scal (/ sqrt (2 * PI)) (gI x))); [intros t; unfold scal; cbn; unfold mult; cbn; apply Rmult_comm|].
  apply is_derive_scal, gI_derive.
Qed.
Lemma normal_density_cont x : continuous normal_density x.
Proof. apply (ex_derive_continuous (V := R_NormedModule)). unfold normal_density. pose proof sqrt_2pi. auto_derive. lra. Qed.
Lemma normal_density_pos x : 0 < normal_density x.
Proof. apply Rdiv_lt_0_compat; [apply exp_pos|apply sqrt_2pi]. Qed.
Lemma normal_density_even x : normal_density (- x) = normal_density x.
Proof. unfold normal_density. replace (- x * - x) with (x * x) by ring. reflexivity. Qed.
Lemma half_mass : sqrt (PI / 2) / sqrt (2 * PI) = 1 / 2.
Proof.
  pose proof PI_RGT_0. pose proof sqrt_2pi. replace (sqrt (PI / 2)) with (sqrt (2 * PI) / 2); [field; lra|].
  replace (PI / 2) with (2 * PI / (2 * 2)) by field. rewrite sqrt_div, sqrt_square by lra. reflexivity.
Qed.
Lemma Phi_distribution : distribution Phi normal_density.
Proof.
  pose proof sqrt_2pi as S.
  assert (L : is_lim (fun x => gI x / sqrt (2 * PI)) p_infty (1 / 2)).
  { rewrite <- half_mass. unfold Rdiv. replace (Finite (sqrt (PI * / 2) * / sqrt (2 * PI))) with (Rbar_mult (sqrt (PI / 2)) (/ sqrt (2 * PI))) by reflexivity.
    apply is_lim_scal_r, gI_lim. }
  split; [intros; apply Phi_derive|]. split; [intros; apply normal_density_pos|]. split; [intros; apply normal_density_cont|]. split.
  - apply (is_lim_ext (fun x => 1 / 2 - gI (- x) / sqrt (2 * PI))).
    { intros x. unfold Phi. rewrite gI_odd. field. lra. }
    replace (Finite 0) with (Rbar_minus (1 / 2) (1 / 2)) by (cbn; f_equal; lra). apply is_lim_minus'; [apply is_lim_const|].
    apply (is_lim_comp (fun x => gI x / sqrt (2 * PI)) (fun x => - x) m_infty (1 / 2) p_infty); [exact L| |exists 0; intros; discriminate].
    change p_infty with (Rbar_opp m_infty). apply is_lim_opp, is_lim_id.
  - unfold Phi. replace (Finite 1) with (Rbar_plus (1 / 2) (1 / 2)) by (cbn; f_equal; lra). apply is_lim_plus'; [apply is_lim_const|exact L].
Qed.

(** ** the normal kernel *)
Definition nsl (rho : R) (x : R) : R := / sqrt (1 - rho * rho).
Lemma one_minus_sq rho : -1 < rho < 1 -> 0 < 1 - rho * rho.
Proof. nra. Qed.
Lemma sqrt_rho rho : -1 < rho < 1 -> 0 < sqrt (1 - rho * rho) /\ sqrt (1 - rho * rho) * sqrt (1 - rho * rho) = 1 - rho * rho.
Proof. intros H. pose proof (one_minus_sq rho H). split; [apply sqrt_lt_R0; lra|apply sqrt_sqrt; lra]. Qed.
Lemma nsl_pos rho x : -1 < rho < 1 -> 0 < nsl rho x.
Proof. intros H. apply Rinv_0_lt_compat, sqrt_rho, H. Qed.
Lemma nsl_cont rho x : continuous (nsl rho) x.
Proof. apply continuous_const. Qed.
Lemma normal_km rho x y : -1 < rho < 1 -> km normal_density normal_density (nsl rho) rho x y = normal2 rho x y.
Proof.
  intros H. destruct (sqrt_rho rho H) as [S1 S2]. pose proof (one_minus_sq rho H). pose proof sqrt_2pi. pose proof PI_RGT_0.
  assert (E : sqrt (2 * PI) * sqrt (2 * PI) = 2 * PI) by (apply sqrt_sqrt; lra).
  unfold km, kz, nsl, normal_density, normal2. set (c := sqrt (1 - rho * rho)) in *. set (s := sqrt (2 * PI)) in *. rewrite <- E.
  replace (- (x * x - 2 * rho * x * y + y * y) / (2 * (1 - rho * rho))) with (- (x * x) / 2 + - (/ c * (y - rho * x) * (/ c * (y - rho * x))) / 2).
  2: { rewrite <- S2. replace (- (/ c * (y - rho * x) * (/ c * (y - rho * x))) / 2) with (- ((y - rho * x) * (y - rho * x)) / (2 * (c * c))) by (field; lra).
       rewrite S2. field. lra. }
  rewrite exp_plus. field. lra.
Qed.
Lemma normal2_sym rho x y : normal2 rho x y = normal2 rho y x.
Proof. unfold normal2. replace (y * y - 2 * rho * y * x + x * x) with (x * x - 2 * rho * x * y + y * y) by ring. reflexivity. Qed.
Lemma normal2_pos rho x y : -1 < rho < 1 -> 0 < normal2 rho x y.
Proof. intros H. destruct (sqrt_rho rho H). pose proof PI_RGT_0. apply Rdiv_lt_0_compat; [apply exp_pos|]. nra. Qed.
Lemma normal_kz_lim rho : -1 < rho < 1 -> is_lim (fun x => kz (nsl rho) rho x x) m_infty m_infty.
Proof.
  intros H. destruct (sqrt_rho rho H) as [S _]. assert (P : 0 < (1 - rho) / sqrt (1 - rho * rho)) by (apply Rdiv_lt_0_compat; lra).
  apply (is_lim_ext (fun x => (1 - rho) / sqrt (1 - rho * rho) * x)); [intros x; unfold kz, nsl; field; lra|].
  replace m_infty with (Rbar_mult ((1 - rho) / sqrt (1 - rho * rho)) m_infty) at 2. { apply is_lim_scal_l, is_lim_id. }
  cbn. destruct (Rle_dec 0 ((1 - rho) / sqrt (1 - rho * rho))) as [h|n]; [|lra]. destruct (Rle_lt_or_eq_dec _ _ h); [reflexivity|lra].
Qed.

(** ** the bivariate normal distribution function (Plackett's formula) *)
Definition bvn (rho x y : R) : R := Phi x * Phi y + RInt (fun r => normal2 r x y) 0 rho.
Definition n2x (r x y : R) : R := (r * y - x) / (1 - r * r) * normal2 r x y.
Lemma normal2_derive_x r x y : -1 < r < 1 -> is_derive (fun x => normal2 r x y) x (n2x r x y).
Proof.
  intros H. destruct (sqrt_rho r H) as [S _]. pose proof (one_minus_sq r H). pose proof PI_RGT_0. unfold normal2, n2x, normal2.
  assert (N : 2 * PI * sqrt (1 - r * r) <> 0) by nra. set (c := 2 * PI * sqrt (1 - r * r)) in *.
  auto_derive; [exact Logic.I|]. unfold Rdiv. set (e := exp _). field. split; [exact N|lra].
Qed.
Lemma kernel_derive_r r x y : -1 < r < 1 -> is_derive (fun r => normal_density x * Phi ((y - r * x) / sqrt (1 - r * r))) r (n2x r x y).
Proof.
  intros H. destruct (sqrt_rho r H) as [S1 S2]. pose proof (one_minus_sq r H) as P. set (c := sqrt (1 - r * r)) in *.
  assert (D : is_derive (fun r => (y - r * x) / sqrt (1 - r * r)) r ((r * y - x) / ((1 - r * r) * c))).
  { auto_derive.
    - replace (1 + - (r * r)) with (1 - r * r) by ring. fold c. split; [lra|split; [lra|exact Logic.I]].
    - replace (1 + - (r * r)) with (1 - r * r) by ring. fold c.
      transitivity ((- x * (c * c) + (y - r * x) * r) / (c * c * c)); [field; lra|]. rewrite S2. f_equal. ring. }
  evar_last; [apply (is_derive_scal (fun r => Phi ((y - r * x) / sqrt (1 - r * r))) r (normal_density x)); apply (is_derive_comp Phi (fun r => (y - r * x) / sqrt (1 - r * r))); [apply Phi_derive|exact D]|].
  unfold n2x. rewrite <- normal_km by exact H. unfold km, kz, nsl. fold c. unfold scal; cbn; unfold mult; cbn. replace (/ c * (y - r * x)) with ((y - r * x) / c) by (unfold Rdiv; ring). field. lra.
Qed.
Lemma between_0 rho t : -1 < rho < 1 -> Rmin 0 rho <= t <= Rmax 0 rho -> -1 < t < 1.
Proof. intros H. pose proof (Rmin_glb_lt 0 rho (-1) ltac:(lra) ltac:(lra)). pose proof (Rmax_lub_lt 0 rho 1 ltac:(lra) ltac:(lra)). lra. Qed.
Lemma c2_inv (g : R -> R -> R) x y : continuity_2d_pt g x y -> g x y <> 0 -> continuity_2d_pt (fun u v => / g u v) x y.
Proof.
  intros H N. apply (continuity_1d_2d_pt_comp (fun t => / t) g); [|exact H]. apply (continuity_pt_inv (fun t => t)); [apply derivable_continuous, derivable_id|exact N].
Qed.
Lemma c2_sqrt (g : R -> R -> R) x y : continuity_2d_pt g x y -> 0 < g x y -> continuity_2d_pt (fun u v => sqrt (g u v)) x y.
Proof. intros H N. apply (continuity_1d_2d_pt_comp sqrt g); [|exact H]. apply continuity_pt_sqrt. lra. Qed.
Lemma c2_sub (g h : R -> R -> R) x y : continuity_2d_pt g x y -> continuity_2d_pt h x y -> continuity_2d_pt (fun u v => g u v - h u v) x y.
Proof. apply continuity_2d_pt_minus. Qed.
Lemma n2x_cont2 y x r : -1 < r < 1 -> continuity_2d_pt (fun u v => n2x v u y) x r.
Proof.
  intros H. pose proof (one_minus_sq r H) as P. destruct (sqrt_rho r H) as [S _]. pose proof PI_RGT_0. unfold n2x, normal2, Rdiv.
  assert (K : continuity_2d_pt (fun _ v => 1 - v * v) x r)
    by (apply c2_sub; [apply continuity_2d_pt_const|apply continuity_2d_pt_mult; apply continuity_2d_pt_id2]).
  apply continuity_2d_pt_mult; apply continuity_2d_pt_mult.
  - apply c2_sub; [apply continuity_2d_pt_mult; [apply continuity_2d_pt_id2|apply continuity_2d_pt_const]|apply continuity_2d_pt_id1].
  - apply c2_inv; [exact K|lra].
  - apply cont2_exp. apply continuity_2d_pt_mult.
    + apply continuity_2d_pt_opp. apply continuity_2d_pt_plus; [apply c2_sub|apply continuity_2d_pt_const].
      * apply continuity_2d_pt_mult; apply continuity_2d_pt_id1.
      * apply continuity_2d_pt_mult; [|apply continuity_2d_pt_const]. apply continuity_2d_pt_mult; [|apply continuity_2d_pt_id1]. apply continuity_2d_pt_mult; [apply continuity_2d_pt_const|apply continuity_2d_pt_id2].
    + apply c2_inv; [apply continuity_2d_pt_mult; [apply continuity_2d_pt_const|exact K]|lra].
  - apply c2_inv; [|nra]. apply continuity_2d_pt_mult; [apply continuity_2d_pt_const|]. apply c2_sqrt; [exact K|lra].
Qed.
Lemma normal2_cont_r x y r : -1 < r < 1 -> continuous (fun r => normal2 r x y) r.
Proof.
  intros H. pose proof (one_minus_sq r H) as P. destruct (sqrt_rho r H) as [S _]. pose proof PI_RGT_0. apply (ex_derive_continuous (V := R_NormedModule)). unfold normal2. auto_derive.
  replace (1 + - (r * r)) with (1 - r * r) by ring. repeat split; try lra; nra.
Qed.
Lemma n2x_cont_r x y r : -1 < r < 1 -> continuous (fun r => n2x r x y) r.
Proof.
  intros H. pose proof (one_minus_sq r H) as P. apply (continuous_mult (fun r => (r * y - x) / (1 - r * r)) (fun r => normal2 r x y)); [|apply normal2_cont_r, H].
  apply (ex_derive_continuous (V := R_NormedModule)). auto_derive. lra.
Qed.
Lemma bvn_derive_x rho x y : -1 < rho < 1 -> is_derive (fun x => bvn rho x y) x (normal_density x * Phi (kz (nsl rho) rho x y)).
Proof.
  intros H.
  assert (D : is_derive (fun x => RInt (fun r => normal2 r x y) 0 rho) x (RInt (fun r => Derive (fun x => normal2 r x y) x) 0 rho)).
  { apply (is_derive_RInt_param (fun x r => normal2 r x y)).
    - exists (mkposreal 1 Rlt_0_1). intros x' _ t Ht. eexists. apply normal2_derive_x. apply (between_0 rho t H Ht).
    - intros t Ht. pose proof (between_0 rho t H Ht) as T.
      apply (continuity_2d_pt_ext_loc (fun u v => n2x v u y)); [|apply n2x_cont2; exact T].
      assert (E : 0 < Rmin (1 - t) (t + 1)) by (apply Rmin_pos; lra). exists (mkposreal _ E). cbn. intros u v _ Hv.
      pose proof (Rmin_l (1 - t) (t + 1)). pose proof (Rmin_r (1 - t) (t + 1)). apply Rabs_def2 in Hv. symmetry. apply is_derive_unique, normal2_derive_x. lra.
    - exists (mkposreal 1 Rlt_0_1). intros x' _. apply (ex_RInt_continuous (V := R_CompleteNormedModule)). intros t Ht. apply normal2_cont_r, (between_0 rho t H Ht). }
  assert (V : RInt (fun r => Derive (fun x => normal2 r x y) x) 0 rho = normal_density x * Phi (kz (nsl rho) rho x y) - normal_density x * Phi y).
  { rewrite (RInt_ext _ (fun r => n2x r x y)).
    2: { intros t Ht. apply is_derive_unique, normal2_derive_x. apply (between_0 rho t H). lra. }
    apply is_RInt_unique.
    replace (normal_density x * Phi (kz (nsl rho) rho x y) - normal_density x * Phi y)
      with (minus (normal_density x * Phi ((y - rho * x) / sqrt (1 - rho * rho))) (normal_density x * Phi ((y - 0 * x) / sqrt (1 - 0 * 0)))).
    2: { unfold minus, plus, opp; cbn. unfold kz, nsl. replace (1 - 0 * 0) with 1 by ring. rewrite sqrt_1. replace ((y - 0 * x) / 1) with y by field.
         replace (/ sqrt (1 - rho * rho) * (y - rho * x)) with ((y - rho * x) / sqrt (1 - rho * rho)) by (unfold Rdiv; ring). reflexivity. }
    apply (is_RInt_derive (V := R_CompleteNormedModule) (fun r => normal_density x * Phi ((y - r * x) / sqrt (1 - r * r)))).
    - intros t Ht. apply kernel_derive_r, (between_0 rho t H Ht).
    - intros t Ht. apply n2x_cont_r, (between_0 rho t H Ht). }
  rewrite V in D. unfold bvn.
  replace (normal_density x * Phi (kz (nsl rho) rho x y)) with (plus (normal_density x * Phi y) (normal_density x * Phi (kz (nsl rho) rho x y) - normal_density x * Phi y)) by (unfold plus; cbn; ring).
  apply (is_derive_plus (fun x => Phi x * Phi y) (fun x => RInt (fun r => normal2 r x y) 0 rho)); [|exact D].
  apply (is_derive_ext (fun x => scal (Phi y) (Phi x))); [intros t; unfold scal; cbn; unfold mult; cbn; apply Rmult_comm|].
  rewrite Rmult_comm. apply (is_derive_scal Phi x (Phi y)), Phi_derive.
Qed.
Lemma normal2_bound rho r x y : -1 < rho < 1 -> Rmin 0 rho <= r <= Rmax 0 rho -> 0 <= normal2 r x y <= gk x / sqrt (1 - rho * rho).
Proof.
  intros H Hr. pose proof (between_0 rho r H Hr) as B. destruct (sqrt_rho rho H) as [S _]. destruct (sqrt_rho r B) as [S' S2]. pose proof (one_minus_sq r B). split; [left; apply normal2_pos, B|].
  assert (Q : r * r <= rho * rho) by (unfold Rmin, Rmax in Hr; destruct (Rle_dec 0 rho); nra).
  assert (S3 : sqrt (1 - rho * rho) <= sqrt (1 - r * r)) by (apply sqrt_le_1_alt; lra).
  assert (X : exp (- (x * x - 2 * r * x * y + y * y) / (2 * (1 - r * r))) <= gk x).
  { unfold gk. assert (L : - (x * x - 2 * r * x * y + y * y) / (2 * (1 - r * r)) <= - (x * x) / 2).
    { apply Rmult_le_reg_r with (2 * (1 - r * r)); [lra|]. unfold Rdiv at 1. rewrite Rmult_assoc, Rinv_l, Rmult_1_r by lra. pose proof (Rle_0_sqr (y - r * x)). unfold Rsqr in *. nra. }
    destruct L as [L| ->]; [left; apply exp_increasing, L|lra]. }
  pose proof PI2_1. assert (2 * 1 <= 2 * PI) by lra. unfold normal2.
  apply Rle_trans with (gk x / (2 * PI * sqrt (1 - r * r))).
  - apply Rmult_le_compat_r; [|exact X]. left. apply Rinv_0_lt_compat. nra.
  - apply Rmult_le_compat_l; [left; apply exp_pos|]. apply Rinv_le_contravar; [exact S|]. nra.
Qed.
Lemma bvn_lim_x rho y : -1 < rho < 1 -> is_lim (fun x => bvn rho x y) m_infty 0.
Proof.
  intros H. destruct (sqrt_rho rho H) as [S _]. unfold bvn.
  replace (Finite 0) with (Rbar_plus (Rbar_mult 0 (Phi y)) 0) by (cbn; f_equal; ring). apply is_lim_plus'.
  - apply (is_lim_scal_r Phi (Phi y) m_infty 0). apply Phi_distribution.
  - assert (G : is_lim (fun x => gk x / sqrt (1 - rho * rho)) m_infty 0).
    { replace (Finite 0) with (Rbar_mult 0 (/ sqrt (1 - rho * rho))) by (cbn; f_equal; ring). apply (is_lim_scal_r gk (/ sqrt (1 - rho * rho)) m_infty 0).
      apply (is_lim_ext (fun x => gk (- x))); [intros x; unfold gk; replace (- x * - x) with (x * x) by ring; reflexivity|].
      apply (is_lim_comp gk (fun x => - x) m_infty 0 p_infty); [apply gk_lim| |exists 0; intros; discriminate]. change p_infty with (Rbar_opp m_infty). apply is_lim_opp, is_lim_id. }
    assert (B : forall x, Rabs (RInt (fun r => normal2 r x y) 0 rho) <= gk x / sqrt (1 - rho * rho)).
    { intros x. set (K := gk x / sqrt (1 - rho * rho)). assert (K0 : 0 <= K) by (apply Rlt_le, Rdiv_lt_0_compat; [apply exp_pos|exact S]).
      assert (EX : forall a b, -1 < a < 1 -> -1 < b < 1 -> ex_RInt (fun r => normal2 r x y) a b).
      { intros a b Ha Hb. apply (ex_RInt_continuous (V := R_CompleteNormedModule)). intros t Ht. apply normal2_cont_r.
        pose proof (Rmin_glb_lt a b (-1) ltac:(lra) ltac:(lra)). pose proof (Rmax_lub_lt a b 1 ltac:(lra) ltac:(lra)). lra. }
      destruct (Rle_lt_dec 0 rho) as [P|P].
      - apply Rle_trans with (rho * K); [|nra].
        replace (rho * K) with ((rho - 0) * K) by ring. apply (abs_RInt_le_const (fun r => normal2 r x y) 0 rho K P); [apply EX; lra|].
        intros t Ht. destruct (normal2_bound rho t x y H) as [B1 B2]; [rewrite Rmin_left, Rmax_right by lra; lra|]. rewrite Rabs_pos_eq by exact B1. exact B2.
      - rewrite <- (opp_RInt_swap (V := R_CompleteNormedModule)) by (apply EX; lra). unfold opp; cbn. rewrite Rabs_Ropp.
        apply Rle_trans with ((0 - rho) * K); [|nra]. apply (abs_RInt_le_const (fun r => normal2 r x y) rho 0 K); [lra|apply EX; lra|].
        intros t Ht. destruct (normal2_bound rho t x y H) as [B1 B2]; [rewrite Rmin_right, Rmax_left by lra; lra|]. rewrite Rabs_pos_eq by exact B1. exact B2. }
    apply (is_lim_le_le_loc (fun x => - (gk x / sqrt (1 - rho * rho))) (fun x => gk x / sqrt (1 - rho * rho))).
    + exists 0. intros x _. specialize (B x). apply Rabs_le_between in B. exact B.
    + replace (Finite 0) with (Rbar_opp 0) by (cbn; f_equal; ring). apply is_lim_opp, G.
    + exact G.
Qed.
Lemma bvn_sym rho x y : bvn rho x y = bvn rho y x.
Proof. unfold bvn. rewrite (Rmult_comm (Phi y)). f_equal. apply RInt_ext. intros r _. apply normal2_sym. Qed.
Lemma bvn_joint rho : -1 < rho < 1 -> joint_cdf (normal2 rho) (bvn rho).
Proof.
  intros H.
  assert (A : forall s y, integral_up_to (normal2 rho s) y (normal_density s * Phi (kz (nsl rho) rho s y))).
  { intros s y. assert (E : integral_up_to (km normal_density normal_density (nsl rho) rho s) y (normal_density s * Phi (kz (nsl rho) rho s y))).
    { apply (gen_value _ (fun y => normal_density s * Phi (kz (nsl rho) rho s y))).
      - intros t. apply (G_derive _ Phi); exact Phi_distribution.
      - intros t. apply (km_cont2 _ Phi); exact Phi_distribution.
      - apply (G_lim normal_density Phi normal_density); [exact Phi_distribution|intros; apply nsl_pos, H]. }
    unfold integral_up_to in *. refine (is_RInt_gen_ext _ _ _ _ E). apply filter_forall. intros ab t _. apply normal_km, H. }
  assert (B : forall x y, integral_up_to (fun s => normal_density s * Phi (kz (nsl rho) rho s y)) x (bvn rho x y)).
  { intros x y. apply (gen_value _ (fun x => bvn rho x y)); [intros; apply bvn_derive_x, H| |apply bvn_lim_x, H].
    intros t. apply (G_cont1 Phi normal_density Phi normal_density); [exact Phi_distribution|exact Phi_distribution|intros; apply nsl_cont]. }
  split.
  - exists (fun s y => normal_density s * Phi (kz (nsl rho) rho s y)). split; [exact A|exact B].
  - exists (fun x t => normal_density t * Phi (kz (nsl rho) rho t x)). split.
    + intros x t. unfold integral_up_to in *. refine (is_RInt_gen_ext _ _ _ _ (A t x)). apply filter_forall. intros ab s _. apply normal2_sym.
    + intros x y. rewrite bvn_sym. apply B.
Qed.
