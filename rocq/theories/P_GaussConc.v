(** Integrals of the bivariate normal distribution function: families K(r) Phi(alpha(r) t + beta(r)) integrated over the correlation r. *)
From Coquelicot Require Import Coquelicot.
From Verif Require Import Base RSumLib S_Archimedean S_Concord S_EllipDensity P_GaussInt P_EllipDensity P_EllipDensity2 P_Kendall.
Open Scope R_scope.

Lemma seg_le rho : Rmin 0 rho <= Rmax 0 rho.
Proof. apply Rle_trans with 0; [apply Rmin_l|apply Rmax_l]. Qed.
Lemma cont_pt (f : R -> R) x : continuous f x -> continuity_pt f x.
Proof. intros H. apply continuity_pt_filterlim. exact H. Qed.
Lemma seg_bounded rho (f : R -> R) : -1 < rho < 1 -> (forall r, -1 < r < 1 -> continuous f r) ->
  exists B, 0 <= B /\ forall r, Rmin 0 rho <= r <= Rmax 0 rho -> Rabs (f r) <= B.
Proof.
  intros H C. destruct (continuity_ab_maj (fun r => Rabs (f r)) (Rmin 0 rho) (Rmax 0 rho) (seg_le rho)) as [m [Hm _]].
  - intros c Hc. apply (continuity_pt_comp f Rabs); [apply cont_pt, C, (between_0 rho c H Hc)|apply Rcontinuity_abs].
  - exists (Rabs (f m)). split; [apply Rabs_pos|exact Hm].
Qed.
Lemma seg_below rho (f : R -> R) : -1 < rho < 1 -> (forall r, -1 < r < 1 -> continuous f r) -> (forall r, -1 < r < 1 -> 0 < f r) ->
  exists B, 0 < B /\ forall r, Rmin 0 rho <= r <= Rmax 0 rho -> B <= f r.
Proof.
  intros H C P. destruct (continuity_ab_min f (Rmin 0 rho) (Rmax 0 rho) (seg_le rho)) as [m [Hm I]].
  - intros c Hc. apply cont_pt, C, (between_0 rho c H Hc).
  - exists (f m). split; [apply P, (between_0 rho m H I)|exact Hm].
Qed.
Lemma seg_int rho (f : R -> R) : -1 < rho < 1 -> (forall r, -1 < r < 1 -> continuous f r) -> ex_RInt f 0 rho.
Proof. intros H C. apply (ex_RInt_continuous (V := R_CompleteNormedModule)). intros t Ht. apply C, (between_0 rho t H Ht). Qed.
Lemma seg_abs rho (f : R -> R) B : -1 < rho < 1 -> (forall r, -1 < r < 1 -> continuous f r) -> 0 <= B ->
  (forall r, Rmin 0 rho <= r <= Rmax 0 rho -> Rabs (f r) <= B) -> Rabs (RInt f 0 rho) <= B.
Proof.
  intros H C B0 K. pose proof (seg_int rho f H C) as EX. destruct (Rle_lt_dec 0 rho) as [P|P].
  - apply Rle_trans with ((rho - 0) * B); [|nra]. apply (abs_RInt_le_const f 0 rho B P EX). intros t Ht. apply K. rewrite Rmin_left, Rmax_right by lra. exact Ht.
  - rewrite <- (opp_RInt_swap (V := R_CompleteNormedModule)) by (apply ex_RInt_swap, EX). unfold opp; cbn. rewrite Rabs_Ropp.
    apply Rle_trans with ((0 - rho) * B); [|nra]. apply (abs_RInt_le_const f rho 0 B); [lra|apply ex_RInt_swap, EX|].
    intros t Ht. apply K. rewrite Rmin_right, Rmax_left by lra. exact Ht.
Qed.
Lemma lim_affine_p a b : 0 < a -> is_lim (fun t => a * t + b) p_infty p_infty.
Proof.
  intros Ha. apply is_lim_spec. intros M. exists ((M - b) / a). intros t Ht. apply (Rmult_lt_compat_l a) in Ht; [|exact Ha].
  replace (a * ((M - b) / a)) with (M - b) in Ht by (field; lra). lra.
Qed.
Lemma lim_affine_m a b : 0 < a -> is_lim (fun t => a * t + b) m_infty m_infty.
Proof.
  intros Ha. apply is_lim_spec. intros M. exists ((M - b) / a). intros t Ht. apply (Rmult_lt_compat_l a) in Ht; [|exact Ha].
  replace (a * ((M - b) / a)) with (M - b) in Ht by (field; lra). lra.
Qed.
Lemma Phi_range x : 0 < Phi x < 1.
Proof. apply (dist_range Phi normal_density Phi_distribution). Qed.
Lemma Phi_mono x y : x <= y -> Phi x <= Phi y.
Proof. intros [H| ->]; [left; apply (dist_increasing Phi normal_density Phi_distribution); exact H|lra]. Qed.
Lemma Phi_cont x : continuous Phi x.
Proof. apply (ex_derive_continuous (V := R_NormedModule)). eexists. apply Phi_derive. Qed.
Lemma Phi_lim_p : is_lim Phi p_infty 1.
Proof. apply Phi_distribution. Qed.
Lemma Phi_lim_m : is_lim Phi m_infty 0.
Proof. apply Phi_distribution. Qed.
Lemma Phi_0 : Phi 0 = 1 / 2.
Proof. unfold Phi, gI. rewrite RInt_point. unfold zero; cbn. unfold Rdiv. ring. Qed.
Lemma nd_derive x : is_derive normal_density x (- x * normal_density x).
Proof. pose proof sqrt_2pi. unfold normal_density. auto_derive; [lra|]. unfold Rdiv. field. lra. Qed.

Section Family.
  Variables K al be : R -> R.
  Variable rho : R.
  Hypothesis Hr : -1 < rho < 1.
  Hypothesis KC : forall r, -1 < r < 1 -> continuous K r.
  Hypothesis AC : forall r, -1 < r < 1 -> continuous al r.
  Hypothesis BC : forall r, -1 < r < 1 -> continuous be r.
  Hypothesis AP : forall r, -1 < r < 1 -> 0 < al r.
  Definition fam (t r : R) : R := K r * Phi (al r * t + be r).
  Definition dfam (t r : R) : R := K r * al r * normal_density (al r * t + be r).
  Definition ddfam (t r : R) : R := K r * al r * al r * (- (al r * t + be r) * normal_density (al r * t + be r)).
  Lemma fam_derive t r : is_derive (fun t => fam t r) t (dfam t r).
  Proof.
    unfold fam, dfam. evar_last; [apply (is_derive_scal (fun t => Phi (al r * t + be r)) t (K r)); apply (is_derive_comp Phi (fun t => al r * t + be r)); [apply Phi_derive|auto_derive; [exact Logic.I|reflexivity]]|].
    unfold scal; cbn; unfold mult; cbn. ring.
  Qed.
  Lemma dfam_derive t r : is_derive (fun t => dfam t r) t (ddfam t r).
  Proof.
    unfold dfam, ddfam. evar_last; [apply (is_derive_scal (fun t => normal_density (al r * t + be r)) t (K r * al r)); apply (is_derive_comp normal_density (fun t => al r * t + be r)); [apply nd_derive|auto_derive; [exact Logic.I|reflexivity]]|].
    unfold scal; cbn; unfold mult; cbn. ring.
  Qed.
  Lemma c2_snd (f : R -> R) x r : continuous f r -> continuity_2d_pt (fun _ v => f v) x r.
  Proof. intros C. apply (continuity_1d_2d_pt_comp f (fun _ v => v)); [apply cont_pt, C|apply continuity_2d_pt_id2]. Qed.
  Lemma c2_arg t r : -1 < r < 1 -> continuity_2d_pt (fun t r => al r * t + be r) t r.
  Proof.
    intros H. apply continuity_2d_pt_plus; [apply continuity_2d_pt_mult; [apply c2_snd, AC, H|apply continuity_2d_pt_id1]|apply c2_snd, BC, H].
  Qed.
  Lemma dfam_c2 t r : -1 < r < 1 -> continuity_2d_pt dfam t r.
  Proof.
    intros H. unfold dfam. apply continuity_2d_pt_mult; [apply continuity_2d_pt_mult; apply c2_snd; [apply KC|apply AC]; exact H|].
    apply (continuity_1d_2d_pt_comp normal_density (fun t r => al r * t + be r)); [apply cont_pt, normal_density_cont|apply c2_arg, H].
  Qed.
  Lemma ddfam_c2 t r : -1 < r < 1 -> continuity_2d_pt ddfam t r.
  Proof.
    intros H. unfold ddfam. apply continuity_2d_pt_mult; [apply continuity_2d_pt_mult; [apply continuity_2d_pt_mult|]; apply c2_snd; [apply KC|apply AC|apply AC]; exact H|].
    apply continuity_2d_pt_mult; [apply continuity_2d_pt_opp, c2_arg, H|].
    apply (continuity_1d_2d_pt_comp normal_density (fun t r => al r * t + be r)); [apply cont_pt, normal_density_cont|apply c2_arg, H].
  Qed.
  Lemma arg_cont t r : -1 < r < 1 -> continuous (fun r => al r * t + be r) r.
  Proof. intros H. apply (continuous_plus (fun r => al r * t) be); [apply (continuous_mult al (fun _ => t)); [apply AC, H|apply continuous_const]|apply BC, H]. Qed.
  Lemma fam_cont t r : -1 < r < 1 -> continuous (fam t) r.
  Proof. intros H. apply (continuous_mult K (fun r => Phi (al r * t + be r))); [apply KC, H|]. apply (continuous_comp (fun r => al r * t + be r) Phi); [apply arg_cont, H|apply Phi_cont]. Qed.
  Lemma dfam_cont t r : -1 < r < 1 -> continuous (dfam t) r.
  Proof.
    intros H. apply (continuous_mult (fun r => K r * al r) (fun r => normal_density (al r * t + be r))); [apply (continuous_mult K al); [apply KC|apply AC]; exact H|].
    apply (continuous_comp (fun r => al r * t + be r) normal_density); [apply arg_cont, H|apply normal_density_cont].
  Qed.
  Lemma near_r r (P : R -> R -> Prop) t : -1 < r < 1 -> (forall u v, -1 < v < 1 -> P u v) -> locally_2d P t r.
  Proof.
    intros T Q. assert (E : 0 < Rmin (1 - r) (r + 1)) by (apply Rmin_pos; lra). exists (mkposreal _ E). cbn. intros u v _ Hv.
    pose proof (Rmin_l (1 - r) (r + 1)). pose proof (Rmin_r (1 - r) (r + 1)). apply Rabs_def2 in Hv. apply Q. lra.
  Qed.
  Lemma fam_int_derive t : is_derive (fun t => RInt (fam t) 0 rho) t (RInt (dfam t) 0 rho).
  Proof.
    rewrite (RInt_ext (dfam t) (fun r => Derive (fun t => fam t r) t)) by (intros r _; symmetry; apply is_derive_unique, fam_derive).
    apply (is_derive_RInt_param fam).
    - exists (mkposreal 1 Rlt_0_1). intros t' _ r _. eexists. apply fam_derive.
    - intros r H. apply (between_0 rho r Hr) in H. apply (continuity_2d_pt_ext_loc dfam); [|apply dfam_c2, H].
      apply near_r; [exact H|]. intros u v _. symmetry. apply is_derive_unique, fam_derive.
    - exists (mkposreal 1 Rlt_0_1). intros t' _. apply seg_int; [exact Hr|]. intros r H. apply fam_cont, H.
  Qed.
  Lemma dfam_int_cont t : continuous (fun t => RInt (dfam t) 0 rho) t.
  Proof.
    apply (ex_derive_continuous (V := R_NormedModule)). eexists. apply (is_derive_RInt_param dfam).
    - exists (mkposreal 1 Rlt_0_1). intros t' _ r _. eexists. apply dfam_derive.
    - intros r H. apply (between_0 rho r Hr) in H. apply (continuity_2d_pt_ext_loc ddfam); [|apply ddfam_c2, H].
      apply near_r; [exact H|]. intros u v _. symmetry. apply is_derive_unique, dfam_derive.
    - exists (mkposreal 1 Rlt_0_1). intros t' _. apply seg_int; [exact Hr|]. intros r H. apply dfam_cont, H.
  Qed.
  Lemma fam_lim_m : is_lim (fun t => RInt (fam t) 0 rho) m_infty 0.
  Proof.
    destruct (seg_bounded rho K Hr KC) as [B [B0 HB]]. destruct (seg_below rho al Hr AC AP) as [A [A0 HA]]. destruct (seg_bounded rho be Hr BC) as [D [D0 HD]].
    assert (L : is_lim (fun t => B * Phi (A * t + D)) m_infty 0).
    { replace (Finite 0) with (Rbar_mult B 0) by (cbn; f_equal; ring). apply is_lim_scal_l.
      apply (is_lim_comp Phi (fun t => A * t + D) m_infty 0 m_infty); [apply Phi_lim_m|apply lim_affine_m, A0|exists 0; intros; discriminate]. }
    assert (Q : forall t, t < 0 -> Rabs (RInt (fam t) 0 rho) <= B * Phi (A * t + D)).
    { intros t Ht. pose proof (Phi_range (A * t + D)). apply seg_abs; [exact Hr|intros; apply fam_cont; assumption|nra|]. intros r H1. unfold fam. rewrite Rabs_mult.
      pose proof (Phi_range (al r * t + be r)). rewrite (Rabs_pos_eq (Phi _)) by lra. specialize (HB r H1). specialize (HA r H1). specialize (HD r H1). apply Rabs_le_between in HD.
      assert (Phi (al r * t + be r) <= Phi (A * t + D)) by (apply Phi_mono; nra). pose proof (Rabs_pos (K r)). apply Rmult_le_compat; lra. }
    apply (is_lim_le_le_loc (fun t => - (B * Phi (A * t + D))) (fun t => B * Phi (A * t + D))).
    - exists 0. intros t Ht. apply Rabs_le_between, Q, Ht.
    - replace (Finite 0) with (Rbar_opp 0) by (cbn; f_equal; ring). apply is_lim_opp, L.
    - exact L.
  Qed.
  Lemma fam_lim_p : is_lim (fun t => RInt (fam t) 0 rho) p_infty (RInt K 0 rho).
  Proof.
    destruct (seg_bounded rho K Hr KC) as [B [B0 HB]]. destruct (seg_below rho al Hr AC AP) as [A [A0 HA]]. destruct (seg_bounded rho be Hr BC) as [D [D0 HD]].
    assert (L : is_lim (fun t => B * (1 - Phi (A * t + - D))) p_infty 0).
    { replace (Finite 0) with (Rbar_mult B (1 - 1)) by (cbn; f_equal; ring). apply is_lim_scal_l. apply is_lim_minus'; [apply is_lim_const|].
      apply (is_lim_comp Phi (fun t => A * t + - D) p_infty 1 p_infty); [apply Phi_lim_p|apply lim_affine_p, A0|exists 0; intros; discriminate]. }
    assert (Q : forall t, 0 < t -> Rabs (RInt (fun r => fam t r - K r) 0 rho) <= B * (1 - Phi (A * t + - D))).
    { intros t Ht. pose proof (Phi_range (A * t + - D)). apply seg_abs; [exact Hr|intros r H1; apply (continuous_minus (fam t) K); [apply fam_cont|apply KC]; assumption|nra|].
      intros r H1. unfold fam. replace (K r * Phi (al r * t + be r) - K r) with (K r * - (1 - Phi (al r * t + be r))) by ring. rewrite Rabs_mult, Rabs_Ropp.
      pose proof (Phi_range (al r * t + be r)). rewrite (Rabs_pos_eq (1 - Phi _)) by lra. specialize (HB r H1). specialize (HA r H1). specialize (HD r H1). apply Rabs_le_between in HD.
      assert (Phi (A * t + - D) <= Phi (al r * t + be r)) by (apply Phi_mono; nra). pose proof (Rabs_pos (K r)). apply Rmult_le_compat; lra. }
    assert (E : forall t, RInt (fam t) 0 rho = RInt K 0 rho + RInt (fun r => fam t r - K r) 0 rho).
    { intros t. rewrite (RInt_minus (V := R_CompleteNormedModule) (fam t) K) by (apply seg_int; [exact Hr|intros; try apply fam_cont; try apply KC; assumption]). unfold minus, plus, opp; cbn. ring. }
    apply (is_lim_ext (fun t => RInt K 0 rho + RInt (fun r => fam t r - K r) 0 rho)); [intros; symmetry; apply E|].
    replace (Finite (RInt K 0 rho)) with (Rbar_plus (RInt K 0 rho) 0) by (cbn; f_equal; ring). apply is_lim_plus'; [apply is_lim_const|].
    apply (is_lim_le_le_loc (fun t => - (B * (1 - Phi (A * t + - D)))) (fun t => B * (1 - Phi (A * t + - D)))).
    - exists 0. intros t Ht. apply Rabs_le_between, Q, Ht.
    - replace (Finite 0) with (Rbar_opp 0) by (cbn; f_equal; ring). apply is_lim_opp, L.
    - exact L.
  Qed.
End Family.

(** ** From the real line to the unit interval *)
Section Line.
  Variable q : R -> R.
  Hypothesis Hq : quantile Phi q.
  Lemma lim_m_0 (G : R -> R) (a : R) : is_lim G m_infty a -> lim_0 (fun v => G (q v)) a.
  Proof.
    intros L e He. apply is_lim_spec in L. destruct (L (mkposreal e He)) as [A HA]. destruct (quantile_0 Phi normal_density Phi_distribution q Hq A) as [d [Hd Q]].
    exists (Rmin d 1). split; [apply Rmin_pos; lra|]. intros v Hv. pose proof (Rmin_l d 1). pose proof (Rmin_r d 1). apply HA, Q; lra.
  Qed.
  Lemma lim_p_1 (G : R -> R) (a : R) : is_lim G p_infty a -> lim_1 (fun v => G (q v)) a.
  Proof.
    intros L e He. apply is_lim_spec in L. destruct (L (mkposreal e He)) as [A HA]. destruct (quantile_1 Phi normal_density Phi_distribution q Hq A) as [d [Hd Q]].
    exists (Rmin (1 - d) 1). split; [apply Rmin_pos; lra|]. intros v Hv. pose proof (Rmin_l (1 - d) 1). pose proof (Rmin_r (1 - d) 1). apply HA, Q; lra.
  Qed.
  Lemma integral_line (g G : R -> R) (a b : R) : (forall y, is_derive G y (g y * normal_density y)) -> (forall y, continuous g y) ->
    is_lim G m_infty a -> is_lim G p_infty b -> integral_01 (fun v => g (q v)) (b - a).
  Proof.
    intros D C La Lb. apply (integral_primitive _ (fun v => G (q v))).
    - intros v Hv. pose proof (normal_density_pos (q v)).
      evar_last; [apply (is_derive_comp G q); [apply D|apply (quantile_derive Phi normal_density Phi_distribution q Hq v Hv)]|]. unfold scal; cbn; unfold mult; cbn. field. lra.
    - intros v Hv. apply (continuous_comp q g); [|apply C]. apply (ex_derive_continuous (V := R_NormedModule)). eexists. apply (quantile_derive Phi normal_density Phi_distribution q Hq v Hv).
    - apply lim_m_0, La.
    - apply lim_p_1, Lb.
  Qed.
End Line.
