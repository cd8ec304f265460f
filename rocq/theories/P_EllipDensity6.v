(** The copula of a kernel: symmetry and the Frechet bounds; a t distribution for every number of degrees of freedom. *)
From Coquelicot Require Import Coquelicot.
From Verif Require Import Base RSumLib S_Archimedean S_EllipDensity P_GaussInt P_EllipDensity P_EllipDensity2 P_EllipDensity3.
Open Scope R_scope.

Lemma joint_symmetric (m M : R -> R -> R) : (forall x y, m x y = m y x) -> joint_cdf m M -> forall x y, M x y = M y x.
Proof.
  intros S [[G [G1 G2]] [H [H1 H2]]] x y.
  assert (E : forall t, H x t = G t x).
  { intros t. apply (gen_unique (m t) x); [|apply G1]. apply (is_RInt_gen_ext (fun s => m s t)); [|apply H1].
    apply filter_forall. intros [a b] s _. apply S. }
  apply (gen_unique (fun s => G s x) y); [|apply G2].
  apply (is_RInt_gen_ext (H x)); [|apply H2]. apply filter_forall. intros [a b] s _. apply E.
Qed.
Lemma joint_ext (m m' M : R -> R -> R) : (forall x y, m x y = m' x y) -> joint_cdf m M -> joint_cdf m' M.
Proof.
  intros E [[G [G1 G2]] [H [H1 H2]]]. split; [exists G|exists H]; (split; [|assumption]); intros.
  - apply (is_RInt_gen_ext (m s)); [|apply G1]. apply filter_forall. intros [a b] z _. apply E.
  - apply (is_RInt_gen_ext (fun s => m s t)); [|apply H1]. apply filter_forall. intros [a b] z _. apply E.
Qed.

Section Frechet.
  Variables F f F1 f1 sl q : R -> R.
  Variable rho : R.
  Variable M : R -> R -> R.
  Hypothesis DF : distribution F f.
  Hypothesis DF1 : distribution F1 f1.
  Hypothesis sl_pos : forall x, 0 < sl x.
  Hypothesis sl_cont : forall x, continuous sl x.
  Hypothesis sym : forall x y, km f f1 sl rho x y = km f f1 sl rho y x.
  Hypothesis HM : joint_cdf (km f f1 sl rho) M.
  Hypothesis Hq : quantile F q.
  Hypothesis even : forall x, f (- x) = f x.
  Hypothesis even1 : forall x, f1 (- x) = f1 x.
  Hypothesis sl_even : forall x, sl (- x) = sl x.
  Lemma kC_symmetric u v : kC q M u v = kC q M v u.
  Proof. exact (joint_symmetric (km f f1 sl rho) M sym HM (q u) (q v)). Qed.
  Lemma kC_reflect u v : 0 < u < 1 -> 0 < v < 1 -> kC q M (1 - u) (1 - v) = 1 - u - v + kC q M u v.
  Proof.
    intros Hu Hv.
    set (g := fun t => kC q M (1 - t) (1 - v) - kC q M t v + t).
    assert (D : forall t, 0 < t < 1 -> is_derive g t 0).
    { intros t Ht. pose proof (kC_derive_u F f F1 f1 sl q rho M DF DF1 sl_pos sl_cont HM Hq t v Ht) as D1.
      pose proof (kC_derive_u F f F1 f1 sl q rho M DF DF1 sl_pos sl_cont HM Hq (1 - t) (1 - v) ltac:(lra)) as D2.
      rewrite (quantile_reflect F f DF q Hq even t Ht), (quantile_reflect F f DF q Hq even v Hv) in D2.
      replace (kz sl rho (- q t) (- q v)) with (- kz sl rho (q t) (q v)) in D2 by (unfold kz; rewrite sl_even; ring).
      rewrite (even_reflect F1 f1 DF1 even1) in D2. unfold g.
      evar_last.
      - apply (is_derive_plus (fun t => kC q M (1 - t) (1 - v) - kC q M t v) (fun t => t)); [|apply (is_derive_id t)].
        apply (is_derive_minus (fun t => kC q M (1 - t) (1 - v)) (fun t => kC q M t v)); [|exact D1].
        apply (is_derive_comp (fun t => kC q M t (1 - v)) (fun t => 1 - t) t (1 - F1 (kz sl rho (q t) (q v))) (-1)); [exact D2|]. auto_derive; [exact Logic.I|ring].
      - unfold plus, minus, opp, scal, one; cbn; unfold mult; cbn. ring. }
    assert (E : g u = g v).
    { destruct (MVT_gen g v u (fun _ => 0)) as [c [_ Hc]].
      - intros t Ht. apply D. pose proof (Rmin_glb_lt v u 0 ltac:(lra) ltac:(lra)). pose proof (Rmax_lub_lt v u 1 ltac:(lra) ltac:(lra)). lra.
      - intros t Ht. apply (cont_of_derive g t 0), D.
        pose proof (Rmin_glb_lt v u 0 ltac:(lra) ltac:(lra)). pose proof (Rmax_lub_lt v u 1 ltac:(lra) ltac:(lra)). lra.
      - lra. }
    unfold g in E. rewrite (diag_reflect F f F1 f1 sl q rho M DF DF1 sl_pos sl_cont sym HM Hq even even1 sl_even v Hv) in E. lra.
  Qed.
  Lemma kC_frechet u v : 0 < u < 1 -> 0 < v < 1 -> Rmax 0 (u + v - 1) <= kC q M u v <= Rmin u v.
  Proof.
    intros Hu Hv.
    assert (B : forall u v, 0 < u < 1 -> 0 < v < 1 -> 0 <= kC q M u v <= u) by (intros a b Ha Hb; apply (kC_bounds F f F1 f1 sl q rho M DF DF1 sl_pos sl_cont HM Hq a b Ha)).
    pose proof (B u v Hu Hv). pose proof (B v u Hv Hu). rewrite (kC_symmetric v u) in *.
    pose proof (B (1 - u) (1 - v) ltac:(lra) ltac:(lra)). rewrite (kC_reflect u v Hu Hv) in *.
    split; [apply Rmax_lub; lra|apply Rmin_glb; lra].
  Qed.
End Frechet.

(** a t distribution exists for every nu > 0: normalise the kernel *)
Definition tker (nu x : R) : R := Rpower (1 + x * x / nu) (- ((nu + 1) / 2)).
Definition tI (nu x : R) : R := RInt (tker nu) 0 x.
Lemma tker_pos nu x : 0 < tker nu x.
Proof. apply exp_pos. Qed.
Lemma tker_cont nu x : 0 < nu -> continuous (tker nu) x.
Proof.
  intros H. apply (ex_derive_continuous (V := R_NormedModule)). unfold tker, Rpower. pose proof (t_base nu x H). auto_derive. exact H0.
Qed.
Lemma tI_derive nu x : 0 < nu -> is_derive (tI nu) x (tker nu x).
Proof.
  intros H. unfold tI. apply (is_derive_RInt (tker nu) (RInt (tker nu) 0) 0 x); [|apply tker_cont, H].
  apply filter_forall. intros y. apply (RInt_correct (V := R_CompleteNormedModule)), (ex_RInt_continuous (V := R_CompleteNormedModule) (tker nu)). intros z _. apply tker_cont, H.
Qed.
Lemma tI_0 nu : tI nu 0 = 0.
Proof. unfold tI. rewrite RInt_point. reflexivity. Qed.
Lemma tI_increasing nu x y : 0 < nu -> x < y -> tI nu x < tI nu y.
Proof.
  intros H Hx. apply (incr_function (tI nu) m_infty p_infty (tker nu)); try exact Logic.I; [|intros; apply tker_pos|exact Hx].
  intros z _ _. apply tI_derive, H.
Qed.
Lemma tI_odd nu x : 0 < nu -> tI nu (- x) = - tI nu x.
Proof.
  intros H. set (g := fun t => tI nu (- t) + tI nu t).
  assert (D : forall t, is_derive g t 0).
  { intros t. unfold g. evar_last.
    - apply (is_derive_plus (fun t => tI nu (- t)) (tI nu)); [|apply tI_derive, H].
      apply (is_derive_comp (tI nu) (fun t => - t) t (tker nu (- t)) (-1)); [apply tI_derive, H|]. auto_derive; [exact Logic.I|ring].
    - unfold plus, scal; cbn; unfold mult; cbn. unfold tker. replace (- t * - t) with (t * t) by ring. ring. }
  assert (E : g x = g 0).
  { destruct (MVT_gen g 0 x (fun _ => 0)) as [c [_ Hc]]; [intros; apply D|intros t _; apply (cont_of_derive g t 0), D|lra]. }
  unfold g in E. rewrite Ropp_0, tI_0 in E. lra.
Qed.
Lemma tker_le nu x : 0 < nu -> tker nu x <= Rpower (1 + x * x / nu) (- (1 / 2)).
Proof. intros H. pose proof (t_base nu x H). apply Rle_Rpower; [|lra]. assert (0 <= x * x / nu) by (apply Rmult_le_pos; [nra|left; apply Rinv_0_lt_compat, H]). lra. Qed.
Lemma tI_bounded nu x : 1 <= nu -> tI nu x <= sqrt nu * (PI / 2).
Proof.
  intros H1. assert (H : 0 < nu) by lra. pose proof PI_RGT_0.
  assert (S : 0 < sqrt nu) by (apply sqrt_lt_R0, H).
  destruct (Rle_or_lt x 0) as [Hx|Hx].
  { apply Rle_trans with 0; [|nra]. rewrite <- (tI_0 nu). destruct (Req_dec x 0) as [->|Hn]; [lra|]. left. apply tI_increasing; lra. }
  set (g := fun t => sqrt nu * atan (t / sqrt nu) - tI nu t).
  assert (D : forall t, is_derive g t (/ (1 + t * t / nu) - tker nu t)).
  { intros t. unfold g. apply (is_derive_minus (fun t => sqrt nu * atan (t / sqrt nu)) (tI nu)); [|apply tI_derive, H].
    auto_derive; [exact Logic.I|]. pose proof (t_base nu t H) as B. assert (Q : sqrt nu * sqrt nu = nu) by (apply sqrt_sqrt; lra).
    replace (1 + t * t / nu) with (1 + (t / sqrt nu) * (t / sqrt nu)) in B by (rewrite <- Q at 3; field; lra). replace (1 + t * t / nu) with (1 + (t / sqrt nu) * (t / sqrt nu)) by (rewrite <- Q at 3; field; lra). replace (t * / sqrt nu * (t * / sqrt nu * 1)) with (t / sqrt nu * (t / sqrt nu)) by (unfold Rdiv; ring).
    set (w := 1 + t / sqrt nu * (t / sqrt nu)) in *. rewrite Rmult_1_l, <- Rmult_assoc, Rinv_r, Rmult_1_l by lra. reflexivity. }
  destruct (MVT_gen g 0 x (fun t => / (1 + t * t / nu) - tker nu t)) as [c [_ Hc]]; [intros; apply D|intros t _; apply (cont_of_derive g t (/ (1 + t * t / nu) - tker nu t)), D|].
  assert (G0 : g 0 = 0) by (unfold g; rewrite tI_0; unfold Rdiv; rewrite Rmult_0_l, atan_0; ring).
  assert (P : 0 <= / (1 + c * c / nu) - tker nu c).
  { pose proof (t_base nu c H) as B. replace (/ (1 + c * c / nu)) with (Rpower (1 + c * c / nu) (- (1))) by (rewrite Rpower_Ropp, Rpower_1 by exact B; reflexivity).
    assert (tker nu c <= Rpower (1 + c * c / nu) (- (1))); [|lra]. apply Rle_Rpower; [|lra].
    assert (0 <= c * c / nu) by (apply Rmult_le_pos; [nra|left; apply Rinv_0_lt_compat, H]). lra. }
  assert (0 <= g x) by (rewrite G0 in Hc; nra). unfold g in *. pose proof (atan_bound (x / sqrt nu)). nra.
Qed.
Lemma tI_lim nu : 1 <= nu -> exists L, 0 < L /\ is_lim (tI nu) p_infty L.
Proof.
  intros H. assert (Mn : forall x y, x <= y -> tI nu x <= tI nu y) by (intros x y [Hx| ->]; [left; apply tI_increasing; lra|lra]).
  assert (Gr : Un_growing (fun n => tI nu (INR n))) by (intros n; apply Mn, le_INR; lia).
  destruct (growing_cv _ Gr) as [L HL]; [exists (sqrt nu * (PI / 2)); intros r [n ->]; apply tI_bounded, H|].
  assert (B : forall x, tI nu x <= L).
  { intros x. assert (exists n, x < INR n) as [n Hn].
    { exists (Z.to_nat (up (Rabs x))). rewrite INR_IZR_INZ. pose proof (archimed (Rabs x)) as [A _]. pose proof (Rabs_pos x). rewrite Z2Nat.id by (apply le_IZR; lra). pose proof (Rle_abs x). lra. }
    apply Rle_trans with (tI nu (INR n)); [apply Mn; lra|]. apply (growing_ineq _ _ Gr HL n). }
  exists L. split; [rewrite <- (tI_0 nu); apply Rlt_le_trans with (tI nu 1); [apply tI_increasing; lra|apply B]|].
  apply is_lim_spec. intros eps. pose proof (cond_pos eps) as Ep. destruct (HL eps Ep) as [N HN]. exists (INR N). intros x Hx.
  specialize (HN N (Nat.le_refl N)). unfold R_dist in HN. apply Rabs_def2 in HN. pose proof (Mn (INR N) x ltac:(lra)). pose proof (B x). apply Rabs_def1; lra.
Qed.
(** the normalising constant is put into the value of gamma at (nu + 1) / 2 *)
Definition gamma_at (a g x : R) : R := if Req_EM_T x a then g else 1.
Lemma gamma_at_pos a g x : 0 < g -> 0 < gamma_at a g x.
Proof. intros H. unfold gamma_at. destruct (Req_EM_T x a); lra. Qed.
Lemma t_exists nu : 1 <= nu -> exists gamma T, (forall a, 0 < gamma a) /\ distribution T (t_density gamma nu).
Proof.
  intros H. destruct (tI_lim nu H) as [L [PL HL]]. pose proof PI_RGT_0 as P.
  assert (S : 0 < sqrt (nu * PI)) by (apply sqrt_lt_R0; nra).
  set (g := sqrt (nu * PI) / (2 * L)). assert (Pg : 0 < g) by (apply Rdiv_lt_0_compat; lra).
  exists (gamma_at ((nu + 1) / 2) g), (fun x => 1 / 2 + tI nu x / (2 * L)). split; [intros a; apply gamma_at_pos, Pg|].
  assert (E : forall x, t_density (gamma_at ((nu + 1) / 2) g) nu x = tker nu x / (2 * L)).
  { intros x. unfold t_density, gamma_at. destruct (Req_EM_T ((nu + 1) / 2) ((nu + 1) / 2)) as [_|N]; [|exfalso; apply N; reflexivity].
    destruct (Req_EM_T (nu / 2) ((nu + 1) / 2)); [lra|]. fold (tker nu x). unfold g. field. lra. }
  split; [|split; [|split; [|split]]].
  - intros x. rewrite E. evar_last; [apply (is_derive_plus (fun _ => 1 / 2) (fun x => tI nu x / (2 * L)))|].
    + apply (is_derive_const (1 / 2) x).
    + apply (is_derive_ext (fun x => / (2 * L) * tI nu x)); [intros t; apply Rmult_comm|]. apply (is_derive_scal (tI nu) x (/ (2 * L)) (tker nu x)), tI_derive. lra.
    + unfold plus, zero; cbn. unfold Rdiv. ring.
  - intros x. rewrite E. apply Rdiv_lt_0_compat; [apply tker_pos|lra].
  - intros x. apply (continuous_ext (fun x => / (2 * L) * tker nu x)); [intros t; rewrite E; apply Rmult_comm|].
    apply (continuous_mult (fun _ => / (2 * L)) (tker nu)); [apply continuous_const|apply tker_cont; lra].
  - apply is_lim_ext with (fun x => 1 / 2 + - / (2 * L) * tI nu (- x)).
    { intros x. rewrite tI_odd by lra. unfold Rdiv. ring. }
    replace (Finite 0) with (Finite (1 / 2 + - / (2 * L) * L)) by (f_equal; field; lra).
    apply (is_lim_plus' (fun _ => 1 / 2) (fun x => - / (2 * L) * tI nu (- x)) m_infty (1 / 2) (- / (2 * L) * L)); [apply is_lim_const|].
    apply (is_lim_scal_l (fun x => tI nu (- x)) (- / (2 * L)) m_infty L).
    apply (is_lim_comp (tI nu) (fun x => - x) m_infty L p_infty); [exact HL| |exists 0; intros; discriminate].
    apply (is_lim_opp (fun x => x) m_infty m_infty), is_lim_id.
  - replace (Finite 1) with (Finite (1 / 2 + / (2 * L) * L)) by (f_equal; field; lra).
    apply (is_lim_plus' (fun _ => 1 / 2) (fun x => tI nu x / (2 * L)) p_infty (1 / 2) (/ (2 * L) * L)); [apply is_lim_const|].
    apply is_lim_ext with (fun x => / (2 * L) * tI nu x); [intros x; unfold Rdiv; ring|]. apply (is_lim_scal_l (tI nu) (/ (2 * L)) p_infty L HL).
Qed.
