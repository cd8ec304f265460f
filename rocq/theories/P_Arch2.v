(** Derivatives, limits, sampling and the Pickands function of the Archimedean copulas. *)
From Coquelicot Require Import Coquelicot.
From Verif Require Import Base RSumLib Ext S_Archimedean P_Gen M_Archimedean P_Arch P_ArchCode P_CM.
Open Scope R_scope.

(** ---- inverse the other way round ---- *)
Lemma cp_inv2 th s : 0 < th -> 0 <= s -> 0 < cp_psi th s <= 1 /\ cp_f th (cp_psi th s) = s.
Proof.
  intros H Hs. unfold cp_psi, cp_f. pose proof (inv_neg th H). split.
  - split; [apply Rpower_pos|]. pose proof (Rpower_anti 1 (1 + s) (-1 / th) ltac:(lra) ltac:(lra) ltac:(lra)) as Q. rewrite Rpower_1_base in Q. exact Q.
  - rewrite Rpower_inv2; [ring|lra|field; lra].
Qed.
Lemma cn_inv2 th s : th < 0 -> 0 <= s < 1 -> 0 < cn_psi th s <= 1 /\ cn_f th (cn_psi th s) = s.
Proof.
  intros H Hs. unfold cn_psi, cn_f. rewrite Rltb_lt by lra. pose proof (inv_pos th H). split.
  - split; [apply Rpower_pos|]. apply Rpower_le_1; lra.
  - rewrite Rpower_inv2; [ring|lra|field; lra].
Qed.
Lemma gu_inv2 th s : 1 <= th -> 0 <= s -> 0 < gu_psi th s <= 1 /\ gu_f th (gu_psi th s) = s.
Proof.
  intros H [Hs|<-]; unfold gu_psi, gu_f.
  - rewrite Rltb_lt by lra. pose proof (Rpower_pos s (1 / th)). pose proof (exp_increasing (- Rpower s (1 / th)) 0 ltac:(lra)) as L.
    rewrite exp_0 in L. split; [split; [apply exp_pos|lra]|]. rewrite Reqb_neq by lra. rewrite ln_exp, Ropp_involutive.
    apply Rpower_inv2; [exact Hs|field; lra].
  - rewrite Rltb_irrefl, Reqb_refl. split; lra.
Qed.
Lemma fr_inv2 th s : th <> 0 -> 0 <= s -> fr_f th (fr_psi th s) = s.
Proof.
  intros H Hs. unfold fr_psi, fr_f. pose proof (fr_arg th s Hs) as A. pose proof (em_nz th H) as NZ.
  replace (- (- ln (1 + (exp (- th) - 1) * exp (- s)) / th * th)) with (ln (1 + (exp (- th) - 1) * exp (- s))) by (field; exact H).
  rewrite exp_ln by exact A.
  replace ((1 + (exp (- th) - 1) * exp (- s) - 1) / (exp (- th) - 1)) with (exp (- s)) by (field; exact NZ).
  rewrite ln_exp. ring.
Qed.

(** ---- textbook bivariate forms ---- *)
Lemma rcdf2 (p f : R -> R) u v : 0 < u -> 0 < v -> rcdf p f [u; v] = p (f u + f v).
Proof.
  intros Hu Hv. unfold rcdf. destruct (existsb _ _) eqn:E.
  - apply has_zero in E. cbn in E. lra.
  - cbn. f_equal. ring.
Qed.
Lemma cube2 u v : 0 < u <= 1 -> 0 < v <= 1 -> unit_cube [u; v].
Proof. intros. apply Forall_cons; [lra|apply Forall_cons; [lra|constructor]]. Qed.
Lemma clayton_closed th u v : 0 < th -> 0 < u <= 1 -> 0 < v <= 1 -> clayton_cdf th [Fin u; Fin v] = Ok (Fin (clayton_C th u v)).
Proof.
  intros H Hu Hv. change [Fin u; Fin v] with (map Fin [u; v]). rewrite clayton_cdf_pos by auto using cube2. do 2 f_equal.
  rewrite rcdf2 by lra. unfold cp_psi, cp_f, clayton_C. f_equal. ring.
Qed.
Lemma clayton_closed_neg th u v : th < 0 -> 0 < u <= 1 -> 0 < v <= 1 ->
  clayton_cdf th [Fin u; Fin v] = Ok (Fin (if Rltb 0 (Rpower u (- th) + Rpower v (- th) - 1) then clayton_C th u v else 0)).
Proof.
  intros H Hu Hv. change [Fin u; Fin v] with (map Fin [u; v]). rewrite clayton_cdf_neg by auto using cube2. do 2 f_equal.
  rewrite rcdf2 by lra. unfold cn_psi, cn_f, clayton_C.
  destruct (Rltb 0 (Rpower u (- th) + Rpower v (- th) - 1)) eqn:E.
  - apply Rltb_true in E. rewrite Rltb_lt by lra. f_equal. ring.
  - apply Rltb_false in E. rewrite Rltb_ge by lra. reflexivity.
Qed.
Lemma gumbel_closed th u v : 1 <= th -> 0 < u < 1 -> 0 < v < 1 -> gumbel_cdf th [Fin u; Fin v] = Ok (Fin (gumbel_C th u v)).
Proof.
  intros H Hu Hv. change [Fin u; Fin v] with (map Fin [u; v]). rewrite gumbel_cdf_ok; [|exact H|apply cube2; lra]. do 2 f_equal.
  rewrite rcdf2 by lra. unfold gu_psi, gu_f, gumbel_C. rewrite !Reqb_neq by lra.
  pose proof (Rpower_pos (- ln u) th). pose proof (Rpower_pos (- ln v) th). rewrite Rltb_lt by lra. reflexivity.
Qed.
Lemma frank_closed th u v : th <> 0 -> -36 < th -> 1 / 100 < u <= 1 -> 1 / 100 < v <= 1 ->
  frank_cdf th [Fin u; Fin v] = Ok (Fin (frank_C th u v)).
Proof.
  intros H H36 Hu Hv. change [Fin u; Fin v] with (map Fin [u; v]). rewrite frank_cdf_ok; [|exact H|exact H36|apply Forall_cons; [lra|apply Forall_cons; [lra|constructor]]].
  do 2 f_equal. rewrite rcdf2 by lra. unfold fr_psi, frank_C, fr_f. pose proof (em_nz th H) as NZ.
  pose proof (em_ratio th u H ltac:(lra)). pose proof (em_ratio th v H ltac:(lra)).
  rewrite Ropp_plus_distr, !Ropp_involutive, exp_plus, !exp_ln by lra.
  replace (1 + (exp (- th) - 1) * ((exp (- (u * th)) - 1) / (exp (- th) - 1) * ((exp (- (v * th)) - 1) / (exp (- th) - 1))))
    with (1 + (exp (- th * u) - 1) * (exp (- th * v) - 1) / (exp (- th) - 1)).
  - unfold Rdiv. ring.
  - replace (- th * u) with (- (u * th)) by ring. replace (- th * v) with (- (v * th)) by ring. field. exact NZ.
Qed.

(** ---- limits ---- *)
Lemma lim_1_of_derivative (delta : R -> R) L : delta 1 = 1 -> is_derive delta 1 L ->
  lim_1 (fun u => (1 - 2 * u + delta u) / (1 - u)) (2 - L).
Proof.
  intros E D e He. apply is_derive_Reals in D. destruct (D e He) as [d Hd]. exists d. split; [apply cond_pos|]. intros u Hu.
  specialize (Hd (u - 1) ltac:(lra)). rewrite Rabs_left in Hd by lra. specialize (Hd ltac:(lra)).
  replace (1 + (u - 1)) with u in Hd by ring. rewrite E in Hd.
  replace ((1 - 2 * u + delta u) / (1 - u) - (2 - L)) with (- ((delta u - 1) / (u - 1) - L)) by (field; lra).
  rewrite Rabs_Ropp. exact Hd.
Qed.
Lemma lim_0_of_derivative (delta : R -> R) L : delta 0 = 0 -> is_derive delta 0 L -> lim_0 (fun u => delta u / u) L.
Proof.
  intros E D e He. apply is_derive_Reals in D. destruct (D e He) as [d Hd]. exists d. split; [apply cond_pos|]. intros u Hu.
  specialize (Hd u ltac:(lra)). rewrite Rabs_right in Hd by lra. specialize (Hd ltac:(lra)). rewrite Rplus_0_l, E, Rminus_0_r in Hd. exact Hd.
Qed.
Lemma lim_1_ext f g L a : a < 1 -> (forall u, a < u < 1 -> f u = g u) -> lim_1 f L -> lim_1 g L.
Proof.
  intros Ha E F e He. destruct (F e He) as [d [Hd K]]. exists (Rmin d (1 - a)). split; [apply Rmin_pos; lra|].
  intros u Hu. pose proof (Rmin_l d (1 - a)). pose proof (Rmin_r d (1 - a)). rewrite <- E by lra. apply K. lra.
Qed.
Lemma lim_0_ext f g L a : 0 < a -> (forall u, 0 < u < a -> f u = g u) -> lim_0 f L -> lim_0 g L.
Proof.
  intros Ha E F e He. destruct (F e He) as [d [Hd K]]. exists (Rmin d a). split; [apply Rmin_pos; lra|].
  intros u Hu. pose proof (Rmin_l d a). pose proof (Rmin_r d a). rewrite <- E by lra. apply K. lra.
Qed.
Lemma lim_0_const c : lim_0 (fun _ => c) c.
Proof. intros e He. exists 1. split; [lra|]. intros. rewrite Rminus_eq_0, Rabs_R0. exact He. Qed.

Lemma clayton_diag_derive th : th <> 0 -> is_derive (fun u => clayton_C th u u) 1 2.
Proof.
  intros H. unfold clayton_C. evar_last.
  - apply (is_derive_comp (fun x => Rpower x (-1 / th)) (fun u => Rpower u (- th) + Rpower u (- th) - 1)).
    + rewrite Rpower_1_base. apply Rpower_derive. lra.
    + apply (@is_derive_minus R_AbsRing R_NormedModule); [apply (@is_derive_plus R_AbsRing R_NormedModule); apply Rpower_derive; lra|].
      apply (@is_derive_const R_AbsRing R_NormedModule).
  - unfold scal, minus, plus, opp, zero; cbn. unfold mult; cbn. rewrite !Rpower_1_base.
    replace (1 + 1 - 1) with 1 by ring. rewrite Rpower_1_base. field. exact H.
Qed.
Lemma clayton_C_11 th : clayton_C th 1 1 = 1.
Proof. unfold clayton_C. rewrite Rpower_1_base. replace (1 + 1 - 1) with 1 by ring. apply Rpower_1_base. Qed.
Lemma gumbel_diag th u : 1 <= th -> 0 < u < 1 -> gumbel_C th u u = Rpower u (Rpower 2 (1 / th)).
Proof.
  intros H Hu. pose proof (ln_neg u Hu). unfold gumbel_C. replace (Rpower (- ln u) th + Rpower (- ln u) th) with (2 * Rpower (- ln u) th) by ring.
  rewrite <- Rpower_mult_distr by (try lra; apply Rpower_pos). rewrite Rpower_inv2 by (try lra; field; lra).
  unfold Rpower at 2. f_equal. ring.
Qed.
Lemma frank_diag_derive_1 th : th <> 0 -> is_derive (fun u => frank_C th u u) 1 2.
Proof.
  intros H. unfold frank_C. pose proof (em_nz th H) as NZ. pose proof (exp_pos (- th)).
  assert (A : 1 + (exp (- th * 1) - 1) * (exp (- th * 1) - 1) / (exp (- th) - 1) = exp (- th)).
  { rewrite Rmult_1_r. field. exact NZ. }
  auto_derive; rewrite ?Rmult_1_r in *; unfold Rdiv, Rminus in *.
  - rewrite A. exact H0.
  - rewrite A. field. repeat split; lra.
Qed.
Lemma frank_C_11 th : th <> 0 -> frank_C th 1 1 = 1.
Proof.
  intros H. unfold frank_C. rewrite Rmult_1_r. pose proof (em_nz th H) as NZ.
  replace (1 + (exp (- th) - 1) * (exp (- th) - 1) / (exp (- th) - 1)) with (exp (- th)) by (field; exact NZ).
  rewrite ln_exp. field. exact H.
Qed.
Lemma frank_diag_derive_0 th : th <> 0 -> is_derive (fun u => frank_C th u u) 0 0.
Proof.
  intros H. unfold frank_C. pose proof (em_nz th H) as NZ.
  auto_derive; rewrite ?Rmult_0_r, ?exp_0.
  - unfold Rdiv, Rminus. rewrite Rplus_opp_r, !Rmult_0_l. lra.
  - unfold Rdiv, Rminus. rewrite Rplus_opp_r. ring.
Qed.
Lemma frank_C_00 th : frank_C th 0 0 = 0.
Proof.
  unfold frank_C. rewrite Rmult_0_r, exp_0. replace (1 + (1 - 1) * (1 - 1) / (exp (- th) - 1)) with 1 by (unfold Rdiv; ring). rewrite ln_1. ring.
Qed.
(** C(u,u)/u for Clayton, theta > 0 *)
Lemma clayton_lower th : 0 < th -> lim_0 (fun u => clayton_C th u u / u) (Rpower 2 (-1 / th)).
Proof.
  intros H. pose proof (inv_neg th H).
  apply (lim_0_ext (fun u => Rpower (2 - Rpower u th) (-1 / th)) _ _ 1); [lra| |].
  - intros u Hu. unfold clayton_C.
    replace (Rpower u (- th) + Rpower u (- th) - 1) with (Rpower u (- th) * (2 - Rpower u th)).
    + assert (Rpower u th <= 1) by (apply Rpower_le_1; lra).
      rewrite <- Rpower_mult_distr by (try apply Rpower_pos; lra). rewrite Rpower_inv2 by (try lra; field; lra). field. lra.
    + rewrite Rpower_Ropp. pose proof (Rpower_pos u th). field. lra.
  - intros e He.
    assert (C : continuous (fun x => Rpower (2 - x) (-1 / th)) 0).
    { apply (@ex_derive_continuous R_AbsRing R_NormedModule). eexists.
      apply (is_derive_comp (fun x => Rpower x (-1 / th)) (fun x => 2 - x)); [apply Rpower_derive; lra|]. auto_derive; [exact I|reflexivity]. }
    assert (L : locally ((fun x => Rpower (2 - x) (-1 / th)) 0) (fun y => Rabs (y - Rpower 2 (-1 / th)) < e)).
    { rewrite Rminus_0_r. exists (mkposreal e He). intros y Hy. exact Hy. }
    destruct (C _ L) as [d Hd]. exists (Rpower d (/ th)). split; [apply Rpower_pos|]. intros u Hu. apply Hd.
    unfold ball; cbn; unfold AbsRing_ball, abs, minus, plus, opp; cbn. rewrite Ropp_0, Rplus_0_r.
    pose proof (Rpower_pos u th). rewrite Rabs_right by lra.
    replace (pos d) with (Rpower (Rpower d (/ th)) th) by (apply Rpower_inv2; [apply cond_pos|field; lra]).
    unfold Rpower at 1 2. apply exp_increasing. apply Rmult_lt_compat_l; [exact H|]. apply ln_increasing; lra.
Qed.

(** ---- dipsi ---- *)
Lemma cp_f_derive th u : 0 < u -> is_derive (cp_f th) u (- th * Rpower u (- th - 1)).
Proof.
  intros Hu. unfold cp_f. evar_last.
  - apply (@is_derive_minus R_AbsRing R_NormedModule); [apply Rpower_derive; exact Hu|apply (@is_derive_const R_AbsRing R_NormedModule)].
  - unfold minus, plus, opp, zero; cbn. ring.
Qed.
Lemma cp_f_derive2 th u : 0 < u -> is_derive (fun u => - th * Rpower u (- th - 1)) u (th * (1 + th) * Rpower u (- th - 2)).
Proof.
  intros Hu. evar_last.
  - apply (is_derive_scal (fun u => Rpower u (- th - 1)) u (- th)). apply Rpower_derive. exact Hu.
  - unfold scal; cbn. unfold mult; cbn. replace (- th - 1 - 1) with (- th - 2) by ring. ring.
Qed.
Definition gu_g (th u : R) : R := Rpower (- ln u) th.
Definition gu_d1 (th u : R) : R := - (th * Rpower (- ln u) (th - 1) / u).
Definition gu_d2 (th u : R) : R := th * (th - 1 - ln u) * Rpower (- ln u) (th - 2) / u ^ 2.
Lemma nln_derive u : 0 < u -> is_derive (fun u => - ln u) u (- / u).
Proof. intros H. auto_derive; [exact H|]. ring. Qed.
Lemma gu_g_derive th u : 0 < u < 1 -> is_derive (gu_g th) u (gu_d1 th u).
Proof.
  intros H. pose proof (ln_neg u H). unfold gu_g, gu_d1. evar_last.
  - apply (is_derive_comp (fun x => Rpower x th) (fun u => - ln u)); [apply Rpower_derive; lra|apply nln_derive; lra].
  - unfold scal; cbn. unfold mult; cbn. field. lra.
Qed.
Lemma gu_d1_derive th u : 0 < u < 1 -> is_derive (gu_d1 th) u (gu_d2 th u).
Proof.
  intros H. pose proof (ln_neg u H). unfold gu_d1, gu_d2.
  apply (is_derive_ext (fun u => (- th) * (Rpower (- ln u) (th - 1) * / u))).
  { intros t. unfold Rdiv. change (- th * (Rpower (- ln t) (th - 1) * / t) = - (th * Rpower (- ln t) (th - 1) * / t)). ring. }
  evar_last.
  - apply (is_derive_scal (fun u => Rpower (- ln u) (th - 1) * / u) u (- th)).
    apply (@is_derive_mult R_AbsRing (fun u => Rpower (- ln u) (th - 1)) (fun u => / u)); [| |intros; apply Rmult_comm].
    + apply (is_derive_comp (fun x => Rpower x (th - 1)) (fun u => - ln u)); [apply Rpower_derive; lra|apply nln_derive; lra].
    + apply (is_derive_inv (fun u => u) u 1); [apply (@is_derive_id R_AbsRing)|lra].
  - unfold scal, plus; cbn. unfold mult; cbn. replace (th - 1 - 1) with (th - 2) by ring.
    replace (Rpower (- ln u) (th - 1)) with (- ln u * Rpower (- ln u) (th - 2)).
    + field. lra.
    + replace (th - 1) with (1 + (th - 2)) by ring. rewrite Rpower_plus, Rpower_1 by lra. reflexivity.
Qed.
Lemma fr_f_derive th u : th <> 0 -> 0 < u <= 1 -> is_derive (fr_f th) u (- (th / (exp (u * th) - 1))).
Proof.
  intros H Hu. pose proof (em_ratio th u H Hu). pose proof (em_nz th H). unfold fr_f. auto_derive; [lra|].
  assert (u * th <> 0) by (apply Rmult_integral_contrapositive_currified; lra). pose proof (em_nz (u * th) H2).
  assert (exp (u * th) - 1 <> 0) by (pose proof (em_nz (- (u * th)) ltac:(lra)) as Q; rewrite Ropp_involutive in Q; exact Q).
  rewrite Rmult_1_l. replace (exp (- (u * th))) with (/ exp (u * th)) in * by (rewrite exp_Ropp; reflexivity).
  pose proof (exp_pos (u * th)). field. repeat split; try lra; auto.
Qed.
Lemma fr_d1_derive th u : th <> 0 -> 0 < u <= 1 ->
  is_derive (fun u => - (th / (exp (u * th) - 1))) u (th ^ 2 * exp (u * th) / (exp (u * th) - 1) ^ 2).
Proof.
  intros H Hu. assert (u * th <> 0) by (apply Rmult_integral_contrapositive_currified; lra).
  assert (exp (u * th) - 1 <> 0) by (pose proof (em_nz (- (u * th)) ltac:(lra)) as Q; rewrite Ropp_involutive in Q; exact Q).
  auto_derive; [exact H1|]. field. exact H1.
Qed.
Lemma loc_01 (P : R -> Prop) s lo : lo < s < 1 -> (forall y, lo < y < 1 -> P y) -> locally s P.
Proof.
  intros Hs H. assert (K : 0 < Rmin (s - lo) (1 - s)) by (apply Rmin_pos; lra).
  exists (mkposreal _ K). intros y Hy. apply H.
  unfold ball in Hy; cbn in Hy; unfold AbsRing_ball, abs, minus, plus, opp in Hy; cbn in Hy. apply Rabs_def2 in Hy.
  pose proof (Rmin_l (s - lo) (1 - s)). pose proof (Rmin_r (s - lo) (1 - s)). lra.
Qed.

(** ---- sampling ---- *)
Lemma exp_lt_1 x : x < 0 -> exp x < 1.
Proof. intros H. pose proof (exp_increasing x 0 H) as Q. rewrite exp_0 in Q. exact Q. Qed.
Lemma exp_gt_1 x : 0 < x -> 1 < exp x.
Proof. intros H. pose proof (exp_increasing 0 x H) as Q. rewrite exp_0 in Q. exact Q. Qed.
Lemma clayton_draw_ok th u t : -1 < th -> th <> 0 -> 0 < u < 1 -> 0 < t < 1 ->
  exists v, clayton_draw2 th u t = Ok (Fin v) /\ 0 < v < 1 /\
    Rpower v (- th) = Rpower u (- th) * (Rpower t (- th / (th + 1)) - 1) + 1.
Proof.
  intros H1 H Hu Ht. unfold clayton_draw2. rewrite !Reqb_neq by lra. rewrite !epow_pos by lra. cbn [esub eadd eopp].
  set (a := Rpower u (- th)). set (b := Rpower t (- th / (th + 1)) + - (1)).
  pose proof (Rpower_pos u (- th)) as Pa. fold a in Pa.
  assert (Q : 0 < a * b + 1 /\ (th < 0 -> a * b + 1 < 1) /\ (0 < th -> 1 < a * b + 1)).
  { destruct (Rlt_le_dec th 0) as [L|L].
    - assert (E : 0 < - th / (th + 1)) by (apply Rdiv_lt_0_compat; lra).
      assert (a <= 1) by (apply Rpower_le_1; lra). pose proof (Rpower_pos t (- th / (th + 1))).
      assert (Rpower t (- th / (th + 1)) < 1).
      { apply exp_lt_1. pose proof (ln_neg t Ht). nra. }
      unfold b. split; [nra|]. split; [intros; nra|intros; lra].
    - assert (P : 0 < th) by lra. assert (E : 0 < th / (th + 1)) by (apply Rdiv_lt_0_compat; lra).
      assert (1 < Rpower t (- th / (th + 1))).
      { apply exp_gt_1. pose proof (ln_neg t Ht). replace (- th / (th + 1)) with (- (th / (th + 1))) by (field; lra). nra. }
      unfold b. split; [nra|]. split; [intros; lra|intros; nra]. }
  destruct Q as [Q [Q1 Q2]]. exists (Rpower (a * b + 1) (-1 / th)). rewrite epow_pos by exact Q. split; [reflexivity|]. split.
  - split; [apply Rpower_pos|]. apply exp_lt_1.
    destruct (Rlt_le_dec th 0) as [L|L].
    + pose proof (inv_pos th L). pose proof (ln_neg (a * b + 1) ltac:(specialize (Q1 L); lra)). nra.
    + pose proof (inv_neg th ltac:(lra)). pose proof (ln_increasing 1 (a * b + 1) ltac:(lra) ltac:(apply Q2; lra)) as LL. rewrite ln_1 in LL. nra.
  - rewrite Rpower_inv2; [reflexivity|exact Q|field; exact H].
Qed.
Lemma clayton_cond th u v : th <> 0 -> 0 < u -> 0 < Rpower u (- th) + Rpower v (- th) - 1 ->
  is_derive (fun x => clayton_C th x v) u
    (Rpower u (- th - 1) * Rpower (Rpower u (- th) + Rpower v (- th) - 1) (-1 / th - 1)).
Proof.
  intros H Hu HS. unfold clayton_C. evar_last.
  - apply (is_derive_comp (fun x => Rpower x (-1 / th)) (fun x => Rpower x (- th) + Rpower v (- th) - 1)).
    + apply Rpower_derive. exact HS.
    + apply (@is_derive_minus R_AbsRing R_NormedModule); [apply (@is_derive_plus R_AbsRing R_NormedModule)|];
        [apply Rpower_derive; exact Hu|apply (@is_derive_const R_AbsRing R_NormedModule)|apply (@is_derive_const R_AbsRing R_NormedModule)].
  - unfold scal, minus, plus, opp, zero; cbn. unfold mult; cbn. field. exact H.
Qed.
Lemma clayton_cond_draw th u t v : -1 < th -> th <> 0 -> 0 < u < 1 -> 0 < t < 1 ->
  Rpower v (- th) = Rpower u (- th) * (Rpower t (- th / (th + 1)) - 1) + 1 ->
  Rpower u (- th - 1) * Rpower (Rpower u (- th) + Rpower v (- th) - 1) (-1 / th - 1) = t.
Proof.
  intros H1 H Hu Ht E. rewrite E.
  replace (Rpower u (- th) + (Rpower u (- th) * (Rpower t (- th / (th + 1)) - 1) + 1) - 1) with (Rpower u (- th) * Rpower t (- th / (th + 1))) by ring.
  rewrite <- Rpower_mult_distr by apply Rpower_pos. rewrite !Rpower_mult.
  rewrite <- Rmult_assoc, <- Rpower_plus.
  replace (- th - 1 + - th * (-1 / th - 1)) with 0 by (field; exact H).
  replace (- th / (th + 1) * (-1 / th - 1)) with 1 by (field; lra).
  rewrite Rpower_O, Rpower_1 by lra. ring.
Qed.
Lemma frank_cond th u v : th <> 0 -> 0 < 1 + (exp (- th * u) - 1) * (exp (- th * v) - 1) / (exp (- th) - 1) ->
  is_derive (fun x => frank_C th x v) u
   (exp (- th * u) * (exp (- th * v) - 1) / (exp (- th) - 1 + (exp (- th * u) - 1) * (exp (- th * v) - 1))).
Proof.
  intros H HA. pose proof (em_nz th H) as NZ. unfold frank_C. auto_derive; [exact HA|].
  assert (NZ2 : exp (- th) - 1 + (exp (- th * u) - 1) * (exp (- th * v) - 1) <> 0).
  2:{ field. repeat split; assumption. }
  intros Q. assert (1 + (exp (- th * u) - 1) * (exp (- th * v) - 1) / (exp (- th) - 1) = 0); [|lra].
  apply Rmult_eq_reg_r with (exp (- th) - 1); [|exact NZ]. rewrite Rmult_0_l, Rmult_plus_distr_r. unfold Rdiv. rewrite Rmult_assoc, Rinv_l by exact NZ. lra.
Qed.
(** the draw for the negative parameter a = -|theta| *)
Lemma frank_draw_neg a u t : a < 0 -> 0 < u < 1 -> 0 < t < 1 ->
  let w := - t * (exp (- a) - 1) / (exp (- a * u) * (t - 1) - t) in
  let v := -1 / a * ln (1 + w) in
  0 < w /\ w < exp (- a) - 1 /\ exp (- a * v) = 1 + w /\ 0 < v < 1 /\
  exp (- a * u) * (exp (- a * v) - 1) / (exp (- a) - 1 + (exp (- a * u) - 1) * (exp (- a * v) - 1)) = t.
Proof.
  intros Ha Hu Ht w v. pose proof (em_pos a Ha) as Pc. set (c := exp (- a) - 1) in *.
  pose proof (exp_pos (- a * u)) as PE. set (E := exp (- a * u)) in *.
  assert (E1 : 1 < E) by (apply exp_gt_1; nra).
  assert (Den : E * (t - 1) - t < 0) by nra.
  assert (Ew : w = t * c / (E * (1 - t) + t)) by (unfold w; field; nra).
  assert (Pw : 0 < w) by (rewrite Ew; apply Rdiv_lt_0_compat; nra).
  assert (Lw : w < c).
  { rewrite Ew. apply Rmult_lt_reg_r with (E * (1 - t) + t); [nra|]. unfold Rdiv. rewrite Rmult_assoc, Rinv_l by nra.
    assert (0 < c * (E * (1 - t))) by (apply Rmult_lt_0_compat; [lra|apply Rmult_lt_0_compat; lra]). lra. }
  assert (Ev : exp (- a * v) = 1 + w).
  { unfold v. replace (- a * (-1 / a * ln (1 + w))) with (ln (1 + w)) by (field; lra). apply exp_ln. lra. }
  split; [exact Pw|]. split; [exact Lw|]. split; [exact Ev|]. split.
  - assert (0 < ln (1 + w)) by (rewrite <- ln_1; apply ln_increasing; lra).
    assert (ln (1 + w) < - a) by (rewrite <- (ln_exp (- a)); apply ln_increasing; unfold c in Lw; lra).
    unfold v. pose proof (inv_pos a Ha). split; [nra|]. replace 1 with (-1 / a * (- a)) at 2 by (field; lra). apply Rmult_lt_compat_l; lra.
  - rewrite Ev. replace (1 + w - 1) with w by ring. assert (DD : c + (E - 1) * w = c * E / (E * (1 - t) + t)) by (rewrite Ew; field; nra).
    rewrite DD, Ew. field. repeat split; try lra; nra.
Qed.
(** reflection: C_th(u, 1 - v) = u - C_{-th}(u, v) *)
Lemma frank_reflect th u v : th <> 0 -> 0 < u < 1 -> 0 < v < 1 -> frank_C th u (1 - v) = u - frank_C (- th) u v.
Proof.
  intros H Hu Hv. unfold frank_C. pose proof (em_nz th H) as NZ. pose proof (em_nz (- th) ltac:(lra)) as NZ'. rewrite Ropp_involutive in *.
  assert (Pos : forall k x, k <> 0 -> 0 < x < 1 -> 0 < (exp (- k * x) - 1) / (exp (- k) - 1) <= 1).
  { intros k x Hk Hx. replace (- k * x) with (- (x * k)) by ring. apply em_ratio; lra. }
  assert (A1 : 0 < 1 + (exp (- th * u) - 1) * (exp (- th * (1 - v)) - 1) / (exp (- th) - 1)).
  { pose proof (Pos th (1 - v) H ltac:(lra)). pose proof (exp_pos (- th * u)). unfold Rdiv in *. rewrite Rmult_assoc.
    set (r := (exp (- th * (1 - v)) - 1) * / (exp (- th) - 1)) in *. nra. }
  assert (A2 : 0 < 1 + (exp (th * u) - 1) * (exp (th * v) - 1) / (exp th - 1)).
  { pose proof (Pos (- th) v ltac:(lra) ltac:(lra)). rewrite Ropp_involutive in H0. pose proof (exp_pos (th * u)). unfold Rdiv in *. rewrite Rmult_assoc.
    set (r := (exp (th * v) - 1) * / (exp th - 1)) in *. nra. }
  assert (E : 1 + (exp (- th * u) - 1) * (exp (- th * (1 - v)) - 1) / (exp (- th) - 1)
            = exp (- th * u) * (1 + (exp (th * u) - 1) * (exp (th * v) - 1) / (exp th - 1))).
  { replace (- th * (1 - v)) with (- th + th * v) by ring. rewrite exp_plus.
    replace (- th * u) with (- (th * u)) by ring. rewrite !exp_Ropp.
    pose proof (exp_pos th). pose proof (exp_pos (th * u)). field. repeat split; try lra. }
  rewrite E, ln_mult, ln_exp by (try exact A2; apply exp_pos). field. exact H.
Qed.

(** ---- Pickands ---- *)
Lemma pow_sum_le th w : 1 <= th -> 0 < w < 1 ->
  Rpower w th + Rpower (1 - w) th <= 1 /\ Rpower w th <= Rpower w th + Rpower (1 - w) th /\ Rpower (1 - w) th <= Rpower w th + Rpower (1 - w) th.
Proof.
  intros H Hw. pose proof (Rpower_pos w th). pose proof (Rpower_pos (1 - w) th). split; [|lra].
  assert (P : forall x, 0 < x < 1 -> Rpower x th <= x).
  { intros x Hx. replace th with (1 + (th - 1)) by ring. rewrite Rpower_plus, Rpower_1 by lra.
    pose proof (Rpower_le_1 x (th - 1) ltac:(lra) ltac:(lra)). nra. }
  pose proof (P w Hw). pose proof (P (1 - w) ltac:(lra)). lra.
Qed.
