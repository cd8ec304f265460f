(** Kendall's tau of the Clayton, Gumbel and Frank copulas. *)
From Coquelicot Require Import Coquelicot.
From Verif Require Import Base RSumLib S_Archimedean S_Concord P_GaussInt P_Arch P_Debye P_Debye2 Ext P_ArchCode P_Kendall.
Open Scope R_scope.

Lemma Rp_pos x y : 0 < Rpower x y. Proof. apply exp_pos. Qed.
Lemma Rp_lt1 x a : 0 < x < 1 -> 0 < a -> Rpower x a < 1.
Proof. intros Hx Ha. unfold Rpower. rewrite <- exp_0. apply exp_increasing. assert (ln x < 0) by (rewrite <- ln_1; apply ln_increasing; lra). nra. Qed.
Lemma Rp_gt1 x a : 0 < x < 1 -> a < 0 -> 1 < Rpower x a.
Proof. intros Hx Ha. unfold Rpower. rewrite <- exp_0. apply exp_increasing. assert (ln x < 0) by (rewrite <- ln_1; apply ln_increasing; lra). nra. Qed.
Lemma Rp_cont x a : 0 < x -> continuous (fun x => Rpower x a) x.
Proof. intros H. apply (ex_derive_continuous (V := R_NormedModule)). eexists. apply Rpower_derive, H. Qed.
Lemma lim0_Rp a : 0 < a -> lim_0 (fun t => Rpower t a) 0.
Proof.
  intros Ha e He. exists (Rpower e (/ a)). split; [apply exp_pos|]. intros t Ht. rewrite Rminus_0_r, Rabs_pos_eq by (left; apply exp_pos).
  replace e with (Rpower (Rpower e (/ a)) a); [|rewrite Rpower_mult, Rinv_l, Rpower_1 by lra; reflexivity]. apply Rlt_Rpower_l; lra.
Qed.
Lemma lim1_Rp a : lim_1 (fun t => Rpower t a) 1.
Proof.
  assert (E : Rpower 1 a = 1) by (unfold Rpower; rewrite ln_1, Rmult_0_r, exp_0; reflexivity). rewrite <- E.
  apply (lim1_continuous (fun t => Rpower t a)). apply (cont_of_derive (fun t => Rpower t a) 1 (a * Rpower 1 (a - 1))), Rpower_derive. lra.
Qed.
Lemma lim0_sq : lim_0 (fun t => t ^ 2) 0.
Proof. replace 0 with (0 ^ 2) by ring. apply (lim0_continuous (fun t => t ^ 2)). apply (cont_of_derive (fun t => t ^ 2) 0 0). auto_derive; [exact Logic.I|ring]. Qed.
Lemma lim1_sq : lim_1 (fun t => t ^ 2) 1.
Proof. replace 1 with (1 ^ 2) by ring. apply (lim1_continuous (fun t => t ^ 2)). apply (cont_of_derive (fun t => t ^ 2) 1 2). auto_derive; [exact Logic.I|ring]. Qed.

(** ** Clayton, theta > 0 *)
Section ClaytonPos.
  Variable th : R. Hypothesis th_pos : 0 < th.
  Lemma clayton_pos_tau : kendall_tau (clayton_C th) (th / (th + 2)).
  Proof.
    replace (th / (th + 2)) with (1 + 4 * ((- (1 / th)) * (1 / 2 * 1 + (- (1 / (th + 2))) * 1) - (- (1 / th)) * (1 / 2 * 0 + (- (1 / (th + 2))) * 0))) by (field; lra).
    apply (kendall_ext (fun u v => Rpower (1 + ((Rpower u (- th) - 1) + (Rpower v (- th) - 1))) (-1 / th))).
    { intros u v _ _. unfold clayton_C. f_equal. ring. }
    apply (strict_tau (fun t => Rpower t (- th) - 1) (fun t => - th * Rpower t (- th - 1)) (fun s => Rpower (1 + s) (-1 / th))
             (fun t => (- (1 / (th * (th + 2)))) * Rpower t (th + 2)) (fun t => (- (1 / th)) * (1 / 2 * t ^ 2 + (- (1 / (th + 2))) * Rpower t (th + 2)))).
    - intros t Ht. evar_last; [apply (is_derive_minus (fun t => Rpower t (- th)) (fun _ => 1)); [apply Rpower_derive; lra|apply (is_derive_const 1)]|]. unfold minus, plus, opp, zero; cbn. ring.
    - intros t Ht. pose proof (Rp_pos t (- th - 1)). nra.
    - intros t Ht. apply (continuous_mult (fun _ => - th) (fun t => Rpower t (- th - 1))); [apply continuous_const|apply Rp_cont; lra].
    - intros t Ht. pose proof (Rp_gt1 t (- th) Ht ltac:(lra)). lra.
    - intros s Hs. split; [apply exp_pos|]. unfold Rpower. apply Rlt_le_trans with (exp 0); [|rewrite exp_0; lra]. apply exp_increasing. assert (0 < ln (1 + s)) by (rewrite <- ln_1; apply ln_increasing; lra).
      assert (0 < 1 / th) by (apply Rdiv_lt_0_compat; lra). replace (-1 / th) with (- (1 / th)) by (field; lra). nra.
    - intros s Hs. evar_last.
      + apply (is_derive_comp (fun x => Rpower x (-1 / th)) (fun s => 1 + s)); [apply Rpower_derive; lra|]. instantiate (1 := 1). auto_derive; [exact Logic.I|ring].
      + unfold scal; cbn; unfold mult; cbn. rewrite Rpower_mult. replace (-1 / th * (- th - 1)) with (- (-1 / th - 1)) by (field; lra). rewrite Rpower_Ropp. field. split; [apply Rgt_not_eq, Rp_pos|lra].
    - intros t Ht. replace (1 + (Rpower t (- th) - 1)) with (Rpower t (- th)) by ring. rewrite Rpower_mult. replace (- th * (-1 / th)) with 1 by (field; lra). apply Rpower_1. lra.
    - intros K. pose proof (Rabs_pos K). pose proof (Rle_abs K). exists (Rpower (2 + Rabs K) (-1 / th)). split; [apply exp_pos|]. intros t Ht _.
      cut (2 + Rabs K < Rpower t (- th)); [lra|]. replace (2 + Rabs K) with (/ Rpower (Rpower (2 + Rabs K) (-1 / th)) th).
      + rewrite Rpower_Ropp. apply Rinv_lt_contravar; [apply Rmult_lt_0_compat; apply exp_pos|]. apply Rlt_Rpower_l; lra.
      + rewrite Rpower_mult. replace (-1 / th * th) with (- (1)) by (field; lra). rewrite Rpower_Ropp, Rpower_1 by lra. apply Rinv_inv.
    - replace 0 with (1 + -1 * 1) by ring. apply (lim1_ext (fun t => Rpower t (- th) + -1 * 1)); [intros; ring|]. apply (lim1_plus (fun t => Rpower t (- th))); [apply lim1_Rp|apply (lim1_scal (-1) (fun _ => 1)), lim1_const].
    - intros t Ht. evar_last; [apply (is_derive_scal (fun t => Rpower t (th + 2))), Rpower_derive; lra|]. replace (- th - 1) with (- (th + 2 - 1)) by ring. rewrite Rpower_Ropp. field. split; [apply Rgt_not_eq, Rp_pos|lra].
    - replace 0 with ((- (1 / (th * (th + 2)))) * 0) by ring. apply lim0_scal, lim0_Rp. lra.
    - apply (lim0_ext (fun t => (- (1 / (th * (th + 2)))) * (t ^ 2 + -1 * Rpower t (th + 2)))).
      + intros t Ht. replace (t ^ 2) with (Rpower t (- th) * Rpower t (th + 2)); [ring|]. rewrite <- Rpower_plus. replace (- th + (th + 2)) with (INR 2) by (cbn; ring). apply Rpower_pow. lra.
      + replace 0 with ((- (1 / (th * (th + 2)))) * (0 + -1 * 0)) by ring. apply lim0_scal, (lim0_plus (fun t => t ^ 2)); [apply lim0_sq|apply lim0_scal, lim0_Rp; lra].
    - apply (lim1_ext (fun t => (- (1 / (th * (th + 2)))) * (t ^ 2 + -1 * Rpower t (th + 2)))).
      + intros t Ht. replace (t ^ 2) with (Rpower t (- th) * Rpower t (th + 2)); [ring|]. rewrite <- Rpower_plus. replace (- th + (th + 2)) with (INR 2) by (cbn; ring). apply Rpower_pow. lra.
      + replace 0 with ((- (1 / (th * (th + 2)))) * (1 + -1 * 1)) by ring. apply lim1_scal, (lim1_plus (fun t => t ^ 2)); [apply lim1_sq|apply lim1_scal, lim1_Rp; lra].
    - intros t Ht. evar_last.
      + apply (is_derive_scal (fun t => 1 / 2 * t ^ 2 + (- (1 / (th + 2))) * Rpower t (th + 2))). apply (is_derive_plus (fun t => 1 / 2 * t ^ 2) (fun t => (- (1 / (th + 2))) * Rpower t (th + 2))).
        * instantiate (1 := t). auto_derive; [exact Logic.I|field].
        * apply (is_derive_scal (fun t => Rpower t (th + 2))), Rpower_derive. lra.
      + unfold plus; cbn. replace (th + 2 - 1) with (th + 1) by ring. replace (Rpower t (- th - 1)) with (/ Rpower t (th + 1)) by (rewrite <- Rpower_Ropp; f_equal; ring).
        replace (Rpower t (- th)) with (t * / Rpower t (th + 1)).
        * field. split; [|lra]. apply Rgt_not_eq, Rp_pos.
        * rewrite <- Rpower_Ropp. rewrite <- (Rpower_1 t) at 1 by lra. rewrite <- Rpower_plus. f_equal. ring.
    - apply lim0_scal, (lim0_plus (fun t => 1 / 2 * t ^ 2)); apply lim0_scal; [apply lim0_sq|apply lim0_Rp; lra].
    - apply lim1_scal, (lim1_plus (fun t => 1 / 2 * t ^ 2)); apply lim1_scal; [apply lim1_sq|apply lim1_Rp; lra].
  Qed.
End ClaytonPos.

(** ** Clayton, -1 < theta < 0: the copula vanishes below a curve *)
Definition pp (x c : R) : R := if Rltb 0 x then Rpower x c else 0.
Lemma pp_pos x c : 0 < x -> pp x c = Rpower x c.
Proof. intros H. unfold pp. rewrite Rltb_lt by exact H. reflexivity. Qed.
Lemma pp_neg x c : x <= 0 -> pp x c = 0.
Proof. intros H. unfold pp. rewrite Rltb_ge by exact H. reflexivity. Qed.
Lemma pp_mult x b c : pp x b * pp x c = pp x (b + c).
Proof. unfold pp. destruct (Rltb 0 x); [symmetry; apply Rpower_plus|ring]. Qed.
Lemma pp_cont c x : 0 < c -> continuous (fun x => pp x c) x.
Proof.
  intros Hc. destruct (Rtotal_order x 0) as [H|[->|H]].
  - apply (continuous_ext_loc (fun x => pp x c) (fun _ => 0)); [|apply continuous_const]. exists (mkposreal (- x) ltac:(lra)). intros y Hy. apply Rabs_def2 in Hy. unfold minus, plus, opp in Hy; cbn in Hy. symmetry. apply pp_neg. lra.
  - apply continuity_pt_filterlim. intros e He. destruct (lim0_Rp c Hc e He) as [d [Hd K]]. exists d. split; [exact Hd|]. intros y [_ Hy]. cbn in Hy. unfold R_dist in *. rewrite Rminus_0_r in Hy. cbn. unfold R_dist. rewrite (pp_neg 0 c) by lra.
    destruct (Rle_lt_dec y 0) as [L|L]; [rewrite pp_neg by exact L; rewrite Rminus_0_r, Rabs_R0; exact He|]. rewrite pp_pos by exact L. apply K. rewrite Rabs_pos_eq in Hy by lra. lra.
  - apply (continuous_ext_loc (fun x => pp x c) (fun x => Rpower x c)); [|apply Rp_cont, H]. exists (mkposreal x H). intros y Hy. apply Rabs_def2 in Hy. unfold minus, plus, opp in Hy; cbn in Hy. symmetry. apply pp_pos. lra.
Qed.
Lemma pp_derive c x : 1 < c -> is_derive (fun x => pp x c) x (c * pp x (c - 1)).
Proof.
  intros Hc. destruct (Rtotal_order x 0) as [H|[->|H]].
  - rewrite (pp_neg x) by lra. rewrite Rmult_0_r. apply (is_derive_ext_loc (fun _ => 0)); [|apply (is_derive_const 0)].
    exists (mkposreal (- x) ltac:(lra)). intros y Hy. apply Rabs_def2 in Hy. unfold minus, plus, opp in Hy; cbn in Hy. symmetry. apply pp_neg. lra.
  - rewrite (pp_neg 0) by lra. rewrite Rmult_0_r. apply is_derive_Reals. intros e He. destruct (lim0_Rp (c - 1) ltac:(lra) e He) as [d [Hd K]]. exists (mkposreal d Hd). intros h Hh Hb. cbn in Hb.
    rewrite Rplus_0_l, (pp_neg 0) by lra. destruct (Rle_lt_dec h 0) as [L|L].
    + rewrite pp_neg by exact L. replace ((0 - 0) / h - 0) with 0 by (field; exact Hh). rewrite Rabs_R0. exact He.
    + rewrite pp_pos by exact L. rewrite Rabs_pos_eq in Hb by lra. specialize (K h ltac:(lra)). rewrite Rminus_0_r in K. replace ((Rpower h c - 0) / h - 0) with (Rpower h (c - 1)); [exact K|].
      unfold Rminus at 1. rewrite Rpower_plus, Rpower_Ropp, Rpower_1 by exact L. field. lra.
  - rewrite pp_pos by exact H. apply (is_derive_ext_loc (fun x => Rpower x c)); [|apply Rpower_derive, H].
    exists (mkposreal x H). intros y Hy. apply Rabs_def2 in Hy. unfold minus, plus, opp in Hy; cbn in Hy. symmetry. apply pp_pos. lra.
Qed.
Section ClaytonNeg.
  Variable a : R. Hypothesis a_range : 0 < a < 1.
  Lemma inv_a : 1 < 1 / a. Proof. apply Rmult_lt_reg_r with a; [lra|]. unfold Rdiv. rewrite Rmult_assoc, Rinv_l by lra. lra. Qed.
  Lemma pp_derive_1m c s : 1 < c -> is_derive (fun s => pp (1 - s) c) s (- (c * pp (1 - s) (c - 1))).
  Proof.
    intros Hc. evar_last; [apply (is_derive_comp (fun x => pp x c) (fun s => 1 - s)); [apply pp_derive, Hc|]|].
    - instantiate (1 := -1). auto_derive; [exact Logic.I|ring].
    - unfold scal; cbn; unfold mult; cbn. ring.
  Qed.
  Lemma clayton_neg_tau : kendall_tau (fun u v => pp (Rpower u a + Rpower v a - 1) (1 / a)) (- a / (- a + 2)).
  Proof.
    pose proof inv_a as Ia.
    replace (- a / (- a + 2)) with (1 + 4 * ((- (1 / a)) * (1 / (2 - a) * 1 + (- (1 / 2)) * 1) - (- (1 / a)) * (1 / (2 - a) * 0 + (- (1 / 2)) * 0))) by (field; lra).
    apply (kendall_ext (fun u v => pp (1 - ((1 - Rpower u a) + (1 - Rpower v a))) (1 / a))).
    { intros u v _ _. f_equal. ring. }
    assert (L1 : lim_1 (fun t => 1 - Rpower t a) 0).
    { replace 0 with (1 + -1 * 1) by ring. apply (lim1_ext (fun t => 1 + -1 * Rpower t a)); [intros; ring|]. apply (lim1_plus (fun t => 1)); [apply lim1_const|apply lim1_scal, lim1_Rp]. }
    assert (EA : forall t, 0 < t < 1 -> (1 - Rpower t a) * ((- (1 / (a * (2 - a)))) * Rpower t (2 - a)) = (- (1 / (a * (2 - a)))) * (Rpower t (2 - a) + -1 * t ^ 2)).
    { intros t Ht. replace (t ^ 2) with (Rpower t a * Rpower t (2 - a)); [ring|]. rewrite <- Rpower_plus. replace (a + (2 - a)) with (INR 2) by (cbn; ring). apply Rpower_pow. lra. }
    apply (archimedean_tau (fun t => 1 - Rpower t a) (fun t => - a * Rpower t (a - 1)) (fun s => pp (1 - s) (1 / a)) (fun s => - (1 / a * pp (1 - s) (1 / a - 1)))
             (fun s => (- (1 / (a * (2 - a)))) * pp (1 - s) (2 / a - 1)) (fun t => (- (1 / (a * (2 - a)))) * Rpower t (2 - a)) (fun t => - (1 / a) * Rpower t (1 - a))
             (fun t => (- (1 / a)) * (1 / (2 - a) * Rpower t (2 - a) + (- (1 / 2)) * t ^ 2))).
    - intros t Ht. evar_last; [apply (is_derive_minus (fun _ => 1) (fun t => Rpower t a)); [apply (is_derive_const 1)|apply Rpower_derive; lra]|]. unfold minus, plus, opp, zero; cbn. ring.
    - intros t Ht. apply (continuous_mult (fun _ => - a) (fun t => Rpower t (a - 1))); [apply continuous_const|apply Rp_cont; lra].
    - intros t Ht. pose proof (Rp_lt1 t a Ht ltac:(lra)). lra.
    - exact L1.
    - intros s Hs. apply pp_derive_1m. lra.
    - intros s Hs. apply (continuous_opp (fun s => 1 / a * pp (1 - s) (1 / a - 1))). apply (continuous_mult (fun _ => 1 / a) (fun s => pp (1 - s) (1 / a - 1))); [apply continuous_const|].
      apply (continuous_comp (fun s => 1 - s) (fun x => pp x (1 / a - 1))); [|apply pp_cont; lra]. apply (ex_derive_continuous (V := R_NormedModule)). auto_derive. exact Logic.I.
    - intros s Hs. assert (1 < 2 / a - 1) by (replace (2 / a) with (2 * (1 / a)) by (field; lra); lra).
      evar_last; [apply (is_derive_scal (fun s => pp (1 - s) (2 / a - 1))), pp_derive_1m; lra|].
      replace (- (1 / a * pp (1 - s) (1 / a - 1)) * - (1 / a * pp (1 - s) (1 / a - 1))) with (1 / a * (1 / a) * (pp (1 - s) (1 / a - 1) * pp (1 - s) (1 / a - 1))) by ring.
      rewrite pp_mult. replace (1 / a - 1 + (1 / a - 1)) with (2 / a - 1 - 1) by (field; lra). field. lra.
    - intros t Ht. f_equal. replace (1 - (1 - Rpower t a)) with (Rpower t a) by ring. rewrite pp_pos by apply exp_pos. rewrite Rpower_mult. f_equal. field. lra.
    - intros u Hu. pose proof (Rp_lt1 u a Hu ltac:(lra)) as U. intros e He. destruct (lim0_Rp a ltac:(lra) (1 - Rpower u a) ltac:(lra)) as [d [Hd K]]. exists d. split; [exact Hd|]. intros v Hv. specialize (K v Hv).
      rewrite Rminus_0_r, Rabs_pos_eq in K by (left; apply exp_pos). rewrite pp_neg by lra. replace (- (1 / (a * (2 - a))) * 0 - 0) with 0 by ring. rewrite Rabs_R0. exact He.
    - intros t Ht. evar_last; [apply (is_derive_scal (fun t => Rpower t (2 - a))), Rpower_derive; lra|]. replace (2 - a - 1) with (1 - a) by ring. field. lra.
    - apply (lim0_ext (fun t => (- (1 / (a * (2 - a)))) * (Rpower t (2 - a) + -1 * t ^ 2))); [intros t Ht; symmetry; apply EA, Ht|].
      replace 0 with ((- (1 / (a * (2 - a)))) * (0 + -1 * 0)) by ring. apply lim0_scal, (lim0_plus (fun t => Rpower t (2 - a))); [apply lim0_Rp; lra|apply lim0_scal, lim0_sq].
    - apply (lim1_ext (fun t => (- (1 / (a * (2 - a)))) * (Rpower t (2 - a) + -1 * t ^ 2))); [intros t Ht; symmetry; apply EA, Ht|].
      replace 0 with ((- (1 / (a * (2 - a)))) * (1 + -1 * 1)) by ring. apply lim1_scal, (lim1_plus (fun t => Rpower t (2 - a))); [apply lim1_Rp; lra|apply lim1_scal, lim1_sq].
    - intros t Ht. evar_last.
      + apply (is_derive_scal (fun t => 1 / (2 - a) * Rpower t (2 - a) + (- (1 / 2)) * t ^ 2)). apply (is_derive_plus (fun t => 1 / (2 - a) * Rpower t (2 - a)) (fun t => (- (1 / 2)) * t ^ 2)).
        * apply (is_derive_scal (fun t => Rpower t (2 - a))), Rpower_derive. lra.
        * instantiate (1 := - t). auto_derive; [exact Logic.I|field].
      + unfold plus; cbn. replace (2 - a - 1) with (1 - a) by ring. assert (E : Rpower t a * Rpower t (1 - a) = t) by (rewrite <- Rpower_plus; replace (a + (1 - a)) with 1 by ring; apply Rpower_1; lra).
        replace ((1 - Rpower t a) * (- (1 / a) * Rpower t (1 - a))) with (- (1 / a) * (Rpower t (1 - a) - Rpower t a * Rpower t (1 - a))) by ring. rewrite E. field. lra.
    - apply lim0_scal, (lim0_plus (fun t => 1 / (2 - a) * Rpower t (2 - a))); apply lim0_scal; [apply lim0_Rp; lra|apply lim0_sq].
    - apply lim1_scal, (lim1_plus (fun t => 1 / (2 - a) * Rpower t (2 - a))); apply lim1_scal; [apply lim1_Rp; lra|apply lim1_sq].
  Qed.
End ClaytonNeg.
