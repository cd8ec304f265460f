(** Kendall's tau of the Gumbel and Frank copulas. *)
From Coquelicot Require Import Coquelicot.
From Verif Require Import Base RSumLib S_Archimedean S_Concord P_GaussInt P_Arch P_Debye P_Debye2 Ext P_ArchCode P_Arch2 P_Kendall P_Kendall2.
Open Scope R_scope.

Lemma ln_neg t : 0 < t < 1 -> ln t < 0.
Proof. intros H. rewrite <- ln_1. apply ln_increasing; lra. Qed.
Lemma lim0_tlnt : lim_0 (fun t => t * ln t) 0.
Proof. apply (lim0_squeeze _ (fun t => 2 * sqrt t)); [exact x_ln_x|]. replace 0 with (2 * 0) by ring. apply lim0_scal, lim0_sqrt. Qed.
Lemma lim0_t2lnt : lim_0 (fun t => t ^ 2 * ln t) 0.
Proof.
  apply (lim0_squeeze _ (fun t => 2 * sqrt t)); [|replace 0 with (2 * 0) by ring; apply lim0_scal, lim0_sqrt]. intros t Ht. pose proof (x_ln_x t Ht) as X. pose proof (ln_neg t Ht).
  replace (t ^ 2 * ln t) with (t * (t * ln t)) by ring. rewrite Rabs_mult, (Rabs_pos_eq t) by lra. pose proof (Rabs_pos (t * ln t)). nra.
Qed.
Lemma lim1_t2lnt : lim_1 (fun t => t ^ 2 * ln t) 0.
Proof.
  replace 0 with (1 ^ 2 * ln 1) by (rewrite ln_1; ring). apply (lim1_continuous (fun t => t ^ 2 * ln t)). apply (cont_of_derive (fun t => t ^ 2 * ln t) 1 (2 * 1 * ln 1 + 1)).
  auto_derive; [lra|field].
Qed.

Section Gumbel.
  Variable th : R. Hypothesis th1 : 1 <= th.
  Definition gw (t : R) : R := Rpower (- ln t) (1 - th).
  Definition gh (t : R) : R := if Rltb 0 t then - (1 / th) * (t * gw t) else 0.
  Lemma gw_pos t : 0 < gw t. Proof. apply exp_pos. Qed.
  Lemma gw_incr s t : 0 < s -> s <= t -> t < 1 -> gw s <= gw t.
  Proof.
    intros Hs Hst Ht. destruct (Req_dec s t) as [->|N]; [lra|]. pose proof (ln_neg t ltac:(lra)). pose proof (ln_increasing s t Hs ltac:(lra)) as L.
    pose proof (ln_increasing (- ln t) (- ln s) ltac:(lra) ltac:(lra)) as L2. unfold gw, Rpower. destruct (Req_dec th 1) as [->|N1]; [replace (1 - 1) with 0 by ring; rewrite !Rmult_0_l; lra|].
    left. apply exp_increasing. nra.
  Qed.
  Lemma th_inv : 0 < 1 / th. Proof. apply Rdiv_lt_0_compat; lra. Qed.
  Lemma gh_pos t : 0 < t -> gh t = - (1 / th) * (t * gw t).
  Proof. intros H. unfold gh. rewrite Rltb_lt by exact H. reflexivity. Qed.
  Lemma gh_neg t : t <= 0 -> gh t = 0.
  Proof. intros H. unfold gh. rewrite Rltb_ge by exact H. reflexivity. Qed.
  Lemma gh_le_0 t : gh t <= 0.
  Proof. pose proof th_inv. pose proof (gw_pos t). destruct (Rle_lt_dec t 0) as [L|L]; [rewrite gh_neg by exact L; lra|]. rewrite gh_pos by exact L. pose proof (Rmult_lt_0_compat t (gw t) L ltac:(lra)). nra. Qed.
  Lemma gh_decr s t : s <= t -> t < 1 -> gh t <= gh s.
  Proof.
    intros Hst Ht. destruct (Rle_lt_dec s 0) as [L|L]; [rewrite (gh_neg s) by exact L; apply gh_le_0|]. rewrite !gh_pos by lra. pose proof th_inv. pose proof (gw_incr s t L Hst Ht). pose proof (gw_pos s).
    assert (s * gw s <= t * gw t) by (apply Rmult_le_compat; lra). nra.
  Qed.
  Lemma gw_cont t : 0 < t < 1 -> continuous gw t.
  Proof.
    intros Ht. pose proof (ln_neg t Ht). apply (continuous_comp (fun t => - ln t) (fun x => Rpower x (1 - th))); [|apply Rp_cont; lra]. apply (ex_derive_continuous (V := R_NormedModule)). auto_derive. lra.
  Qed.
  Lemma gh_cont t : t < 1 -> continuous gh t.
  Proof.
    intros Ht. pose proof th_inv as TI. destruct (Rtotal_order t 0) as [H|[->|H]].
    - apply (continuous_ext_loc gh (fun _ => 0)); [|apply continuous_const]. exists (mkposreal (- t) ltac:(lra)). intros y Hy. apply Rabs_def2 in Hy. unfold minus, plus, opp in Hy; cbn in Hy. symmetry. apply gh_neg. lra.
    - apply continuity_pt_filterlim. intros e He. set (c := 1 / th * gw (1 / 2)). assert (Hc : 0 < c) by (apply Rmult_lt_0_compat; [exact TI|apply gw_pos]).
      exists (Rmin (1 / 2) (e / c)). split; [apply Rmin_pos; [lra|apply Rdiv_lt_0_compat; assumption]|]. intros y [_ Hy]. cbn in Hy. unfold R_dist in *. rewrite Rminus_0_r in Hy. cbn. unfold R_dist. rewrite (gh_neg 0) by lra. rewrite Rminus_0_r.
      pose proof (Rmin_l (1 / 2) (e / c)). pose proof (Rmin_r (1 / 2) (e / c)).
      destruct (Rle_lt_dec y 0) as [L|L]; [rewrite gh_neg by exact L; rewrite Rabs_R0; exact He|]. rewrite Rabs_pos_eq in Hy by lra. rewrite Rabs_left1 by apply gh_le_0. rewrite gh_pos by exact L.
      pose proof (gw_incr y (1 / 2) L ltac:(lra) ltac:(lra)). pose proof (gw_pos y). apply Rle_lt_trans with (c * y).
      + unfold c. replace (- (- (1 / th) * (y * gw y))) with (1 / th * (gw y * y)) by ring. rewrite Rmult_assoc. apply Rmult_le_compat_l; [lra|]. apply Rmult_le_compat_r; lra.
      + apply Rlt_le_trans with (c * (e / c)); [apply Rmult_lt_compat_l; lra|]. right. field. lra.
    - apply (continuous_ext_loc gh (fun t => - (1 / th) * (t * gw t))).
      + exists (mkposreal t H). intros y Hy. apply Rabs_def2 in Hy. unfold minus, plus, opp in Hy; cbn in Hy. symmetry. apply gh_pos. lra.
      + apply (continuous_mult (fun _ => - (1 / th)) (fun t => t * gw t)); [apply continuous_const|]. apply (continuous_mult (fun t => t) gw); [apply continuous_id|apply gw_cont; lra].
  Qed.
  Definition gA (t : R) : R := RInt gh 0 t.
  Lemma gh_RInt t : t < 1 -> ex_RInt gh 0 t.
  Proof. intros H. apply (ex_RInt_continuous (V := R_CompleteNormedModule)). intros z Hz. apply gh_cont. pose proof (Rmax_lub_lt 0 t 1 ltac:(lra) H). lra. Qed.
  Lemma gA_derive t : t < 1 -> is_derive gA t (gh t).
  Proof.
    intros H. apply (is_derive_RInt gh gA 0 t); [|apply gh_cont, H]. exists (mkposreal (1 - t) ltac:(lra)). intros y Hy. apply Rabs_def2 in Hy. unfold minus, plus, opp in Hy; cbn in Hy.
    apply (RInt_correct (V := R_CompleteNormedModule)), gh_RInt. lra.
  Qed.
  Lemma gA_bound t : 0 < t < 1 -> t * gh t <= gA t <= 0.
  Proof.
    intros Ht. split.
    - replace (t * gh t) with (RInt (fun _ => gh t) 0 t) by (rewrite RInt_const; unfold scal; cbn; unfold mult; cbn; ring). apply RInt_le; [lra|apply ex_RInt_const|apply gh_RInt; lra|]. intros x Hx. apply gh_decr; lra.
    - replace 0 with (RInt (fun _ => 0) 0 t) by (rewrite RInt_const; unfold scal; cbn; unfold mult; cbn; ring). apply RInt_le; [lra|apply gh_RInt; lra|apply ex_RInt_const|]. intros x Hx. apply gh_le_0.
  Qed.
  Lemma gphi_gw t : 0 < t < 1 -> Rpower (- ln t) th * gw t = - ln t.
  Proof. intros Ht. pose proof (ln_neg t Ht). unfold gw. rewrite <- Rpower_plus. replace (th + (1 - th)) with 1 by ring. apply Rpower_1. lra. Qed.
  Lemma gphiA_bound t : 0 < t < 1 -> Rabs (Rpower (- ln t) th * gA t) <= - (1 / th) * (t ^ 2 * ln t).
  Proof.
    intros Ht. pose proof (gA_bound t Ht) as [L U]. pose proof (Rp_pos (- ln t) th) as P. rewrite Rabs_mult, (Rabs_pos_eq (Rpower _ _)), Rabs_left1 by lra.
    apply Rle_trans with (Rpower (- ln t) th * - (t * gh t)); [apply Rmult_le_compat_l; lra|]. rewrite gh_pos by lra. right.
    replace (Rpower (- ln t) th * - (t * (- (1 / th) * (t * gw t)))) with (1 / th * t ^ 2 * (Rpower (- ln t) th * gw t)) by ring. rewrite gphi_gw by exact Ht. ring.
  Qed.
  Lemma gumbel_kendall : kendall_tau (gumbel_C th) (1 - 1 / th).
  Proof.
    pose proof th_inv as TI.
    replace (1 - 1 / th) with (1 + 4 * (1 / th * (1 / 2 * 0 + (- (1 / 4)) * 1) - 1 / th * (1 / 2 * 0 + (- (1 / 4)) * 0))) by (field; lra).
    change (gumbel_C th) with (fun u v => (fun s => exp (- Rpower s (1 / th))) (Rpower (- ln u) th + Rpower (- ln v) th)).
    assert (DI : forall t, 0 < t < 1 -> / (- th * Rpower (- ln t) (th - 1) / t) = - (1 / th) * (t * gw t)).
    { intros t Ht. unfold gw. replace (1 - th) with (- (th - 1)) by ring. rewrite Rpower_Ropp. field. repeat split; try lra. apply Rgt_not_eq, Rp_pos. }
    apply (strict_tau (fun t => Rpower (- ln t) th) (fun t => - th * Rpower (- ln t) (th - 1) / t) (fun s => exp (- Rpower s (1 / th))) gA
            (fun t => 1 / th * (1 / 2 * (t ^ 2 * ln t) + (- (1 / 4)) * t ^ 2))).
    - intros t Ht. pose proof (ln_neg t Ht). evar_last; [apply (is_derive_comp (fun x => Rpower x th) (fun t => - ln t)); [apply Rpower_derive; lra|]|].
      + instantiate (1 := - / t). auto_derive; [lra|]. field. lra.
      + unfold scal; cbn; unfold mult; cbn. unfold Rdiv. ring.
    - intros t Ht. pose proof (Rp_pos (- ln t) (th - 1)). assert (0 < / t) by (apply Rinv_0_lt_compat; lra). unfold Rdiv. assert (0 < Rpower (- ln t) (th - 1) * / t) by (apply Rmult_lt_0_compat; lra). nra.
    - intros t Ht. pose proof (ln_neg t Ht). apply (continuous_mult (fun t => - th * Rpower (- ln t) (th - 1)) (fun t => / t)); [|apply continuous_Rinv; lra].
      apply (continuous_mult (fun _ => - th) (fun t => Rpower (- ln t) (th - 1))); [apply continuous_const|]. apply (continuous_comp (fun t => - ln t) (fun x => Rpower x (th - 1))); [|apply Rp_cont; lra].
      apply (ex_derive_continuous (V := R_NormedModule)). auto_derive. lra.
    - intros t Ht. apply exp_pos.
    - intros s Hs. split; [apply exp_pos|]. apply Rlt_le_trans with (exp 0); [|rewrite exp_0; lra]. apply exp_increasing. pose proof (Rp_pos s (1 / th)). lra.
    - intros s Hs. evar_last.
      + apply (is_derive_comp exp (fun s => - Rpower s (1 / th))); [apply is_derive_Reals, derivable_pt_lim_exp|]. apply (is_derive_opp (fun s => Rpower s (1 / th))). apply Rpower_derive, Hs.
      + unfold scal, opp; cbn; unfold mult; cbn. rewrite DI.
        * unfold gw. rewrite ln_exp, Ropp_involutive, Rpower_mult. replace (1 / th * (1 - th)) with (1 / th - 1) by (field; lra). ring.
        * split; [apply exp_pos|]. apply Rlt_le_trans with (exp 0); [|rewrite exp_0; lra]. apply exp_increasing. pose proof (Rp_pos s (1 / th)). lra.
    - intros t Ht. pose proof (ln_neg t Ht). rewrite Rpower_mult. replace (th * (1 / th)) with 1 by (field; lra). rewrite Rpower_1 by lra. rewrite Ropp_involutive. apply exp_ln. lra.
    - intros K. pose proof (Rabs_pos K). pose proof (Rle_abs K). exists (exp (- Rpower (1 + Rabs K) (1 / th))). split; [apply exp_pos|]. intros t Ht Ht1.
      apply Rlt_trans with (1 + Rabs K); [lra|]. replace (1 + Rabs K) with (Rpower (Rpower (1 + Rabs K) (1 / th)) th) by (rewrite Rpower_mult; replace (1 / th * th) with 1 by (field; lra); apply Rpower_1; lra).
      apply Rlt_Rpower_l; [lra|]. split; [apply exp_pos|]. destruct Ht as [T0 T1]. apply ln_increasing in T1; [|exact T0]. rewrite ln_exp in T1. lra.
    - intros e He. pose proof (Rp_pos e (1 / th)). exists (1 - exp (- Rpower e (1 / th))). split.
      + cut (exp (- Rpower e (1 / th)) < exp 0); [rewrite exp_0; lra|]. apply exp_increasing. lra.
      + intros t Ht. pose proof (exp_pos (- Rpower e (1 / th))). pose proof (ln_neg t ltac:(lra)). rewrite Rminus_0_r, Rabs_pos_eq by (left; apply exp_pos).
        replace e with (Rpower (Rpower e (1 / th)) th) by (rewrite Rpower_mult; replace (1 / th * th) with 1 by (field; lra); apply Rpower_1; lra).
        apply Rlt_Rpower_l; [lra|]. split; [lra|]. assert (T : exp (- Rpower e (1 / th)) < t) by lra. apply ln_increasing in T; [|exact H0]. rewrite ln_exp in T. lra.
    - intros t Ht. rewrite DI by exact Ht. rewrite <- gh_pos by lra. apply gA_derive. lra.
    - intros e He. set (c := - gh (1 / 2)). assert (Hc : 0 < c) by (unfold c; rewrite gh_pos by lra; pose proof (gw_pos (1 / 2)); nra).
      exists (Rmin (1 / 2) (e / c)). split; [apply Rmin_pos; [lra|apply Rdiv_lt_0_compat; assumption]|]. intros t Ht. pose proof (Rmin_l (1 / 2) (e / c)). pose proof (Rmin_r (1 / 2) (e / c)).
      pose proof (gA_bound t ltac:(lra)) as [L U]. pose proof (gh_decr t (1 / 2) ltac:(lra) ltac:(lra)). rewrite Rminus_0_r, Rabs_left1 by exact U.
      apply Rle_lt_trans with (t * c); [unfold c; nra|]. apply Rlt_le_trans with (e / c * c); [apply Rmult_lt_compat_r; lra|right; field; lra].
    - apply (lim0_squeeze _ (fun t => - (1 / th) * (t ^ 2 * ln t)) gphiA_bound). replace 0 with (- (1 / th) * 0) by ring. apply lim0_scal, lim0_t2lnt.
    - apply (lim1_squeeze _ (fun t => - (1 / th) * (t ^ 2 * ln t)) gphiA_bound). replace 0 with (- (1 / th) * 0) by ring. apply lim1_scal, lim1_t2lnt.
    - intros t Ht. pose proof (ln_neg t Ht). unfold Rdiv at 4. rewrite DI by exact Ht. replace (Rpower (- ln t) th * (- (1 / th) * (t * gw t))) with (- (1 / th) * t * (Rpower (- ln t) th * gw t)) by ring. rewrite gphi_gw by exact Ht.
      auto_derive; [lra|]. field. lra.
    - apply lim0_scal, (lim0_plus (fun t => 1 / 2 * (t ^ 2 * ln t))); apply lim0_scal; [apply lim0_t2lnt|apply lim0_sq].
    - apply lim1_scal, (lim1_plus (fun t => 1 / 2 * (t ^ 2 * ln t))); apply lim1_scal; [apply lim1_t2lnt|apply lim1_sq].
  Qed.
End Gumbel.

Section Frank.
  Variable th : R. Hypothesis th_nz : th <> 0.
  Definition fq (t : R) : R := (exp (- (t * th)) - 1) / (exp (- th) - 1).
  Definition fA (t : R) : R := t / th - (exp (t * th) - 1) / th ^ 2.
  Definition fB (t : R) : R := fr_f th t * fA t + (1 / th ^ 2 * RInt (debye_kernel 1) 0 (t * th) + - (1 / th) * t).
  Lemma fr_f_pos t : 0 < t < 1 -> 0 < fr_f th t.
  Proof.
    intros Ht. pose proof (em_ratio th t th_nz ltac:(lra)) as [P L]. assert (G : 0 <= fr_f th t).
    { unfold fr_f. cut (ln ((exp (- (t * th)) - 1) / (exp (- th) - 1)) <= 0); [lra|]. rewrite <- ln_1. destruct (Req_dec ((exp (- (t * th)) - 1) / (exp (- th) - 1)) 1) as [->|N]; [lra|]. left. apply ln_increasing; lra. }
    destruct (Req_dec (fr_f th t) 0) as [E|N]; [|lra]. exfalso. pose proof (fr_inv th t th_nz ltac:(lra)) as I. rewrite E in I. unfold fr_psi in I. rewrite Ropp_0, exp_0, Rmult_1_r in I.
    replace (1 + (exp (- th) - 1)) with (exp (- th)) in I by ring. rewrite ln_exp in I. assert (- - th / th = 1) by (field; exact th_nz). lra.
  Qed.
  Lemma fq_range t : 0 < t < 1 -> 0 < fq t < 1.
  Proof.
    intros Ht. pose proof (em_ratio th t th_nz ltac:(lra)) as [P L]. split; [exact P|]. fold (fq t) in P, L. destruct (Req_dec (fq t) 1) as [E|N]; [|lra].
    pose proof (fr_f_pos t Ht) as F. unfold fr_f in F. fold (fq t) in F. rewrite E, ln_1 in F. lra.
  Qed.
  Lemma fq_0 : continuity_pt fq 0 /\ fq 0 = 0.
  Proof.
    pose proof (em_nz th th_nz). split; [|unfold fq; rewrite Rmult_0_l, Ropp_0, exp_0; field; assumption].
    apply (cont_of_derive fq 0 (- th / (exp (- th) - 1))). unfold fq. auto_derive; [exact Logic.I|]. rewrite Rmult_0_l, Ropp_0, exp_0. field. assumption.
  Qed.
  Lemma lim0_fq : lim_0 fq 0.
  Proof. destruct fq_0 as [C E]. rewrite <- E. apply lim0_continuous, C. Qed.
  Lemma lim0_sqrt_fq : lim_0 (fun t => sqrt (fq t)) 0.
  Proof.
    destruct fq_0 as [C E]. replace 0 with (sqrt (fq 0)) by (rewrite E; apply sqrt_0). apply (lim0_continuous (fun t => sqrt (fq t))).
    apply (continuity_pt_comp fq sqrt 0 C). apply continuity_pt_sqrt. rewrite E. lra.
  Qed.
  Lemma t_le_fq : exists c, 0 < c /\ forall t, 0 < t < 1 -> t <= c * fq t.
  Proof.
    destruct (Rlt_le_dec th 0) as [L|L].
    - pose proof (em_pos th L) as P. exists ((exp (- th) - 1) / - th). split; [apply Rdiv_lt_0_compat; lra|]. intros t Ht. unfold fq. pose proof (exp_ineq1_le (- (t * th))).
      replace ((exp (- th) - 1) / - th * ((exp (- (t * th)) - 1) / (exp (- th) - 1))) with ((exp (- (t * th)) - 1) / - th) by (field; lra).
      apply Rmult_le_reg_r with (- th); [lra|]. replace ((exp (- (t * th)) - 1) / - th * - th) with (exp (- (t * th)) - 1) by (field; lra). lra.
    - assert (T : 0 < th) by lra. pose proof (em_neg th T) as P. exists ((1 - exp (- th)) / (th * exp (- th))). pose proof (exp_pos (- th)) as E. split; [apply Rdiv_lt_0_compat; [lra|apply Rmult_lt_0_compat; lra]|]. intros t Ht. unfold fq.
      replace ((1 - exp (- th)) / (th * exp (- th)) * ((exp (- (t * th)) - 1) / (exp (- th) - 1))) with ((1 - exp (- (t * th))) / (th * exp (- th))) by (field; lra).
      apply Rmult_le_reg_r with (th * exp (- th)); [apply Rmult_lt_0_compat; lra|]. replace ((1 - exp (- (t * th))) / (th * exp (- th)) * (th * exp (- th))) with (1 - exp (- (t * th))) by (field; lra).
      pose proof (exp_ineq1_le (t * th)) as I. assert (M : exp (- (t * th)) * exp (t * th) = 1) by (rewrite <- exp_plus, Rplus_opp_l; apply exp_0).
      assert (D : exp (- th) <= exp (- (t * th))) by (apply exp_mono; nra). pose proof (exp_pos (- (t * th))). apply Rle_trans with (exp (- (t * th)) * (t * th)); [|nra].
      replace (t * (th * exp (- th))) with (exp (- th) * (t * th)) by ring. apply Rmult_le_compat_r; nra.
  Qed.
  Lemma fA_bound : exists c, 0 < c /\ forall t, 0 < t < 1 -> Rabs (fA t) <= c * fq t.
  Proof.
    destruct t_le_fq as [c [Hc K]]. set (m := Rabs (exp (- th) - 1) * exp (Rabs th)). assert (Hm : 0 < m).
    { apply Rmult_lt_0_compat; [apply Rabs_pos_lt, em_nz, th_nz|apply exp_pos]. }
    assert (HT : 0 < Rabs th) by (apply Rabs_pos_lt, th_nz). assert (HT2 : 0 < th ^ 2) by nra. exists (c / Rabs th + m / th ^ 2). split; [apply Rplus_lt_0_compat; apply Rdiv_lt_0_compat; lra|]. intros t Ht. pose proof (fq_range t Ht) as Q. unfold fA.
    unfold Rminus at 1. eapply Rle_trans; [apply Rabs_triang|]. rewrite Rabs_Ropp, Rmult_plus_distr_r. apply Rplus_le_compat.
    - unfold Rdiv. rewrite Rabs_mult, Rabs_inv, (Rabs_pos_eq t) by lra. specialize (K t Ht). assert (0 < / Rabs th) by (apply Rinv_0_lt_compat, HT). nra.
    - unfold Rdiv. rewrite Rabs_mult, Rabs_inv, (Rabs_pos_eq (th ^ 2)) by lra. assert (0 < / th ^ 2) by (apply Rinv_0_lt_compat, HT2). rewrite Rmult_assoc, (Rmult_comm (/ th ^ 2)), <- Rmult_assoc. apply Rmult_le_compat_r; [lra|].
      pose proof (em_nz th th_nz) as NZ. replace (exp (t * th) - 1) with (- ((exp (- th) - 1) * exp (t * th) * fq t)).
      + rewrite Rabs_Ropp, !Rabs_mult, (Rabs_pos_eq (fq t)), (Rabs_pos_eq (exp (t * th))) by (try (left; apply exp_pos); lra). unfold m. apply Rmult_le_compat_r; [lra|]. apply Rmult_le_compat_l; [apply Rabs_pos|].
        apply exp_mono. pose proof (Rle_abs th). nra.
      + unfold fq. replace (- ((exp (- th) - 1) * exp (t * th) * ((exp (- (t * th)) - 1) / (exp (- th) - 1)))) with (exp (t * th) - exp (t * th) * exp (- (t * th))) by (field; exact NZ).
        rewrite <- exp_plus, Rplus_opp_r, exp_0. reflexivity.
  Qed.
  Lemma ex1_nz t : 0 < t -> exp (t * th) - 1 <> 0.
  Proof. intros Ht. apply expm1_nz. apply Rmult_integral_contrapositive_currified; lra. Qed.
  Lemma fr_psi_range s : 0 < s -> 0 < fr_psi th s < 1.
  Proof.
    intros Hs. pose proof (fr_arg th s ltac:(lra)) as W. unfold fr_psi. set (w := 1 + (exp (- th) - 1) * exp (- s)) in *.
    assert (E1 : 0 < exp (- s) < 1) by (split; [apply exp_pos|rewrite <- exp_0; apply exp_increasing; lra]).
    destruct (Rlt_le_dec th 0) as [L|L].
    - pose proof (em_pos th L). assert (A : 1 < w < exp (- th)) by (unfold w; nra). assert (B : 0 < ln w < - th).
      { split; [rewrite <- ln_1; apply ln_increasing; lra|]. rewrite <- (ln_exp (- th)). apply ln_increasing; lra. }
      replace (- ln w / th) with (ln w / - th) by (field; lra). split; [apply Rdiv_lt_0_compat; lra|]. apply Rmult_lt_reg_r with (- th); [lra|]. unfold Rdiv. rewrite Rmult_assoc, Rinv_l by lra. lra.
    - assert (T : 0 < th) by lra. pose proof (em_neg th T). assert (A : exp (- th) < w < 1) by (unfold w; nra). assert (B : - th < ln w < 0).
      { split; [rewrite <- (ln_exp (- th)); apply ln_increasing; [apply exp_pos|lra]|]. rewrite <- ln_1. apply ln_increasing; lra. }
      split; [apply Rdiv_lt_0_compat; lra|]. apply Rmult_lt_reg_r with th; [lra|]. unfold Rdiv. rewrite Rmult_assoc, Rinv_l by lra. lra.
  Qed.
  Lemma fA_derive t : is_derive fA t (- (exp (t * th) - 1) / th).
  Proof. unfold fA. auto_derive; [exact Logic.I|]. field. exact th_nz. Qed.
  Lemma fB_derive t : 0 < t < 1 -> is_derive fB t (fr_f th t / - (th / (exp (t * th) - 1))).
  Proof.
    intros Ht. pose proof (ex1_nz t ltac:(lra)) as NZ. evar_last.
    - apply (is_derive_plus (fun t => fr_f th t * fA t) (fun t => 1 / th ^ 2 * RInt (debye_kernel 1) 0 (t * th) + - (1 / th) * t)).
      + apply (is_derive_mult (fr_f th) fA t (- (th / (exp (t * th) - 1))) (- (exp (t * th) - 1) / th)); [apply fr_f_derive; [exact th_nz|lra]|apply fA_derive|intros; apply Rmult_comm].
      + apply (is_derive_plus (fun t => 1 / th ^ 2 * RInt (debye_kernel 1) 0 (t * th)) (fun t => - (1 / th) * t)).
        * apply (is_derive_scal (fun t => RInt (debye_kernel 1) 0 (t * th))). apply (is_derive_comp (fun x => RInt (debye_kernel 1) 0 x) (fun t => t * th)); [apply debye_int_derive|]. instantiate (1 := th). auto_derive; [exact Logic.I|ring].
        * instantiate (1 := - (1 / th)). auto_derive; [exact Logic.I|ring].
    - unfold plus, scal; cbn; unfold mult; cbn. rewrite k1_nz by (apply Rmult_integral_contrapositive_currified; lra). unfold fA. field. split; assumption.
  Qed.
  Lemma frank_tau_0 : lim_0 (fun t => fr_f th t * fA t) 0.
  Proof.
    destruct fA_bound as [c [Hc K]]. apply (lim0_squeeze _ (fun t => c * 2 * sqrt (fq t))).
    - intros t Ht. specialize (K t Ht). pose proof (fq_range t Ht) as Q. pose proof (x_ln_x (fq t) Q) as X. unfold fr_f. fold (fq t). rewrite Rabs_mult, Rabs_Ropp. rewrite Rabs_mult, (Rabs_pos_eq (fq t)) in X by lra.
      pose proof (Rabs_pos (ln (fq t))). apply Rle_trans with (Rabs (ln (fq t)) * (c * fq t)); [apply Rmult_le_compat_l; assumption|]. nra.
    - replace 0 with (c * 2 * 0) by ring. apply lim0_scal, lim0_sqrt_fq.
  Qed.
  Lemma fr_f_1 : fr_f th 1 = 0.
  Proof. unfold fr_f. rewrite Rmult_1_l. unfold Rdiv. rewrite Rinv_r, ln_1 by apply em_nz, th_nz. ring. Qed.
  Lemma frank_tau_1 : lim_1 (fun t => fr_f th t * fA t) 0.
  Proof.
    replace 0 with (fr_f th 1 * fA 1) by (rewrite fr_f_1; ring). apply (lim1_continuous (fun t => fr_f th t * fA t)). apply (continuity_pt_mult (fr_f th) fA).
    - apply (cont_of_derive (fr_f th) 1 (- (th / (exp (1 * th) - 1)))), fr_f_derive; [exact th_nz|lra].
    - apply (cont_of_derive fA 1 (- (exp (1 * th) - 1) / th)), fA_derive.
  Qed.
  Lemma int_cont t : continuity_pt (fun t => 1 / th ^ 2 * RInt (debye_kernel 1) 0 (t * th) + - (1 / th) * t) t.
  Proof.
    apply (cont_of_derive _ t (1 / th ^ 2 * (th * debye_kernel 1 (t * th)) + - (1 / th))). apply (is_derive_plus (fun t => 1 / th ^ 2 * RInt (debye_kernel 1) 0 (t * th)) (fun t => - (1 / th) * t)).
    - apply (is_derive_scal (fun t => RInt (debye_kernel 1) 0 (t * th))). apply (is_derive_comp (fun x => RInt (debye_kernel 1) 0 x) (fun t => t * th)); [apply debye_int_derive|]. auto_derive; [exact Logic.I|ring].
    - auto_derive; [exact Logic.I|ring].
  Qed.
  Lemma frank_kendall : kendall_tau (frank_C th) (1 + 4 * (debye 1 th - 1) / th).
  Proof.
    set (J := fun t => 1 / th ^ 2 * RInt (debye_kernel 1) 0 (t * th) + - (1 / th) * t).
    replace (1 + 4 * (debye 1 th - 1) / th) with (1 + 4 * ((0 + J 1) - (0 + J 0))).
    2: { unfold J, debye. rewrite Rmult_0_l, Rmult_1_l, int_0. cbn [INR]. field. exact th_nz. }
    apply (kendall_ext (fun u v => fr_psi th (fr_f th u + fr_f th v))).
    { intros u v Hu Hv. pose proof (em_ratio th u th_nz ltac:(lra)). pose proof (em_ratio th v th_nz ltac:(lra)). pose proof (em_nz th th_nz).
      unfold fr_psi, frank_C, fr_f. rewrite Ropp_plus_distr, !Ropp_involutive, exp_plus, !exp_ln by lra. replace (- th * u) with (- (u * th)) by ring. replace (- th * v) with (- (v * th)) by ring.
      replace (1 + (exp (- th) - 1) * ((exp (- (u * th)) - 1) / (exp (- th) - 1) * ((exp (- (v * th)) - 1) / (exp (- th) - 1))))
        with (1 + (exp (- (u * th)) - 1) * (exp (- (v * th)) - 1) / (exp (- th) - 1)) by (field; assumption). field. exact th_nz. }
    apply (strict_tau (fr_f th) (fun t => - (th / (exp (t * th) - 1))) (fr_psi th) fA fB).
    - intros t Ht. apply fr_f_derive; [exact th_nz|lra].
    - intros t Ht. cut (0 < th / (exp (t * th) - 1)); [lra|]. destruct (Rlt_le_dec th 0) as [L|L].
      + assert (exp (t * th) < 1) by (rewrite <- exp_0; apply exp_increasing; nra). replace (th / (exp (t * th) - 1)) with (- th / (1 - exp (t * th))) by (field; lra). apply Rdiv_lt_0_compat; lra.
      + apply Rdiv_lt_0_compat; [lra|]. apply expm1_pos. nra.
    - intros t Ht. apply (ex_derive_continuous (V := R_NormedModule)). eexists. apply fr_d1_derive; [exact th_nz|lra].
    - apply fr_f_pos.
    - apply fr_psi_range.
    - intros s Hs. pose proof (fr_arg th s ltac:(lra)) as W. pose proof (fr_psi_range s Hs) as R. pose proof (ex1_nz (fr_psi th s) ltac:(lra)) as NZ.
      assert (E : exp (fr_psi th s * th) = / (1 + (exp (- th) - 1) * exp (- s))).
      { unfold fr_psi. replace (- ln (1 + (exp (- th) - 1) * exp (- s)) / th * th) with (- ln (1 + (exp (- th) - 1) * exp (- s))) by (field; exact th_nz). rewrite exp_Ropp, exp_ln by exact W. reflexivity. }
      replace (/ - (th / (exp (fr_psi th s * th) - 1))) with (- (exp (fr_psi th s * th) - 1) / th) by (field; split; assumption). rewrite E. unfold fr_psi. auto_derive; [exact W|]. field. split; [lra|exact th_nz].
    - intros t Ht. apply fr_inv; [exact th_nz|lra].
    - intros K. destruct (lim0_fq (exp (- K)) (exp_pos _)) as [d [Hd L]]. exists d. split; [exact Hd|]. intros t Ht H1. pose proof (fq_range t ltac:(lra)) as Q. specialize (L t Ht). rewrite Rminus_0_r, Rabs_pos_eq in L by lra.
      unfold fr_f. fold (fq t). apply ln_increasing in L; [|lra]. rewrite ln_exp in L. lra.
    - rewrite <- fr_f_1. apply lim1_continuous. apply (cont_of_derive (fr_f th) 1 (- (th / (exp (1 * th) - 1)))), fr_f_derive; [exact th_nz|lra].
    - intros t Ht. pose proof (ex1_nz t ltac:(lra)) as NZ. replace (/ - (th / (exp (t * th) - 1))) with (- (exp (t * th) - 1) / th) by (field; split; assumption). apply fA_derive.
    - replace 0 with (fA 0) at 1 by (unfold fA; rewrite Rmult_0_l, exp_0; field; exact th_nz). apply lim0_continuous. apply (cont_of_derive fA 0 (- (exp (0 * th) - 1) / th)), fA_derive.
    - exact frank_tau_0.
    - exact frank_tau_1.
    - exact fB_derive.
    - apply (lim0_plus (fun t => fr_f th t * fA t) J); [exact frank_tau_0|apply (lim0_continuous J), int_cont].
    - apply (lim1_plus (fun t => fr_f th t * fA t) J); [exact frank_tau_1|apply (lim1_continuous J), int_cont].
  Qed.
End Frank.
