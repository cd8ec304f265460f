(** The sum over the angles of the conditional transforms of Kanter's representation. *)
From Coquelicot Require Import Coquelicot.
From Verif Require Import Base RSumLib Ext S_Sampling P_Sampling T_Stable P_Kanter P_HalfLine.
From Coq Require Import Psatz Classical_Prop.
Local Close Scope Z_scope. Open Scope R_scope.

Lemma exp_le x y : x <= y -> exp x <= exp y.
Proof. intros [H| ->]; [left; apply exp_increasing, H|right; reflexivity]. Qed.
Lemma incr_from0 (f df : R -> R) x : 0 <= x -> (forall y, 0 <= y <= x -> is_derive f y (df y)) -> (forall y, 0 <= y <= x -> 0 <= df y) -> f 0 <= f x.
Proof.
  intros Hx D P. destruct (MVT_gen f 0 x df) as (c & Hc & E).
  - intros y Hy. rewrite Rmin_left, Rmax_right in Hy by lra. apply D. lra.
  - intros y Hy. rewrite Rmin_left, Rmax_right in Hy by lra. apply (cont_of_d _ _ _ (D y Hy)).
  - rewrite Rmin_left, Rmax_right in Hc by lra. pose proof (P c Hc). assert (0 <= df c * (x - 0)) by (apply Rmult_le_pos; lra). lra.
Qed.
Lemma sin_conc b p : 0 <= b <= 1 -> 0 <= p <= PI -> b * sin p <= sin (b * p).
Proof.
  intros Hb Hp. pose proof (incr_from0 (fun p => sin (b * p) - b * sin p) (fun p => b * cos (b * p) - b * cos p) p ltac:(lra)) as H. cbv beta in H. rewrite Rmult_0_r, sin_0 in H.
  assert (0 - b * 0 <= sin (b * p) - b * sin p); [|lra]. apply H.
  - intros y _. evar_last; [auto_derive; [exact Logic.I|reflexivity]|]. ring.
  - intros y Hy. assert (cos y <= cos (b * y)); [|nra]. apply cos_decr_1; nra.
Qed.
Lemma sin_cos_p p : 0 <= p <= PI -> p * cos p <= sin p.
Proof.
  intros Hp. pose proof (incr_from0 (fun p => sin p - p * cos p) (fun p => p * sin p) p ltac:(lra)) as H. cbv beta in H. rewrite sin_0 in H.
  assert (0 - 0 * cos 0 <= sin p - p * cos p); [|lra]. apply H.
  - intros y _. evar_last; [auto_derive; [exact Logic.I|reflexivity]|]. ring.
  - intros y Hy. apply Rmult_le_pos; [lra|apply sin_ge_0; lra].
Qed.
Lemma sin_between p1 p p2 : 0 <= p1 -> p1 <= p -> p <= p2 -> p2 <= PI -> Rmin (sin p1) (sin p2) <= sin p.
Proof.
  intros H1 H2 H3 H4. destruct (Rle_dec p (PI / 2)) as [L|L].
  - eapply Rle_trans; [apply Rmin_l|]. apply sin_incr_1; lra.
  - eapply Rle_trans; [apply Rmin_r|]. apply sin_decr_1; lra.
Qed.
Lemma ev_exp c e : 0 < c -> 0 < e -> Rbar_locally p_infty (fun M => exp (- (c * M)) < e).
Proof.
  intros Hc He. exists (- ln e / c). intros M HM. replace e with (exp (ln e)) by (apply exp_ln, He). apply exp_increasing. apply (Rmult_lt_compat_l c) in HM; [|exact Hc]. replace (c * (- ln e / c)) with (- ln e) in HM by (field; lra). lra.
Qed.
Lemma ev_big k K : 0 < k -> 0 < K -> Rbar_locally p_infty (fun M => K < Rpower M k).
Proof.
  intros Hk HK. exists (Rpower K (/ k)). intros M HM. replace K with (Rpower (Rpower K (/ k)) k) at 1 by (rewrite Rpower_mult, Rinv_l, Rpower_1; lra).
  apply Rlt_Rpower_l; [exact Hk|]. split; [apply exp_pos|exact HM].
Qed.
Lemma ev_small k e : 0 < k -> 0 < e -> Rbar_locally p_infty (fun M => Rpower M (- k) < e).
Proof.
  intros Hk He. generalize (ev_big k (/ e) Hk (Rinv_0_lt_compat _ He)). apply filter_imp. intros M HM. rewrite Rpower_Ropp. rewrite <- (Rinv_inv e). apply Rinv_lt_contravar; [|exact HM]. apply Rmult_lt_0_compat; [apply Rinv_0_lt_compat, He|apply exp_pos].
Qed.
Lemma pos3 a b c : 0 < a -> 0 < b -> 0 < c -> 0 < a * b * c.
Proof. intros. repeat apply Rmult_lt_0_compat; assumption. Qed.
Lemma pos3' a b c : 0 < a -> 0 < b -> 0 < c -> 0 < a * (b * c).
Proof. intros. repeat apply Rmult_lt_0_compat; assumption. Qed.
Lemma ev_pos : Rbar_locally p_infty (fun M => 0 < M).
Proof. exists 0. intros; assumption. Qed.

Section Kanter2.
  Variables (al t : R).
  Hypothesis Hal : 0 < al < 1.
  Hypothesis Ht : 0 < t.
  Notation cc := (cc al). Notation kk := (kk al). Notation xx := (xx al). Notation WW := (WW al t). Notation qq := (qq t). Notation pp := (pp t). Notation mm := (mm t). Notation II := (II al t). Notation cond := (cond al t).
  Definition be := (1 - al) / al.
  Definition cw (w : R) : R := t * Rpower w (- be).
  Definition K1 (p : R) : R := kanter al p 1.
  Lemma K1_pos p : 0 < p < PI -> 0 < K1 p.
  Proof. intros H. destruct (al_in al Hal p H) as [A _]. unfold K1, kanter. apply Rmult_lt_0_compat; [|apply exp_pos]. apply Rdiv_lt_0_compat; [apply sp, A|apply exp_pos]. Qed.
  Lemma K1_cont p : 0 < p < PI -> continuity_pt K1 p.
  Proof.
    intros H. destruct (al_in al Hal p H) as [A1 A2]. pose proof (sp p H). pose proof (sp _ A2). apply continuity_pt_filterlim. apply (ex_derive_continuous (V := R_NormedModule) K1). unfold K1, kanter, Rpower. auto_derive. repeat split; try lra. apply Rgt_not_eq, exp_pos.
  Qed.
  Lemma cond_pg p w : 0 < p < PI -> 0 < w -> cond p w = pg cw (K1 p) w.
  Proof.
    intros H Hw. destruct (al_in al Hal p H) as [A1 A2]. pose proof (sp _ A2) as S2. unfold cond, P_Kanter.cond, pg, cw, K1, kanter. do 3 f_equal. rewrite Rdiv_1. fold be.
    assert (Y : Rpower (sin ((1 - al) * p) / w) be = Rpower (sin ((1 - al) * p)) be * Rpower w (- be)).
    { unfold Rdiv. rewrite <- Rpower_mult_distr by (try exact S2; apply Rinv_0_lt_compat, Hw). f_equal. unfold Rpower. f_equal. rewrite ln_Rinv by exact Hw. ring. }
    rewrite Y. ring.
  Qed.
  Lemma cw_cont w : 0 < w -> continuity_pt cw w.
  Proof. intros H. apply continuity_pt_filterlim. apply (ex_derive_continuous (V := R_NormedModule) cw). unfold cw, Rpower. auto_derive. lra. Qed.
  Lemma cw_pos w : 0 < w -> 0 <= cw w.
  Proof. intros _. left. apply Rmult_lt_0_compat; [exact Ht|apply exp_pos]. Qed.
  Definition DD (p : R) : R := pv cw (K1 p).
  Lemma DD_half p : 0 < p < PI -> half_line (cond p) (DD p).
  Proof.
    intros H. pose proof (K1_pos p H). eapply half_ext; [|apply (value_half (pg cw (K1 p))); [apply pg_cont, cw_cont|intros w Hw; apply pg_bd; [exact cw_pos|lra|exact Hw]]]. intros w Hw. symmetry. apply cond_pg; assumption.
  Qed.
  Lemma DD_cont p : 0 < p < PI -> continuity_pt DD p.
  Proof.
    intros H. apply (continuity_pt_comp K1 (pv cw)); [apply K1_cont, H|]. apply pv_cont; [exact cw_cont|exact cw_pos|apply K1_pos, H].
  Qed.
  Lemma DD_tail p x y : 0 < p < PI -> 0 < x -> x <= y -> Rabs (RInt (cond p) x y - DD p) <= x + exp (- y).
  Proof.
    intros H Hx Hy. pose proof (K1_pos p H). assert (K0 : 0 <= K1 p) by lra. pose proof (proj2 (value_tail (pg cw (K1 p)) (pg_cont cw cw_cont (K1 p)) (fun w => pg_bd cw cw_pos (K1 p) w K0)) x y Hx Hy) as V.
    replace (RInt (cond p) x y) with (RInt (pg cw (K1 p)) x y); [exact V|]. apply RInt_ext. intros w Hw. rewrite Rmin_left, Rmax_right in Hw by lra. symmetry. apply cond_pg; [exact H|lra].
  Qed.
  (** bounds *)
  Lemma sq_le x y : 0 <= y -> x * x <= y * y -> Rabs x <= y.
  Proof. intros Hy H. apply Rsqr_le_abs_0 in H. rewrite (Rabs_pos_eq y Hy) in H. exact H. Qed.
  Lemma mm_bd p r : 0 < p < PI -> 0 < r -> Rabs (mm p r) <= / sin p.
  Proof.
    intros H Hr. pose proof (sp p H) as S. pose proof (qq_pos t Ht p r H) as Q. pose proof (qq_1 t p r) as Q1. pose proof (qq_2 t p r) as Q2.
    set (u := r * sin p) in *. set (v := r - t * cos p) in *. set (q := qq p r) in *. fold q in Q1, Q2.
    assert (E : mm p r = - (u * v / q) * / sin p). { unfold mm, P_Kanter.mm. fold q. unfold u, v. field. split; lra. }
    rewrite E, Rabs_mult, Rabs_Ropp, (Rabs_pos_eq (/ sin p)) by (left; apply Rinv_0_lt_compat, S).
    rewrite <- (Rmult_1_l (/ sin p)) at 2. apply Rmult_le_compat_r; [left; apply Rinv_0_lt_compat, S|].
    unfold Rdiv. rewrite Rabs_mult, (Rabs_pos_eq (/ q)) by (left; apply Rinv_0_lt_compat, Q). apply Rmult_le_reg_r with q; [exact Q|]. rewrite Rmult_assoc, Rinv_l, Rmult_1_l, Rmult_1_r by lra.
    pose proof (Rle_0_sqr (t - r * cos p)) as A1. pose proof (Rle_0_sqr (t * sin p)) as A2. unfold Rsqr in A1, A2.
    assert (U : u * u <= q) by lra. assert (V : v * v <= q) by lra.
    apply Rabs_le. pose proof (Rle_0_sqr (u - v)) as A3. pose proof (Rle_0_sqr (u + v)) as A4. unfold Rsqr in A3, A4. lra.
  Qed.
  Lemma cc_low p : 0 < p < PI -> al <= cc p.
  Proof. intros H. pose proof (sp p H) as S. unfold cc, P_Kanter.cc. apply Rmult_le_reg_r with (sin p); [exact S|]. unfold Rdiv. rewrite Rmult_assoc, Rinv_l, Rmult_1_r by lra. apply sin_conc; lra. Qed.
  Lemma kk_low p : 0 < p < PI -> 1 - al <= kk p.
  Proof. intros H. pose proof (sp p H) as S. unfold kk, P_Kanter.kk. apply Rmult_le_reg_r with (sin p); [exact S|]. unfold Rdiv. rewrite Rmult_assoc, Rinv_l, Rmult_1_r by lra. apply sin_conc; lra. Qed.
  Lemma kk_high p : 0 < p < PI -> kk p <= / sin p.
  Proof. intros H. pose proof (sp p H) as S. unfold kk, P_Kanter.kk, Rdiv. rewrite <- (Rmult_1_l (/ sin p)) at 2. apply Rmult_le_compat_r; [left; apply Rinv_0_lt_compat, S|apply SIN_bound]. Qed.
  Lemma WW_le1 p r : 0 < p < PI -> 0 < r -> WW p r <= 1.
  Proof.
    intros H Hr. rewrite <- exp_0. apply exp_le. pose proof (cc_pos al Hal p H). pose proof (kk_pos al Hal p H). pose proof (xx_pos al r).
    assert (0 < t * cc p * xx r) by (apply pos3; assumption). assert (0 < kk p * (r * xx r)) by (apply pos3'; assumption). lra.
  Qed.
  Lemma WW_a p r : 0 < p < PI -> 0 < r -> WW p r <= exp (- (t * al * xx r)).
  Proof.
    intros H Hr. apply exp_le. pose proof (cc_low p H). pose proof (kk_pos al Hal p H). pose proof (xx_pos al r).
    assert (0 < kk p * (r * xx r)) by (apply pos3'; assumption). assert (t * al * xx r <= t * cc p * xx r); [|lra]. apply Rmult_le_compat_r; [lra|]. apply Rmult_le_compat_l; lra.
  Qed.
  Lemma WW_b p r : 0 < p < PI -> 0 < r -> WW p r <= exp (- ((1 - al) * (r * xx r))).
  Proof.
    intros H Hr. apply exp_le. pose proof (cc_pos al Hal p H). pose proof (kk_low p H). pose proof (xx_pos al r).
    assert (0 < t * cc p * xx r) by (apply pos3; assumption). assert ((1 - al) * (r * xx r) <= kk p * (r * xx r)); [|lra]. apply Rmult_le_compat_r; [|assumption]. apply Rmult_le_pos; lra.
  Qed.
  Definition aM (M : R) : R := Rpower M (- / (1 - al)).
  Definition bM (M : R) : R := Rpower M (/ al).
  Lemma aM_pos M : 0 < aM M. Proof. apply exp_pos. Qed.
  Lemma bM_pos M : 0 < bM M. Proof. apply exp_pos. Qed.
  Lemma xx_aM M : 0 < M -> xx (aM M) = M.
  Proof. intros H. unfold xx, P_Kanter.xx, aM. rewrite Rpower_mult. replace (- / (1 - al) * (al - 1)) with 1 by (field; lra). apply Rpower_1, H. Qed.
  Lemma xx_bM M : 0 < M -> bM M * xx (bM M) = M.
  Proof. intros H. unfold xx, P_Kanter.xx, bM. rewrite Rpower_mult, <- Rpower_plus. replace (/ al + / al * (al - 1)) with 1 by (field; lra). apply Rpower_1, H. Qed.
  Lemma a_aM M : 0 < M -> aM M * M = Rpower M (- (al / (1 - al))).
  Proof. intros H. unfold aM. rewrite <- (Rpower_1 M H) at 2. rewrite <- Rpower_plus. f_equal. field. lra. Qed.
  Definition del (M : R) : R := exp (- ((1 - al) * M)) + exp (- (t * al * M)) + Rpower M (- (al / (1 - al))) + exp (- ((1 - al) * M)).
  Lemma del_small e : 0 < e -> Rbar_locally p_infty (fun M => del M < e).
  Proof.
    intros He. assert (P1 : 0 < t * al) by (apply Rmult_lt_0_compat; lra). assert (P2 : 0 < al / (1 - al)) by (apply Rdiv_lt_0_compat; lra).
    assert (P3 : 0 < 1 - al) by lra. assert (P4 : 0 < e / 4) by lra.
    generalize (filter_and _ _ (ev_exp (1 - al) (e / 4) P3 P4) (filter_and _ _ (ev_exp (t * al) (e / 4) P1 P4) (ev_small _ (e / 4) P2 P4))).
    apply filter_imp. intros M (A & B & C). unfold del. lra.
  Qed.
  Lemma slope_bd M p : 0 < M -> aM M <= bM M -> 0 < p < PI ->
    Rabs (WW p (bM M) * mm p (bM M) - WW p (aM M) * mm p (aM M) - RInt (fun r => dd al t p r) (aM M) (bM M) + DD p) <= del M / sin p.
  Proof.
    intros HM Hab H. pose proof (sp p H) as S. pose proof (aM_pos M) as A0. pose proof (bM_pos M) as B0. pose proof (kk_pos al Hal p H) as K0. pose proof (kk_low p H) as K2. pose proof (kk_high p H) as K3.
    assert (I1 : 1 <= / sin p). { rewrite <- Rinv_1 at 1. apply Rinv_le_contravar; [exact S|apply SIN_bound]. }
    rewrite (dd_cond al t Hal) by assumption. rewrite xx_aM, xx_bM, a_aM by exact HM. set (ra := Rpower M (- (al / (1 - al)))). assert (R0 : 0 < ra) by apply exp_pos.
    assert (T : Rabs (RInt (cond p) (kk p * ra) (kk p * M) - DD p) <= kk p * ra + exp (- (kk p * M))).
    { apply DD_tail; [exact H|apply Rmult_lt_0_compat; assumption|]. apply Rmult_le_compat_l; [lra|].
      assert (F1 : ra = Rpower (aM M) al) by (unfold ra, aM; rewrite Rpower_mult; f_equal; field; lra). assert (F2 : M = Rpower (bM M) al) by (unfold bM; rewrite Rpower_mult, Rinv_l, Rpower_1; lra).
      apply Rle_trans with (Rpower (bM M) al); [rewrite F1; apply Rle_Rpower_l; lra|right; symmetry; exact F2]. }
    assert (E1 : Rabs (WW p (bM M) * mm p (bM M)) <= exp (- ((1 - al) * M)) * / sin p).
    { rewrite Rabs_mult, (Rabs_pos_eq (WW p (bM M))) by (left; apply WW_pos). apply Rmult_le_compat; [left; apply WW_pos|apply Rabs_pos| |apply mm_bd; assumption]. pose proof (WW_b p (bM M) H B0) as W. rewrite xx_bM in W by exact HM. exact W. }
    assert (E2 : Rabs (WW p (aM M) * mm p (aM M)) <= exp (- (t * al * M)) * / sin p).
    { rewrite Rabs_mult, (Rabs_pos_eq (WW p (aM M))) by (left; apply WW_pos). apply Rmult_le_compat; [left; apply WW_pos|apply Rabs_pos| |apply mm_bd; assumption]. pose proof (WW_a p (aM M) H A0) as W. rewrite xx_aM in W by exact HM. exact W. }
    assert (E3 : kk p * ra <= ra * / sin p) by (rewrite Rmult_comm; apply Rmult_le_compat_l; lra).
    assert (E4 : exp (- (kk p * M)) <= exp (- ((1 - al) * M)) * / sin p).
    { apply Rle_trans with (exp (- ((1 - al) * M))); [apply exp_le; assert ((1 - al) * M <= kk p * M) by (apply Rmult_le_compat_r; lra); lra|]. rewrite <- (Rmult_1_r (exp (- ((1 - al) * M)))) at 1. apply Rmult_le_compat_l; [left; apply exp_pos|exact I1]. }
    unfold del. fold ra. unfold Rdiv. rewrite !Rmult_plus_distr_r. apply Rabs_le_between in T. apply Rabs_le_between in E1. apply Rabs_le_between in E2. apply Rabs_le. lra.
  Qed.
  Lemma DD_ex p1 p2 : 0 < p1 -> p1 <= p2 -> p2 < PI -> ex_RInt DD p1 p2.
  Proof. intros. apply (ex_RInt_continuous (V := R_CompleteNormedModule)). intros p Hp. rewrite Rmin_left, Rmax_right in Hp by lra. apply continuity_pt_filterlim, DD_cont. lra. Qed.
  Lemma balance M p1 p2 : 0 < M -> aM M <= bM M -> 0 < p1 -> p1 <= p2 -> p2 < PI ->
    Rabs (II (aM M) (bM M) p2 - II (aM M) (bM M) p1 + RInt DD p1 p2) <= del M / Rmin (sin p1) (sin p2) * PI.
  Proof.
    intros HM Hab H1 H2 H3. pose proof PI_RGT_0 as PP.
    assert (D : forall p, p1 <= p <= p2 -> is_derive (fun p => II (aM M) (bM M) p + RInt DD p1 p) p (WW p (bM M) * mm p (bM M) - WW p (aM M) * mm p (aM M) - RInt (fun r => dd al t p r) (aM M) (bM M) + DD p)).
    { intros p Hp. apply (is_derive_plus (V := R_NormedModule) (II (aM M) (bM M)) (fun p => RInt DD p1 p)); [apply II_derive; try assumption; [apply aM_pos|lra]|].
      apply (is_derive_RInt (V := R_NormedModule) DD (fun p => RInt DD p1 p) p1).
      - apply (near_pos _ p 0 PI ltac:(lra)). intros y Hy. apply (RInt_correct (V := R_CompleteNormedModule)). apply (ex_RInt_continuous (V := R_CompleteNormedModule)). intros z Hz. apply continuity_pt_filterlim, DD_cont. revert Hz. unfold Rmin, Rmax. destruct Rle_dec; lra.
      - apply continuity_pt_filterlim, DD_cont. lra. }
    destruct (MVT_gen (fun p => II (aM M) (bM M) p + RInt DD p1 p) p1 p2 (fun p => WW p (bM M) * mm p (bM M) - WW p (aM M) * mm p (aM M) - RInt (fun r => dd al t p r) (aM M) (bM M) + DD p)) as (c & Hc & E).
    - intros y Hy. rewrite Rmin_left, Rmax_right in Hy by lra. apply D. lra.
    - intros y Hy. rewrite Rmin_left, Rmax_right in Hy by lra. apply (cont_of_d _ _ _ (D y Hy)).
    - rewrite Rmin_left, Rmax_right in Hc by lra. cbv beta in E. assert (Z0 : RInt DD p1 p1 = 0) by (apply (RInt_point (V := R_CompleteNormedModule))). rewrite Z0 in E.
      replace (II (aM M) (bM M) p2 - II (aM M) (bM M) p1 + RInt DD p1 p2) with (II (aM M) (bM M) p2 + RInt DD p1 p2 - (II (aM M) (bM M) p1 + 0)) by ring. rewrite E, Rabs_mult.
      assert (PS : 0 < Rmin (sin p1) (sin p2)) by (apply Rmin_pos; apply sp; lra).
      apply Rmult_le_compat; [apply Rabs_pos|apply Rabs_pos| |rewrite Rabs_pos_eq; lra].
      eapply Rle_trans; [apply slope_bd; try assumption; lra|]. unfold Rdiv. apply Rmult_le_compat_l.
      + unfold del, Rpower. pose proof (exp_pos (- ((1 - al) * M))). pose proof (exp_pos (- (t * al * M))). pose proof (exp_pos (- (al / (1 - al)) * ln M)). lra.
      + apply Rinv_le_contravar; [exact PS|]. apply sin_between; lra.
  Qed.
End Kanter2.
