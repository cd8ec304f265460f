(** The ends of the angle range, and the Laplace transform of Kanter's representation. *)
From Coquelicot Require Import Coquelicot.
From Verif Require Import Base RSumLib Ext S_Sampling P_Sampling T_Stable P_Kanter P_HalfLine P_Kanter2.
From Coq Require Import Psatz Classical_Prop.
Local Close Scope Z_scope. Open Scope R_scope.

Definition cau (k c r : R) : R := k / (k * k + (r - c) * (r - c)).
Lemma cau_den k c r : 0 < k -> 0 < k * k + (r - c) * (r - c).
Proof. intros H. pose proof (Rle_0_sqr (r - c)) as A. unfold Rsqr in A. pose proof (Rmult_lt_0_compat _ _ H H). lra. Qed.
Lemma cau_pos k c r : 0 < k -> 0 < cau k c r.
Proof. intros H. apply Rdiv_lt_0_compat; [exact H|apply cau_den, H]. Qed.
Lemma cau_int k c a b : 0 < k -> is_RInt (cau k c) a b (atan ((b - c) / k) - atan ((a - c) / k)).
Proof.
  intros H. apply (is_RInt_derive (V := R_CompleteNormedModule) (fun r => atan ((r - c) / k))).
  - intros r _. pose proof (cau_den k c r H). evar_last; [apply (is_derive_comp atan (fun r => (r - c) / k)); [apply is_derive_atan|auto_derive; [exact Logic.I|reflexivity]]|].
    unfold scal; cbn; unfold mult; cbn. unfold cau, Rsqr. field. lra.
  - intros r _. pose proof (cau_den k c r H). apply (ex_derive_continuous (V := R_NormedModule) (cau k c)). unfold cau. auto_derive. apply Rgt_not_eq. lra.
Qed.
Lemma cau_le k c a b : 0 < k -> RInt (cau k c) a b <= PI.
Proof. intros H. rewrite (is_RInt_unique (V := R_CompleteNormedModule) _ _ _ _ (cau_int k c a b H)). pose proof (atan_bound ((b - c) / k)). pose proof (atan_bound ((a - c) / k)). lra. Qed.
Lemma atan_le x y : x <= y -> atan x <= atan y.
Proof. intros [H| ->]; [left; apply atan_increasing, H|right; reflexivity]. Qed.
Lemma atan_id y : 0 <= y -> atan y <= y.
Proof.
  intros H. pose proof (incr_from0 (fun y => y - atan y) (fun y => 1 - / (1 + y²)) y H) as I. cbv beta in I. rewrite atan_0 in I. assert (0 - 0 <= y - atan y); [|lra]. apply I.
  - intros z _. apply (is_derive_minus (V := R_NormedModule) (fun y => y) atan); [apply (is_derive_id z)|apply is_derive_atan].
  - intros z _. pose proof (Rle_0_sqr z). assert (/ (1 + z²) <= 1); [|lra]. rewrite <- Rinv_1 at 2. apply Rinv_le_contravar; lra.
Qed.
Lemma cau_mass k c a b y : 0 < k -> 0 < y -> k / y <= b - c -> a - c <= - (k / y) -> PI - 2 * y <= RInt (cau k c) a b.
Proof.
  intros H Hy Hb Ha. rewrite (is_RInt_unique (V := R_CompleteNormedModule) _ _ _ _ (cau_int k c a b H)).
  assert (A1 : atan (/ y) <= atan ((b - c) / k)). { apply atan_le. apply Rmult_le_reg_r with k; [exact H|]. unfold Rdiv. rewrite Rmult_assoc, Rinv_l, Rmult_1_r by lra. unfold Rdiv in Hb. lra. }
  assert (A2 : atan ((a - c) / k) <= atan (- / y)). { apply atan_le. apply Rmult_le_reg_r with k; [exact H|]. unfold Rdiv. rewrite Rmult_assoc, Rinv_l, Rmult_1_r by lra. unfold Rdiv in Ha. lra. }
  rewrite atan_opp in A2. rewrite atan_inv in A1, A2 by exact Hy. pose proof (atan_id y ltac:(lra)). lra.
Qed.
Lemma cc_lim al : 0 < al < 1 -> filterlim (cc al) (at_right 0) (locally al).
Proof.
  intros Hal.
    apply (filterlim_le_le (fun _ => al) (cc al) (fun p => al / cos p) (Finite al)).
    - pose proof PI_RGT_0. exists (mkposreal (PI / 2) ltac:(lra)). intros p Bp Pp. change (Rabs (p - 0) < PI / 2) in Bp. rewrite Rminus_0_r, Rabs_pos_eq in Bp by lra. split; [apply cc_low; [exact Hal|lra]|].
      assert (C : 0 < cos p) by (apply cos_gt_0; lra). pose proof (sp p ltac:(lra)) as S. unfold cc. apply Rmult_le_reg_r with (sin p); [exact S|]. unfold Rdiv. rewrite Rmult_assoc, Rinv_l, Rmult_1_r by lra.
      apply Rle_trans with (al * p). { left. apply sin_lt_x. apply Rmult_lt_0_compat; lra. }
      rewrite Rmult_assoc. apply Rmult_le_compat_l; [lra|]. apply Rmult_le_reg_r with (cos p); [exact C|]. rewrite (Rmult_comm (/ cos p)), Rmult_assoc, Rinv_l, Rmult_1_r by lra. apply sin_cos_p. lra.
    - apply filterlim_const.
    - apply (filterlim_filter_le_1 (F := locally 0) (G := at_right 0)); [apply filter_le_within|]. replace (Rbar_locally al) with (locally (al / cos 0)) by (rewrite cos_0, Rdiv_1; reflexivity). apply (ex_derive_continuous (V := R_NormedModule) (fun p => al / cos p)). auto_derive. rewrite cos_0. lra.
Qed.
Lemma mulF {T} (F : (T -> Prop) -> Prop) {FF : Filter F} (f g : T -> R) a b : filterlim f F (locally a) -> filterlim g F (locally b) -> filterlim (fun z => f z * g z) F (locally (a * b)).
Proof. intros Hf Hg. apply (filterlim_comp_2 f g (fun x y => x * y) Hf Hg). apply (filterlim_mult (K := R_AbsRing) a b). Qed.
Lemma addF {T} (F : (T -> Prop) -> Prop) {FF : Filter F} (f g : T -> R) a b : filterlim f F (locally a) -> filterlim g F (locally b) -> filterlim (fun z => f z + g z) F (locally (a + b)).
Proof. intros Hf Hg. apply (filterlim_comp_2 f g (fun x y => x + y) Hf Hg). apply (filterlim_plus (V := R_NormedModule) a b). Qed.
Section Kanter3.
  Variables (al t : R).
  Hypothesis Hal : 0 < al < 1.
  Hypothesis Ht : 0 < t.
  Notation cc := (cc al). Notation kk := (kk al). Notation xx := (xx al). Notation WW := (WW al t). Notation qq := (qq t). Notation pp := (pp t). Notation II := (II al t). Notation cond := (cond al t). Notation DD := (DD al t).
  Lemma pp_cau p r : pp p r = cau (t * sin p) (t * cos p) r.
  Proof. unfold pp, P_Kanter.pp, cau. rewrite qq_1. f_equal. ring. Qed.
  Lemma pp_pos p r : 0 < p < PI -> 0 < pp p r.
  Proof. intros H. rewrite pp_cau. apply cau_pos. apply Rmult_lt_0_compat; [exact Ht|apply sp, H]. Qed.
  Lemma II_pos a b p : 0 < a -> a <= b -> 0 < p < PI -> 0 <= II a b p.
  Proof. intros Ha Hab H. apply RInt_ge_0; [exact Hab|apply Wp_ex; assumption|]. intros r _. apply Rmult_le_pos; left; [apply WW_pos|apply pp_pos, H]. Qed.
  Lemma II_pi a b p : 0 < a -> a <= b -> 0 < p < PI -> cos p <= 0 -> II a b p <= sin p * PI.
  Proof.
    intros Ha Hab H Hc. pose proof (sp p H) as S. apply Rle_trans with (RInt (fun r => sin p * cau t 0 r) a b).
    - apply RInt_le; [exact Hab|apply Wp_ex; assumption|eexists; apply (is_RInt_scal (V := R_NormedModule) (cau t 0)), cau_int, Ht|].
      intros r Hr. pose proof (WW_le1 al t Hal Ht p r H ltac:(lra)) as W1. pose proof (WW_pos al t p r) as W2. pose proof (pp_pos p r H) as P0.
      apply Rle_trans with (pp p r); [rewrite <- (Rmult_1_l (pp p r)) at 2; apply Rmult_le_compat_r; lra|].
      unfold pp, P_Kanter.pp, cau. rewrite Rminus_0_r. unfold Rdiv. replace (t * sin p * / qq p r) with (sin p * (t * / qq p r)) by ring. apply Rmult_le_compat_l; [lra|]. apply Rmult_le_compat_l; [lra|]. apply Rinv_le_contravar.
      + pose proof (Rmult_lt_0_compat _ _ Ht Ht). pose proof (Rmult_lt_0_compat r r ltac:(lra) ltac:(lra)). lra.
      + unfold qq, P_Kanter.qq. assert (0 <= 2 * t * r * - cos p). { apply Rmult_le_pos; [|lra]. apply Rmult_le_pos; lra. } lra.
    - rewrite (RInt_scal (V := R_CompleteNormedModule) (cau t 0)) by (eexists; apply cau_int, Ht). unfold scal; cbn; unfold mult; cbn. apply Rmult_le_compat_l; [lra|]. apply cau_le, Ht.
  Qed.
  Definition W0 := exp (- Rpower t al).
  Lemma WW_lim : filterlim (fun z => WW (fst z) (snd z)) (filter_prod (at_right 0) (locally t)) (locally W0).
  Proof.
    set (F := filter_prod (at_right 0) (locally t)). assert (FF : Filter F) by (unfold F; typeclasses eauto).
    assert (L1 : filterlim (fun z => cc (fst z)) F (locally al)) by (apply (filterlim_comp _ _ _ fst cc F (at_right 0)); [apply filterlim_fst|apply cc_lim, Hal]).
    assert (L2 : filterlim (fun z => kk (fst z)) F (locally (1 - al))) by (apply (filterlim_comp _ _ _ fst kk F (at_right 0)); [apply filterlim_fst|apply (cc_lim (1 - al)); lra]).
    assert (L3 : filterlim (fun z => xx (snd z)) F (locally (xx t))) by (apply (filterlim_comp _ _ _ snd xx F (locally t)); [apply filterlim_snd|apply continuity_pt_filterlim, xx_cont, Ht]).
    assert (L4 : filterlim (fun z : R * R => snd z) F (locally t)) by apply filterlim_snd.
    assert (L5 : filterlim (fun z => - t * (cc (fst z) * xx (snd z)) + -1 * (kk (fst z) * (snd z * xx (snd z)))) F (locally (- t * (al * xx t) + -1 * ((1 - al) * (t * xx t))))).
    { apply addF; [exact FF| |]; (apply mulF; [exact FF|apply filterlim_const|]).
      - apply mulF; [exact FF|exact L1|exact L3].
      - apply mulF; [exact FF|exact L2|]. apply mulF; [exact FF|exact L4|exact L3]. }
    replace W0 with (exp (- t * (al * xx t) + -1 * ((1 - al) * (t * xx t)))).
    - apply (filterlim_ext (fun z => exp (- t * (cc (fst z) * xx (snd z)) + -1 * (kk (fst z) * (snd z * xx (snd z)))))); [intros z; unfold WW, P_Kanter.WW; f_equal; ring|].
      apply (filterlim_comp _ _ _ _ exp F _ _ L5). apply continuous_exp.
    - unfold W0. f_equal. unfold xx, P_Kanter.xx. replace (Rpower t al) with (t * Rpower t (al - 1)); [ring|]. rewrite <- (Rpower_1 t Ht) at 1. rewrite <- Rpower_plus. f_equal. ring.
  Qed.
  Lemma W0_bd : 0 < W0 < 1.
  Proof. apply exp_lt1, exp_pos. Qed.
  Lemma II_zero e : 0 < e -> at_right 0 (fun p => 0 < p < PI /\ forall a b, 0 < a -> a <= t / 2 -> 2 * t <= b -> Rabs (II a b p - PI * W0) <= e).
  Proof.
    intros He. pose proof PI_RGT_0 as PP. set (e1 := e / (4 * PI)). assert (E1 : 0 < e1) by (apply Rdiv_lt_0_compat; lra). 
    assert (E2 : e1 * PI = e / 4) by (unfold e1; field; lra).
    assert (L : filter_prod (at_right 0) (locally t) (fun z => Rabs (WW (fst z) (snd z) - W0) < e1)) by (apply (WW_lim (fun v => Rabs (v - W0) < e1)); exists (mkposreal e1 E1); intros y By; exact By).
    destruct L as [P Q HP [rho HQ] L]. pose proof (cond_pos rho) as Rh. set (rh := rho / 2). assert (R0 : 0 < rh < rho) by (unfold rh; lra).
    (* sin p small *)
    set (s0 := Rmin (1 / 4) (Rmin (e / 32) (e * rh / (8 * PI * t)))).
    assert (S0 : 0 < s0). { unfold s0. repeat apply Rmin_pos; try lra. apply Rdiv_lt_0_compat; [apply Rmult_lt_0_compat; lra|]. apply Rmult_lt_0_compat; lra. }
    assert (S1 : s0 <= 1 / 4 /\ s0 <= e / 32 /\ s0 <= e * rh / (8 * PI * t)).
    { unfold s0. split; [apply Rmin_l|]. split; (eapply Rle_trans; [apply Rmin_r|]); [apply Rmin_l|apply Rmin_r]. }
    assert (P0 : at_right 0 (fun p => 0 < p < PI / 2 /\ p < s0)).
    { assert (Z : 0 < Rmin (PI / 2) s0) by (apply Rmin_pos; lra). exists (mkposreal _ Z). intros p Bp Pp. change (Rabs (p - 0) < Rmin (PI / 2) s0) in Bp. rewrite Rminus_0_r, Rabs_pos_eq in Bp by lra. pose proof (Rmin_l (PI / 2) s0). pose proof (Rmin_r (PI / 2) s0). lra. }
    generalize (filter_and _ _ HP P0). apply filter_imp. intros p [Pp [Hp0 Hps]]. assert (H : 0 < p < PI) by lra. split; [exact H|]. intros a b Ha Hat Hbt.
    pose proof (sp p H) as S. assert (Sp : sin p < s0) by (pose proof (sin_lt_x p ltac:(lra)); lra). set (k := t * sin p). assert (K0 : 0 < k) by (apply Rmult_lt_0_compat; assumption).
    assert (C34 : 3 / 4 <= cos p <= 1). { split; [|apply COS_bound]. pose proof (sin2_cos2 p) as SC. unfold Rsqr in SC. assert (0 < cos p) by (apply cos_gt_0; lra). assert (sin p * sin p < 1 / 16) by nra. nra. }
    assert (I1 : ex_RInt (fun r => WW p r * pp p r) a b) by (apply Wp_ex; lra).
    pose proof (cau_int k (t * cos p) a b K0) as J0. assert (Jx : is_RInt (pp p) a b (RInt (cau k (t * cos p)) a b)). { eapply is_RInt_ext; [|apply (RInt_correct (V := R_CompleteNormedModule)); eexists; exact J0]. intros r _. symmetry. apply pp_cau. }
    set (m := RInt (cau k (t * cos p)) a b) in *. assert (M1 : m <= PI) by (apply cau_le, K0).
    assert (M2 : PI - 2 * (4 * sin p) <= m). { apply cau_mass; [exact K0|lra| |]; (replace (k / (4 * sin p)) with (t / 4) by (unfold k; field; lra)); nra. }
    assert (D : Rabs (RInt (fun r => (WW p r - W0) * pp p r) a b) <= e1 * m + 2 * k / rh * RInt (cau rh t) a b).
    { assert (G : is_RInt (fun r => e1 * pp p r + 2 * k / rh * cau rh t r) a b (e1 * m + 2 * k / rh * RInt (cau rh t) a b)).
      { apply (is_RInt_plus (V := R_NormedModule) (fun r => e1 * pp p r) (fun r => 2 * k / rh * cau rh t r)); [apply (is_RInt_scal (V := R_NormedModule) (pp p)), Jx|apply (is_RInt_scal (V := R_NormedModule) (cau rh t))]. apply (RInt_correct (V := R_CompleteNormedModule)). eexists. apply cau_int. lra. }
      assert (G2 : ex_RInt (fun r => (WW p r - W0) * pp p r) a b).
      { apply (ex_RInt_ext (fun r => minus (WW p r * pp p r) (scal W0 (pp p r)))); [intros r _; unfold minus, plus, opp, scal; cbn; unfold mult; cbn; match goal with |- ?a = ?b => change (@eq R a b) end; ring|]. apply (ex_RInt_minus (V := R_NormedModule)); [exact I1|]. apply (ex_RInt_scal (V := R_NormedModule)). eexists. exact Jx. }
      apply (norm_RInt_le (V := R_NormedModule) (fun r => (WW p r - W0) * pp p r) (fun r => e1 * pp p r + 2 * k / rh * cau rh t r) a b); [lra| |apply (RInt_correct (V := R_CompleteNormedModule)), G2|exact G].
      intros r Hr. change (Rabs ((WW p r - W0) * pp p r) <= e1 * pp p r + 2 * k / rh * cau rh t r).
      pose proof (pp_pos p r H) as Pr. pose proof (cau_pos rh t r ltac:(lra)) as Cr. rewrite Rabs_mult, (Rabs_pos_eq (pp p r)) by lra.
      assert (N : 0 <= 2 * k / rh * cau rh t r). { apply Rmult_le_pos; [|lra]. left. apply Rdiv_lt_0_compat; lra. }
      destruct (Rlt_dec (Rabs (r - t)) rho) as [Hn|Hn].
      - assert (Rabs (WW p r - W0) < e1) by (apply (L p r Pp); apply HQ; exact Hn). assert (Rabs (WW p r - W0) * pp p r <= e1 * pp p r) by (apply Rmult_le_compat_r; lra). lra.
      - assert (W1 : Rabs (WW p r - W0) <= 1). { pose proof W0_bd. pose proof (WW_pos al t p r). pose proof (WW_le1 al t Hal Ht p r H ltac:(lra)). apply Rabs_le. lra. }
        assert (0 <= e1 * pp p r) by (apply Rmult_le_pos; lra). assert (Rabs (WW p r - W0) * pp p r <= pp p r) by (rewrite <- (Rmult_1_l (pp p r)) at 2; apply Rmult_le_compat_r; lra).
        assert (X : pp p r <= 2 * k / rh * cau rh t r); [|lra].
        set (d := (r - t) * (r - t)). assert (Dd : rh * rh <= d). { unfold d. replace ((r - t) * (r - t)) with (Rabs (r - t) * Rabs (r - t)) by (rewrite <- Rabs_mult; apply Rabs_pos_eq; pose proof (Rle_0_sqr (r - t)); assumption). apply Rmult_le_compat; lra. }
        assert (Q1 : d <= qq p r). { unfold d, qq, P_Kanter.qq. assert (0 <= 2 * t * r * (1 - cos p)); [|lra]. apply Rmult_le_pos; [|lra]. apply Rmult_le_pos; lra. }
        assert (RR : 0 < rh * rh) by (apply Rmult_lt_0_compat; lra).
        replace (2 * k / rh * cau rh t r) with (k * (2 / (rh * rh + d))) by (unfold cau; fold d; field; split; lra).
        unfold pp, P_Kanter.pp. fold k. unfold Rdiv at 1. apply Rmult_le_compat_l; [lra|]. apply Rmult_le_reg_r with (qq p r); [lra|]. rewrite Rinv_l by lra.
        apply Rmult_le_reg_r with (rh * rh + d); [lra|]. replace (2 / (rh * rh + d) * qq p r * (rh * rh + d)) with (2 * qq p r) by (field; lra). lra. }
    assert (E : II a b p - PI * W0 = RInt (fun r => (WW p r - W0) * pp p r) a b + W0 * (m - PI)).
    { assert (Y : is_RInt (fun r => (WW p r - W0) * pp p r) a b (II a b p - W0 * m)).
      { pose proof (is_RInt_minus (V := R_NormedModule) _ _ _ _ _ _ (RInt_correct (V := R_CompleteNormedModule) _ _ _ I1) (is_RInt_scal (V := R_NormedModule) _ _ _ W0 _ Jx)) as Y. eapply is_RInt_ext; [|exact Y].
        intros r _. unfold minus, plus, opp, scal; cbn; unfold mult; cbn. match goal with |- ?a = ?b => change (@eq R a b) end. ring. }
      rewrite (is_RInt_unique (V := R_CompleteNormedModule) _ _ _ _ Y). ring. }
    rewrite E. pose proof (cau_le rh t a b ltac:(lra)) as CL. pose proof W0_bd as WB.
    assert (B1 : e1 * m <= e / 4) by (rewrite <- E2; apply Rmult_le_compat_l; lra).
    assert (B2 : 2 * k / rh * RInt (cau rh t) a b <= e / 4).
    { apply Rle_trans with (2 * k / rh * PI); [apply Rmult_le_compat_l; [left; apply Rdiv_lt_0_compat; lra|exact CL]|].
      assert (B3 : sin p <= e * rh / (8 * PI * t)) by lra. apply (Rmult_le_compat_l (2 * t / rh * PI)) in B3; [|apply Rmult_le_pos; [|lra]; left; apply Rdiv_lt_0_compat; lra].
      replace (2 * t / rh * PI * (e * rh / (8 * PI * t))) with (e / 4) in B3 by (field; repeat split; lra). replace (2 * k / rh * PI) with (2 * t / rh * PI * sin p) by (unfold k; field; lra). exact B3. }
    assert (B4 : Rabs (W0 * (m - PI)) <= e / 4).
    { rewrite Rabs_mult, (Rabs_pos_eq W0) by lra. rewrite Rabs_left1 by lra. apply Rle_trans with (1 * - (m - PI)); [apply Rmult_le_compat_r; lra|]. lra. }
    eapply Rle_trans; [apply Rabs_triang|]. lra.
  Qed.
  Theorem kanter_sum : is_RInt_gen DD (at_right 0) (at_left PI) (PI * W0).
  Proof.
    intros P [e He]. unfold filtermapi. pose proof (cond_pos e) as Pe. pose proof PI_RGT_0 as PP.
    assert (Z : at_left PI (fun p => PI / 2 < p < PI /\ sin p * PI < e / 4)).
    { assert (E1 : 0 < Rmin (PI / 2) (e / (4 * PI))) by (apply Rmin_pos; [lra|apply Rdiv_lt_0_compat; lra]). exists (mkposreal _ E1). intros p Bp Pp. change (Rabs (p - PI) < Rmin (PI / 2) (e / (4 * PI))) in Bp. rewrite Rabs_left in Bp by lra. pose proof (Rmin_l (PI / 2) (e / (4 * PI))). pose proof (Rmin_r (PI / 2) (e / (4 * PI))).
      split; [lra|]. rewrite <- sin_PI_x. pose proof (sin_lt_x (PI - p) ltac:(lra)). assert (sin (PI - p) < e / (4 * PI)) by lra. replace (e / 4) with (e / (4 * PI) * PI) by (field; lra). apply Rmult_lt_compat_r; lra. }
    assert (A : at_right 0 (fun p => p < PI / 2)). { exists (mkposreal (PI / 2) ltac:(lra)). intros p Bp Pp. change (Rabs (p - 0) < PI / 2) in Bp. rewrite Rminus_0_r, Rabs_pos_eq in Bp by lra. exact Bp. }
    assert (E4 : 0 < e / 4) by lra.
    apply (Filter_prod _ _ _ _ _ (filter_and _ _ A (II_zero (e / 4) E4)) Z). intros p1 p2 [Hp1 [H1 B1]] [Hp2 B2]. cbn [fst snd].
    exists (RInt DD p1 p2). split; [apply (RInt_correct (V := R_CompleteNormedModule)), DD_ex; try assumption; lra|]. apply He. change (Rabs (RInt DD p1 p2 - PI * W0) < e).
    set (S := Rmin (sin p1) (sin p2)). assert (PS : 0 < S) by (apply Rmin_pos; apply sp; lra).
    assert (E5 : 0 < e / 4 * S / PI) by (apply Rdiv_lt_0_compat; [apply Rmult_lt_0_compat|]; lra). assert (Ka : 0 < / (1 - al)) by (apply Rinv_0_lt_compat; lra). assert (Kb : 0 < / al) by (apply Rinv_0_lt_compat; lra). assert (Kt : 0 < t / 2) by lra. assert (Kt2 : 0 < 2 * t) by lra.
    destruct (filter_ex (F := Rbar_locally p_infty) _ (filter_and _ _ ev_pos (filter_and _ _ (del_small al t Hal Ht _ E5) (filter_and _ _ (ev_small _ _ Ka Kt) (ev_big _ _ Kb Kt2))))) as (M & M0 & M1 & M2 & M3).
    fold (aM al M) in M2. fold (bM al M) in M3. pose proof (aM_pos al M). assert (AB : aM al M <= bM al M) by lra.
    pose proof (balance al t Hal Ht M p1 p2 M0 AB ltac:(lra) ltac:(lra) ltac:(lra)) as BL. fold S in BL.
    specialize (B1 (aM al M) (bM al M) ltac:(lra) ltac:(lra) ltac:(lra)).
    assert (C2 : cos p2 <= 0) by (apply cos_le_0; lra). pose proof (II_pi (aM al M) (bM al M) p2 ltac:(lra) AB ltac:(lra) C2). pose proof (II_pos (aM al M) (bM al M) p2 ltac:(lra) AB ltac:(lra)).
    assert (DS : del al t M / S * PI < e / 4). { apply Rmult_lt_reg_r with (S / PI); [apply Rdiv_lt_0_compat; lra|]. replace (del al t M / S * PI * (S / PI)) with (del al t M) by (field; split; lra). replace (e / 4 * (S / PI)) with (e / 4 * S / PI) by (field; lra). exact M1. }
    apply Rabs_le_between in BL. apply Rabs_le_between in B1. apply Rabs_def1; lra.
  Qed.
End Kanter3.
