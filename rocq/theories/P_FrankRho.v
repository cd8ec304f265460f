(** Spearman's rho of the Frank copula. *)
From Coquelicot Require Import Coquelicot.
From Verif Require Import Base RSumLib Ext S_Archimedean S_Concord P_Gen M_Archimedean P_Arch P_ArchCode P_CM P_Arch2 P_Debye P_Debye2 P_GaussInt P_Kendall P_Spearman P_EllipDensity2.
Open Scope R_scope.

Lemma integral_proper g : (forall v, 0 <= v <= 1 -> continuous g v) -> (forall v, 0 <= v <= 1 -> Rabs (g v) <= 1) -> integral_01 g (RInt g 0 1).
Proof.
  intros C B. assert (X : forall a b, 0 <= a -> a <= b -> b <= 1 -> ex_RInt g a b).
  { intros a b Ha Hab Hb. apply (ex_RInt_continuous (V := R_CompleteNormedModule)). intros z Hz. rewrite Rmin_left, Rmax_right in Hz by lra. apply C. lra. }
  assert (S : forall a b, 0 <= a -> a <= b -> b <= 1 -> Rabs (RInt g a b) <= (b - a) * 1).
  { intros a b Ha Hab Hb. apply abs_RInt_le_const; [lra|apply X; assumption|intros; apply B; lra]. }
  replace (RInt g 0 1) with (RInt g 0 1 - 0) by ring. apply (integral_primitive g (fun v => RInt g 0 v)).
  - intros v Hv. apply (is_derive_RInt (V := R_CompleteNormedModule) g _ 0 v); [|apply C; lra]. apply (locally_01 _ v Hv). intros w Hw. apply (RInt_correct (V := R_CompleteNormedModule)), X; lra.
  - intros v Hv. apply C. lra.
  - intros e He. exists (Rmin e 1). split; [apply Rmin_pos; lra|]. intros u Hu. pose proof (Rmin_l e 1). pose proof (Rmin_r e 1). rewrite Rminus_0_r. specialize (S 0 u). lra.
  - intros e He. exists (Rmin e 1). split; [apply Rmin_pos; lra|]. intros u Hu. pose proof (Rmin_l e 1). pose proof (Rmin_r e 1).
    rewrite <- (RInt_Chasles (V := R_CompleteNormedModule) g 0 u 1) by (apply X; lra). change (plus (RInt g 0 u) (RInt g u 1)) with (RInt g 0 u + RInt g u 1).
    replace (RInt g 0 u - (RInt g 0 u + RInt g u 1)) with (- RInt g u 1) by ring. rewrite Rabs_Ropp. specialize (S u 1). lra.
Qed.

Section Rho.
  Variable th : R.
  Hypothesis nz : th <> 0.
  Notation E := (exp (- th) - 1).
  Definition fW u v : R := 1 + (exp (- th * u) - 1) * (exp (- th * v) - 1) / E.
  Definition fCu u v : R := exp (- th * u) * ((exp (- th * v) - 1) / E) / fW u v.
  Lemma E_nz : E <> 0. Proof. apply em_nz, nz. Qed.
  Lemma ratio v : 0 <= v <= 1 -> 0 <= (exp (- th * v) - 1) / E <= 1.
  Proof.
    intros Hv. destruct (Req_dec v 0) as [->|N].
    - rewrite Rmult_0_r, exp_0. unfold Rdiv. rewrite Rminus_diag_eq by reflexivity. lra.
    - pose proof (em_ratio th v nz ltac:(lra)) as X. replace (- th * v) with (- (v * th)) by ring. lra.
  Qed.
  Lemma fW_comb u v : fW u v = 1 + (exp (- th * v) - 1) / E * (exp (- th * u) - 1).
  Proof. unfold fW. pose proof E_nz. field. assumption. Qed.
  Lemma fW_pos u v : 0 <= v <= 1 -> 0 < fW u v.
  Proof. intros Hv. rewrite fW_comb. pose proof (ratio v Hv). pose proof (exp_pos (- th * u)). set (r := (exp (- th * v) - 1) / E) in *. nra. Qed.
  Lemma frank_ln u v : frank_C th u v = -1 / th * ln (fW u v).
  Proof. reflexivity. Qed.
  Lemma frank_range u v : 0 <= u -> 0 <= v <= 1 -> 0 <= frank_C th u v <= u.
  Proof.
    intros Hu Hv. rewrite frank_ln. pose proof (fW_pos u v Hv) as W. pose proof (ratio v Hv) as R. rewrite fW_comb in *. set (r := (exp (- th * v) - 1) / E) in *. pose proof (exp_pos (- th * u)) as P.
    destruct (Rlt_le_dec th 0) as [L|L].
    - assert (1 <= exp (- th * u)) by (rewrite <- exp_0; apply exp_mono; nra). assert (A : 0 <= ln (1 + r * (exp (- th * u) - 1)) <= - th * u).
      { split; [rewrite <- ln_1; apply ln_le; nra|]. rewrite <- (ln_exp (- th * u)) at 2. apply ln_le; nra. }
      replace (-1 / th) with (/ - th) by (field; lra). assert (0 < / - th) by (apply Rinv_0_lt_compat; lra). split; [nra|].
      apply Rmult_le_reg_l with (- th); [lra|]. rewrite <- Rmult_assoc, Rinv_r by lra. lra.
    - assert (T : 0 < th) by lra. assert (exp (- th * u) <= 1) by (rewrite <- exp_0; apply exp_mono; nra). assert (A : - th * u <= ln (1 + r * (exp (- th * u) - 1)) <= 0).
      { split; [rewrite <- (ln_exp (- th * u)) at 1; apply ln_le; nra|]. rewrite <- ln_1. apply ln_le; nra. }
      replace (-1 / th) with (- / th) by (field; lra). assert (0 < / th) by (apply Rinv_0_lt_compat; lra). split; [nra|].
      apply Rmult_le_reg_l with th; [lra|]. replace (th * (- / th * ln (1 + r * (exp (- th * u) - 1)))) with (- ln (1 + r * (exp (- th * u) - 1))) by (field; lra). lra.
  Qed.
  Lemma frank_du u v : 0 < fW u v -> is_derive (fun u => frank_C th u v) u (fCu u v).
  Proof.
    intros W. pose proof E_nz. unfold frank_C, fCu. unfold fW in *. auto_derive; [exact W|]. field. repeat split; try assumption.
    intros Z. assert (fW u v = 0 / E); [|unfold fW in *; unfold Rdiv in *; rewrite Rmult_0_l in *; lra]. rewrite <- Z. unfold fW. field. assumption.
  Qed.
  Lemma frank_dv u v : 0 < fW u v -> is_derive (fun v => frank_C th u v) v (exp (- th * v) * ((exp (- th * u) - 1) / E) / fW u v).
  Proof.
    intros W. pose proof E_nz. unfold frank_C. unfold fW in *. auto_derive; [exact W|]. field. repeat split; try assumption.
    intros Z. assert (fW u v = 0 / E); [|unfold fW in *; unfold Rdiv in *; rewrite Rmult_0_l in *; lra]. rewrite <- Z. unfold fW. field. assumption.
  Qed.
  Lemma fW_cont2 u v : continuity_2d_pt fW u v.
  Proof.
    assert (A : forall x, continuity_pt (fun x => exp (- th * x) - 1) x) by (intros x; reg).
    unfold fW. apply continuity_2d_pt_plus; [apply continuity_2d_pt_const|]. apply continuity_2d_pt_mult; [|apply continuity_2d_pt_const]. apply continuity_2d_pt_mult.
    - apply (continuity_1d_2d_pt_comp (fun x => exp (- th * x) - 1) (fun u v => u)); [apply A|apply continuity_2d_pt_id1].
    - apply (continuity_1d_2d_pt_comp (fun x => exp (- th * x) - 1) (fun u v => v)); [apply A|apply continuity_2d_pt_id2].
  Qed.
  Lemma fCu_cont2 u v : 0 < fW u v -> continuity_2d_pt fCu u v.
  Proof.
    intros W. unfold fCu. apply continuity_2d_pt_mult; [|apply c2_inv; [apply fW_cont2|lra]]. apply continuity_2d_pt_mult.
    - apply (continuity_1d_2d_pt_comp (fun x => exp (- th * x)) (fun u v => u)); [reg|apply continuity_2d_pt_id1].
    - apply (continuity_1d_2d_pt_comp (fun x => (exp (- th * x) - 1) / E) (fun u v => v)); [pose proof E_nz; reg; assumption|apply continuity_2d_pt_id2].
  Qed.
  Lemma frank_cont u v : 0 <= v <= 1 -> continuous (frank_C th u) v.
  Proof. intros Hv. apply (ex_derive_continuous (V := R_NormedModule)). eexists. apply frank_dv, fW_pos, Hv. Qed.
  Definition line u : R := RInt (frank_C th u) 0 1.
  Lemma line_integral u : 0 < u < 1 -> integral_01 (fun v => frank_C th u v) (line u).
  Proof.
    intros Hu. apply integral_proper; [intros; apply frank_cont; assumption|]. intros v Hv. pose proof (frank_range u v ltac:(lra) Hv). rewrite Rabs_pos_eq; lra.
  Qed.
  Definition slope u : R := exp (- th * u) / (exp (- th * u) - exp (- th)) * (1 - (1 - exp (- th)) * u / (1 - exp (- th * u))).
  Lemma eu_nz u : 0 < u < 1 -> 1 - exp (- th * u) <> 0 /\ exp (- th * u) - exp (- th) <> 0.
  Proof.
    intros Hu. split; intros Z.
    - apply (em_nz (th * u)); [apply Rmult_integral_contrapositive_currified; lra|]. replace (- (th * u)) with (- th * u) by ring. lra.
    - assert (X : exp (- th * u) = exp (- th)) by lra. apply exp_inv in X. assert (th * (1 - u) = 0) by lra. apply Rmult_integral in H. lra.
  Qed.
  Lemma frank_edge u : frank_C th u 1 = u.
  Proof.
    rewrite frank_ln. unfold fW. rewrite Rmult_1_r. replace (1 + (exp (- th * u) - 1) * E / E) with (exp (- th * u)) by (field; apply E_nz). rewrite ln_exp. field. exact nz.
  Qed.
  Lemma frank_edge0 u : frank_C th u 0 = 0.
  Proof. rewrite frank_ln. unfold fW. rewrite Rmult_0_r, exp_0. replace (1 + (exp (- th * u) - 1) * (1 - 1) / E) with 1 by (field; apply E_nz). rewrite ln_1. ring. Qed.
  Lemma slope_int u : 0 < u < 1 -> is_RInt (fCu u) 0 1 (slope u).
  Proof.
    intros Hu. destruct (eu_nz u Hu) as [N1 N2]. pose proof E_nz as N3.
    set (F := fun v => exp (- th * u) / (exp (- th * u) - exp (- th)) * (v - (1 - exp (- th)) / (1 - exp (- th * u)) * frank_C th u v)).
    replace (slope u) with (minus (F 1) (F 0)).
    2: { unfold F. rewrite frank_edge, frank_edge0. unfold slope, minus, plus, opp; cbn. field. split; assumption. }
    assert (Q : forall v, Rmin 0 1 <= v <= Rmax 0 1 -> 0 <= v <= 1) by (intros v; rewrite Rmin_left, Rmax_right by lra; auto).
    apply (is_RInt_derive (V := R_CompleteNormedModule) F (fCu u)).
    - intros v Hv. apply Q in Hv. pose proof (fW_pos u v Hv) as W. unfold F. evar_last.
      + apply (is_derive_scal (fun v => v - (1 - exp (- th)) / (1 - exp (- th * u)) * frank_C th u v)). apply (is_derive_minus (fun v => v) (fun v => (1 - exp (- th)) / (1 - exp (- th * u)) * frank_C th u v)); [apply (is_derive_id (K := R_AbsRing))|].
        apply (is_derive_scal (fun v => frank_C th u v)), frank_dv, W.
      + unfold minus, plus, opp, scal, one; cbn; unfold mult; cbn. unfold fCu. set (eu := exp (- th * u)) in *. set (ev := exp (- th * v)). set (w := fW u v) in *.
        assert (Ew : w = 1 + (eu - 1) * (ev - 1) / E) by reflexivity.
        assert (Wz : w <> 0) by lra. apply Rmult_eq_reg_r with w; [|exact Wz]. replace (eu * ((ev - 1) / E) / w * w) with (eu * ((ev - 1) / E)) by (field; split; assumption).
        replace (eu / (eu - exp (- th)) * (1 + - ((1 - exp (- th)) / (1 - eu) * (ev * ((eu - 1) / E) / w))) * w) with (eu / (eu - exp (- th)) * (w - ev)) by (field; repeat split; assumption).
        rewrite Ew. field. split; assumption.
    - intros v Hv. apply Q in Hv. apply (ex_derive_continuous (V := R_NormedModule)). pose proof (fW_pos u v Hv) as W. unfold fCu, fW in *. auto_derive. lra.
  Qed.
  Lemma line_derive u : 0 < u < 1 -> is_derive line u (slope u).
  Proof.
    intros Hu. assert (Q : forall v, Rmin 0 1 <= v <= Rmax 0 1 -> 0 <= v <= 1) by (intros v; rewrite Rmin_left, Rmax_right by lra; auto).
    replace (slope u) with (RInt (fun t => Derive (fun u => frank_C th u t) u) 0 1).
    2: { apply (is_RInt_unique (V := R_CompleteNormedModule)). apply (is_RInt_ext (fCu u)); [|apply slope_int, Hu]. intros v Hv. symmetry. apply is_derive_unique, frank_du, fW_pos. rewrite Rmin_left, Rmax_right in Hv by lra. lra. }
    unfold line. apply (is_derive_RInt_param (frank_C th) 0 1 u).
    - apply filter_forall. intros x t Ht. eexists. apply frank_du, fW_pos, Q, Ht.
    - intros t Ht. apply Q in Ht. pose proof (fW_pos u t Ht) as W. apply continuity_2d_pt_ext_loc with (f := fCu); [|apply fCu_cont2, W].
      destruct (fW_cont2 u t (mkposreal _ W)) as [d Hd]. exists d. intros x y Hx Hy. specialize (Hd x y Hx Hy). cbn in Hd. apply Rabs_def2 in Hd. symmetry. apply is_derive_unique, frank_du. lra.
    - apply filter_forall. intros x. apply (ex_RInt_continuous (V := R_CompleteNormedModule)). intros v Hv. apply frank_cont, Q, Hv.
  Qed.
  (** the integrals behind the Debye functions *)
  Lemma poly_int (g P : R -> R) : (forall v, is_derive P v (g v)) -> (forall v, continuous g v) -> integral_01 g (P 1 - P 0).
  Proof.
    intros D C. apply (integral_primitive g P); [intros; apply D|intros; apply C| |].
    - apply lim0_continuous. apply (cont_of_derive P 0 (g 0)), D.
    - apply lim1_continuous. apply (cont_of_derive P 1 (g 1)), D.
  Qed.
  Lemma int_k1 : integral_01 (fun w => w / (exp (th * w) - 1)) (debye 1 th / th).
  Proof.
    apply (integral_ext (fun w => / th * debye_kernel 1 (w * th))).
    { intros w Hw. assert (Z : w * th <> 0) by (apply Rmult_integral_contrapositive_currified; lra). rewrite k1_nz by exact Z. pose proof (expm1_nz _ Z). rewrite (Rmult_comm th w). field. split; assumption. }
    replace (debye 1 th / th) with (/ th ^ 2 * RInt (debye_kernel 1) 0 (1 * th) - / th ^ 2 * RInt (debye_kernel 1) 0 (0 * th)).
    2: { rewrite Rmult_0_l, Rmult_1_l, int_0. unfold debye. cbn [INR]. field. exact nz. }
    apply (poly_int _ (fun w => / th ^ 2 * RInt (debye_kernel 1) 0 (w * th))).
    - intros w. evar_last; [apply (is_derive_scal (fun w => RInt (debye_kernel 1) 0 (w * th))); apply (is_derive_comp (fun x => RInt (debye_kernel 1) 0 x) (fun t => t * th)); [apply debye_int_derive|]; instantiate (1 := th); auto_derive; [exact Logic.I|ring]|].
      unfold scal; cbn; unfold mult; cbn. field. exact nz.
    - intros w. apply (continuous_scal_r (/ th) (fun w => debye_kernel 1 (w * th))). apply (continuous_comp (fun w => w * th) (debye_kernel 1)); [|apply kernel1_cont]. apply (ex_derive_continuous (V := R_NormedModule)). auto_derive. exact Logic.I.
  Qed.
  Lemma int_k2 : integral_01 (fun w => w ^ 2 / (exp (th * w) - 1)) (debye 2 th / (2 * th)).
  Proof.
    apply (integral_ext (fun w => / th ^ 2 * debye_kernel 2 (w * th))).
    { intros w Hw. assert (Z : w * th <> 0) by (apply Rmult_integral_contrapositive_currified; lra). rewrite k2_k1, k1_nz by exact Z. pose proof (expm1_nz _ Z). rewrite (Rmult_comm th w). field. split; assumption. }
    replace (debye 2 th / (2 * th)) with (/ th ^ 3 * RInt (debye_kernel 2) 0 (1 * th) - / th ^ 3 * RInt (debye_kernel 2) 0 (0 * th)).
    2: { rewrite Rmult_0_l, Rmult_1_l, int_0. unfold debye. cbn [INR]. field. exact nz. }
    apply (poly_int _ (fun w => / th ^ 3 * RInt (debye_kernel 2) 0 (w * th))).
    - intros w. evar_last; [apply (is_derive_scal (fun w => RInt (debye_kernel 2) 0 (w * th))); apply (is_derive_comp (fun x => RInt (debye_kernel 2) 0 x) (fun t => t * th)); [apply int2_derive|]; instantiate (1 := th); auto_derive; [exact Logic.I|ring]|].
      unfold scal; cbn; unfold mult; cbn. field. exact nz.
    - intros w. apply (continuous_scal_r (/ th ^ 2) (fun w => debye_kernel 2 (w * th))). apply (continuous_comp (fun w => w * th) (debye_kernel 2)); [|apply k2_cont]. apply (ex_derive_continuous (V := R_NormedModule)). auto_derive. exact Logic.I.
  Qed.
  Lemma int_w : integral_01 (fun w => w) (1 / 2).
  Proof. replace (1 / 2) with (1 ^ 2 / 2 - 0 ^ 2 / 2) by field. apply (poly_int _ (fun w => w ^ 2 / 2)); [intros; auto_derive; [exact Logic.I|field]|intros; apply continuous_id]. Qed.
  Lemma int_w2 : integral_01 (fun w => w ^ 2) (1 / 3).
  Proof. replace (1 / 3) with (1 ^ 3 / 3 - 0 ^ 3 / 3) by field. apply (poly_int _ (fun w => w ^ 3 / 3)); [intros; auto_derive; [exact Logic.I|field]|]. intros; apply (ex_derive_continuous (V := R_NormedModule)); auto_derive; exact Logic.I. Qed.
  Lemma int_B : integral_01 (fun w => w / (1 - exp (- (th * w)))) (1 / 2 + debye 1 th / th).
  Proof.
    apply (integral_ext (fun w => w + w / (exp (th * w) - 1))); [|apply integral_plus; [apply int_w|apply int_k1]].
    intros w Hw. assert (Z : th * w <> 0) by (apply Rmult_integral_contrapositive_currified; lra). pose proof (expm1_nz _ Z). pose proof (exp_pos (th * w)). rewrite exp_Ropp. field. repeat split; lra.
  Qed.
  Lemma int_A : integral_01 (fun w => w * (1 - w) / (1 - exp (- (th * w)))) (1 / 2 + debye 1 th / th - 1 / 3 - debye 2 th / (2 * th)).
  Proof.
    apply (integral_ext (fun w => w / (1 - exp (- (th * w))) + -1 * (w ^ 2 + w ^ 2 / (exp (th * w) - 1)))).
    - intros w Hw. assert (Z : th * w <> 0) by (apply Rmult_integral_contrapositive_currified; lra). pose proof (expm1_nz _ Z). pose proof (exp_pos (th * w)). rewrite exp_Ropp. field. repeat split; lra.
    - replace (1 / 2 + debye 1 th / th - 1 / 3 - debye 2 th / (2 * th)) with (1 / 2 + debye 1 th / th + -1 * (1 / 3 + debye 2 th / (2 * th))) by ring.
      apply integral_plus; [apply int_B|]. apply integral_scal, integral_plus; [apply int_w2|apply int_k2].
  Qed.
  Lemma outer_int : integral_01 (fun u => (1 - u) * slope u) (1 / 3 - debye 1 th / th + debye 2 th / th).
  Proof.
    apply (integral_ext (fun v => (fun w => w * slope (1 - w)) (1 - v))); [intros v Hv; cbv beta; replace (1 - (1 - v)) with v by ring; reflexivity|].
    apply (integral_reflect (fun w => w * slope (1 - w))). set (A := fun w => w * (1 - w) / (1 - exp (- (th * w)))).
    apply (integral_ext (fun w => w / (1 - exp (- (th * w))) + -1 * (A w + A (1 - w) + -1 * (w + -1 * w ^ 2)))).
    - intros w Hw. unfold slope, A. replace (- th * (1 - w)) with (- th + th * w) by ring. replace (- (th * (1 - w))) with (- th + th * w) by ring.
      assert (Z : th * w <> 0) by (apply Rmult_integral_contrapositive_currified; lra). assert (Z' : th * (1 - w) <> 0) by (apply Rmult_integral_contrapositive_currified; lra). pose proof (em_nz _ Z) as Y. pose proof (em_nz _ Z') as Y'. replace (- (th * (1 - w))) with (- th + th * w) in Y' by ring.
      rewrite exp_plus in *. pose proof (exp_pos (th * w)). pose proof (exp_pos (- th)). rewrite (exp_Ropp (th * w)) in *. set (e := exp (th * w)) in *. set (k := exp (- th)) in *.
      assert (e - 1 <> 0) by (intros V; apply Y; replace e with 1 by lra; field).
      field. repeat split; try lra. intros V; apply H1. assert (k * (e - 1) = 0) by lra. apply Rmult_integral in H2. lra.
    - replace (1 / 3 - debye 1 th / th + debye 2 th / th) with
        (1 / 2 + debye 1 th / th + -1 * ((1 / 2 + debye 1 th / th - 1 / 3 - debye 2 th / (2 * th)) + (1 / 2 + debye 1 th / th - 1 / 3 - debye 2 th / (2 * th)) + -1 * (1 / 2 + -1 * (1 / 3)))) by (field; exact nz).
      apply integral_plus; [apply int_B|]. apply integral_scal, integral_plus.
      + apply integral_plus; [apply int_A|]. apply (integral_reflect A), int_A.
      + apply integral_scal, integral_plus; [apply int_w|]. apply integral_scal, int_w2.
  Qed.
  Lemma frank_spearman : spearman_rho (frank_C th) (1 + 12 / th * (debye 2 th - debye 1 th)).
  Proof.
    exists line. split; [exact line_integral|].
    assert (B : forall u, 0 < u < 1 -> 0 <= line u <= u).
    { intros u Hu. pose proof (line_integral u Hu) as L. split.
      - apply (integral_le (fun _ => 0) (fun v => frank_C th u v) 0 (line u)); [|apply integral_const|exact L]. intros v Hv. apply frank_range; lra.
      - apply (integral_le (fun v => frank_C th u v) (fun _ => u) (line u) u); [|exact L|apply integral_const]. intros v Hv. apply frank_range; lra. }
    replace ((1 + 12 / th * (debye 2 th - debye 1 th) + 3) / 12) with (0 - 0 + (1 / 3 - debye 1 th / th + debye 2 th / th)) by (field; exact nz).
    apply (integral_ext (fun u => (line u + (u - 1) * slope u) + (1 - u) * slope u)); [intros; ring|]. apply integral_plus; [|apply outer_int].
    apply (integral_primitive _ (fun u => (u - 1) * line u)).
    - intros u Hu. evar_last; [apply (is_derive_mult (fun u => u - 1) line u 1 (slope u)); [auto_derive; [exact Logic.I|ring]|apply line_derive, Hu|intros; apply Rmult_comm]|]. unfold plus, mult; cbn. ring.
    - intros u Hu. apply (continuous_plus (V := R_NormedModule) line (fun u => (u - 1) * slope u)).
      + apply (ex_derive_continuous (V := R_NormedModule)). eexists. apply line_derive, Hu.
      + apply (ex_derive_continuous (V := R_NormedModule)). destruct (eu_nz u Hu) as [N1 N2]. unfold slope. auto_derive. repeat split; assumption.
    - apply (lim0_squeeze _ (fun u => u)); [|exact lim0_id]. intros u Hu. specialize (B u Hu). rewrite Rabs_mult, (Rabs_left (u - 1)), (Rabs_pos_eq (line u)) by lra. nra.
    - apply (lim1_squeeze _ (fun u => 1 - u)).
      + intros u Hu. specialize (B u Hu). rewrite Rabs_mult, (Rabs_left (u - 1)), (Rabs_pos_eq (line u)) by lra. nra.
      + intros e He. exists e. split; [exact He|]. intros u Hu. rewrite Rabs_pos_eq; lra.
  Qed.
End Rho.
