(** Property C70: Frank's tau and rho as functions of theta (/repo/copulae/archimedean/frank.py). *)
From Coquelicot Require Import Coquelicot.
From Verif Require Import Base RSumLib Ext S_Archimedean P_Gen M_Archimedean P_Arch P_ArchCode P_CM P_Arch2 P_Debye M_Specfunc M_Debye P_Debye2.
Open Scope R_scope.

(** the library's debye_1, debye_2: the true functions on non-negative arguments, nan below 0 *)
Definition raw (n : nat) : R -> option R := debye_guard (debye n).
Theorem C70_raw_negative : forall rest x, debye_guard rest x = None <-> x < 0.
Proof.
  intros rest x. unfold debye_guard. destruct (Rltb x 0) eqn:E; [apply Rltb_true in E|apply Rltb_false in E]; split; intros; try reflexivity; try discriminate; try assumption; lra.
Qed.
Print Assumptions C70_raw_negative.
(** frank.py's wrappers give the Debye functions at every number except 0 *)
Theorem C70_debye : forall x, x <> 0 -> frank_debye1 (raw 1) x = Some (debye 1 x) /\ frank_debye2 (raw 2) x = Some (debye 2 x).
Proof.
  intros x H. unfold frank_debye1, frank_debye2, raw, debye_guard. pose proof (Rabs_pos x). rewrite (proj2 (Rltb_false (Rabs x) 0)) by lra.
  destruct (Rltb x 0) eqn:E; [apply Rltb_true in E|apply Rltb_false in E].
  - rewrite (Rabs_left x E), (debye1_opp x H), (debye2_opp x H). split; f_equal; lra.
  - rewrite Rabs_right by lra. auto.
Qed.
Print Assumptions C70_debye.

(** odd in theta, whatever the Debye routines return *)
Theorem C70_odd : forall raw1 raw2 th,
  frank_tau_code raw1 (- th) = option_map Ropp (frank_tau_code raw1 th) /\
  frank_rho_code raw1 raw2 (- th) = option_map Ropp (frank_rho_code raw1 raw2 th).
Proof.
  intros raw1 raw2 th. unfold frank_tau_code, frank_rho_code. rewrite Rabs_Ropp.
  destruct (Rleb (Rabs th) (/ 100000000)) eqn:E; [cbn; split; f_equal; field|]. apply Rleb_false in E.
  assert (Hz : th <> 0) by (intros ->; rewrite Rabs_R0 in E; lra).
  unfold frank_debye1, frank_debye2. rewrite Rabs_Ropp. unfold frank_rho, frank_tau_. rewrite Rabs_Ropp, (proj2 (Rleb_false _ _) E).
  assert (S : (Rltb th 0 = true /\ Rltb (- th) 0 = false) \/ (Rltb th 0 = false /\ Rltb (- th) 0 = true)).
  { destruct (Rlt_dec th 0); [left|right]; rewrite ?Rltb_true, ?Rltb_false; lra. }
  destruct (raw1 (Rabs th)) as [d1|]; [|cbn; auto]. destruct S as [[-> ->]|[-> ->]]; (split; [cbn; f_equal; field; exact Hz|]);
    (destruct (raw2 (Rabs th)) as [d2|]; cbn; [f_equal; field; exact Hz|reflexivity]).
Qed.
Print Assumptions C70_odd.

(** values for theta > 1e-8 *)
Lemma tau_value th : / 100000000 < th -> frank_tau_code (raw 1) th = Some (frank_tau_ (debye 1) th).
Proof.
  intros H. unfold frank_tau_code. rewrite Rabs_right by lra. rewrite (proj2 (Rleb_false _ _) H), (proj1 (C70_debye th ltac:(lra))). reflexivity.
Qed.
Lemma rho_value th : / 100000000 < th -> frank_rho_code (raw 1) (raw 2) th = Some (1 + 12 / th * (debye 2 th - debye 1 th)).
Proof.
  intros H. unfold frank_rho_code. rewrite Rabs_right by lra. destruct (C70_debye th ltac:(lra)) as [-> ->]. rewrite (proj2 (Rleb_false _ _) H).
  unfold frank_rho. rewrite Rabs_right by lra. rewrite (proj2 (Rleb_false _ _) H). reflexivity.
Qed.
Lemma tau_upper th : 0 < th -> frank_tau_ (debye 1) th < 1.
Proof.
  intros H. unfold frank_tau_. pose proof (debye1_lt_1 th H). assert (0 < / th) by (apply Rinv_0_lt_compat; exact H). unfold Rdiv. nra.
Qed.
Lemma tau_incr a b : 0 < a < b -> frank_tau_ (debye 1) a < frank_tau_ (debye 1) b.
Proof.
  intros [Ha Hb]. destruct (MVT_cor2 (frank_tau_ (debye 1)) (fun x => (x / (exp x - 1) + 1 - 2 * debye 1 x) * (2 / x) ^ 2) a b Hb) as [c [E C]].
  - intros c Hc. apply is_derive_Reals. apply frank_tau_derive. lra.
  - assert (0 < (c / (exp c - 1) + 1 - 2 * debye 1 c) * (2 / c) ^ 2); [|nra].
    apply Rmult_lt_0_compat; [|apply pow_lt; apply Rdiv_lt_0_compat; lra].
    pose proof (tau_num_pos c ltac:(lra)) as T. rewrite k1_nz in T by lra. unfold debye. rewrite pow_1. change (INR 1) with 1.
    apply (Rmult_lt_reg_l c); [lra|]. rewrite Rmult_0_r.
    replace (c * (c / (exp c - 1) + 1 - 2 * (1 / c * RInt k1 0 c))) with (c * (c / (exp c - 1)) + c - 2 * RInt k1 0 c) by (field; pose proof (expm1_pos c ltac:(lra)); lra). exact T.
Qed.
(** D_1 is below the first terms of its series: t/(e^t-1) > 1 - t/2, so tau is positive *)
Lemma tau_pos th : 0 < th -> 0 < frank_tau_ (debye 1) th.
Proof.
  intros H.
  assert (D : forall t, is_derive (fun x => RInt k1 0 x - x + x ^ 2 / 4) t (k1 t - 1 + t / 2)).
  { intros t. apply (@is_derive_plus R_AbsRing R_NormedModule (fun x => RInt k1 0 x - x) (fun x => x ^ 2 / 4) t (k1 t - 1) (t / 2)).
    - apply (@is_derive_minus R_AbsRing R_NormedModule (fun x => RInt k1 0 x) (fun x => x) t (k1 t) 1); [apply debye_int_derive|apply (@is_derive_id R_AbsRing)].
    - auto_derive; [exact Logic.I|field]. }
  assert (P : 0 < RInt k1 0 th - th + th ^ 2 / 4).
  { apply (positive_of_derive' (fun x => RInt k1 0 x - x + x ^ 2 / 4) (fun x => k1 x - 1 + x / 2)); [rewrite int_0; field| | | |exact H].
    - apply continuity_pt_filterlim. apply (@ex_derive_continuous R_AbsRing R_NormedModule (fun x => RInt k1 0 x - x + x ^ 2 / 4)). exists (k1 0 - 1 + 0 / 2). apply D.
    - intros t _. apply D.
    - intros t Ht. rewrite k1_nz by lra. pose proof (expm1_pos t Ht) as E.
      assert (Q : 0 < (t - 2) * exp t + t + 2).
      { apply (positive_of_derive (fun t => (t - 2) * exp t + t + 2) (fun t => (t - 1) * exp t + 1)); [rewrite exp_0; ring| | |exact Ht].
        - intros x. auto_derive; [exact Logic.I|ring].
        - intros x Hx. pose proof (exp_lt_quot x Hx). lra. }
      replace (t / (exp t - 1) - 1 + t / 2) with (((t - 2) * exp t + t + 2) / (2 * (exp t - 1))) by (field; lra).
      apply Rdiv_lt_0_compat; lra. }
  unfold frank_tau_, debye. rewrite pow_1. change (INR 1) with 1. apply (Rmult_lt_reg_r (th ^ 2)); [apply pow_lt; exact H|]. rewrite Rmult_0_l.
  replace ((1 + 4 * (1 / th * RInt k1 0 th - 1) / th) * th ^ 2) with (4 * (RInt k1 0 th - th + th ^ 2 / 4)) by (field; lra). lra.
Qed.
Lemma rho_derive x : 0 < x -> is_derive (fun th => 1 + 12 / th * (debye 2 th - debye 1 th)) x (12 * (x / (exp x - 1) - 3 * debye 2 x + 2 * debye 1 x) / x ^ 2).
Proof.
  intros H. pose proof (expm1_pos x H).
  replace (12 * (x / (exp x - 1) - 3 * debye 2 x + 2 * debye 1 x) / x ^ 2)
    with (plus 0 (plus (mult (-12 / x ^ 2) (debye 2 x - debye 1 x)) (mult (12 / x) (2 * (x / (exp x - 1) - debye 2 x) / x - (x / (exp x - 1) - debye 1 x) / x))))
    by (unfold plus, mult; cbn -[debye]; field; split; lra).
  apply (@is_derive_plus R_AbsRing R_NormedModule (fun _ => 1)); [apply (@is_derive_const R_AbsRing R_NormedModule)|].
  apply (@is_derive_mult R_AbsRing (fun th => 12 / th) (fun th => debye 2 th - debye 1 th)); [|apply (@is_derive_minus R_AbsRing R_NormedModule); [apply debye2_derive|apply debye1_derive]; exact H|intros; apply Rmult_comm].
  auto_derive; [lra|]. field. lra.
Qed.
Lemma rho_upper th : 0 < th -> 1 + 12 / th * (debye 2 th - debye 1 th) < 1.
Proof.
  intros H. pose proof (debye2_lt_debye1 th H). assert (0 < 12 / th) by (apply Rdiv_lt_0_compat; lra). nra.
Qed.
Lemma rho_incr a b : 0 < a < b -> 1 + 12 / a * (debye 2 a - debye 1 a) < 1 + 12 / b * (debye 2 b - debye 1 b).
Proof.
  intros [Ha Hb].
  destruct (MVT_cor2 (fun th => 1 + 12 / th * (debye 2 th - debye 1 th)) (fun x => 12 * (x / (exp x - 1) - 3 * debye 2 x + 2 * debye 1 x) / x ^ 2) a b Hb) as [c [E C]].
  - intros c Hc. apply is_derive_Reals. apply rho_derive. lra.
  - assert (0 < 12 * (c / (exp c - 1) - 3 * debye 2 c + 2 * debye 1 c) / c ^ 2); [|cbv beta in E; nra].
    apply Rdiv_lt_0_compat; [|apply pow_lt; lra]. apply Rmult_lt_0_compat; [lra|].
    pose proof (rho_num_pos c ltac:(lra)) as T. rewrite k1_nz in T by lra. unfold debye. rewrite pow_1. change (INR 1) with 1. replace (INR 2) with 2 by (cbn; ring).
    apply (Rmult_lt_reg_l (c ^ 2)); [apply pow_lt; lra|]. rewrite Rmult_0_r.
    replace (c ^ 2 * (c / (exp c - 1) - 3 * (2 / c ^ 2 * RInt k2 0 c) + 2 * (1 / c * RInt k1 0 c)))
      with (c ^ 2 * (c / (exp c - 1)) - 6 * RInt k2 0 c + 2 * (c * RInt k1 0 c)) by (field; pose proof (expm1_pos c ltac:(lra)); lra). exact T.
Qed.
(** rho is positive: x^2/12 + 2 int t k1 - x int k1 > 0 *)
Lemma rho_pos th : 0 < th -> 0 < 1 + 12 / th * (debye 2 th - debye 1 th).
Proof.
  intros H.
  assert (P : 0 < th ^ 3 + 24 * RInt k2 0 th - 12 * (th * RInt k1 0 th)).
  { apply (positive_of_derive (fun x => x ^ 3 + 24 * RInt k2 0 x - 12 * (x * RInt k1 0 x)) (fun x => 3 * x ^ 2 + 12 * (x * k1 x) - 12 * RInt k1 0 x)); [rewrite !int_0; ring| | |exact H].
    - intros t. replace (3 * t ^ 2 + 12 * (t * k1 t) - 12 * RInt k1 0 t)
        with (plus (plus (3 * t ^ 2) (24 * k2 t)) (opp (12 * plus (mult 1 (RInt k1 0 t)) (mult t (k1 t))))) by (rewrite k2_k1; unfold plus, mult, opp; cbn -[RInt]; ring).
      apply (@is_derive_minus R_AbsRing R_NormedModule); [apply (@is_derive_plus R_AbsRing R_NormedModule)|].
      + auto_derive; [exact Logic.I|ring].
      + apply (is_derive_scal (fun x => RInt k2 0 x) t 24). apply int2_derive.
      + apply (is_derive_scal (fun x => x * RInt k1 0 x) t 12).
        apply (@is_derive_mult R_AbsRing (fun x => x) (fun x => RInt k1 0 x)); [apply (@is_derive_id R_AbsRing)|apply debye_int_derive|intros; apply Rmult_comm].
    - intros t Ht.
      apply (positive_of_derive' (fun x => 3 * x ^ 2 + 12 * (x * k1 x) - 12 * RInt k1 0 x) (fun x => 6 * x * (1 + 2 * k1' x))); [rewrite int_0; ring| | | |exact Ht].
      + apply continuity_pt_filterlim.
        apply (@continuous_minus R_UniformSpace R_AbsRing R_NormedModule (fun x => 3 * x ^ 2 + 12 * (x * k1 x)) (fun x => 12 * RInt k1 0 x)).
        * apply (@continuous_plus R_UniformSpace R_AbsRing R_NormedModule (fun x => 3 * x ^ 2) (fun x => 12 * (x * k1 x))).
          -- apply (@ex_derive_continuous R_AbsRing R_NormedModule). auto_derive. exact Logic.I.
          -- apply (@continuous_scal_r R_UniformSpace R_AbsRing R_NormedModule 12 (fun x => x * k1 x)).
             apply (@continuous_mult R_UniformSpace R_AbsRing (fun t : R => t) k1); [apply continuous_id|apply kernel1_cont].
        * apply (@continuous_scal_r R_UniformSpace R_AbsRing R_NormedModule 12 (fun x => RInt k1 0 x)). apply int1_continuous.
      + intros x Hx. replace (6 * x * (1 + 2 * k1' x)) with (plus (plus (6 * x) (12 * plus (mult 1 (k1 x)) (mult x (k1' x)))) (opp (12 * k1 x))) by (unfold plus, mult, opp; cbn; ring).
        apply (@is_derive_minus R_AbsRing R_NormedModule); [apply (@is_derive_plus R_AbsRing R_NormedModule)|].
        * auto_derive; [exact Logic.I|ring].
        * apply (is_derive_scal (fun x => x * k1 x) x 12).
          apply (@is_derive_mult R_AbsRing (fun x => x) k1); [apply (@is_derive_id R_AbsRing)|apply k1_derive; exact Hx|intros; apply Rmult_comm].
        * apply (is_derive_scal (fun x => RInt k1 0 x) x 12). apply debye_int_derive.
      + intros x Hx. apply Rmult_lt_0_compat; [lra|].
        (* 1 + 2 k1' > 0, i.e. e^2x - 1 - 2 x e^x > 0 *)
        unfold k1'. pose proof (expm1_pos x Hx) as E.
        assert (Q : 0 < exp x * exp x - 1 - 2 * (x * exp x)).
        { apply (positive_of_derive (fun x => exp x * exp x - 1 - 2 * (x * exp x)) (fun x => 2 * exp x * (exp x - 1 - x))); [rewrite exp_0; ring| | |exact Hx].
          - intros y. auto_derive; [exact Logic.I|ring].
          - intros y Hy. apply Rmult_lt_0_compat; [pose proof (exp_pos y); lra|]. pose proof (exp_ineq1 y ltac:(lra)). lra. }
        replace (1 + 2 * ((exp x - 1 - x * exp x) / (exp x - 1) ^ 2)) with ((exp x * exp x - 1 - 2 * (x * exp x)) / (exp x - 1) ^ 2) by (field; lra).
        apply Rdiv_lt_0_compat; [exact Q|apply pow_lt; exact E]. }
  unfold debye. rewrite pow_1. change (INR 1) with 1. replace (INR 2) with 2 by (cbn; ring).
  apply (Rmult_lt_reg_r (th ^ 3)); [apply pow_lt; exact H|]. rewrite Rmult_0_l.
  replace ((1 + 12 / th * (2 / th ^ 2 * RInt k2 0 th - 1 / th * RInt k1 0 th)) * th ^ 3) with (th ^ 3 + 24 * RInt k2 0 th - 12 * (th * RInt k1 0 th)) by (field; lra). exact P.
Qed.

(** every theta: a number strictly between -1 and 1 with the sign of theta *)
Theorem C70_range : forall th, exists t r, frank_tau_code (raw 1) th = Some t /\ frank_rho_code (raw 1) (raw 2) th = Some r /\
  -1 < t < 1 /\ -1 < r < 1 /\ (0 < th -> 0 < t /\ 0 < r) /\ (th < 0 -> t < 0 /\ r < 0) /\ (th = 0 -> t = 0 /\ r = 0).
Proof.
  assert (K : forall th, 0 <= th -> exists t r, frank_tau_code (raw 1) th = Some t /\ frank_rho_code (raw 1) (raw 2) th = Some r /\
    -1 < t < 1 /\ -1 < r < 1 /\ (0 < th -> 0 < t /\ 0 < r) /\ (th = 0 -> t = 0 /\ r = 0)).
  { intros th H. destruct (Rle_dec th (/ 100000000)) as [S|S].
    - exists (th / 9), (th / 6). unfold frank_tau_code, frank_rho_code. rewrite Rabs_right by lra. rewrite (proj2 (Rleb_true _ _) S).
      do 2 (split; [reflexivity|]). lra.
    - exists (frank_tau_ (debye 1) th), (1 + 12 / th * (debye 2 th - debye 1 th)). rewrite tau_value, rho_value by lra.
      pose proof (tau_pos th ltac:(lra)). pose proof (tau_upper th ltac:(lra)). pose proof (rho_pos th ltac:(lra)). pose proof (rho_upper th ltac:(lra)).
      do 2 (split; [reflexivity|]). lra. }
  intros th. destruct (Rle_dec 0 th) as [H|H].
  - destruct (K th H) as [t [r [A [B [C [D [E F]]]]]]]. exists t, r. do 4 (split; [assumption|]). split; [exact E|]. split; [lra|exact F].
  - destruct (K (- th) ltac:(lra)) as [t [r [A [B [C [D [E F]]]]]]]. exists (- t), (- r).
    destruct (C70_odd (raw 1) (raw 2) (- th)) as [O1 O2]. rewrite Ropp_involutive in O1, O2. rewrite O1, O2, A, B.
    do 2 (split; [reflexivity|]). specialize (E ltac:(lra)). lra.
Qed.
Print Assumptions C70_range.
(** strictly increasing over all theta with |theta| > 1e-8 (closer to 0 the code uses the tangent) *)
Theorem C70_increasing : forall a b ta tb ra rb, a < b -> / 100000000 < Rabs a -> / 100000000 < Rabs b ->
  frank_tau_code (raw 1) a = Some ta -> frank_tau_code (raw 1) b = Some tb ->
  frank_rho_code (raw 1) (raw 2) a = Some ra -> frank_rho_code (raw 1) (raw 2) b = Some rb -> ta < tb /\ ra < rb.
Proof.
  assert (K : forall a b ta tb ra rb, a < b -> / 100000000 < a ->
    frank_tau_code (raw 1) a = Some ta -> frank_tau_code (raw 1) b = Some tb ->
    frank_rho_code (raw 1) (raw 2) a = Some ra -> frank_rho_code (raw 1) (raw 2) b = Some rb -> ta < tb /\ ra < rb).
  { intros a b ta tb ra rb H Ha E1 E2 E3 E4. rewrite tau_value in E1, E2 by lra. rewrite rho_value in E3, E4 by lra.
    injection E1 as <-. injection E2 as <-. injection E3 as <-. injection E4 as <-. split; [apply tau_incr; lra|apply rho_incr; lra]. }
  intros a b ta tb ra rb H Ha Hb E1 E2 E3 E4.
  destruct (Rle_dec 0 a) as [Pa|Pa].
  - rewrite Rabs_right in Ha by lra. apply (K a b); auto.
  - destruct (Rle_dec 0 b) as [Pb|Pb].
    + destruct (C70_range a) as [t [r [A [B [_ [_ [_ [N _]]]]]]]]. destruct (C70_range b) as [t' [r' [A' [B' [_ [_ [P' [_ _]]]]]]]].
      rewrite Rabs_right in Hb by lra. specialize (N ltac:(lra)). specialize (P' ltac:(lra)). assert (t = ta) by congruence. assert (r = ra) by congruence. assert (t' = tb) by congruence. assert (r' = rb) by congruence. subst. lra.
    + rewrite (Rabs_left b) in Hb by lra. destruct (C70_odd (raw 1) (raw 2) a) as [O1 O2]. destruct (C70_odd (raw 1) (raw 2) b) as [O3 O4].
      rewrite E1 in O1. rewrite E3 in O2. rewrite E2 in O3. rewrite E4 in O4. cbn in O1, O2, O3, O4.
      destruct (K (- b) (- a) (- tb) (- ta) (- rb) (- ra)); auto; lra.
Qed.
Print Assumptions C70_increasing.
(** the code's drho is not the derivative of rho at any theta > 1e-8: it uses D_1 where D_2 belongs *)
Theorem C70_drho_refuted : forall x d, / 100000000 < x ->
  derivable_pt_lim (fun th => match frank_rho_code (raw 1) (raw 2) th with Some r => r | None => 0 end) x d -> frank_drho_code (raw 1) x <> Some d.
Proof.
  intros x d H D. assert (E : d = 12 * (x / (exp x - 1) - 3 * debye 2 x + 2 * debye 1 x) / x ^ 2).
  { eapply uniqueness_limite; [exact D|]. apply is_derive_Reals.
    apply (is_derive_ext_loc (fun th => 1 + 12 / th * (debye 2 th - debye 1 th))); [|apply rho_derive; lra].
    assert (K : 0 < x - / 100000000) by lra. exists (mkposreal _ K). intros y Hy.
    unfold ball in Hy; cbn in Hy; unfold AbsRing_ball, abs, minus, plus, opp in Hy; cbn in Hy. apply Rabs_def2 in Hy.
    rewrite rho_value by lra. reflexivity. }
  unfold frank_drho_code. rewrite (proj1 (C70_debye x ltac:(lra))). cbn [option_map]. unfold frank_drho. intros Q. injection Q as Q.
  pose proof (debye2_lt_debye1 x ltac:(lra)) as L. rewrite E in Q.
  assert (P : 0 < / x ^ 2) by (apply Rinv_0_lt_compat; apply pow_lt; lra). unfold Rdiv in Q. apply Rmult_eq_reg_r in Q; lra.
Qed.
Print Assumptions C70_drho_refuted.
Theorem C70_rho_derivative : forall x, / 100000000 < x ->
  derivable_pt_lim (fun th => match frank_rho_code (raw 1) (raw 2) th with Some r => r | None => 0 end) x (12 * (x / (exp x - 1) - 3 * debye 2 x + 2 * debye 1 x) / x ^ 2).
Proof.
  intros x H. apply is_derive_Reals.
  apply (is_derive_ext_loc (fun th => 1 + 12 / th * (debye 2 th - debye 1 th))); [|apply rho_derive; lra].
  assert (K : 0 < x - / 100000000) by lra. exists (mkposreal _ K). intros y Hy.
  unfold ball in Hy; cbn in Hy; unfold AbsRing_ball, abs, minus, plus, opp in Hy; cbn in Hy. apply Rabs_def2 in Hy.
  rewrite rho_value by lra. reflexivity.
Qed.
Print Assumptions C70_rho_derivative.
Example C70_case : -5 < 2 /\ / 100000000 < Rabs (-5) /\ / 100000000 < Rabs 2 /\ frank_tau_code (raw 1) (-5) = option_map Ropp (frank_tau_code (raw 1) 5) /\
  frank_tau_code (raw 1) 2 = Some (1 + 4 * (debye 1 2 - 1) / 2).
Proof.
  split; [lra|]. split; [rewrite Rabs_left; lra|]. split; [rewrite Rabs_right; lra|]. split; [replace (-5) with (- 5) by ring; apply (C70_odd _ (raw 2))|].
  rewrite tau_value by lra. reflexivity.
Qed.
