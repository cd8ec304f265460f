(** Integrals over the half line of functions between 0 and exp(- w), and their dependence on a parameter. *)
From Coquelicot Require Import Coquelicot.
From Verif Require Import Base RSumLib Ext S_Sampling T_Stable P_Kanter.
From Coq Require Import Psatz Classical_Prop.
Local Close Scope Z_scope. Open Scope R_scope.

Lemma exp_int x y : is_RInt (fun w => exp (- w)) x y (exp (- x) - exp (- y)).
Proof.
  replace (exp (- x) - exp (- y)) with (minus ((fun w => - exp (- w)) y) ((fun w => - exp (- w)) x)) by (unfold minus, plus, opp; cbn; ring).
  apply (is_RInt_derive (V := R_CompleteNormedModule) (fun w => - exp (- w))).
  - intros w _. evar_last; [auto_derive; [exact Logic.I|reflexivity]|]. ring.
  - intros w _. apply (ex_derive_continuous (fun w => exp (- w))). auto_derive. exact Logic.I.
Qed.
Lemma exp_lt1 x : 0 < x -> 0 < exp (- x) < 1.
Proof. intros H. split; [apply exp_pos|]. rewrite <- exp_0. apply exp_increasing. lra. Qed.
Lemma exp_low x : 1 - x <= exp (- x).
Proof. pose proof (exp_ineq1_le (- x)). lra. Qed.
Section Tail.
  Variable g : R -> R.
  Hypothesis C : forall w, 0 < w -> continuous g w.
  Hypothesis B : forall w, 0 < w -> 0 <= g w <= exp (- w).
  Lemma t_ex x y : 0 < x -> 0 < y -> ex_RInt g x y.
  Proof. intros Hx Hy. apply (ex_RInt_continuous (V := R_CompleteNormedModule)). intros w [Hw _]. apply C. revert Hw. apply Rmin_case; lra. Qed.
  Lemma t_bd x y : 0 < x -> x <= y -> 0 <= RInt g x y <= exp (- x) - exp (- y).
  Proof.
    intros Hx Hy. split.
    - apply RInt_ge_0; [exact Hy|apply t_ex; lra|]. intros w Hw. apply B. lra.
    - rewrite <- (is_RInt_unique (V := R_CompleteNormedModule) _ _ _ _ (exp_int x y)). apply RInt_le; [exact Hy|apply t_ex; lra|eexists; apply exp_int|]. intros w Hw. apply B. lra.
  Qed.
  Lemma t_cut x y z : 0 < x -> 0 < y -> 0 < z -> RInt g x z = RInt g x y + RInt g y z.
  Proof. intros. symmetry. apply (RInt_Chasles (V := R_CompleteNormedModule) g x y z); apply t_ex; assumption. Qed.
  Lemma half_tail : exists l, half_line g l /\ 0 <= l <= 1 /\ forall x y, 0 < x -> x <= y -> RInt g x y <= l <= RInt g x y + x + exp (- y).
  Proof.
    destruct (completeness (fun v => exists x y, 0 < x /\ x <= y /\ v = RInt g x y)) as [l [L1 L2]].
    - exists 1. intros v (x & y & Hx & Hy & ->). pose proof (t_bd x y Hx Hy). pose proof (exp_lt1 x Hx). pose proof (exp_pos (- y)). lra.
    - exists (RInt g 1 1), 1, 1. repeat split; lra.
    - assert (K : forall x y, 0 < x -> x <= y -> RInt g x y <= l <= RInt g x y + x + exp (- y)).
      { intros x y Hx Hy. split; [apply L1; exists x, y; repeat split; assumption|]. apply L2. intros v (a & b & Ha & Hb & ->).
        set (m := Rmin a x). set (M := Rmax b y). assert (Pm : 0 < m) by (unfold m; apply Rmin_pos; assumption).
        pose proof (Rmin_l a x : m <= a). pose proof (Rmin_r a x : m <= x). pose proof (Rmax_l b y : b <= M). pose proof (Rmax_r b y : y <= M).
        assert (E1 : RInt g a b <= RInt g m M).
        { rewrite (t_cut m a M), (t_cut a b M) by lra. pose proof (t_bd m a ltac:(lra) ltac:(lra)). pose proof (t_bd b M ltac:(lra) ltac:(lra)). lra. }
        rewrite (t_cut m x M), (t_cut x y M) in E1 by lra. pose proof (t_bd m x ltac:(lra) ltac:(lra)). pose proof (t_bd y M ltac:(lra) ltac:(lra)).
        pose proof (exp_low x). pose proof (exp_lt1 m Pm). pose proof (exp_pos (- M)). lra. }
      exists l. split; [|split; [|exact K]].
      + intros P [e He]. unfold filtermapi. pose proof (cond_pos e) as Pe.
        apply (Filter_prod _ _ _ (fun s => 0 < s < Rmin 1 (e / 2)) (fun y => Rmax 1 (ln (2 / e)) < y)).
        * assert (0 < Rmin 1 (e / 2)) by (apply Rmin_pos; lra). exists (mkposreal _ H). intros y By Py. change (Rabs (y - 0) < Rmin 1 (e / 2)) in By. rewrite Rminus_0_r, Rabs_pos_eq in By by lra. split; assumption.
        * exists (Rmax 1 (ln (2 / e))). intros y Hy. exact Hy.
        * intros s y Hs Hy. cbn [fst snd]. pose proof (Rmin_l 1 (e / 2)). pose proof (Rmin_r 1 (e / 2)). pose proof (Rmax_l 1 (ln (2 / e))). pose proof (Rmax_r 1 (ln (2 / e))).
          exists (RInt g s y). split; [apply (RInt_correct (V := R_CompleteNormedModule)), t_ex; lra|]. apply He. change (Rabs (RInt g s y - l) < e). pose proof (K s y ltac:(lra) ltac:(lra)).
          assert (exp (- y) < e / 2). { replace (e / 2) with (exp (- ln (2 / e))) by (rewrite exp_Ropp, exp_ln; [field; lra|apply Rdiv_lt_0_compat; lra]). apply exp_increasing. lra. }
          apply Rabs_def1; lra.
      + split.
        * pose proof (proj1 (K 1 1 ltac:(lra) ltac:(lra))). pose proof (t_bd 1 1 ltac:(lra) ltac:(lra)). lra.
        * apply L2. intros v (x & y & Hx & Hy & ->). pose proof (t_bd x y Hx Hy). pose proof (exp_lt1 x Hx). pose proof (exp_pos (- y)). lra.
  Qed.
  Lemma half_value l : half_line g l -> RInt_gen g (at_right 0) (Rbar_locally p_infty) = l.
  Proof. intros H. apply (is_RInt_gen_unique (V := R_CompleteNormedModule)); try typeclasses eauto. exact H. Qed.
  Lemma value_half : half_line g (RInt_gen g (at_right 0) (Rbar_locally p_infty)).
  Proof. destruct half_tail as (l & L & _). rewrite (half_value l L). exact L. Qed.
  Lemma value_tail : 0 <= RInt_gen g (at_right 0) (Rbar_locally p_infty) <= 1 /\ forall x y, 0 < x -> x <= y -> Rabs (RInt g x y - RInt_gen g (at_right 0) (Rbar_locally p_infty)) <= x + exp (- y).
  Proof.
    destruct half_tail as (l & L & L1 & L2). rewrite (half_value l L). split; [exact L1|]. intros x y Hx Hy. specialize (L2 x y Hx Hy). pose proof (exp_pos (- y)). apply Rabs_le. lra.
  Qed.
End Tail.
(** with a parameter s *)
Section Param.
  Variable c : R -> R.
  Hypothesis Cc : forall w, 0 < w -> continuity_pt c w.
  Hypothesis Pc : forall w, 0 < w -> 0 <= c w.
  Definition pg (s w : R) : R := exp (- (s * c w)) * exp (- w).
  Definition pv (s : R) : R := RInt_gen (pg s) (at_right 0) (Rbar_locally p_infty).
  Lemma pg_c2 s w : 0 < w -> continuity_2d_pt pg s w.
  Proof.
    intros H. apply continuity_2d_pt_mult.
    - apply (continuity_1d_2d_pt_comp exp (fun s w => - (s * c w))); [apply derivable_continuous_pt, derivable_pt_exp|]. apply continuity_2d_pt_opp, continuity_2d_pt_mult; [apply continuity_2d_pt_id1|apply k2_snd, Cc, H].
    - apply (continuity_1d_2d_pt_comp exp (fun s w => - w)); [apply derivable_continuous_pt, derivable_pt_exp|]. apply continuity_2d_pt_opp, continuity_2d_pt_id2.
  Qed.
  Lemma pg_cont s w : 0 < w -> continuous (pg s) w.
  Proof. intros H. apply (c2_slice pg), pg_c2, H. Qed.
  Lemma pg_bd s w : 0 <= s -> 0 < w -> 0 <= pg s w <= exp (- w).
  Proof.
    intros Hs Hw. unfold pg. pose proof (exp_pos (- (s * c w))) as E. pose proof (exp_pos (- w)) as F. assert (exp (- (s * c w)) <= 1). { rewrite <- exp_0. pose proof (Rmult_le_pos _ _ Hs (Pc w Hw)) as [H|H]; [left; apply exp_increasing; lra|right; f_equal; lra]. }
    split; [apply Rmult_le_pos; lra|]. rewrite <- (Rmult_1_l (exp (- w))) at 2. apply Rmult_le_compat_r; lra.
  Qed.
  Lemma pg_ds s w : is_derive (fun s => pg s w) s (- c w * pg s w).
  Proof. unfold pg. evar_last; [auto_derive; [exact Logic.I|reflexivity]|]. ring. Qed.
  Lemma pg_par x y s : 0 < x -> x <= y -> continuity_pt (fun s => RInt (pg s) x y) s.
  Proof.
    intros Hx Hy. apply continuity_pt_filterlim. apply (ex_derive_continuous (V := R_NormedModule) (fun s => RInt (pg s) x y)). exists (RInt (fun w => Derive (fun s => pg s w) s) x y). apply (is_derive_RInt_param pg x y s).
    - exists (mkposreal 1 Rlt_0_1). intros z _ w _. eexists. apply pg_ds.
    - intros w Hw. rewrite Rmin_left, Rmax_right in Hw by lra. apply (continuity_2d_pt_ext (fun s w => - c w * pg s w)).
      + intros. symmetry. apply is_derive_unique, pg_ds.
      + apply continuity_2d_pt_mult; [apply continuity_2d_pt_opp, k2_snd, Cc; lra|apply pg_c2; lra].
    - exists (mkposreal 1 Rlt_0_1). intros z _. apply (ex_RInt_continuous (V := R_CompleteNormedModule)). intros w Hw. rewrite Rmin_left, Rmax_right in Hw by lra. apply pg_cont. lra.
  Qed.
  Lemma pv_cont s : 0 < s -> continuity_pt pv s.
  Proof.
    intros Hs e He. set (x := Rmin 1 (e / 8)). set (y := Rmax 1 (ln (8 / e))).
    assert (X : 0 < x /\ x <= 1 /\ x <= e / 8) by (unfold x; split; [apply Rmin_pos; lra|split; [apply Rmin_l|apply Rmin_r]]). assert (Y : 1 <= y /\ ln (8 / e) <= y) by (unfold y; split; [apply Rmax_l|apply Rmax_r]).
    assert (Z : exp (- y) <= e / 8). { replace (e / 8) with (exp (- ln (8 / e))) by (rewrite exp_Ropp, exp_ln; [field; lra|apply Rdiv_lt_0_compat; lra]). destruct Y as [_ [Y|Y]]; [left; apply exp_increasing; lra|right; f_equal; lra]. }
    clearbody x y.
    destruct (pg_par x y s ltac:(lra) ltac:(lra) (e / 4) ltac:(lra)) as [d [Hd D]]. exists (Rmin d s). split; [apply Rmin_pos; assumption|].
    intros z [Hz1 Hz2]. change (Rabs (z - s) < Rmin d s) in Hz2. change (Rabs (pv z - pv s) < e). pose proof (Rmin_l d s). pose proof (Rmin_r d s). assert (Hz3 : Rabs (z - s) < d) by lra. specialize (D z (conj Hz1 Hz3)). change (Rabs (RInt (pg z) x y - RInt (pg s) x y) < e / 4) in D. apply Rabs_def2 in Hz2. assert (S0 : 0 <= s) by lra. assert (Z0 : 0 <= z) by lra. assert (XY : x <= y) by lra.
    pose proof (proj2 (value_tail (pg s) (pg_cont s) (fun w => pg_bd s w S0)) x y (proj1 X) XY) as V1. fold (pv s) in V1.
    pose proof (proj2 (value_tail (pg z) (pg_cont z) (fun w => pg_bd z w Z0)) x y (proj1 X) XY) as V2. fold (pv z) in V2.
    apply Rabs_le_between in V1. apply Rabs_le_between in V2. apply Rabs_def2 in D. apply Rabs_def1; lra.
  Qed.
End Param.
