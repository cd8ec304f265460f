(** The Debye functions on the whole line; monotonicity of Frank's rank correlations. *)
From Coquelicot Require Import Coquelicot.
From Verif Require Import Base RSumLib Ext S_Archimedean P_Gen M_Archimedean P_Arch P_ArchCode P_CM P_Arch2 P_Debye.
Open Scope R_scope.

Notation k1 := (debye_kernel 1).
Notation k2 := (debye_kernel 2).
Lemma k1_nz t : t <> 0 -> k1 t = t / (exp t - 1).
Proof. intros H. unfold debye_kernel. rewrite Reqb_neq by exact H. rewrite pow_1. reflexivity. Qed.
Lemma k1_0 : k1 0 = 1.
Proof. unfold debye_kernel. rewrite Reqb_refl. reflexivity. Qed.
Lemma k2_k1 t : k2 t = t * k1 t.
Proof.
  unfold debye_kernel. destruct (Reqb t 0) eqn:E; cbn.
  - apply Reqb_true in E. subst. ring.
  - unfold Rdiv. ring.
Qed.
Lemma k1_opp t : k1 (- t) = k1 t + t.
Proof.
  destruct (Req_dec t 0) as [->|H]; [rewrite Ropp_0, k1_0; ring|]. rewrite !k1_nz by lra. pose proof (expm1_nz t H). pose proof (exp_pos t).
  rewrite exp_Ropp. field. split; [lra|]. split; [|lra]. lra.
Qed.
Lemma k2_cont t : continuous k2 t.
Proof.
  apply (continuous_ext (fun t : R => t * k1 t)); [intros; symmetry; apply k2_k1|].
  apply (@continuous_mult R_UniformSpace R_AbsRing (fun t : R => t) k1); [apply continuous_id|apply kernel1_cont].
Qed.
Lemma int2_derive x : is_derive (fun x => RInt k2 0 x) x (k2 x).
Proof.
  apply (@is_derive_RInt R_NormedModule k2 _ 0 x); [|apply k2_cont].
  exists (mkposreal 1 Rlt_0_1). intros y _. apply (@RInt_correct R_CompleteNormedModule).
  apply (@ex_RInt_continuous R_CompleteNormedModule). intros z _. apply k2_cont.
Qed.
Lemma int_0 n : RInt (debye_kernel n) 0 0 = 0.
Proof. apply (@RInt_point R_CompleteNormedModule). Qed.

(** a function with derivative 0 everywhere is constant *)
Lemma constant (f : R -> R) : (forall t, is_derive f t 0) -> forall x, f x = f 0.
Proof.
  intros H x. destruct (Rtotal_order x 0) as [L|[->|L]]; [|reflexivity|].
  - apply (eq_is_derive (V := R_NormedModule) f x 0); [intros; apply H|exact L].
  - symmetry. apply (eq_is_derive (V := R_NormedModule) f 0 x); [intros; apply H|exact L].
Qed.
Lemma comp_opp (f : R -> R) f' x : is_derive f (- x) f' -> is_derive (fun x => f (- x)) x (- f').
Proof.
  intros H. replace (- f') with (scal (-1) f') by (unfold scal; cbn; unfold mult; cbn; ring).
  apply (is_derive_comp f (fun x => - x) x f' (-1)); [exact H|]. auto_derive; [exact Logic.I|ring].
Qed.
Lemma int1_opp x : RInt k1 0 (- x) = - (RInt k1 0 x + x ^ 2 / 2).
Proof.
  assert (E := constant (fun x => RInt k1 0 (- x) + RInt k1 0 x + x ^ 2 / 2)). cbv beta in E.
  assert (Y : RInt k1 0 (- x) + RInt k1 0 x + x ^ 2 / 2 = 0); [|lra].
  rewrite E.
  - rewrite Ropp_0, int_0. field.
  - intros t. assert (Z : 0 = - k1 (- t) + k1 t + t) by (rewrite k1_opp; ring).
    match goal with |- is_derive ?f _ _ => apply (eq_ind_r (fun z => is_derive f t z)) with (2 := Z) end.
    apply (@is_derive_plus R_AbsRing R_NormedModule); [apply (@is_derive_plus R_AbsRing R_NormedModule)|].
    + apply (comp_opp (fun x => RInt k1 0 x) (k1 (- t)) t). apply debye_int_derive.
    + apply debye_int_derive.
    + auto_derive; [exact Logic.I|field].
Qed.
Lemma int2_opp x : RInt k2 0 (- x) = RInt k2 0 x + x ^ 3 / 3.
Proof.
  assert (E := constant (fun x => RInt k2 0 (- x) - RInt k2 0 x - x ^ 3 / 3)). cbv beta in E.
  assert (Y : RInt k2 0 (- x) - RInt k2 0 x - x ^ 3 / 3 = 0); [|lra].
  rewrite E.
  - rewrite Ropp_0, int_0. field.
  - intros t. assert (Z : 0 = - k2 (- t) - k2 t - t ^ 2) by (rewrite !k2_k1, k1_opp; ring).
    match goal with |- is_derive ?f _ _ => apply (eq_ind_r (fun z => is_derive f t z)) with (2 := Z) end.
    apply (@is_derive_minus R_AbsRing R_NormedModule); [apply (@is_derive_minus R_AbsRing R_NormedModule)|].
    + apply (comp_opp (fun x => RInt k2 0 x) (k2 (- t)) t). apply int2_derive.
    + apply int2_derive.
    + auto_derive; [exact Logic.I|field].
Qed.
Lemma debye1_opp x : x <> 0 -> debye 1 (- x) = debye 1 x + x / 2.
Proof. intros H. unfold debye. rewrite !pow_1, int1_opp. change (INR 1) with 1. field. exact H. Qed.
Lemma debye2_opp x : x <> 0 -> debye 2 (- x) = debye 2 x + 2 / 3 * x.
Proof. intros H. unfold debye. rewrite int2_opp. replace (INR 2) with 2 by (cbn; ring). field. exact H. Qed.

(** ** comparison of integrals: a function with f(0) = 0 and positive derivative on x > 0 is positive there *)
Lemma positive_of_derive (f f' : R -> R) : f 0 = 0 -> (forall t, is_derive f t (f' t)) -> (forall t, 0 < t -> 0 < f' t) -> forall x, 0 < x -> 0 < f x.
Proof.
  intros H0 D P x Hx. destruct (MVT_cor2 f f' 0 x Hx) as [c [E C]].
  - intros c _. apply is_derive_Reals. apply D.
  - rewrite H0 in E. specialize (P c (proj1 C)). nra.
Qed.
Lemma positive_of_derive' (f f' : R -> R) : f 0 = 0 -> continuity_pt f 0 -> (forall t, 0 < t -> is_derive f t (f' t)) -> (forall t, 0 < t -> 0 < f' t) -> forall x, 0 < x -> 0 < f x.
Proof.
  intros H0 C D P x Hx.
  destruct (MVT_gen f 0 x f') as [c [Hc E]].
  - rewrite Rmin_left, Rmax_right by lra. intros t Ht. apply D. lra.
  - rewrite Rmin_left, Rmax_right by lra. intros t Ht. destruct (Req_dec t 0) as [->|Hne]; [exact C|].
    apply derivable_continuous_pt. exists (f' t). apply is_derive_Reals. apply D. lra.
  - rewrite Rmin_left, Rmax_right in Hc by lra. rewrite H0 in E. destruct (Req_dec c 0) as [->|Hne].
    + (* the mean value may be taken at 0: use a point inside *)
      destruct (MVT_cor2 f f' (x / 2) x ltac:(lra)) as [c' [E' C']]; [intros c' Hc'; apply is_derive_Reals; apply D; lra|].
      assert (f (x / 2) < f x) by (specialize (P c' ltac:(lra)); nra).
      destruct (Rlt_dec (f (x / 2)) 0) as [L|L]; [|lra]. exfalso.
      (* f increases on (0, oo), so f <= f (x/2) < 0 near 0, against continuity *)
      destruct (C (- f (x / 2)) ltac:(lra)) as [d [Hd K]].
      set (y := Rmin (d / 2) (x / 4)). assert (Hy : 0 < y <= d / 2 /\ y <= x / 4).
      { unfold y, Rmin. destruct (Rle_dec (d / 2) (x / 4)); lra. }
      specialize (K y). unfold D_x, no_cond in K. cbn in K. unfold R_dist in K. rewrite H0, !Rminus_0_r in K.
      rewrite (Rabs_right y) in K by lra. assert (Q : Rabs (f y) < - f (x / 2)) by (apply K; lra). apply Rabs_def2 in Q.
      destruct (MVT_cor2 f f' y (x / 2) ltac:(lra)) as [c'' [E'' C'']]; [intros c'' Hc''; apply is_derive_Reals; apply D; lra|].
      specialize (P c'' ltac:(lra)). nra.
    + specialize (P c ltac:(lra)). nra.
Qed.

(** ** t / (e^t - 1): derivative, strictly decreasing *)
Definition k1' (t : R) : R := (exp t - 1 - t * exp t) / (exp t - 1) ^ 2.
Lemma k1_derive t : 0 < t -> is_derive k1 t (k1' t).
Proof.
  intros H. pose proof (expm1_pos t H). apply (is_derive_ext_loc (fun t => t / (exp t - 1))).
  - exists (mkposreal t H). intros y Hy. unfold ball in Hy; cbn in Hy; unfold AbsRing_ball, abs, minus, plus, opp in Hy; cbn in Hy.
    apply Rabs_def2 in Hy. symmetry. apply k1_nz. lra.
  - unfold k1'. auto_derive; [lra|]. field. lra.
Qed.
Lemma exp_lt_quot t : 0 < t -> exp t - 1 - t * exp t < 0.
Proof.
  intros H. assert (0 < t * exp t - (exp t - 1)); [|lra].
  apply (positive_of_derive (fun t => t * exp t - (exp t - 1)) (fun t => t * exp t)); [rewrite exp_0; ring| | |exact H].
  - intros x. auto_derive; [exact Logic.I|ring].
  - intros x Hx. apply Rmult_lt_0_compat; [exact Hx|apply exp_pos].
Qed.
Lemma k1'_neg t : 0 < t -> k1' t < 0.
Proof.
  intros H. unfold k1'. pose proof (expm1_pos t H). pose proof (exp_lt_quot t H).
  assert (0 < / (exp t - 1) ^ 2) by (apply Rinv_0_lt_compat; apply pow_lt; lra). unfold Rdiv. nra.
Qed.
Lemma k1_decr a b : 0 < a < b -> k1 b < k1 a.
Proof.
  intros H. destruct (MVT_cor2 k1 k1' a b (proj2 H)) as [c [E C]]; [intros c Hc; apply is_derive_Reals; apply k1_derive; lra|].
  pose proof (k1'_neg c ltac:(lra)). nra.
Qed.
(** mean value of the integral *)
Lemma int1_gt x : 0 < x -> x * k1 x < RInt k1 0 x.
Proof.
  intros H. destruct (MVT_cor2 (fun x => RInt k1 0 x) k1 0 x H) as [c [E C]]; [intros c _; apply is_derive_Reals; apply debye_int_derive|].
  rewrite int_0 in E. pose proof (k1_decr c x C). nra.
Qed.
Lemma int1_lt x : 0 < x -> RInt k1 0 x < x.
Proof.
  intros H. destruct (MVT_cor2 (fun x => RInt k1 0 x) k1 0 x H) as [c [E C]]; [intros c _; apply is_derive_Reals; apply debye_int_derive|].
  rewrite int_0 in E. assert (k1 c < 1); [|nra]. rewrite k1_nz by lra. pose proof (expm1_pos c ltac:(lra)). pose proof (exp_ineq1 c ltac:(lra)).
  apply (Rmult_lt_reg_r (exp c - 1)); [lra|]. unfold Rdiv. rewrite Rmult_assoc, Rinv_l by lra. lra.
Qed.
Lemma debye1_lt_1 x : 0 < x -> debye 1 x < 1.
Proof.
  intros H. unfold debye. rewrite pow_1. change (INR 1) with 1. pose proof (int1_lt x H).
  unfold Rdiv. rewrite Rmult_1_l. apply (Rmult_lt_reg_l x); [exact H|]. rewrite <- Rmult_assoc, Rinv_r by lra. lra.
Qed.
Lemma debye2_lt_debye1 x : 0 < x -> debye 2 x < debye 1 x.
Proof.
  intros H.
  assert (P : 0 < x * RInt k1 0 x - 2 * RInt k2 0 x).
  { apply (positive_of_derive (fun x => x * RInt k1 0 x - 2 * RInt k2 0 x) (fun x => RInt k1 0 x - x * k1 x)); [rewrite !int_0; ring| | |exact H].
    - intros t. replace (RInt k1 0 t - t * k1 t) with (plus (mult 1 (RInt k1 0 t)) (mult t (k1 t)) - 2 * k2 t) by (rewrite k2_k1; unfold plus, mult; cbn; ring).
      apply (@is_derive_minus R_AbsRing R_NormedModule).
      + apply (@is_derive_mult R_AbsRing (fun x => x) (fun x => RInt k1 0 x)); [apply (@is_derive_id R_AbsRing)|apply debye_int_derive|intros; apply Rmult_comm].
      + apply (is_derive_scal (fun x => RInt k2 0 x) t 2). apply int2_derive.
    - intros t Ht. pose proof (int1_gt t Ht). lra. }
  unfold debye. rewrite pow_1. change (INR 1) with 1. replace (INR 2) with 2 by (cbn; ring).
  apply (Rmult_lt_reg_r (x ^ 2)); [apply pow_lt; exact H|].
  replace (2 / x ^ 2 * RInt k2 0 x * x ^ 2) with (2 * RInt k2 0 x) by (field; lra).
  replace (1 / x * RInt k1 0 x * x ^ 2) with (x * RInt k1 0 x) by (field; lra). lra.
Qed.
Lemma debye2_pos x : 0 < x -> 0 < debye 2 x.
Proof.
  intros H. unfold debye. replace (INR 2) with 2 by (cbn; ring).
  assert (0 < RInt k2 0 x).
  { apply (positive_of_derive (fun x => RInt k2 0 x) k2); [apply int_0|intros; apply int2_derive| |exact H].
    intros t Ht. rewrite k2_k1. apply Rmult_lt_0_compat; [exact Ht|apply kernel1_pos; lra]. }
  apply Rmult_lt_0_compat; [apply Rdiv_lt_0_compat; [lra|apply pow_lt; exact H]|assumption].
Qed.
Lemma debye2_derive x : 0 < x -> is_derive (debye 2) x (2 * (x / (exp x - 1) - debye 2 x) / x).
Proof.
  intros H. pose proof (expm1_pos x H). apply (is_derive_ext (fun x => mult (2 * / x ^ 2) (RInt k2 0 x))).
  { intros t. unfold debye. replace (INR 2) with 2 by (cbn; ring). reflexivity. }
  replace (2 * (x / (exp x - 1) - debye 2 x) / x) with (plus (mult (-4 / x ^ 3) (RInt k2 0 x)) (mult (2 * / x ^ 2) (k2 x))).
  - apply (@is_derive_mult R_AbsRing (fun x => 2 * / x ^ 2) (fun x => RInt k2 0 x)); [|apply int2_derive|intros; apply Rmult_comm].
    auto_derive; [apply Rgt_not_eq; nra|]. field. lra.
  - unfold debye, plus, mult; cbn [AbelianGroup.plus Ring.mult]. cbn -[RInt]. rewrite k2_k1, k1_nz by lra. field. lra.
Qed.

(** ** Frank's tau: strictly increasing *)
Lemma sinh_ineq x : 0 < x -> x ^ 2 * exp x < (exp x - 1) ^ 2.
Proof.
  intros H. set (y := x / 2).
  assert (K : 0 < exp y - exp (- y) - 2 * y).
  { apply (positive_of_derive (fun y => exp y - exp (- y) - 2 * y) (fun y => exp y + exp (- y) - 2)); [rewrite Ropp_0; ring| | |unfold y; lra].
    - intros t. auto_derive; [exact Logic.I|]. ring.
    - intros t Ht. pose proof (exp_gt_1 t Ht) as G. rewrite exp_Ropp. set (e := exp t) in *.
      replace (e + / e - 2) with ((e - 1) ^ 2 * / e) by (field; lra). apply Rmult_lt_0_compat; [apply pow_lt; lra|apply Rinv_0_lt_compat; lra]. }
  assert (E : exp x = exp y * exp y) by (rewrite <- exp_plus; f_equal; unfold y; field).
  assert (P : exp y * exp (- y) = 1) by (rewrite <- exp_plus, Rplus_opp_r, exp_0; reflexivity).
  pose proof (exp_pos y). pose proof (exp_pos (- y)).
  assert (E2 : exp x - 1 = exp y * (exp y - exp (- y))) by (rewrite E, <- P; ring).
  rewrite E2, E. replace x with (2 * y) by (unfold y; field).
  assert (0 < y) by (unfold y; lra).
  replace ((exp y * (exp y - exp (- y))) ^ 2) with ((exp y - exp (- y)) ^ 2 * (exp y * exp y)) by ring.
  apply Rmult_lt_compat_r; [nra|]. set (a := exp y - exp (- y)) in *. assert (0 < (a - 2 * y) * (a + 2 * y)) by (apply Rmult_lt_0_compat; lra). lra.
Qed.
Lemma tau_num_pos x : 0 < x -> 0 < x * k1 x + x - 2 * RInt k1 0 x.
Proof.
  intros H. apply (positive_of_derive' (fun x => x * k1 x + x - 2 * RInt k1 0 x) (fun x => x * k1' x + 1 - k1 x)); [rewrite int_0; ring| | | |exact H].
  - apply continuity_pt_filterlim.
    apply (@continuous_minus R_UniformSpace R_AbsRing R_NormedModule (fun x => x * k1 x + x) (fun x => 2 * RInt k1 0 x)).
    + apply (@continuous_plus R_UniformSpace R_AbsRing R_NormedModule (fun x => x * k1 x) (fun x => x)); [|apply continuous_id].
      apply (@continuous_mult R_UniformSpace R_AbsRing (fun t : R => t) k1); [apply continuous_id|apply kernel1_cont].
    + apply (@continuous_scal_r R_UniformSpace R_AbsRing R_NormedModule 2 (fun x => RInt k1 0 x)). apply (@ex_derive_continuous R_AbsRing R_NormedModule). exists (k1 0). apply debye_int_derive.
  - intros t Ht. replace (t * k1' t + 1 - k1 t) with ((plus (mult 1 (k1 t)) (mult t (k1' t)) + 1) - 2 * k1 t) by (unfold plus, mult; cbn; ring).
    apply (@is_derive_minus R_AbsRing R_NormedModule); [apply (@is_derive_plus R_AbsRing R_NormedModule)|].
    + apply (@is_derive_mult R_AbsRing (fun x => x) k1); [apply (@is_derive_id R_AbsRing)|apply k1_derive; exact Ht|intros; apply Rmult_comm].
    + apply (@is_derive_id R_AbsRing).
    + apply (is_derive_scal (fun x => RInt k1 0 x) t 2). apply debye_int_derive.
  - intros t Ht. rewrite k1_nz by lra. unfold k1'. pose proof (expm1_pos t Ht) as E. pose proof (sinh_ineq t Ht).
    replace (t * ((exp t - 1 - t * exp t) / (exp t - 1) ^ 2) + 1 - t / (exp t - 1)) with (((exp t - 1) ^ 2 - t ^ 2 * exp t) / (exp t - 1) ^ 2) by (field; lra).
    apply Rdiv_lt_0_compat; [lra|apply pow_lt; exact E].
Qed.

(** ** Frank's rho: strictly increasing *)
Definition k1'' (t : R) : R := exp t * ((t - 2) * exp t + t + 2) / (exp t - 1) ^ 3.
Lemma k1'_derive t : 0 < t -> is_derive k1' t (k1'' t).
Proof.
  intros H. pose proof (expm1_pos t H). unfold k1', k1''. auto_derive.
  - apply Rgt_not_eq. rewrite Rmult_1_r. apply Rmult_lt_0_compat; lra.
  - field. lra.
Qed.
Lemma k1''_pos t : 0 < t -> 0 < k1'' t.
Proof.
  intros H. unfold k1''. apply Rdiv_lt_0_compat; [|apply pow_lt; apply expm1_pos; exact H]. apply Rmult_lt_0_compat; [apply exp_pos|].
  apply (positive_of_derive (fun t => (t - 2) * exp t + t + 2) (fun t => (t - 1) * exp t + 1)); [rewrite exp_0; ring| | |exact H].
  - intros x. auto_derive; [exact Logic.I|ring].
  - intros x Hx. pose proof (exp_lt_quot x Hx). lra.
Qed.
Lemma k1_bounds t : 0 < t -> 0 < k1 t < 1.
Proof.
  intros H. split; [apply kernel1_pos; lra|]. rewrite k1_nz by lra. pose proof (expm1_pos t H). pose proof (exp_ineq1 t ltac:(lra)).
  apply (Rmult_lt_reg_r (exp t - 1)); [lra|]. unfold Rdiv. rewrite Rmult_assoc, Rinv_l by lra. lra.
Qed.
(** |t k1'(t)| <= 1, so t^2 k1'(t) tends to 0 at 0 *)
Lemma tk1'_bound t : 0 < t -> -1 < t * k1' t < 0.
Proof.
  intros H. pose proof (k1'_neg t H). split; [|nra].
  (* 1 - k1 + t k1' > 0 *)
  assert (0 < t * k1' t + 1 - k1 t).
  { rewrite k1_nz by lra. unfold k1'. pose proof (expm1_pos t H) as E. pose proof (sinh_ineq t H).
    replace (t * ((exp t - 1 - t * exp t) / (exp t - 1) ^ 2) + 1 - t / (exp t - 1)) with (((exp t - 1) ^ 2 - t ^ 2 * exp t) / (exp t - 1) ^ 2) by (field; lra).
    apply Rdiv_lt_0_compat; [lra|apply pow_lt; exact E]. }
  pose proof (k1_bounds t H). lra.
Qed.
Lemma int1_continuous x : continuous (fun x => RInt k1 0 x) x.
Proof. apply (@ex_derive_continuous R_AbsRing R_NormedModule). exists (k1 x). apply debye_int_derive. Qed.
Lemma rho_inner_pos x : 0 < x -> 0 < x ^ 2 * k1' x - 2 * x * k1 x + 2 * RInt k1 0 x.
Proof.
  intros H.
  set (f := fun x => if Rleb x 0 then 0 else x ^ 2 * k1' x - 2 * x * k1 x + 2 * RInt k1 0 x).
  assert (Ef : forall x, 0 < x -> f x = x ^ 2 * k1' x - 2 * x * k1 x + 2 * RInt k1 0 x).
  { intros y Hy. unfold f. rewrite (proj2 (Rleb_false y 0) Hy). reflexivity. }
  rewrite <- (Ef x H).
  apply (positive_of_derive' f (fun t => t ^ 2 * k1'' t)); [| | | |exact H].
  - unfold f. rewrite (proj2 (Rleb_true 0 0)) by lra. reflexivity.
  - intros e He. exists (e / 5). split; [lra|]. intros y [[_ Hy0] Hy]. cbn in Hy. cbn -[f]. unfold R_dist in *. rewrite Rminus_0_r in Hy.
    assert (F0 : f 0 = 0) by (unfold f; rewrite (proj2 (Rleb_true 0 0)) by lra; reflexivity). rewrite F0, Rminus_0_r.
    destruct (Rle_dec y 0) as [L|L].
    + unfold f. rewrite (proj2 (Rleb_true y 0)) by lra. rewrite Rabs_R0. exact He.
    + rewrite (Ef y) by lra. rewrite Rabs_right in Hy by lra. pose proof (tk1'_bound y ltac:(lra)). pose proof (k1_bounds y ltac:(lra)).
      pose proof (int1_lt y ltac:(lra)). pose proof (int1_gt y ltac:(lra)).
      assert (- y < y ^ 2 * k1' y < 0) by nra. assert (0 < y * k1 y < y) by nra. apply Rabs_def1; lra.
  - intros t Ht. apply (is_derive_ext_loc (fun x => x ^ 2 * k1' x - 2 * x * k1 x + 2 * RInt k1 0 x)).
    + exists (mkposreal t Ht). intros y Hy. unfold ball in Hy; cbn in Hy; unfold AbsRing_ball, abs, minus, plus, opp in Hy; cbn in Hy.
      apply Rabs_def2 in Hy. symmetry. apply Ef. lra.
    + replace (t ^ 2 * k1'' t) with ((plus (mult (2 * t) (k1' t)) (mult (t ^ 2) (k1'' t)) - plus (mult 2 (k1 t)) (mult (2 * t) (k1' t))) + 2 * k1 t)
        by (unfold plus, mult; cbn; ring).
      apply (@is_derive_plus R_AbsRing R_NormedModule); [apply (@is_derive_minus R_AbsRing R_NormedModule)|].
      * apply (@is_derive_mult R_AbsRing (fun x => x ^ 2) k1'); [auto_derive; [exact Logic.I|ring]|apply k1'_derive; exact Ht|intros; apply Rmult_comm].
      * apply (@is_derive_mult R_AbsRing (fun x => 2 * x) k1); [auto_derive; [exact Logic.I|ring]|apply k1_derive; exact Ht|intros; apply Rmult_comm].
      * apply (is_derive_scal (fun x => RInt k1 0 x) t 2). apply debye_int_derive.
  - intros t Ht. apply Rmult_lt_0_compat; [apply pow_lt; exact Ht|apply k1''_pos; exact Ht].
Qed.
Lemma rho_num_pos x : 0 < x -> 0 < x ^ 2 * k1 x - 6 * RInt k2 0 x + 2 * (x * RInt k1 0 x).
Proof.
  intros H.
  apply (positive_of_derive' (fun x => x ^ 2 * k1 x - 6 * RInt k2 0 x + 2 * (x * RInt k1 0 x)) (fun x => x ^ 2 * k1' x - 2 * x * k1 x + 2 * RInt k1 0 x)); [rewrite !int_0; ring| | | |exact H].
  - apply continuity_pt_filterlim.
    apply (@continuous_plus R_UniformSpace R_AbsRing R_NormedModule (fun x => x ^ 2 * k1 x - 6 * RInt k2 0 x) (fun x => 2 * (x * RInt k1 0 x))).
    + apply (@continuous_minus R_UniformSpace R_AbsRing R_NormedModule (fun x => x ^ 2 * k1 x) (fun x => 6 * RInt k2 0 x)).
      * apply (@continuous_mult R_UniformSpace R_AbsRing (fun t : R => t ^ 2) k1); [|apply kernel1_cont].
        apply (@ex_derive_continuous R_AbsRing R_NormedModule). auto_derive. exact Logic.I.
      * apply (@continuous_scal_r R_UniformSpace R_AbsRing R_NormedModule 6 (fun x => RInt k2 0 x)). apply (@ex_derive_continuous R_AbsRing R_NormedModule). exists (k2 0). apply int2_derive.
    + apply (@continuous_scal_r R_UniformSpace R_AbsRing R_NormedModule 2 (fun x => x * RInt k1 0 x)).
      apply (@continuous_mult R_UniformSpace R_AbsRing (fun t : R => t) (fun x => RInt k1 0 x)); [apply continuous_id|apply int1_continuous].
  - intros t Ht.
    replace (t ^ 2 * k1' t - 2 * t * k1 t + 2 * RInt k1 0 t)
      with ((plus (mult (2 * t) (k1 t)) (mult (t ^ 2) (k1' t)) - 6 * k2 t) + 2 * plus (mult 1 (RInt k1 0 t)) (mult t (k1 t)))
      by (rewrite k2_k1; unfold plus, mult; cbn -[RInt]; ring).
    apply (@is_derive_plus R_AbsRing R_NormedModule); [apply (@is_derive_minus R_AbsRing R_NormedModule)|].
    + apply (@is_derive_mult R_AbsRing (fun x => x ^ 2) k1); [auto_derive; [exact Logic.I|ring]|apply k1_derive; exact Ht|intros; apply Rmult_comm].
    + apply (is_derive_scal (fun x => RInt k2 0 x) t 6). apply int2_derive.
    + apply (is_derive_scal (fun x => x * RInt k1 0 x) t 2).
      apply (@is_derive_mult R_AbsRing (fun x => x) (fun x => RInt k1 0 x)); [apply (@is_derive_id R_AbsRing)|apply debye_int_derive|intros; apply Rmult_comm].
  - intros t Ht. apply rho_inner_pos. exact Ht.
Qed.
