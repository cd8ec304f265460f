(** The first Debye function: derivative and sign. *)
From Coquelicot Require Import Coquelicot.
From Verif Require Import Base RSumLib Ext S_Archimedean P_Gen M_Archimedean P_Arch P_ArchCode P_CM P_Arch2.
Open Scope R_scope.

Lemma expm1_pos t : 0 < t -> 0 < exp t - 1.
Proof. intros H. pose proof (exp_gt_1 t H). lra. Qed.
Lemma expm1_nz t : t <> 0 -> exp t - 1 <> 0.
Proof. intros H. pose proof (em_nz (- t) ltac:(lra)) as Q. rewrite Ropp_involutive in Q. exact Q. Qed.
Lemma kernel1_pos t : 0 <= t -> 0 < debye_kernel 1 t.
Proof.
  intros H. unfold debye_kernel. destruct (Reqb t 0) eqn:E; [cbn; lra|]. apply Reqb_false in E. rewrite pow_1.
  apply Rdiv_lt_0_compat; [lra|]. apply expm1_pos. lra.
Qed.
Lemma kernel1_le_1 t : 0 <= t -> debye_kernel 1 t <= 1.
Proof.
  intros H. unfold debye_kernel. destruct (Reqb t 0) eqn:E; [cbn; lra|]. apply Reqb_false in E. rewrite pow_1.
  pose proof (expm1_pos t ltac:(lra)). pose proof (exp_ineq1_le t). apply Rmult_le_reg_r with (exp t - 1); [lra|].
  unfold Rdiv. rewrite Rmult_assoc, Rinv_l by lra. lra.
Qed.
(** k = t / (e^t - 1) is continuous: it is the inverse of the continued difference quotient of exp at 0 *)
Lemma kernel1_cont t : continuous (debye_kernel 1) t.
Proof.
  destruct (Req_dec t 0) as [->|Hne].
  - set (q := fun t => if Reqb t 0 then 1 else (exp t - 1) / t).
    assert (Cq : continuous q 0).
    { intros P [e He]. assert (Q0 : q 0 = 1) by (unfold q; rewrite Reqb_refl; reflexivity). rewrite Q0 in He.
      pose proof (derivable_pt_lim_exp 0) as D. rewrite exp_0 in D. destruct (D e (cond_pos e)) as [d Hd].
      exists d. intros y Hy. apply He. unfold ball in *; cbn in *; unfold AbsRing_ball, abs, minus, plus, opp in *; cbn in *.
      rewrite Ropp_0, Rplus_0_r in Hy. unfold q. destruct (Reqb y 0) eqn:E.
      - rewrite Rplus_opp_r, Rabs_R0. apply cond_pos.
      - apply Reqb_false in E. specialize (Hd y E Hy). rewrite Rplus_0_l, exp_0 in Hd. exact Hd. }
    apply (continuous_ext (fun t => / q t)).
    + intros x. unfold q, debye_kernel. destruct (Reqb x 0) eqn:E; [cbn; apply Rinv_1|]. apply Reqb_false in E. rewrite pow_1.
      pose proof (expm1_nz x E). change (/ ((exp x - 1) / x) = x / (exp x - 1)). field. split; assumption.
    + apply (continuous_comp q Rinv); [exact Cq|]. apply continuous_Rinv. unfold q. rewrite Reqb_refl. lra.
  - apply (continuous_ext_loc _ (fun t => t / (exp t - 1))).
    + assert (K : 0 < Rabs t) by (apply Rabs_pos_lt; exact Hne). exists (mkposreal _ K). intros y Hy.
      unfold ball in Hy; cbn in Hy; unfold AbsRing_ball, abs, minus, plus, opp in Hy; cbn in Hy.
      unfold debye_kernel. destruct (Reqb y 0) eqn:E; [|rewrite pow_1; reflexivity]. apply Reqb_true in E. subst.
      rewrite Rplus_0_l, Rabs_Ropp in Hy. lra.
    + apply (@ex_derive_continuous R_AbsRing R_NormedModule). pose proof (expm1_nz t Hne). auto_derive. exact H.
Qed.
Lemma debye_int_derive x : is_derive (fun x => RInt (debye_kernel 1) 0 x) x (debye_kernel 1 x).
Proof.
  apply (@is_derive_RInt R_NormedModule (debye_kernel 1) _ 0 x); [|apply kernel1_cont].
  exists (mkposreal 1 Rlt_0_1). intros y _. apply (@RInt_correct R_CompleteNormedModule).
  apply (@ex_RInt_continuous R_CompleteNormedModule). intros z _. apply kernel1_cont.
Qed.
Lemma debye1_pos x : 0 < x -> 0 < debye 1 x.
Proof.
  intros H. unfold debye. rewrite pow_1. change (INR 1) with 1.
  destruct (MVT_cor2 (fun x => RInt (debye_kernel 1) 0 x) (debye_kernel 1) 0 x H) as [c [E [C1 C2]]].
  { intros c _. apply is_derive_Reals. apply debye_int_derive. }
  replace (RInt (debye_kernel 1) 0 0) with 0 in E by (symmetry; apply (@RInt_point R_CompleteNormedModule)). rewrite !Rminus_0_r in E. rewrite E.
  pose proof (kernel1_pos c ltac:(lra)). unfold Rdiv. rewrite Rmult_1_l. apply Rmult_lt_0_compat; [apply Rinv_0_lt_compat; exact H|nra].
Qed.
Lemma debye1_derive x : 0 < x -> is_derive (debye 1) x ((x / (exp x - 1) - debye 1 x) / x).
Proof.
  intros H. pose proof (expm1_pos x H). apply (is_derive_ext (fun x => / x * RInt (debye_kernel 1) 0 x)).
  { intros t. unfold debye. rewrite pow_1. change (INR 1) with 1. unfold Rdiv. rewrite Rmult_1_l. reflexivity. }
  evar_last.
  - apply (@is_derive_mult R_AbsRing (fun x => / x) (fun x => RInt (debye_kernel 1) 0 x)); [| apply debye_int_derive|intros; apply Rmult_comm].
    apply (is_derive_inv (fun u => u) x 1); [apply (@is_derive_id R_AbsRing)|lra].
  - unfold debye. rewrite pow_1. change (INR 1) with 1. unfold plus, mult; simpl AbelianGroup.plus; simpl Ring.mult.
    replace (debye_kernel 1 x) with (x / (exp x - 1)).
    + field. split; lra.
    + unfold debye_kernel. rewrite Reqb_neq by lra. rewrite pow_1. reflexivity.
Qed.
(** the derivative of Frank's tau *)
Lemma frank_tau_derive x : 0 < x ->
  is_derive (frank_tau_ (debye 1)) x ((x / (exp x - 1) + 1 - 2 * debye 1 x) * (2 / x) ^ 2).
Proof.
  intros H. pose proof (expm1_pos x H). unfold frank_tau_.
  apply (is_derive_ext (fun th => 1 + 4 * ((debye 1 th - 1) * / th))).
  { intros t. change (1 + 4 * ((debye 1 t - 1) * / t) = 1 + 4 * (debye 1 t - 1) / t). unfold Rdiv. ring. }
  evar_last.
  - apply (@is_derive_plus R_AbsRing R_NormedModule (fun _ => 1)); [apply (@is_derive_const R_AbsRing R_NormedModule)|].
    apply (is_derive_scal (fun th => (debye 1 th - 1) * / th) x 4).
    apply (@is_derive_mult R_AbsRing (fun x => debye 1 x - 1) (fun x => / x)); [| |intros; apply Rmult_comm].
    + apply (@is_derive_minus R_AbsRing R_NormedModule); [apply debye1_derive; exact H|apply (@is_derive_const R_AbsRing R_NormedModule)].
    + apply (is_derive_inv (fun u => u) x 1); [apply (@is_derive_id R_AbsRing)|lra].
  - unfold minus, plus, opp, zero; cbn. unfold mult; cbn. field. split; lra.
Qed.
