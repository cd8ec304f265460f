(** The Clausen function: existence, uniqueness, reflection, and bounds obtained from a bound on the derivative. *)
From Coq Require Import QArith Qreals Qabs.
From Coquelicot Require Import Coquelicot.
From Verif Require Import Base RSumLib S_Clausen P_Dilog P_Dilog2.
From Coq Require Import Psatz.
Local Close Scope Q_scope. Open Scope R_scope.

Lemma vanish_plus f g : vanishes_at_0 f -> vanishes_at_0 g -> vanishes_at_0 (fun x => f x + g x).
Proof.
  intros F G eps H. destruct (F (eps / 2) ltac:(lra)) as [d [Hd A]]. destruct (G (eps / 2) ltac:(lra)) as [e [He B]]. exists (Rmin d e). split; [apply Rmin_pos; lra|].
  intros x Hx. pose proof (Rmin_l d e). pose proof (Rmin_r d e). specialize (A x ltac:(lra)). specialize (B x ltac:(lra)). pose proof (Rabs_triang (f x) (g x)). lra.
Qed.
Lemma vanish_le f g c : 0 < c -> (forall x, 0 < x < c -> Rabs (f x) <= Rabs (g x)) -> vanishes_at_0 g -> vanishes_at_0 f.
Proof.
  intros Hc L G eps H. destruct (G eps H) as [d [Hd A]]. exists (Rmin c d). split; [apply Rmin_pos; lra|]. intros x Hx. pose proof (Rmin_l c d). pose proof (Rmin_r c d).
  specialize (L x ltac:(lra)). specialize (A x ltac:(lra)). lra.
Qed.
Lemma vanish_opp f : vanishes_at_0 f -> vanishes_at_0 (fun x => - f x).
Proof. apply vanish_le with 1; [lra|]. intros x _. rewrite Rabs_Ropp. lra. Qed.
Lemma vanish_scal c f : vanishes_at_0 f -> vanishes_at_0 (fun x => c * f x).
Proof.
  intros F eps H. destruct (F (eps / (Rabs c + 1))) as [d [Hd A]]. { apply Rdiv_lt_0_compat; [exact H|]. pose proof (Rabs_pos c). lra. }
  exists d. split; [exact Hd|]. intros x Hx. specialize (A x Hx). rewrite Rabs_mult. pose proof (Rabs_pos c). pose proof (Rabs_pos (f x)).
  apply Rmult_lt_compat_r with (r := Rabs c + 1) in A; [|lra]. replace (eps / (Rabs c + 1) * (Rabs c + 1)) with eps in A by (field; lra). nra.
Qed.
Lemma vanish_cont f : continuous f 0 -> f 0 = 0 -> vanishes_at_0 f.
Proof.
  intros C E eps H. apply continuity_pt_filterlim in C. destruct (C eps H) as [d [Hd A]]. exists d. split; [exact Hd|]. intros x Hx. specialize (A x). cbn in A. unfold R_dist in A. rewrite E, !Rminus_0_r in A.
  apply A. split; [split; [exact Logic.I|lra]|]. rewrite Rabs_pos_eq; lra.
Qed.
Lemma vanish_xlnx : vanishes_at_0 (fun x => x * ln x).
Proof.
  intros eps H. exists (Rmin 1 ((eps / 4) * (eps / 4))). split; [apply Rmin_pos; nra|]. intros x Hx. pose proof (Rmin_l 1 ((eps / 4) * (eps / 4))). pose proof (Rmin_r 1 ((eps / 4) * (eps / 4))).
  pose proof (xlnx_bound x ltac:(lra)) as B. rewrite <- Rabs_Ropp, Rabs_pos_eq by lra. assert (sqrt x <= eps / 4). { rewrite <- (sqrt_square (eps / 4)) by lra. apply sqrt_le_1_alt. lra. } lra.
Qed.

(** a function that vanishes at 0+ and whose derivative is bounded *)
Lemma bound_from_0 f f' C x : 0 < x -> vanishes_at_0 f -> (forall t, 0 < t <= x -> is_derive f t (f' t)) -> (forall t, 0 < t <= x -> Rabs (f' t) <= C) -> Rabs (f x) <= C * x.
Proof.
  intros Hx V D B. apply le_epsilon. intros eps He. destruct (V eps He) as [d [Hd A]]. set (s := Rmin (d / 2) (x / 2)). assert (Hs : 0 < s < d /\ s < x). { unfold s. pose proof (Rmin_l (d / 2) (x / 2)). pose proof (Rmin_r (d / 2) (x / 2)). assert (0 < Rmin (d / 2) (x / 2)) by (apply Rmin_pos; lra). lra. }
  clearbody s. destruct (MVT_cor2 f f' s x ltac:(lra)) as [c [E Hc]]. { intros t Ht. apply is_derive_Reals, D. lra. }
  specialize (A s ltac:(lra)). specialize (B c ltac:(lra)). replace (f x) with (f s + f' c * (x - s)) by lra. eapply Rle_trans; [apply Rabs_triang|]. rewrite Rabs_mult, (Rabs_pos_eq (x - s)) by lra. pose proof (Rabs_pos (f' c)). nra.
Qed.
Lemma clausen_derive f x : is_clausen f -> 0 < x < 2 * PI -> is_derive f x (- ln (2 * sin (x / 2))).
Proof. intros [_ H] Hx. apply is_derive_Reals, H, Hx. Qed.
Lemma clausen_unique f g x : is_clausen f -> is_clausen g -> 0 < x < 2 * PI -> f x = g x.
Proof.
  intros F G Hx. assert (B : Rabs (f x + - g x) <= 0 * x).
  { apply (bound_from_0 (fun x => f x + - g x) (fun t => - ln (2 * sin (t / 2)) + - - ln (2 * sin (t / 2))) 0 x (proj1 Hx)).
    - apply vanish_plus; [apply F|]. apply vanish_opp, G.
    - intros t Ht. apply (is_derive_plus (K := R_AbsRing) (V := R_NormedModule) f (fun x => - g x)); [apply clausen_derive; [exact F|lra]|]. apply (is_derive_opp g). apply clausen_derive; [exact G|lra].
    - intros t Ht. rewrite Rplus_opp_r, Rabs_R0. lra. }
  rewrite Rmult_0_l in B. pose proof (Rabs_pos (f x + - g x)). assert (f x + - g x = 0) by (apply Rabs_eq_0; lra). lra.
Qed.

(** ** existence *)
Definition sinc (t : R) : R := if Req_EM_T t 0 then 1 else sin t / t.
Lemma sinc_0 : sinc 0 = 1. Proof. unfold sinc. destruct (Req_EM_T 0 0); [reflexivity|congruence]. Qed.
Lemma sinc_nz t : t <> 0 -> sinc t = sin t / t. Proof. unfold sinc. destruct (Req_EM_T t 0); congruence. Qed.
Lemma sinc_pos t : Rabs t < PI -> 0 < sinc t.
Proof.
  intros H. apply Rabs_lt_between in H. destruct (Rtotal_order t 0) as [L|[->|L]]; [|rewrite sinc_0; lra|].
  - rewrite sinc_nz by lra. replace (sin t / t) with (sin (- t) / - t) by (rewrite sin_neg; field; lra). apply Rdiv_lt_0_compat; [apply sin_gt_0; lra|lra].
  - rewrite sinc_nz by lra. apply Rdiv_lt_0_compat; [apply sin_gt_0; lra|lra].
Qed.
Lemma sinc_cont t : continuous sinc t.
Proof.
  destruct (Req_dec t 0) as [->|N].
  - apply continuity_pt_filterlim. intros eps He. destruct (derivable_pt_lim_sin 0 eps He) as [d A]. exists d. split; [apply cond_pos|]. intros x [_ Hx]. cbn in *. unfold R_dist in *. rewrite Rminus_0_r in Hx. rewrite sinc_0.
    destruct (Req_dec x 0) as [->|Nx]; [rewrite sinc_0, Rminus_eq_0, Rabs_R0; exact He|]. rewrite sinc_nz by exact Nx. specialize (A x Nx Hx). rewrite sin_0, cos_0, Rplus_0_l, Rminus_0_r in A. exact A.
  - apply (continuous_ext_loc _ (fun t => sin t / t)).
    + assert (P : 0 < Rabs t) by (apply Rabs_pos_lt, N). exists (mkposreal _ P). intros y Hy. cbn in Hy. unfold ball in Hy; cbn in Hy. unfold AbsRing_ball, abs, minus, plus, opp in Hy; cbn in Hy. symmetry. apply sinc_nz. intros ->. rewrite Rplus_0_l, Rabs_Ropp in Hy. lra.
    + apply (ex_derive_continuous (V := R_NormedModule)). auto_derive. exact N.
Qed.
Definition lnsinc (t : R) : R := ln (sinc (t / 2)).
Lemma lnsinc_cont t : Rabs t < 2 * PI -> continuous lnsinc t.
Proof.
  intros H. assert (P : 0 < sinc (t / 2)). { apply sinc_pos. apply Rabs_lt_between in H. apply Rabs_lt_between. lra. }
  unfold lnsinc. apply (continuous_comp (fun t => sinc (t / 2)) ln).
  - apply (continuous_comp (fun t => t / 2) sinc); [|apply sinc_cont]. apply (ex_derive_continuous (V := R_NormedModule)). auto_derive. exact Logic.I.
  - apply (ex_derive_continuous (V := R_NormedModule)). auto_derive. exact P.
Qed.
Lemma lnsinc_int_derive x : Rabs x < 2 * PI -> is_derive (fun x => RInt lnsinc 0 x) x (lnsinc x).
Proof.
  intros H. pose proof PI_RGT_0. apply Rabs_lt_between in H. assert (P : 0 < Rmin (2 * PI - x) (x + 2 * PI)) by (apply Rmin_pos; lra). apply (is_derive_RInt lnsinc _ 0 x).
  - exists (mkposreal _ P). intros y Hy. apply (RInt_correct (V := R_CompleteNormedModule)). apply (ex_RInt_continuous (V := R_CompleteNormedModule)). intros z Hz. apply lnsinc_cont.
    unfold ball in Hy; cbn in Hy. unfold AbsRing_ball, abs, minus, plus, opp in Hy; cbn in Hy. apply Rabs_lt_between in Hy. pose proof (Rmin_l (2 * PI - x) (x + 2 * PI)). pose proof (Rmin_r (2 * PI - x) (x + 2 * PI)).
    apply Rabs_lt_between. destruct (Rle_lt_dec 0 y); [rewrite Rmin_left, Rmax_right in Hz by lra|rewrite Rmin_right, Rmax_left in Hz by lra]; lra.
  - apply lnsinc_cont. apply Rabs_lt_between. lra.
Qed.
(** the explicit function *)
Definition cl (x : R) : R := x * (1 - ln x) - RInt lnsinc 0 x.
Lemma cl_is_clausen : is_clausen cl.
Proof.
  pose proof PI_RGT_0 as P. split.
  - apply (vanish_le _ (fun x => (x + -1 * (x * ln x)) + - RInt lnsinc 0 x) 1); [lra|intros x _; unfold cl; right; f_equal; ring|].
    apply vanish_plus; [apply vanish_plus; [|apply vanish_scal, vanish_xlnx]|apply vanish_opp].
    + apply vanish_cont; [apply continuous_id|reflexivity].
    + apply vanish_cont; [|apply (RInt_point (V := R_CompleteNormedModule))]. apply (ex_derive_continuous (V := R_NormedModule)). eexists. apply lnsinc_int_derive. rewrite Rabs_R0. lra.
  - intros x Hx. apply is_derive_Reals. assert (S : 0 < sin (x / 2)) by (apply sin_gt_0; lra).
    replace (- ln (2 * sin (x / 2))) with (- ln x - lnsinc x).
    + apply (is_derive_minus (K := R_AbsRing) (V := R_NormedModule) (fun x => x * (1 - ln x)) (fun x => RInt lnsinc 0 x)); [|apply lnsinc_int_derive; apply Rabs_lt_between; lra].
      auto_derive; [lra|]. field. lra.
    + unfold lnsinc. rewrite sinc_nz by lra. replace (2 * sin (x / 2)) with (x * (sin (x / 2) / (x / 2))) by (field; lra). rewrite ln_mult; [ring|lra|]. apply Rdiv_lt_0_compat; lra.
Qed.

(** ** reflection *)
Lemma const_between f a b : (forall t, a < t < b -> is_derive f t 0) -> forall s t, a < s < b -> a < t < b -> f s = f t.
Proof.
  intros D. assert (W : forall s t, a < s < b -> a < t < b -> s < t -> f s = f t).
  { intros s t Hs Ht L. destruct (MVT_cor2 f (fun _ => 0) s t L) as [c [E _]]; [intros c Hc; apply is_derive_Reals, D; lra|lra]. }
  intros s t Hs Ht. destruct (Rtotal_order s t) as [L|[->|L]]; [apply W; assumption|reflexivity|symmetry; apply W; assumption].
Qed.
Lemma chain_derive f g x a b : is_derive g x a -> is_derive f (g x) b -> is_derive (fun x => f (g x)) x (a * b).
Proof. intros G F. apply (is_derive_comp (K := R_AbsRing) (V := R_NormedModule) f g x b a); assumption. Qed.
Lemma clausen_reflect_const f : is_clausen f -> forall x, 0 < x < 2 * PI -> f x + f (2 * PI - x) = 2 * f PI.
Proof.
  intros F. pose proof PI_RGT_0 as P. assert (E : forall x, 0 < x < 2 * PI -> is_derive (fun x => f x + f (2 * PI - x)) x 0).
  { intros x Hx. replace 0 with (- ln (2 * sin (x / 2)) + (-1) * (- ln (2 * sin ((2 * PI - x) / 2)))).
    - apply (is_derive_plus (K := R_AbsRing) (V := R_NormedModule) f (fun x => f (2 * PI - x))); [apply clausen_derive; assumption|].
      apply (chain_derive f (fun x => 2 * PI - x)); [auto_derive; [exact Logic.I|ring]|apply clausen_derive; [exact F|lra]].
    - replace ((2 * PI - x) / 2) with (PI - x / 2) by field. rewrite sin_PI_x. ring. }
  intros x Hx. rewrite (const_between _ 0 (2 * PI) E x PI Hx ltac:(lra)). replace (2 * PI - PI) with PI by ring. ring.
Qed.
(** duplication *)
Lemma clausen_dup f : is_clausen f -> forall x, 0 < x < PI -> f (2 * x) / 2 - f x + f (PI - x) = f PI / 2.
Proof.
  intros F. pose proof PI_RGT_0 as P. assert (E : forall x, 0 < x < PI -> is_derive (fun x => f (2 * x) / 2 - f x + f (PI - x)) x 0).
  { intros x Hx. assert (S1 : 0 < sin (x / 2)) by (apply sin_gt_0; lra). assert (S2 : 0 < cos (x / 2)) by (apply cos_gt_0; lra).
    replace 0 with (2 * (- ln (2 * sin (2 * x / 2))) / 2 - (- ln (2 * sin (x / 2))) + (-1) * (- ln (2 * sin ((PI - x) / 2)))).
    - apply (is_derive_plus (K := R_AbsRing) (V := R_NormedModule) (fun x => f (2 * x) / 2 - f x) (fun x => f (PI - x))).
      + apply (is_derive_minus (K := R_AbsRing) (V := R_NormedModule) (fun x => f (2 * x) / 2) f); [|apply clausen_derive; [exact F|lra]].
        apply (is_derive_scal_l (fun x => f (2 * x)) x _ (/ 2)). apply (chain_derive f (fun x => 2 * x)); [auto_derive; [exact Logic.I|ring]|apply clausen_derive; [exact F|lra]].
      + apply (chain_derive f (fun x => PI - x)); [auto_derive; [exact Logic.I|ring]|apply clausen_derive; [exact F|lra]].
    - replace ((PI - x) / 2) with (PI / 2 - x / 2) by field. rewrite <- cos_shift. rewrite cos_shift, sin_shift. replace (2 * x / 2) with (2 * (x / 2)) by field. rewrite sin_2a.
      replace (2 * (2 * sin (x / 2) * cos (x / 2))) with (2 * sin (x / 2) * (2 * cos (x / 2))) by ring. rewrite (ln_mult (2 * sin (x / 2))) by lra. field. }
  intros x Hx. rewrite (const_between _ 0 PI E x (PI / 2) Hx ltac:(lra)). replace (2 * (PI / 2)) with PI by field. replace (PI - PI / 2) with (PI / 2) by field. field.
Qed.
Lemma clausen_PI f : is_clausen f -> f PI = 0.
Proof.
  intros F. pose proof PI_RGT_0 as P. assert (Q : f PI = f PI / 2); [|lra]. apply cond_eq. intros eps He.
  destruct F as [V D]. pose proof (conj V D : is_clausen f) as F. destruct (V (eps / 4) ltac:(lra)) as [d [Hd A]].
  assert (C : continuity_pt f PI) by (apply derivable_continuous_pt; eexists; apply D; lra). destruct (C (eps / 4) ltac:(lra)) as [e [He' B]].
  set (x := Rmin (Rmin (d / 4) (e / 2)) (PI / 2)). assert (Hx : 0 < x /\ 2 * x < d /\ x < e /\ x < PI).
  { unfold x. pose proof (Rmin_l (Rmin (d / 4) (e / 2)) (PI / 2)). pose proof (Rmin_r (Rmin (d / 4) (e / 2)) (PI / 2)). pose proof (Rmin_l (d / 4) (e / 2)). pose proof (Rmin_r (d / 4) (e / 2)). assert (0 < Rmin (Rmin (d / 4) (e / 2)) (PI / 2)) by (repeat apply Rmin_pos; lra). lra. }
  clearbody x. pose proof (clausen_dup f F x ltac:(lra)) as E. pose proof (A x ltac:(lra)) as A1. pose proof (A (2 * x) ltac:(lra)) as A2.
  assert (B1 : Rabs (f (PI - x) - f PI) < eps / 4). { apply (B (PI - x)). split; [split; [exact Logic.I|lra]|]. cbn. unfold R_dist. replace (PI - x - PI) with (- x) by ring. rewrite Rabs_Ropp, Rabs_pos_eq; lra. }
  apply Rabs_lt_between in A1, A2, B1. apply Rabs_lt_between. lra.
Qed.
Lemma clausen_reflect f x : is_clausen f -> 0 < x < 2 * PI -> f (2 * PI - x) = - f x.
Proof. intros F Hx. pose proof (clausen_reflect_const f F x Hx). rewrite (clausen_PI f F) in H. lra. Qed.
