(** C82: the Clausen function is accurate on one period. *)
From Coq Require Import QArith Qreals.
From Coquelicot Require Import Coquelicot.
From Verif Require Import Base RSumLib M_Specfunc M_Clausen S_Clausen P_Specfunc P_Clausen P_Clausen5.
From Coq Require Import Psatz.
Local Close Scope Q_scope. Open Scope R_scope.

(** ** C82 *)
(** the specification has exactly one solution on the period *)
Theorem C82_function : (exists f, is_clausen f) /\ forall f g x, is_clausen f -> is_clausen g -> 0 < x < 2 * PI -> f x = g x.
Proof. split; [exists cl; exact cl_is_clausen|]. intros f g x. apply clausen_unique. Qed.
Print Assumptions C82_function.
(** the computed value, relative to the distance to the nearer end of the period *)
Theorem C82_accuracy : forall f x, is_clausen f -> 0 < x < 2 * PI ->
  exists v, clausen_fn x = Some v /\ Rabs (v - f x) <= 4 / 10 ^ 19 * Rmin x (2 * PI - x).
Proof. intros f x. apply clausen_fn_accurate. Qed.
Print Assumptions C82_accuracy.
Theorem C82_negative : forall f x, is_clausen f -> - (2 * PI) < x < 0 ->
  exists v, clausen_fn x = Some v /\ Rabs (v + f (- x)) <= 4 / 10 ^ 19 * Rmin (- x) (2 * PI + x).
Proof.
  intros f x F Hx. destruct (clausen_fn_accurate f (- x) F ltac:(lra)) as [v [E B]]. exists (- v). split.
  - unfold clausen_fn in *. rewrite <- (Ropp_involutive x), clausen_odd, E. reflexivity.
  - replace (- v + f (- x)) with (- (v - f (- x))) by ring. rewrite Rabs_Ropp. replace (2 * PI + x) with (2 * PI - - x) by ring. exact B.
Qed.
Print Assumptions C82_negative.
(** the integral over the half and the whole period vanishes, and the computed values come close *)
Theorem C82_half_period : exists v, clausen_fn PI = Some v /\ Rabs v <= 4 / 10 ^ 19 * PI.
Proof.
  pose proof PI_RGT_0. destruct (clausen_fn_accurate cl PI cl_is_clausen ltac:(lra)) as [v [E B]]. exists v. split; [exact E|]. rewrite (clausen_PI cl cl_is_clausen), Rminus_0_r, Rmin_left in B by lra. exact B.
Qed.
Print Assumptions C82_half_period.
Example C82_case : is_clausen cl /\ 0 < 1 < 2 * PI /\ - (2 * PI) < -5 < 0 /\ exists v, clausen_fn 5 = Some v /\ Rabs (v - cl 5) <= 8 / 10 ^ 19.
Proof.
  pose proof P_Clausen3.pi_bounds as B. unfold Q2R in B. cbn [Qnum Qden P_Clausen3.pilo P_Clausen3.pihi] in B. split; [exact cl_is_clausen|]. split; [lra|]. split; [lra|].
  destruct (clausen_fn_accurate cl 5 cl_is_clausen ltac:(lra)) as [v [E A]]. exists v. split; [exact E|]. rewrite Rmin_right in A by lra. lra.
Qed.
