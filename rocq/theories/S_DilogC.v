(** Specification vocabulary for the complex dilogarithm.  A complex number is a pair of reals. *)
From Coq Require Import Reals Lra.
From Coquelicot Require Import Coquelicot.
Open Scope R_scope.

(** the principal argument of u + i v, off the negative real axis; ln |u + i v| *)
Definition arg (u v : R) : R := 2 * atan (v / (u + sqrt (u ^ 2 + v ^ 2))).
Definition lnabs (u v : R) : R := ln (u ^ 2 + v ^ 2) / 2.
(** the plane without the cut [1, oo) *)
Definition slit (x y : R) : Prop := y <> 0 \/ x < 1.
(** U + i V is the dilogarithm - int_0^1 Log(1 - t z) / t dt: on the way from 0 to z its derivative is - Log(1 - t z) / t *)
Definition is_dilogC (U V : R -> R -> R) : Prop :=
  forall x y, slit x y ->
    U 0 0 = 0 /\ V 0 0 = 0
    /\ filterlim (fun t => U (t * x) (t * y)) (at_right 0) (locally 0) /\ filterlim (fun t => V (t * x) (t * y)) (at_right 0) (locally 0)
    /\ forall t, 0 < t <= 1 ->
       is_derive (fun t => U (t * x) (t * y)) t (- lnabs (1 - t * x) (- (t * y)) / t)
       /\ is_derive (fun t => V (t * x) (t * y)) t (- arg (1 - t * x) (- (t * y)) / t).
