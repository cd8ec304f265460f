(** Specification: the real part of the dilogarithm, -Re (integral from 0 to x of log(1-s)/s ds).  The integrand has a singularity at 1, so the
    integral is described by its derivative away from 0 and 1, its continuity everywhere and its value at 0. *)
From Coquelicot Require Import Coquelicot.
From Verif Require Import Base RSumLib.
Open Scope R_scope.

Definition is_dilog (L : R -> R) : Prop :=
  L 0 = 0 /\ (forall x, continuity_pt L x) /\ (forall x, x <> 0 -> x <> 1 -> is_derive L x (- ln (Rabs (1 - x)) / x)).
