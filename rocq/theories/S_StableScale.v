(** Specification: the location of a rescaled stable law. *)
From Coq Require Import Reals.
From Verif Require Import Base RSumLib.
Local Close Scope Z_scope. Open Scope R_scope.

(** Nolan: if X has scale gamma and location delta, then s X + t (s > 0) has scale s gamma and this location; in the parametrisation S1
    with alpha = 1 the location does not simply follow. *)
Definition new_location (alpha beta gamma delta s t : R) (pm : nat) : R :=
  s * delta + t - (if Nat.eqb pm 1 && Reqb alpha 1 then 2 / PI * beta * gamma * s * ln s else 0).
