(** Specification vocabulary: Nolan's integral for the density of a stable law with alpha = 1, beta <> 0 (parametrisation S0). *)
From Coquelicot Require Import Coquelicot.
From Verif Require Import Base RSumLib Ext S_StablePdf.
Open Scope R_scope.

Definition nolan1_V (beta th : R) : R := 2 / PI * ((PI / 2 + beta * th) / cos th) * exp (1 / beta * (PI / 2 + beta * th) * tan th).
Definition nolan1_g (beta x th : R) : R := exp (- PI * x / (2 * beta)) * nolan1_V beta th.
Definition nolan1_density (beta x d : R) : Prop :=
  exists I, integral_on (- (PI / 2)) (PI / 2) (fun th => nolan1_g beta x th * exp (- nolan1_g beta x th)) I /\ d = 1 / (2 * Rabs beta) * I.
