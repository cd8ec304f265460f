(** Specification of sampling: integrals over the positive half line, and the event that every coordinate of a row stays below a bound. *)
From Coquelicot Require Import Coquelicot.
From Verif Require Import Base RSumLib Ext.
Open Scope R_scope.

(** the integral of f over (0, oo) is l *)
Definition half_line (f : R -> R) (l : R) : Prop := is_RInt_gen f (at_right 0) (Rbar_locally p_infty) l.
(** the product of a list *)
Definition prod (l : list R) : R := fold_right Rmult 1 l.
Definition inside (l : list R) : Prop := Forall (fun w => 0 < w < 1) l.
(** A row made of independent uniforms ws is numbers, and it is below us exactly when ws is below bs: so the probability of that is the
    product of bs. *)
Definition below_iff (row : list R -> result (list ext)) (us bs : list R) : Prop :=
  length bs = length us /\ inside bs /\
  forall ws, inside ws -> length ws = length us -> exists r, row ws = Ok (map Fin r) /\ inside r /\ (Forall2 Rle r us <-> Forall2 Rle ws bs).
(** the density of the gamma distribution with shape a, G standing for the value of the gamma function *)
Definition gamma_density (a G v : R) : R := Rpower v (a - 1) * exp (- v) / G.
