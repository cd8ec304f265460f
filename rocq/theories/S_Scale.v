(** Specification vocabulary for data measured on other scales. *)
From Verif Require Import Base RSumLib.
Open Scope R_scope.

(** column j is measured on the scale f j *)
Definition rescaled (f : nat -> R -> R) (x : mat R) : mat R := mkMat (nr x) (nc x) (fun i j => f j (get x i j)).
(** increasing scales, one per column *)
Definition increasing_scales (f : nat -> R -> R) : Prop := forall j a b, a < b -> f j a < f j b.
