(** Specification vocabulary for data whose columns are turned round (read from high to low). *)
From Verif Require Import Base RSumLib.
Open Scope R_scope.

(** one scale per column: decreasing in the columns marked by [flip], increasing in the others *)
Definition turning_scales (flip : nat -> bool) (f : nat -> R -> R) : Prop :=
  forall j a b, a < b -> if flip j then f j b < f j a else f j a < f j b.
(** no two entries of a column are equal *)
Definition columns_distinct (x : mat R) : Prop :=
  forall j i k, (j < nc x)%nat -> (i < nr x)%nat -> (k < nr x)%nat -> get x i j = get x k j -> i = k.
