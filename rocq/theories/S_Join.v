(** Specification vocabulary for two samples taken together. *)
From Verif Require Import Base RSumLib.
Open Scope nat_scope.

(** the rows of m and below them the rows of m' *)
Definition joined {A} (m m' : mat A) : mat A := mkMat (nr m + nr m') (nc m) (fun i j => if i <? nr m then get m i j else get m' (i - nr m) j).
