(** Specification vocabulary for data with one more observation. *)
From Verif Require Import Base.

(** m' is m with one row added at the end *)
Definition one_more {A} (m m' : mat A) : Prop :=
  nr m' = S (nr m) /\ nc m' = nc m /\ forall i j, i < nr m -> j < nc m -> get m' i j = get m i j.
