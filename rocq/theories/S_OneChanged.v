(** Specification vocabulary for data in which one observation is replaced. *)
From Verif Require Import Base.

(** m' is m with another row r *)
Definition one_changed {A} (r : nat) (m m' : mat A) : Prop :=
  nr m' = nr m /\ nc m' = nc m /\ r < nr m /\ forall i j, i < nr m -> j < nc m -> i <> r -> get m' i j = get m i j.
