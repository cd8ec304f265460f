(** Specification vocabulary for mixtures with relabelled components. *)
From Verif Require Import Base RSumLib Ext S_Matrix S_Rank M_Gmc S_Gmc.
Open Scope R_scope.

(** p' has the components of p in the order s *)
Definition relabelled (s : nat -> nat) (p p' : gmc) : Prop :=
  n_clusters p' = n_clusters p /\ n_dim p' = n_dim p
  /\ forall k, (k < n_clusters p)%nat -> weight p' k = weight p (s k)
       /\ (forall j, (j < n_dim p)%nat -> centre p' k j = centre p (s k) j) /\ mat_eq (spread_of p' k) (spread_of p (s k)).
(** a function of data and parameters that does not see the labels of the components *)
Definition unlabelled {A} (f : mat R -> gmc -> A) : Prop :=
  forall s u p p', valid p -> valid p' -> n_dim p = nc u -> row_permutation (n_clusters p) s -> relabelled s p p' -> f u p' = f u p.
