(** Specification vocabulary for mixtures with equal components. *)
From Verif Require Import Base RSumLib Ext S_Matrix M_Gmc S_Gmc.
Local Close Scope Z_scope. Open Scope R_scope.

(** p' is p with components divided: component k of p' is component h k of p with a part of its weight; the parts add up *)
Definition divided (h : nat -> nat) (p p' : gmc) : Prop :=
  n_dim p' = n_dim p
  /\ (forall k, (k < n_clusters p')%nat -> (h k < n_clusters p)%nat /\ (forall j, (j < n_dim p)%nat -> centre p' k j = centre p (h k) j) /\ mat_eq (spread_of p' k) (spread_of p (h k)))
  /\ (forall c, (c < n_clusters p)%nat -> (exists k, (k < n_clusters p')%nat /\ h k = c) /\ rsum (n_clusters p') (fun k => if Nat.eqb (h k) c then weight p' k else 0) = weight p c).
(** p' is p with further components of weight 0 *)
Definition padded (p p' : gmc) : Prop :=
  n_dim p' = n_dim p /\ (n_clusters p <= n_clusters p')%nat
  /\ (forall k, (k < n_clusters p)%nat -> weight p' k = weight p k /\ (forall j, (j < n_dim p)%nat -> centre p' k j = centre p k j) /\ mat_eq (spread_of p' k) (spread_of p k))
  /\ (forall k, (n_clusters p <= k < n_clusters p')%nat -> weight p' k = 0).
