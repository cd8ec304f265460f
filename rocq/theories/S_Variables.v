(** Specification vocabulary for reordered variables. *)
From Verif Require Import Base RSumLib Ext S_Matrix S_Rank M_Gmc S_Gmc.
Open Scope R_scope.

(** the columns of m in the order q *)
Definition variables {A} (q : nat -> nat) (m : mat A) : mat A := mkMat (nr m) (nc m) (fun i j => get m i (q j)).
(** a fit that treats all variables alike: fitted to reordered variables, the distribution function takes points in that order *)
Definition fair_fit (fit : mat R -> result (mat R -> nat -> R)) (q : nat -> nat) : Prop :=
  forall d, row_permutation (nc d) q -> match fit d, fit (variables q d) with
    | Ok f, Ok g => forall c k, nc c = nc d -> (k < nr c)%nat -> g (variables q c) k = f c k
    | Err e, Err e' => e = e'
    | _, _ => False
    end.
(** the mixture p' is p with the coordinates in the order q *)
Definition turned (q : nat -> nat) (p p' : gmc) : Prop :=
  n_clusters p' = n_clusters p /\ n_dim p' = n_dim p
  /\ forall k, (k < n_clusters p)%nat -> weight p' k = weight p k
       /\ (forall j, (j < n_dim p)%nat -> centre p' k j = centre p k (q j))
       /\ (forall a b, (a < n_dim p)%nat -> (b < n_dim p)%nat -> get (spread_of p' k) a b = get (spread_of p k) (q a) (q b)).
(** a d-dimensional density that treats all coordinates alike *)
Definition fair_density (pdf : (nat -> R) -> mat R -> (nat -> R) -> R) (d : nat) (q : nat -> nat) : Prop :=
  forall mu mu' c c' x x', square d c -> square d c' -> (forall j, (j < d)%nat -> mu' j = mu (q j) /\ x' j = x (q j)) ->
    (forall a b, (a < d)%nat -> (b < d)%nat -> get c' a b = get c (q a) (q b)) -> pdf mu' c' x' = pdf mu c x.
(** a number computed from data and a mixture that treats all variables alike; a table of such numbers *)
Definition fair_number {A} (q : nat -> nat) (f : mat R -> gmc -> A) : Prop :=
  forall u p p', valid p -> valid p' -> n_dim p = nc u -> turned q p p' -> f (variables q u) p' = f u p.
Definition fair_table (q : nat -> nat) (f : mat R -> gmc -> result (mat R)) : Prop :=
  forall u p p', valid p -> valid p' -> n_dim p = nc u -> turned q p p' -> f (variables q u) p' = rmap (variables q) (f u p).
