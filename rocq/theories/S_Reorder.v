(** Specification vocabulary for reordered observations. *)
From Coq Require Import Permutation.
From Verif Require Import Base RSumLib Ext S_Rank M_Corr.
Open Scope nat_scope.

(** the observations of m in the order p *)
Definition reorder {A} (p : nat -> nat) (m : mat A) : mat A := mkMat (nr m) (nc m) (fun i j => get m (p i) j).
(** what is assumed of scipy's correlations: they depend on the set of pairs only *)
Definition orderless (scipy : cmethod -> list R -> list R -> result ext) : Prop :=
  forall m a b a' b', length a = length b -> length a' = length b' -> Permutation (combine a b) (combine a' b') -> scipy m a b = scipy m a' b'.
(** b holds the rows of a in the order p *)
Definition reordered {A} (p : nat -> nat) (a b : mat A) : Prop :=
  nr b = nr a /\ nc b = nc a /\ forall i j, i < nr a -> j < nc a -> get b i j = get a (p i) j.
(** fitting a copula depends on the set of observations only, and its distribution function is evaluated row by row *)
Definition orderless_fit (fit : mat R -> result (mat R -> nat -> R)) : Prop :=
  forall p a b, row_permutation (nr a) p -> reordered p a b -> match fit a, fit b with
    | Ok f, Ok g => forall p c d k, row_permutation (nr c) p -> reordered p c d -> k < nr c -> g d k = f c (p k)
    | Err e, Err e' => e = e'
    | _, _ => False
    end.
