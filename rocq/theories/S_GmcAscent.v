(** Specification vocabulary for the ascent of the expectation maximisation. *)
From Coq Require Import Reals.
From Verif Require Import Base RSumLib Ext S_Matrix S_Linalg M_Gmc S_Gmc.
Open Scope R_scope.

(** a symmetric matrix whose quadratic form is positive except at 0 *)
Definition positive_definite (d : nat) (c : mat R) : Prop :=
  square d c /\ symmetric c /\ forall x, (exists i, (i < d)%nat /\ x i <> 0) -> 0 < quad d (get c) x.
(** a root of a covariance matrix: lower triangular with a positive diagonal, c = l l' *)
Definition root (d : nat) (l : nat -> nat -> R) (c : nat -> nat -> R) : Prop :=
  (forall i j, (i < j)%nat -> (j < d)%nat -> l i j = 0) /\ (forall i, (i < d)%nat -> 0 < l i i) /\
  (forall a b, (a < d)%nat -> (b < d)%nat -> c a b = rsum d (fun k => l a k * l b k)).
Fixpoint rprod (n : nat) (f : nat -> R) : R := match n with O => 1 | S m => rprod m f * f m end.
(** what is assumed of scipy's normal density, for positive definite covariances c = l l': with l z = x - mu it is
    exp (-|z|^2 / 2) divided by the product of sqrt (2 pi) l_ii *)
Definition documented_normal (pdf : (nat -> R) -> mat R -> (nat -> R) -> R) : Prop :=
  (forall mu c x, 0 <= pdf mu c x) /\
  forall d mu c x l z, square d c -> root d l (get c) -> (forall i, (i < d)%nat -> rsum d (fun j => l i j * z j) = x i - mu i) ->
    pdf mu c x = exp (- rsum d (fun i => z i * z i) / 2) / rprod d (fun i => sqrt (2 * PI) * l i i).
(** the log-likelihood of the rows of q under the mixture p *)
Definition log_likelihood (pdf : (nat -> R) -> mat R -> (nat -> R) -> R) (q : mat R) (p : gmc) : R :=
  rsum (nr q) (fun i => ln (mixed p (fun mu c => pdf mu c (get q i)))).
