(** Specification vocabulary for definiteness. *)
From Verif Require Import Base RSumLib S_Matrix.
Open Scope R_scope.

(** quadratic form x' M x *)
Definition quad (n : nat) (m : nat -> nat -> R) (x : nat -> R) : R :=
  rsum n (fun i => rsum n (fun j => x i * m i j * x j)).
Definition norm2 (n : nat) (x : nat -> R) : R := rsum n (fun i => x i * x i).
Definition pos_semidef (n : nat) (m : nat -> nat -> R) : Prop := forall x, 0 <= quad n m x.
Definition pos_def (n : nat) (m : nat -> nat -> R) : Prop :=
  forall x, (exists i, (i < n)%nat /\ x i <> 0) -> 0 < quad n m x.
(** the symmetric matrix given by the lower triangle *)
Definition lower_sym (m : mat R) (i j : nat) : R := if (i <? j)%nat then get m j i else get m i j.

(** What is assumed of numpy.linalg.eigvalsh on a square matrix (Rayleigh): all returned values are >= c
    (resp. > c) exactly when the quadratic form of the lower-triangle matrix dominates c |x|^2
    (resp. strictly, for x <> 0). *)
Definition rayleigh (eigs : list R) (m : mat R) : Prop :=
  forall c : R,
    ((forall e, In e eigs -> c <= e) <->
       (forall x, c * norm2 (nr m) x <= quad (nr m) (lower_sym m) x)) /\
    ((forall e, In e eigs -> c < e) <->
       (forall x, (exists i, (i < nr m)%nat /\ x i <> 0) -> c * norm2 (nr m) x < quad (nr m) (lower_sym m) x)).
