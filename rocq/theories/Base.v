(** Shared vocabulary of the model: Python exceptions as values, ASCII
    lower-casing of strings, matrices as shape + entry function. *)
From Coq Require Export String Ascii List Bool Arith ZArith Lia.
Export ListNotations.
Open Scope string_scope.
Open Scope list_scope.
Open Scope nat_scope.

(** Exception classes raised by the modelled code. *)
Inductive exn :=
| ValueError | TypeError | AssertionError | IndexError | KeyError
| ZeroDivisionError | NotImplementedError | AttributeError | NotFittedError
| NonSymmetricMatrixError | InputDataError | RuntimeError
| GMCParamError | GMCParamMismatchError | GMCNotFittedError | GMCFitMethodError | FitException | InvalidStoppingCriteria.

(** Outcome of a Python call. *)
Inductive result (A : Type) : Type :=
| Ok  (a : A)
| Err (e : exn).
Arguments Ok  {A} a.
Arguments Err {A} e.

Definition bind {A B} (r : result A) (f : A -> result B) : result B :=
  match r with Ok a => f a | Err e => Err e end.
Definition rmap {A B} (f : A -> B) (r : result A) : result B :=
  match r with Ok a => Ok (f a) | Err e => Err e end.

(** Python's [str.lower] on ASCII strings. *)
Definition lower_ascii (c : ascii) : ascii :=
  let n := nat_of_ascii c in
  if andb (Nat.leb 65 n) (Nat.leb n 90) then ascii_of_nat (n + 32) else c.
Fixpoint lower (s : string) : string :=
  match s with
  | EmptyString => EmptyString
  | String c r  => String (lower_ascii c) (lower r)
  end.

(** A numpy array of shape (nr, nc): entries outside the shape are meaningless. *)
Record mat (A : Type) := mkMat { nr : nat; nc : nat; get : nat -> nat -> A }.
Arguments mkMat {A} _ _ _.
Arguments nr {A} _.
Arguments nc {A} _.
Arguments get {A} _ _ _.

(** number of elements of a list satisfying a boolean predicate *)
Definition count {A} (f : A -> bool) (l : list A) : nat := length (filter f l).
