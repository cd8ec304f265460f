(** Specification vocabulary for ranks and pseudo-observations. *)
From Coq Require Import QArith.
From Coq Require Export Permutation Sorted.
From Verif Require Import Base.
Open Scope nat_scope.

(** The comparison the data comes with: a total preorder (floats without nan). *)
Definition total_preorder {A} (leb : A -> A -> bool) : Prop :=
  (forall x y, leb x y = true \/ leb y x = true) /\
  (forall x y z, leb x y = true -> leb y z = true -> leb x z = true).

(** strictly smaller / tied *)
Definition below {A} (leb : A -> A -> bool) (x y : A) : Prop := leb x y = true /\ leb y x = false.
Definition tied  {A} (leb : A -> A -> bool) (x y : A) : Prop := leb x y = true /\ leb y x = true.

(** [p] permutes the row numbers 0..n-1 *)
Definition row_permutation (n : nat) (p : nat -> nat) : Prop :=
  exists q, forall i, i < n -> p i < n /\ q i < n /\ q (p i) = i /\ p (q i) = i.

(** no two rows of column [j] tie *)
Definition no_ties {A} (leb : A -> A -> bool) (n : nat) (x : nat -> A) : Prop :=
  forall i k, i < n -> k < n -> tied leb (x i) (x k) -> i = k.

(** [s] is the column [x 0 .. x (n-1)] in sorted order *)
Definition sorted_column {A} (leb : A -> A -> bool) (n : nat) (x : nat -> A) (s : list A) : Prop :=
  Permutation (map x (seq 0 n)) s /\ StronglySorted (fun a b => leb a b = true) s.

(** position [p] (1-based) of the list [s] holds a value tied with [a] *)
Definition holds_at {A} (leb : A -> A -> bool) (s : list A) (p : nat) (a : A) : Prop :=
  1 <= p /\ exists b, nth_error s (p - 1) = Some b /\ tied leb a b.

(** first and last 1-based position of (a value tied with) [a] in [s] *)
Definition first_position {A} (leb : A -> A -> bool) (s : list A) (p : nat) (a : A) : Prop :=
  holds_at leb s p a /\ forall q, holds_at leb s q a -> p <= q.
Definition last_position {A} (leb : A -> A -> bool) (s : list A) (p : nat) (a : A) : Prop :=
  holds_at leb s p a /\ forall q, holds_at leb s q a -> q <= p.

(** the sum of a rational-valued column *)
Fixpoint Qsum (l : list Q) : Q := match l with [] => 0%Q | x :: r => (x + Qsum r)%Q end.

(** the documented rank of value [a] for each tie method, [s] being the sorted column (dense ranks are in C06_dense_..) *)
Definition documented_rank {A} (leb : A -> A -> bool) (s : list A) (a : A) (method : string) (r : Q) : Prop :=
  exists first last, first_position leb s first a /\ last_position leb s last a /\
  (method = "average"%string -> (r == inject_Z (Z.of_nat (first + last)) / 2)%Q) /\
  (method = "min"%string -> (r == inject_Z (Z.of_nat first))%Q) /\
  (method = "max"%string -> (r == inject_Z (Z.of_nat last))%Q) /\
  (method = "ordinal"%string -> exists p, holds_at leb s p a /\ (r == inject_Z (Z.of_nat p))%Q).
