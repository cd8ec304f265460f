(** Specification vocabulary for labelled correlation tables. *)
From Coq Require Import Permutation.
From Verif Require Import Base RSumLib Ext M_Corr M_CorrTable.
Open Scope nat_scope.

(** the columns of a data set taken in the order [p] *)
Definition reorder {A} (d : A) (p : list nat) (l : list A) : list A := map (fun k => nth k l d) p.
Definition an_order (n : nat) (p : list nat) : Prop := Permutation p (seq 0 n).
(** assumption on scipy: the coefficient does not depend on the order of the two vectors *)
Definition scipy_symmetric (scipy : cmethod -> list R -> list R -> result ext) : Prop :=
  forall m a b, scipy m a b = scipy m b a.
(** [v] stands in the table at row [a] and column [b] *)
Definition cell (o : output) (a b : label) (v : ext) : Prop :=
  match o with
  | Table index columns c => exists i j, nth_error index i = Some a /\ nth_error columns j = Some b /\ get c i j = v
  | Plain _ => False
  end.
(** a name that Python counts as true *)
Definition truthy (l : label) : Prop := l <> LStr "" /\ l <> LInt 0.
