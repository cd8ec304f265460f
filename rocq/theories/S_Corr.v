(** Specification vocabulary for correlation matrices. *)
From Verif Require Import Base RSumLib Ext M_Corr.
Open Scope nat_scope.

(** [l'] consists of the elements of [l] with [P], in order *)
Inductive kept {A} (P : A -> Prop) : list A -> list A -> Prop :=
| kept_nil : kept P [] []
| kept_in a l l' : P a -> kept P l l' -> kept P (a :: l) (a :: l')
| kept_out a l l' : ~ P a -> kept P l l' -> kept P (a :: l) l'.
(** no value of a row is missing *)
Definition complete_row (r : list ext) : Prop := ~ In Nan r.
Definition both_present (i j : nat) (r : list ext) : Prop := nth i r Nan <> Nan /\ nth j r Nan <> Nan.
Definition is_number (v : ext) : Prop := exists r, v = Fin r.
(** column [j] contains something that is not a finite number *)
Definition bad_column (rows : list (list ext)) (j : nat) : Prop := exists r, In r rows /\ ~ is_number (nth j r Nan).
(** a correlation coefficient: a number in [-1,1], or nan *)
Definition coefficient (v : ext) : Prop := match v with Fin r => (-1 <= r <= 1)%R | Nan => True | _ => False end.
(** assumption on scipy: correlations of finite vectors are coefficients *)
Definition scipy_in_range (scipy : cmethod -> list R -> list R -> result ext) : Prop :=
  forall m a b v, scipy m a b = Ok v -> coefficient v.
(** assumption on scipy, stronger: they are numbers (no constant columns, enough rows) *)
Definition scipy_defined (scipy : cmethod -> list R -> list R -> result ext) : Prop :=
  forall m a b v, scipy m a b = Ok v -> v <> Nan.

(** Pearson's formula, used to show that the assumptions can be met *)
Definition mean (l : list R) : R := (fold_right Rplus 0 l / INR (length l))%R.
Fixpoint dot (a b : list R) : R := match a, b with x :: a, y :: b => (x * y + dot a b)%R | _, _ => 0%R end.
Definition centred (l : list R) : list R := map (fun x => (x - mean l)%R) l.
Definition pearson (a b : list R) : ext :=
  let u := centred a in let v := centred b in
  if Rltb 0 (dot u u * dot v v) then Fin (dot u v / sqrt (dot u u * dot v v)) else Nan.
