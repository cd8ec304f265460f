(** Specification vocabulary for square matrices given by shape and entries. *)
From Verif Require Import Base.

Definition square {A} (d : nat) (m : mat A) : Prop := nr m = d /\ nc m = d.
Definition symmetric {A} (m : mat A) : Prop :=
  forall i j, i < nr m -> j < nr m -> get m i j = get m j i.
Definition unit_diagonal {A} (one : A) (m : mat A) : Prop :=
  forall i, i < nr m -> get m i i = one.
(** a d x d symmetric matrix with ones on the diagonal *)
Definition corr_shape {A} (one : A) (d : nat) (m : mat A) : Prop :=
  square d m /\ symmetric m /\ unit_diagonal one m.
(** equality of the visible entries *)
Definition mat_eq {A} (m m' : mat A) : Prop :=
  nr m = nr m' /\ nc m = nc m' /\ forall i j, i < nr m -> j < nc m -> get m i j = get m' i j.
(** the strictly-lower entries in column-major order: (1,0) (2,0) .. (d-1,0) (2,1) .. *)
Fixpoint below_diag_from {A} (m : mat A) (d : nat) (todo col : nat) : list A :=
  match todo with
  | 0 => []
  | S t => map (fun r => get m r col) (seq (S col) (d - S col)) ++ below_diag_from m d t (S col)
  end.
Definition below_diag {A} (m : mat A) : list A := below_diag_from m (nr m) (nr m) 0.
