(** Specification vocabulary for some of the variables. *)
From Verif Require Import Base RSumLib Ext.
Local Close Scope Z_scope. Open Scope R_scope.

(** the columns [cols] of a table; the coordinates [cols] of a point *)
Definition some_columns {A} (cols : list nat) (m : mat A) : mat A := mkMat (nr m) (length cols) (fun i j => get m i (nth j cols 0%nat)).
Definition pick {A} (d : A) (cols : list nat) (l : list A) : list A := map (fun j => nth j l d) cols.
(** different columns of a table with [n] columns *)
Definition columns_of (n : nat) (cols : list nat) : Prop := NoDup cols /\ Forall (fun j => (j < n)%nat) cols.
(** the second point is the first one without some coordinates, which are 1 *)
Inductive without_ones : list ext -> list ext -> Prop :=
| w_nil : without_ones [] []
| w_drop l l' : without_ones l l' -> without_ones (Fin 1 :: l) l'
| w_keep x l l' : without_ones l l' -> without_ones (x :: l) (x :: l').
