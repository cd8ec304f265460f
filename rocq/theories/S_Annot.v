(** Specification vocabulary for labelled inputs. *)
From Verif Require Import Base RSumLib M_Elliptical M_Fit M_Annot.
Open Scope nat_scope.

(** [row'] lists the values of [row] (labelled by [labels]) in the order of [cols] *)
Definition reordered {V} (labels cols : list string) (row row' : list V) : Prop :=
  length row' = length cols /\
  forall k j c, nth_error cols k = Some c -> nth_error labels j = Some c -> nth_error row' k = nth_error row j.
(** a well-formed table of the given width *)
Definition table (w : nat) (t : tab) : Prop := t_width t = w /\ Forall (fun r => length r = w) (t_rows t).
