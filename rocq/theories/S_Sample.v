(** Specification of sampling: the draws of the generator have the shapes asked for. *)
From Verif Require Import Base RSumLib Ext M_Linalg M_Sample.
Local Close Scope Z_scope. Open Scope R_scope.

Definition well_shaped {St} (g : generator St) : Prop :=
  (forall k s, length (fst (g_uniform g k s)) = k) /\ (forall a k s, length (fst (g_gamma g a k s)) = k) /\ (forall k s, length (fst (g_exp g k s)) = k) /\
  (forall a k s, length (fst (g_chisq g a k s)) = k) /\ (forall m k s, length (fst (g_randint g m k s)) = k) /\
  (forall mean cov n s, length (fst (g_mvn g mean cov n s)) = n /\ Forall (fun r => length r = length mean) (fst (g_mvn g mean cov n s))).
(** n observations of d numbers each *)
Definition table (n d : nat) (rows : list (list ext)) : Prop := length rows = n /\ Forall (fun r => length r = d) rows.
Definition elliptical (c : cop) : Prop := match c with KGauss _ | KStudent _ _ => True | _ => False end.
(** a sample as a matrix, or as a DataFrame under the names of the data fitted *)
Definition matrix_sample (columns : option (list string)) (rows : list (list ext)) : sample :=
  match columns with Some cols => SFrame cols rows | None => STable rows end.
