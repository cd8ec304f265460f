(** Model of the parameters reported by a copula with margins, and of their use as descriptions of new margins.
    /repo/copulae/marginal/marginal.py:122-127 (params), univariate.py:63-83 (get_marginal_detail), summary.py:10-15 (the margins of a summary). *)
From Verif Require Import Base RSumLib Ext M_Special M_Marginal.
Open Scope R_scope.

(** univariate.py:65 [__name__.replace("_gen", "")] *)
Fixpoint remove_gen (s : string) : string :=
  match s with
  | EmptyString => EmptyString
  | String "_" (String "g" (String "e" (String "n" r))) => remove_gen r
  | String c r => String c (remove_gen r)
  end.
Definition type_name (d : dist) : string := remove_gen (dd_class d).
(** univariate.py:63-83: type and parameters; the dictionary is made anew at every call *)
Definition get_marginal_detail (f : frozen) : string * dict := (type_name (fz_dist f), marginal_parameters f).
(** marginal.py:122-127, the entry 'marginals' (also summary.py:14) *)
Definition reported (c : mcopula) : list (string * dict) := map get_marginal_detail (mc_margins c).

(** MarginalCopula(copula, margins=other.params['marginals']): the reported dictionaries are new objects in memory, the descriptions
    refer to them one by one *)
Definition described (h : heap) (l : list (string * dict)) : heap * margins_input :=
  (h ++ map snd l, MColl (map (fun k => ItDict (mkDetails (Some (TStr (fst (nth k l (EmptyString, []))))) (Some (length h + k)%nat))) (seq 0 (length l)))).
Definition made_from_reported (stats : string -> option attribute) (h : heap) (j : joint) (c : mcopula) : heap * result mcopula :=
  let '(h, m) := described h (reported c) in new_marginal stats h j m.
