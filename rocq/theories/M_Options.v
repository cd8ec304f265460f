(** Model of how MarginalCopula.fit passes its options to the joint copula: /repo/copulae/marginal/marginal.py:103-120, and of the
    signatures of the methods fit. *)
From Verif Require Import Base RSumLib Ext M_Gmc.
Local Close Scope Z_scope. Open Scope R_scope. Open Scope string_scope.

(** python values passed as options *)
Inductive value := VNone | VBool (b : bool) | VNum (x : R) | VStr (t : string) | VObject (id : nat).
(** options by name *)
Definition options := list (string * value).
Definition opt (o : options) (name : string) : value := match find (fun p => String.eqb (fst p) name) o with Some p => snd p | None => VNone end.

(** parameters after self and data, with their defaults *)
Definition sig_base : options :=                                                            (* copula/base.py:75-77; indep.py:44-46; empirical.py:140 *)
  [("x0", VNone); ("method", VStr "ml"); ("optim_options", VNone); ("ties", VStr "average"); ("verbose", VNum 1); ("to_pobs", VBool true); ("scale", VNum 1)].
Definition sig_student : options := (sig_base ++ [("fix_df", VBool false)])%list.                  (* student.py:66-67 *)
Definition sig_gmc : options :=                                                             (* gmc.py:138-140 *)
  [("x0", VNone); ("method", VStr "pem"); ("optim_options", VNone); ("ties", VStr "average"); ("verbose", VNum 1); ("max_iter", VNum 3000);
   ("criteria", VStr "GMCM"); ("eps", VNum (/ 10000))].
Definition sig_marginal : options :=                                                        (* marginal.py:103-104 *)
  [("x0", VNone); ("method", VStr "ml"); ("verbose", VNum 1); ("optim_options", VNone); ("ties", VStr "average"); ("to_pobs", VBool true); ("scale", VNum 1)].

(** a call by keywords: unknown names raise TypeError, names not given have their defaults *)
Definition by_name (sig o : options) : result options :=
  if forallb (fun p => existsb (fun q => String.eqb (fst q) (fst p)) sig) o
  then Ok (map (fun q => (fst q, match find (fun p => String.eqb (fst p) (fst q)) o with Some p => snd p | None => snd q end)) sig)
  else Err TypeError.
(** a call by position *)
Fixpoint by_position (sig : options) (args : list value) : result options :=
  match sig, args with
  | _, [] => Ok sig
  | [], _ :: _ => Err TypeError
  | q :: sig, a :: args => rmap (cons (fst q, a)) (by_position sig args)
  end.
(** marginal.py:118: the options of the joint copula's fit, from the options given to MarginalCopula.fit by keywords *)
Definition inner_options (sig : options) (given : options) : result options :=
  bind (by_name sig_marginal given) (fun o =>
  by_position sig [opt o "x0"; opt o "method"; opt o "optim_options"; opt o "ties"; opt o "verbose"; opt o "to_pobs"; opt o "scale"]).

(** GaussianMixtureCopula.fit (gmc.py:190-214) with such options.  [start]: the parameter for x0; [k_means]; [ppf]: gmm_marginal_ppf at the
    starting parameter (em.py:42), which comes before criteria.upper() (em.py:43, 120); [em] and [sgd]: the rest of these fits. *)
Definition mixture_fit (eigvalsh : mat R -> list R) (cov_nearest : mat R -> mat R) (start : value -> params_in) (k_means : result gmc) (ppf : gmc -> result unit) (em : value -> string -> value -> gmc -> result gmc)
  (sgd : value -> gmc -> result gmc) (c : copula) (o : options) : copula * result unit :=
  match opt o "method" with
  | VStr method =>
      fit eigvalsh cov_nearest c (start (opt o "x0")) method k_means
        (fun p => bind (ppf p) (fun _ => match opt o "criteria" with VStr cr => em (opt o "max_iter") cr (opt o "eps") p | _ => Err AttributeError end))
        (sgd (opt o "max_iter"))
  | _ => (c, Err AttributeError)                                                            (* method.lower() *)
  end.
