(** Model of /repo/copulae/mixtures/gmc/estimators/sgd.py and of the part of gmc.py that calls it.  scipy's minimize is an argument: it
    gets the objective, the start, the method and the remaining keyword arguments. *)
From Verif Require Import Base RSumLib Ext M_Special M_Stats M_Linalg M_Gmc.
Local Close Scope Z_scope. Open Scope R_scope. Open Scope list_scope.

(** values of keyword arguments; [PyOther]: anything that is neither a string, a number, a boolean nor a dictionary of these *)
Inductive pyval := PyStr (s : string) | PyNum (x : R) | PyBool (b : bool) | PyDict (d : list (string * pyval)) | PyOther (k : nat).
Definition kwargs := list (string * pyval).
(** d.get(k) and the dictionary without k *)
Fixpoint find_key (k : string) (d : kwargs) : option pyval :=
  match d with [] => None | (k', v) :: r => if String.eqb k k' then Some v else find_key k r end.
Definition drop_key (k : string) (d : kwargs) : kwargs := filter (fun e => negb (String.eqb k (fst e))) d.
(** d.pop(k, default) *)
Definition pop (k : string) (default : pyval) (d : kwargs) : pyval * kwargs :=
  (match find_key k d with Some v => v | None => default end, drop_key k d).

(** OptimizeResult *)
Record optimum := mkOpt { o_x : list ext; o_success : bool; o_fun : ext }.
(** FitSummary, summary.py:5-11, with the fields sgd.py:34-35 fills in *)
Record fit_summary := mkFit { best_params : gmc; has_converged : bool; nsample : nat; algorithm : string; fn_value : ext }.

(** sgd.py:46-83 *)
Definition get_default_option (method : string) (disp max_iter : pyval) : kwargs :=
  let method := lower method in
  if String.eqb method "nelder-mead" then [("maxiter", max_iter); ("disp", disp); ("xatol", PyNum (/ 10000)); ("fatol", PyNum (/ 10000))]
  else if String.eqb method "bfgs" then [("maxiter", max_iter); ("disp", disp); ("gtol", PyNum (/ 10000))]
  else if String.eqb method "slsqp" then
    [("maxiter", max_iter); ("ftol", PyNum (/ 1000000)); ("iprint", PyNum 1); ("disp", disp); ("eps", PyNum (15 / 1000000000))]
  else if String.eqb method "cobyla" then [("maxiter", max_iter); ("rhobeg", PyNum 1); ("disp", disp); ("catol", PyNum (2 / 10000))]
  else if String.eqb method "trust-constr" then [("maxiter", max_iter); ("disp", disp)]
  else [].
(** the keyword arguments minimize(fun, x0, args, method, ...) knows besides the four *)
Definition minimize_keys : list string := ["jac"; "hess"; "hessp"; "bounds"; "constraints"; "tol"; "callback"; "options"].

Section Sgd.
  Variables (eigvalsh : mat R -> list R) (cov_nearest : mat R -> mat R).
  Variables (mvn_pdf : (nat -> R) -> mat R -> (nat -> R) -> R) (norm_pdf : R -> R -> R -> R) (round : R -> Z).
  Variable minimize : (list ext -> result ext) -> list ext -> string -> kwargs -> result optimum.

  (** marginals.py:11-61 with the default arguments, all columns *)
  Definition gmm_marginal_ppf (u : mat R) (p : gmc) : result (mat R) :=
    rmap (fun cols => mkMat (nr u) (nc u) (fun i j => nth i (nth j cols []) 0))
      (mapM (fun j => mapM (fun i => marginal_ppf round p 2000 5 j (get u i j)) (seq 0 (nr u))) (seq 0 (n_dim p))).
  (** loglik.py:63-81 *)
  Definition log_likelihood (u : mat R) (p : gmc) : result ext :=
    rmap (fun q => gmcm_log_likelihood mvn_pdf norm_pdf q p) (gmm_marginal_ppf u p).
  (** sgd.py:38-44.  [p.prob /= ...] divides and then calls the setter, parameter.py:86-95 *)
  Definition objective (u : mat R) (m d : nat) (v : list ext) : result ext :=
    bind (from_vector eigvalsh cov_nearest v m d) (fun p =>
    let s := lsum (prob p) in
    let '(p, out) := set_prob p (map (fun x => edivide x (Fin s)) (prob p)) in
    bind out (fun _ => rmap eopp (log_likelihood u p))).
  (** sgd.py:11-35: the parameter afterwards (to_vector changes it) and the outcome.  A method that is no string has no lower(). *)
  Definition gradient_descent (u : mat R) (p : gmc) (kw : kwargs) : gmc * result fit_summary :=
    let f := objective u (n_clusters p) (n_dim p) in
    let '(method, kw) := pop "method" (PyStr "nelder-mead") kw in
    let '(max_iter, kw) := pop "max_iter" (PyNum 3000) kw in
    let '(disp, kw) := pop "disp" (PyBool false) kw in
    match method with
    | PyStr method =>
      let '(options, kw) := pop "options" (PyDict (get_default_option method disp max_iter)) kw in
      let kw := drop_key "args" (kw ++ [("options", options)]) in
      let '(x0, p) := to_vector p in
      (p, if negb (forallb (fun e => existsb (String.eqb (fst e)) minimize_keys) kw) then Err TypeError
          else bind (minimize f x0 method kw) (fun o =>
               rmap (fun best => mkFit best (o_success o) (nr u) method (o_fun o)) (from_vector eigvalsh cov_nearest (o_x o) (n_clusters p) (n_dim p))))
    | _ => (p, Err AttributeError)
    end.
  (** gmc.py:205: the arguments u and param are positional and max_iter is a keyword, none can come again from optim_options *)
  Definition fit_sgd (u : mat R) (p : gmc) (max_iter : R) (optim_options : kwargs) : gmc * result fit_summary :=
    if existsb (fun e => existsb (String.eqb (fst e)) ["u"; "param"; "max_iter"]) optim_options then (p, Err TypeError)
    else gradient_descent u p (("max_iter", PyNum max_iter) :: optim_options).
End Sgd.
