(** Specification vocabulary for fitting a Gaussian mixture copula by a minimiser. *)
From Verif Require Import Base RSumLib Ext S_Matrix M_Stats M_Gmc S_Gmc M_Sgd.
Open Scope R_scope.

(** a density that reads its mean and its covariance only inside their shapes *)
Definition entries_only (pdf : (nat -> R) -> mat R -> (nat -> R) -> R) : Prop :=
  forall mu mu' c c' x, mat_eq c c' -> (forall j, (j < nr c)%nat -> mu j = mu' j) -> pdf mu c x = pdf mu' c' x.
(** a minimiser that starts by evaluating the start, reports the value at the point it returns, and does not go up *)
Definition minimiser (minimize : (list ext -> result ext) -> list ext -> string -> kwargs -> result optimum) : Prop :=
  forall f x0 method kw,
    (forall e, f x0 = Err e -> minimize f x0 method kw = Err e)
    /\ forall o, minimize f x0 method kw = Ok o -> f (o_x o) = Ok (o_fun o) /\ (forall a, f x0 = Ok (Fin a) -> exists b, o_fun o = Fin b /\ b <= a).
(** the dictionary of options that came with a call *)
Definition option_of (k : string) (kw : kwargs) : option pyval :=
  match find_key "options" kw with Some (PyDict d) => find_key k d | _ => None end.
(** the methods for which there are default options *)
Definition known_methods : list string := ["nelder-mead"; "bfgs"; "slsqp"; "cobyla"; "trust-constr"]%string.
