(** Specification vocabulary for the independence copula and for copulas with margins. *)
From Coquelicot Require Import Coquelicot.
From Verif Require Import Base RSumLib Ext M_Special M_Marginal S_Empirical.
Open Scope R_scope.

(** the rows of a matrix as points *)
Definition points (x : mat R) : list (list R) := map (row x) (seq 0 (nr x)).
(** a function on matrices that answers every row on its own *)
Definition row_by_row (d : nat) (f : mat R -> list ext) (C : list R -> ext) : Prop := forall u, nc u = d -> f u = map C (points u).
(** f is the mixed partial derivative of F on the region D: differentiate one coordinate after the other *)
Definition mixed_derivative_on (D : list R -> Prop) (d : nat) (F f : list R -> R) : Prop :=
  exists G : nat -> list R -> R,
    (forall l, length l = d -> D l -> G O l = F l) /\ (forall l, length l = d -> D l -> G d l = f l) /\
    forall k l, (k < d)%nat -> length l = d -> D l -> is_derive (fun t => G k (set_nth k t l)) (nth k l 0) (G (S k) l).

(** the point (F1(x1), .., Fd(xd)); the numbers f1(x1), .., fd(xd) *)
Fixpoint zip_with {A B C} (f : A -> B -> C) (l : list A) (m : list B) : list C :=
  match l, m with a :: l, b :: m => f a b :: zip_with f l m | _, _ => [] end.
Definition probabilities (ms : list frozen) (x : list R) : list R := zip_with m_cdf ms x.
Definition densities (ms : list frozen) (x : list R) : list R := zip_with m_pdf ms x.
Definition log_densities (ms : list frozen) (x : list R) : list ext := zip_with m_logpdf ms x.
(** x lies inside the supports: every margin has there the density it claims *)
Definition inside (ms : list frozen) (x : list R) : Prop :=
  length x = length ms /\
  forall i m, nth_error ms i = Some m -> 0 < m_cdf m (nth i x 0) < 1 /\ is_derive (m_cdf m) (nth i x 0) (m_pdf m (nth i x 0)).

(** names of distributions: any capitals, any white space around, the aliases of the documentation *)
Definition blank (s : string) : Prop := Forall (fun c => is_space c = true) (list_ascii_of_string s).
Definition family (name : string) : string :=
  if String.eqb name "normal" then "norm"%string else if String.eqb name "gaussian" then "norm"%string
  else if String.eqb name "student" then "t"%string else if String.eqb name "exp" then "expon"%string else name.
(** starts and ends with a visible character *)
Definition visible (s : string) : Prop :=
  exists a l, list_ascii_of_string s = a :: l /\ is_space a = false /\ is_space (last (a :: l) a) = false.
(** the dictionary of parameters a description refers to *)
Definition given (h : heap) (dt : details) : dict := match dt_params dt with Some r => nth r h [] | None => [] end.
(** the documented value of a parameter: the one given, else 1/2 for a shape, 0 for loc, 1 for scale *)
Definition default (name : string) : R := if String.eqb name "loc" then 0 else if String.eqb name "scale" then 1 else / 2.
Definition value (p : dict) (name : string) : R := match find (fun e => String.eqb (fst e) name) p with Some e => snd e | None => default name end.
(** the names of all parameters of a distribution, in order; a distribution as in scipy: no name twice, loc and scale are not shapes *)
Definition parameter_names (d : dist) : list string := dd_shapes d ++ ["loc"%string; "scale"%string].
Definition well_named (d : dist) : Prop := NoDup (parameter_names d).
Definition reference (m : item) : list nat := match m with ItDict dt => match dt_params dt with Some r => [r] | None => [] end | _ => [] end.
