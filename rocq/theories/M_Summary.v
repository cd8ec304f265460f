(** Model of the texts shown for copulas, fits and mixture parameters: /repo/copulae/copula/summary.py:24-72,
    copula/estimator/summary.py:34-88, mixtures/gmc/summary.py:7-54, mixtures/gmc/parameter.py:129-181 and the summary methods of the classes.
    A text is the list of the entries it shows; layout, padding, titles and the formatting of numbers are not modelled. *)
From Verif Require Import Base RSumLib Ext M_Fit M_Gmc.
Open Scope string_scope.

(** ** Summary of a copula *)
(** values in the dictionary of parameters.  A numpy float is a Python float for isinstance; a numpy integer is not a Python int. *)
Inductive pval := VFloat (x : ext) | VInt (z : Z) | VNpInt (z : Z) | VText (s : string) | VMatrix (rows : list (list R)) | VVector (xs : list R).
(** summary.py:34-37 and 65-70: numbers and strings, and two-dimensional arrays; anything else is skipped.  The conditions are the same
    for the html and for the text. *)
Definition shows (v : pval) : bool :=
  match v with
  | VFloat _ | VInt _ | VText _ => true
  | VMatrix _ => true
  | VNpInt _ | VVector _ => false
  end.
Definition shown (params : list (string * pval)) : list (string * pval) := filter (fun kv => shows (snd kv)) params.
(** the degrees of freedom as stored: student.py:49 (constructor), 155 (named tuple), 162-166 (first element of an array, a numpy number of the type
    of the array) *)
Inductive df_in := DfPy (x : ext) | DfPyInt (z : Z) | DfFloats (x : ext) | DfInts (z : Z).
Definition df_value (d : df_in) : pval :=
  match d with DfPy x => VFloat x | DfPyInt z => VInt z | DfFloats x => VFloat x | DfInts z => VNpInt z end.
(** clayton.py:168, frank.py:199, gumbel.py:250, gaussian.py:91, student.py:186-189, empirical.py:206-211, indep.py:67 *)
Inductive cop :=
| CArch (theta : ext)
| CGauss (sigma : list (list R))
| CStudent (df : df_in) (sigma : list (list R))
| CEmpirical (dim : nat) (ties : string) (offset : ext) (smoothing : string)
| CIndep.
Definition summary_params (c : cop) : list (string * pval) :=
  match c with
  | CArch th => [("theta", VFloat th)]
  | CGauss s => [("Correlation Matrix", VMatrix s)]
  | CStudent d s => [("Degree of Freedom", df_value d); ("Correlation Matrix", VMatrix s)]
  | CEmpirical d t o s => [("Dimensions", VInt (Z.of_nat d)); ("Ties method", VText t); ("Offset", VFloat o); ("Smoothing", VText s)]
  | CIndep => []
  end.

(** ** Summary of a fit *)
(** estimator/summary.py:34-41; dictionaries as lists of printed entries *)
Definition entries := list (string * string).
Record fit_shown := mkShown { sh_smry : fit_summary; sh_setup : option entries; sh_results : option entries }.
(** max_likelihood.py:68 and corr_inversion.py:48 (setup and results keep their default None) *)
Definition ml_shown (s : fit_summary) (options results : entries) : fit_shown := mkShown s (Some options) (Some results).
Definition inverse_shown (s : fit_summary) : fit_shown := mkShown s None None.
(** itertools.zip_longest *)
Fixpoint zip_longest {A B} (l : list A) (m : list B) : list (option A * option B) :=
  match l, m with
  | [], [] => []
  | a :: l, [] => (Some a, None) :: zip_longest l []
  | [], b :: m => (None, Some b) :: (fix go (m : list B) := match m with [] => [] | b :: m => (None, Some b) :: go m end) m
  | a :: l, b :: m => (Some a, Some b) :: zip_longest l m
  end.
(** lines 46-70: None has no items() *)
Definition fit_html (s : fit_shown) : result (list (option (string * string) * option (string * string))) :=
  match sh_setup s, sh_results s with
  | Some a, Some b => Ok (zip_longest a b)
  | _, _ => Err AttributeError
  end.
(** lines 72-88: the sections with their entries; final_simplex is left out *)
Definition fit_str (s : fit_shown) : list (string * entries) :=
  flat_map (fun td => match snd td with
                      | Some d => [(fst td, filter (fun kv => negb (String.eqb (fst kv) "final_simplex")) d)]
                      | None => []
                      end) [("Optimization Setup", sh_setup s); ("Results", sh_results s)].

(** ** Mixtures *)
(** mixtures/gmc/summary.py:13-54; the parameter is None before a fit.  str(None) is "None". *)
Definition gmc_html (p : option gmc) : result (list R * mat R * list (mat R)) :=
  match p with None => Err AttributeError | Some p => Ok (prob p, means p, covs p) end.
Definition gmc_str (p : option gmc) : result (option gmc) := Ok p.

(** parameter.py:154-181: the text of a parameter as tokens; blanks and new lines are dropped *)
Inductive tok := LB | RB | Comma | Num (x : R).
Fixpoint sep (l : list (list tok)) : list tok :=
  match l with [] => [] | [x] => x | x :: r => x ++ Comma :: sep r end.
(** repr of a list of floats *)
Definition t_list (xs : list R) : list tok := LB :: sep (map (fun x => [Num x]) xs) ++ [RB].
Definition rows (n : nat) (m : mat R) : list (list R) := map (fun i => map (get m i) (seq 0 n)) (seq 0 (nr m)).
(** lines 160-168: the rows of one matrix, j counting from [j]; [more]: not the last matrix *)
Fixpoint t_rows (n_dim : nat) (more : bool) (j : nat) (m : list (list R)) : list tok :=
  match m with
  | [] => []
  | v :: r => (if Nat.eqb j 0 then LB :: t_list v ++ [Comma]
               else if Nat.eqb j (n_dim - 1) then t_list v ++ [RB] ++ (if more then [Comma] else [])
               else t_list v ++ [Comma]) ++ t_rows n_dim more (S j) r
  end.
Fixpoint t_covs (n_clusters n_dim : nat) (i : nat) (cs : list (mat R)) : list tok :=
  match cs with
  | [] => []
  | c :: r => t_rows n_dim (Nat.ltb i (n_clusters - 1)) 0 (rows n_dim c) ++ t_covs n_clusters n_dim (S i) r
  end.
(** the three lists of the text: prob=[...], means=[...], covs=[...] *)
Definition repr_prob (p : gmc) : list tok := t_list (prob p).
Definition repr_means (p : gmc) : list tok := LB :: sep (map t_list (rows (n_dim p) (means p))) ++ [RB].
Definition repr_covs (p : gmc) : list tok := LB :: t_covs (n_clusters p) (n_dim p) 0 (covs p) ++ [RB].
(** lines 134-142 (__str__): the text of one covariance, [rnd] rounds to four digits *)
Fixpoint str_rows (n_dim : nat) (rnd : R -> R) (j : nat) (m : list (list R)) : list tok :=
  match m with
  | [] => []
  | v :: r => (if Nat.eqb j 0 then LB :: t_list (map rnd v) ++ [Comma]
               else if Nat.eqb j (n_dim - 1) then t_list (map rnd v) ++ [RB]
               else t_list (map rnd v) ++ [Comma]) ++ str_rows n_dim rnd (S j) r
  end.
Definition str_cov (n_dim : nat) (rnd : R -> R) (c : mat R) : list tok := str_rows n_dim rnd 0 (rows n_dim c).
