(** Model of /repo/copulae/utility/annotations/ (validations.py, reshape.py, summary.py) as applied to cdf and pdf, and of
    copula/base.py:166 (the sum in log_lik). *)
From Verif Require Import Base RSumLib M_Elliptical M_Fit.
Open Scope nat_scope.

(** A table of numbers: width and rows (each of that width). *)
Record tab := mkTab { t_width : nat; t_rows : list (list fl) }.
(** What users pass for the data argument.  Lists are converted to arrays of the same shape; only the number of axes is kept of
    arrays with zero or more than two axes. *)
Inductive input :=
| IVec (l : list fl)                                         (* a list or 1-dimensional array *)
| ITab (t : tab)                                             (* a nested list or 2-dimensional array *)
| IOther (ndim : nat)
| ISeries (labels : list string) (vals : list fl)            (* pandas Series with its index *)
| IFrame (labels : list string) (t : tab).                   (* pandas DataFrame with its column names *)
Definition ndim (x : input) : nat :=
  match x with IVec _ | ISeries _ _ => 1 | ITab _ | IFrame _ _ => 2 | IOther n => n end.

(** validations.py:55-96 for one argument with allowed numbers of axes [dims] *)
Definition validate_data_dim (dims : list nat) (x : input) : result input :=
  if existsb (Nat.eqb (ndim x)) dims then Ok x else Err ValueError.

(** pandas selection by a list of labels: every entry under each label, in the order asked (several if the label is repeated);
    KeyError if a label is missing *)
Definition having (labels : list string) {V} (vals : list V) (c : string) : list V :=
  map snd (filter (fun p => String.eqb (fst p) c) (combine labels vals)).
Definition select (labels : list string) {V} (vals : list V) (cols : list string) : result (list V) :=
  if forallb (fun c => existsb (String.eqb c) labels) cols then Ok (flat_map (having labels vals) cols) else Err KeyError.
(** python's set equality *)
Definition same_set (a b : list string) : bool :=
  forallb (fun c => existsb (String.eqb c) b) a && forallb (fun c => existsb (String.eqb c) a) b.

(** reshape.py:61-97, after [x = args[0]] *)
Definition shape_input (dim : nat) (columns : option (list string)) (x : input) : result tab :=
  bind (match x with
        | ISeries labels vals =>                                                          (* 74-77 *)
          bind (match columns with
                | Some cols => if same_set labels cols then select labels vals cols else Ok vals
                | None => Ok vals
                end) (fun v => Ok (mkTab (length v) [v]))
        | IFrame labels t =>                                                              (* 78-80 *)
          match columns with
          | Some cols => if forallb (fun c => existsb (String.eqb c) labels) cols
                         then Ok (mkTab (length (flat_map (having labels labels) cols)) (map (fun row => flat_map (having labels row) cols) (t_rows t)))
                         else Err KeyError
          | None => Ok t
          end
        | IVec l => Ok (mkTab (length l) [l])                                             (* 84-85 *)
        | ITab t => Ok t
        | IOther _ => Err ValueError                                                      (* 90-91 *)
        end) (fun t => if Nat.eqb (t_width t) dim then Ok t else Err ValueError).         (* 92-93 *)

(** A call of a decorated method (validate_data_dim, shape_first_input_to_cop_dim, squeeze_output, e.g. gaussian.py:75-77).
    [body] is the method on a table of the right width: one value per row.  [positional]: the argument is passed by position;
    by keyword, [args[0]] raises IndexError (reshape.py:70). *)
Definition call (dim : nat) (columns : option (list string)) (body : tab -> result (list fl)) (positional : bool) (x : input) : result sarr :=
  bind (validate_data_dim [1; 2] x) (fun x =>
  if negb positional then Err IndexError
  else bind (shape_input dim columns x) (fun t => rmap squeeze (body t))).

(** base.py:166: [self.pdf(data, log=True).sum()]; a python float has no method sum *)
Definition fl_sum (l : list fl) : fl := fold_right (fun a b => match a, b with Some x, Some y => Some (x + y)%R | _, _ => None end) (Some 0%R) l.
Definition base_log_lik (dim : nat) (columns : option (list string)) (log_pdf : tab -> result (list fl)) (x : input) : result fl :=
  bind (call dim columns log_pdf true x) (fun r => match r with SScalar _ => Err AttributeError | SVec l => Ok (fl_sum l) end).

(** reshape.py:50-58 (cast_output): samples of a copula fitted to a DataFrame carry its column names.  DataFrame() wants as many
    names as columns. *)
Definition cast_output (columns : option (list string)) (t : tab) : result input :=
  match columns with
  | None => Ok (ITab t)
  | Some cols => if Nat.eqb (length cols) (t_width t) then Ok (IFrame cols t) else Err ValueError
  end.

(** summary.py:9-21; [args]: positional arguments, [kwarg]: the keyword argument category; result None: the copula summary made by
    the method itself *)
Definition select_summary {S} (args : list string) (kwarg : option string) (fit_smry : option S) : result (option S) :=
  let category := match args with a :: _ => a | [] => match kwarg with Some k => k | None => "copula" end end in
  if String.eqb category "copula" then Ok None
  else if String.eqb category "fit" then match fit_smry with None => Err NotFittedError | Some s => Ok (Some s) end
  else Err ValueError.
