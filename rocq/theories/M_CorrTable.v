(** Model of the tables returned by corr and pseudo_obs for pandas inputs.
    /repo/copulae/stats/correlation.py:22-45 (format_output), 91-142 (corr), 145-232 (pearson_rho, kendall_tau, spearman_rho),
    300-332 (_form_xy_vector), /repo/copulae/core/misc.py:102-106 (pseudo_obs).
    Labels are the strings and integers used as names of series and columns; other hashable names are not modelled.
    Values of a one-dimensional input are a list, of a two-dimensional one a list of rows and a number of columns. *)
From Coq Require Import DecimalString QArith.
From Verif Require Import Base RSumLib Ext M_Rank M_Corr.
Open Scope nat_scope.

Inductive label := LStr (s : string) | LInt (z : Z).
(** correlation.py:35-36 [name or 'X']: None, the empty string and 0 are false in Python *)
Definition name_or (name : option label) (default : string) : label :=
  match name with
  | Some (LStr EmptyString) | Some (LInt 0) | None => LStr default
  | Some l => l
  end.
(** correlation.py:38 [==] between names: a string never equals an integer *)
Definition label_eqb (a b : label) : bool :=
  match a, b with
  | LStr s, LStr t => String.eqb s t
  | LInt x, LInt y => Z.eqb x y
  | _, _ => false
  end.
(** correlation.py:39 [f'{name}1'] *)
Definition label_text (l : label) : string :=
  match l with LStr s => s | LInt z => NilEmpty.string_of_int (Z.to_int z) end.
Definition suffixed (l : label) (suffix : string) : label := LStr (label_text l ++ suffix).
(** correlation.py:35-40 *)
Definition series_labels (x_name y_name : option label) : list label :=
  let x := name_or x_name "X" in
  let y := name_or y_name "Y" in
  if label_eqb x y then [suffixed x "1"; suffixed y "2"] else [x; y].

(** what a caller passes as x or y *)
Inductive input :=
| Array1 (v : list ext)
| Array2 (cols : nat) (rows : list (list ext))
| Series (name : option label) (v : list ext)
| Frame (columns : list label) (rows : list (list ext)).
(** what np.asarray makes of it (correlation.py:30) *)
Definition asarray (x : input) : input :=
  match x with
  | Array1 v | Series _ v => Array1 v
  | Array2 c r => Array2 c r
  | Frame cs r => Array2 (length cs) r
  end.
(** a numpy matrix or a labelled table *)
Inductive output := Plain (c : mat ext) | Table (index columns : list label) (c : mat ext).
Definition values (o : output) : mat ext := match o with Plain c | Table _ _ c => c end.

Section Corr.
  Variable scipy : cmethod -> list R -> list R -> result ext.
  (** correlation.py:125-142 and 323-324: without y, x must have two dimensions; with y, both must have one *)
  Definition corr_arrays (x : input) (y : option input) (method use : string) : result (mat ext) :=
    match x, y with
    | Array2 n rows, None => corr scipy n rows method use
    | Array1 v, Some (Array1 w) => corr2 scipy v w method use
    | _, _ => bind (validate_use use) (fun _ => bind (corr_method method) (fun _ => Err ValueError))
    end.
  (** correlation.py:26-43.  pd.DataFrame rejects labels whose number does not fit the matrix with a ValueError. *)
  Definition data_frame (c : mat ext) (names : list label) : result output :=
    if Nat.eqb (nr c) (length names) && Nat.eqb (nc c) (length names) then Ok (Table names names c) else Err ValueError.
  Definition corr_table (x : input) (y : option input) (method use : string) : result output :=
    bind (corr_arrays (asarray x) (option_map asarray y) method use) (fun c =>
    match x, y with
    | Frame columns _, _ => data_frame c columns
    | Series nx _, Some (Series ny _) => data_frame c (series_labels nx ny)
    | _, _ => Ok (Plain c)
    end).
  (** correlation.py:172, 202, 232 *)
  Definition pearson_rho x y use := corr_table x y "pearson" use.
  Definition kendall_tau x y use := corr_table x y "kendall" use.
  Definition spearman_rho x y use := corr_table x y "spearman" use.
End Corr.

(** a data frame: row labels, column labels, entries *)
Record frame (A : Type) := mkFrame { f_index : list label; f_columns : list label; f_values : mat A }.
Arguments mkFrame {A} _ _ _.
Arguments f_index {A} _.
Arguments f_columns {A} _.
Arguments f_values {A} _.
(** misc.py:102-106 for a data frame; [len(data)] is its number of rows *)
Definition pseudo_obs_frame {A} (leb : A -> A -> bool) (d : frame A) (ties_name : string) : result (frame Q) :=
  rmap (fun u => mkFrame (f_index d) (f_columns d) u) (pseudo_obs leb (f_values d) ties_name).
