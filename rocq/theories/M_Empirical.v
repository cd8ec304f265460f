(** Model of /repo/copulae/empirical (_distribution.pyx, distribution.py, empirical.py).  Floats are exact reals with nan and
    infinities.  The decorators of cdf, pdf and random are modelled in M_Annot.v: here [u] is already a table of the right width.
    The pandas wrapping of results is not modelled. *)
From Coq Require Import QArith Qreals.
From Verif Require Import Base RSumLib Ext M_Rank M_Special M_Stats.
Local Close Scope Q_scope. Local Close Scope Z_scope. Open Scope R_scope.

(** types.py:7: np.finfo('float').eps = 2^-52 *)
Definition EPSILON : R := / 4503599627370496.

(** _distribution.pyx:57-58 *)
Definition emp_cop (u v : R) (n : nat) : R := if Rleb u v then 1 else 0.
(** _distribution.pyx:64-65; C's fmin and fmax *)
Definition emp_multi_linear (u v : R) (n : nat) : R := Rmin (Rmax (INR n * v - (INR n + 1) * u + 1) 0) 1.

(** np.ravel(m, order='F') as an array of nr * nc numbers, _distribution.pyx:18 *)
Definition ravelF (m : mat R) (k : nat) : R := get m (k mod nr m)%nat (k / nr m)%nat.

(** _distribution.pyx:34-54.  [X], [Y]: flat arrays.  Division follows C (compiler directive cdivision, setup.py:83). *)
Definition emp_dist_row (X Y : nat -> R) (nrow_X nrow_Y ncol k : nat) (offset : R) (f : R -> R -> nat -> R) : ext :=
  let sum_prod :=
    fold_left (fun s i =>
      s + fold_left (fun prod j => prod * f (Y (i + nrow_Y * j)%nat) (X (k + nrow_X * j)%nat) nrow_Y) (seq 0 ncol) 1)
      (seq 0 nrow_Y) 0 in
  edivide sum_prod (Fin (INR nrow_Y + offset)).

Section Empirical.
  (** scipy.special.btdtr: the regularised incomplete beta function;
      scipy.stats.beta.pdf and logpdf with shape parameters a, b at a point *)
  Variables (btdtr beta_pdf : R -> R -> R -> R) (beta_logpdf : R -> R -> R -> ext).

  (** _distribution.pyx:60-61 *)
  Definition emp_beta_cop (u v : R) (n : nat) : R := btdtr (u * (INR n + 1)) ((INR n + 1) * (1 - u)) v.

  (** _distribution.pyx:11-31; for any other [typ] the entries stay nan *)
  Definition emp_copula_dist (X Y : mat R) (offset : R) (typ : nat) : list ext :=
    let U := ravelF X in let V := ravelF Y in
    map (fun i =>
      match typ with
      | 0%nat => emp_dist_row U V (nr X) (nr Y) (nc X) i offset emp_cop
      | 1%nat => emp_dist_row U V (nr X) (nr Y) (nc X) i offset emp_beta_cop
      | 2%nat => emp_dist_row U V (nr X) (nr Y) (nc X) i offset emp_multi_linear
      | _ => Nan
      end) (seq 0 (nr X)).

  (** distribution.py:45-57 *)
  Definition map_smoothing (s : option string) : result nat :=
    let s := match s with None => "none" | Some s => s end in
    let s := lower s in
    if String.eqb s "none" then Ok 0%nat
    else if String.eqb s "beta" then Ok 1%nat
    else if String.eqb s "checkerboard" then Ok 2%nat
    else Err AssertionError.
  (** distribution.py:10-42; [offset] is a number, so _validate_offset passes *)
  Definition emp_dist_func (x y : mat R) (s : option string) (offset : R) : result (list ext) :=
    bind (map_smoothing s) (fun typ =>
    if negb (Nat.eqb (nc x) (nc y)) then Err AssertionError else Ok (emp_copula_dist x y offset typ)).

  (** empirical.py: the state of an EmpiricalCopula *)
  Record empirical := mkEmp { e_data : mat R; e_smoothing : string; e_ties : string; e_offset : R }.
  (** empirical.py:190-196, the smoothing setter *)
  Definition check_smoothing (s : option string) : result string :=
    let s := match s with None => "none" | Some s => s end in
    if existsb (String.eqb s) ["none"; "beta"; "checkerboard"] then Ok s else Err AssertionError.
  Definition set_smoothing (e : empirical) (s : option string) : result empirical :=
    rmap (fun s => mkEmp (e_data e) s (e_ties e) (e_offset e)) (check_smoothing s).
  (** empirical.py:53-101.  The ties setter (247-249) checks nothing. *)
  Definition new_empirical (data : mat R) (s : option string) (ties : string) (offset : R) : result empirical :=
    rmap (fun s => mkEmp data s ties offset) (check_smoothing s).

  Definition any_entry (p : R -> bool) (u : mat R) : bool :=
    existsb (fun i => existsb (fun j => p (get u i j)) (seq 0 (nc u))) (seq 0 (nr u)).
  (** empirical.py:107-137; pobs is pseudo_obs (base.py:207-223) *)
  Definition emp_cdf (e : empirical) (u : mat R) (log : bool) : result (list ext) :=
    if any_entry (fun x => Rltb (1 + EPSILON) x) u || any_entry (fun x => Rltb x (- EPSILON)) u then Err ValueError
    else
      bind (pseudo_obs Rleb (e_data e) (e_ties e)) (fun uu =>
      bind (emp_dist_func u (mkMat (nr uu) (nc uu) (fun i j => Q2R (get uu i j))) (Some (e_smoothing e)) (e_offset e)) (fun cdf =>
      Ok (if log then map elog cdf else cdf))).

  (** empirical.py:152-175.  np.prod and sum over a list; division by a python number *)
  Definition emp_pdf (e : empirical) (u : mat R) (log : bool) : result (list ext) :=
    if negb (String.eqb (e_smoothing e) "beta") then Err AssertionError
    else
      bind (rank_data2 Rleb (e_data e) 1 (e_ties e)) (fun rk =>
      let n := nr (e_data e) in
      let rank i j := Q2R (get rk i j) in
      let rows := seq 0 n in let cols := seq 0 (nc (e_data e)) in
      if log
      then mapM (fun k =>
             rmap (fun s => esub s (elog (Fin (INR n + e_offset e))))
               (log_sum_col None
                  (map (fun i => esum (map (fun j => beta_logpdf (rank i j) (INR n + 1 - rank i j) (get u k j)) cols)) rows)))
             (seq 0 (nr u))
      else Ok (map (fun k =>
             edivide (lsum (map (fun i => lprod (map (fun j => beta_pdf (rank i j) (INR n + 1 - rank i j) (get u k j)) cols)) rows))
               (Fin (INR n + e_offset e))) (seq 0 (nr u)))).

  (** empirical.py:177-183: [draws] are the results of np.random.randint(0, len(data), n), which fails on an empty range *)
  Definition emp_random (e : empirical) (draws : list nat) : result (mat R) :=
    if Nat.eqb (nr (e_data e)) 0 then Err ValueError
    else Ok (mkMat (length draws) (nc (e_data e)) (fun i j => get (e_data e) (nth i draws 0%nat) j)).
End Empirical.

(** data.argsort(axis=0) with take_along_axis sorts each column, empirical.py:237-238 *)
Fixpoint insert (x : R) (l : list R) : list R :=
  match l with [] => [x] | y :: r => if Rleb x y then x :: l else y :: insert x r end.
Definition sort (l : list R) : list R := fold_right insert [] l.
(** numpy indexing of one axis: negative indices count from the end *)
Definition take (s : list R) (z : Z) : result R :=
  let n := Z.of_nat (length s) in
  if (0 <=? z)%Z && (z <? n)%Z then Ok (nth (Z.to_nat z) s 0)
  else if (- n <=? z)%Z && (z <? 0)%Z then Ok (nth (Z.to_nat (n + z)) s 0)
  else Err IndexError.
(** empirical.py:198-244.  The result is the list of columns (line 242 transposes it).  A column of [u] beyond those of [original]
    is an IndexError. *)
Definition to_marginals (u original : mat R) : result (list (list R)) :=
  let n := nr original in
  let index k c := Int_part (get u k c * INR n) in
  mapM (fun c =>
    if (c <? nc original)%nat
    then mapM (fun k => take (sort (map (fun i => get original i c) (seq 0 n))) (index k c)) (seq 0 (nr u))
    else Err IndexError) (seq 0 (nc u)).
