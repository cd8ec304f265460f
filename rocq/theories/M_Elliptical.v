(** Model of the elliptical copulas' parameter object:
    /repo/copulae/elliptical/abstract.py, gaussian.py:69-73, student.py:34-55,152-167. *)
From Verif Require Import Base RSumLib M_Matrix M_Linalg.
Open Scope R_scope.

(** A float that may be nan ([None]). *)
Definition fl := option R.
Definition is_nan (v : fl) : bool := match v with None => true | Some _ => false end.
Definition val (v : fl) : R := match v with Some r => r | None => 0 end.
Definition unfl (m : mat fl) : mat R := mkMat (nr m) (nc m) (fun i j => val (get m i j)).
Definition enfl (m : mat R) : mat fl := mkMat (nr m) (nc m) (fun i j => Some (get m i j)).
Definition has_nan (m : mat fl) : bool :=
  existsb (fun i => existsb (fun j => is_nan (get m i j)) (seq 0 (nc m))) (seq 0 (nr m)).

(** The object: copula dimension and the numpy vector [_rhos] with its dtype
    ([e_int] = integer array, whose element stores truncate). *)
Record ell := mkEll { e_dim : nat; e_int : bool; e_rhos : list fl }.

(** abstract.py:60 (property sigma) *)
Definition sigma (e : ell) : result (mat fl) := create_cov_matrix (Some 0) (Some 1) (e_rhos e).

(** abstract.py:18 / gaussian.py:42-43: sum(range(dim)) zeros *)
Definition n_rhos (d : nat) : nat := (d * (d - 1) / 2)%nat.
Definition new_ell (d : nat) : ell := mkEll d false (repeat (Some 0) (n_rhos d)).

(** C-style truncation of a float stored into an integer array; nan cannot be converted *)
Definition trunc (r : R) : R := if Rle_dec 0 r then IZR (Int_part r) else - IZR (Int_part (- r)).
Definition to_dtype (isint : bool) (v : fl) : result fl :=
  if isint then match v with None => Err ValueError | Some r => Ok (Some (trunc r)) end else Ok v.

(** one store [self._rhos[k] = v] *)
Fixpoint set_nth {A} (l : list A) (k : nat) (v : A) : list A :=
  match l, k with
  | [], _ => []
  | _ :: r, O => v :: r
  | x :: r, S k => x :: set_nth r k v
  end.
Definition store (e : ell) (k : nat) (v : fl) : ell * result unit :=
  match to_dtype (e_int e) v with
  | Ok w => if (k <? length (e_rhos e))%nat
            then (mkEll (e_dim e) (e_int e) (set_nth (e_rhos e) k w), Ok tt)
            else (e, Err IndexError)
  | Err x => (e, Err x)
  end.

(** python indices and right-hand sides accepted by __setitem__ / __getitem__ *)
Inductive comp := CSlice | CInt (z : Z).
Inductive index := ISlice | IInt (z : Z) | ITuple (l : list comp).
Inductive value := VScalar (v : fl) | VVec (l : list fl) | VMat (m : mat fl).

Definition EPS : R := / 4503599627370496.       (* np.finfo('float').eps = 2^-52, misc.py:9 *)

(** abstract.py:83-89.  Comparisons with nan are False, so a nan scalar passes and a nan element does not. *)
Definition out_of_range (v : value) : bool :=
  match v with
  | VScalar (Some r) => Rltb r (-1) || Rltb 1 r
  | VScalar None => false
  | VVec l => negb (forallb (fun x => match x with Some r => Rleb (-1 - EPS) r && Rleb r (1 + EPS) | None => false end) l)
  | VMat m => negb (forallb (fun i => forallb (fun j =>
                 match get m i j with Some r => Rleb (-1 - EPS) r && Rleb r (1 + EPS) | None => false end)
                 (seq 0 (nc m))) (seq 0 (nr m)))
  end.

(** python/numpy index with wrap-around of negative numbers *)
Definition wrap (n : nat) (z : Z) : result nat :=
  if (0 <=? z)%Z && (z <? Z.of_nat n)%Z then Ok (Z.to_nat z)
  else if (z <? 0)%Z && (- Z.of_nat n <=? z)%Z then Ok (Z.to_nat (z + Z.of_nat n))
  else Err IndexError.

(** size-1 arrays convert to a scalar, others do not *)
Definition as_scalar (bad : exn) (v : value) : result fl :=
  match v with
  | VScalar x => Ok x
  | VVec [x] => Ok x
  | VVec _ => Err bad
  | VMat m => if Nat.eqb (nr m * nc m) 1 then Ok (get m 0%nat 0%nat) else Err bad
  end.

Section Oracles.
  Variable eigvalsh : mat R -> list R.
  Variable cov_nearest : mat R -> mat R.

  (** linalg.py:165-173 on a float array that may hold nan: allclose with nan is False *)
  Definition near_psd_fl (v : value) : result (mat fl) :=
    match v with
    | VMat m => if has_nan m then Err NonSymmetricMatrixError
                else if negb (is_symmetric symmetric_tol (AMat (unfl m))) then Err NonSymmetricMatrixError
                else if is_psd eigvalsh false psd_tol (AMat (unfl m)) then Ok m
                else Ok (enfl (cov_nearest (unfl m)))
    | _ => Err NonSymmetricMatrixError
    end.

  (** abstract.py:131-137 *)
  Definition force_psd (e : ell) : ell * result unit :=
    match bind (sigma e) (fun s => bind (near_psd_fl (VMat s)) (fun cov =>
            bind (tri_indices (e_dim e) 1 "lower") (take cov))) with
    | Ok rhos => (mkEll (e_dim e) false rhos, Ok tt)
    | Err x => (e, Err x)
    end.

  (** the loop of abstract.py:117-123: [enumerate(value)] with the fixed component on one side.
      [row_slice] is True when the first component is the slice. *)
  Fixpoint store_line (e : ell) (row_slice : bool) (fixed : Z) (i : nat) (vals : list fl) : ell * result unit :=
    match vals with
    | [] => (e, Ok tt)
    | v :: r =>
      let '(x, y) := if row_slice then (Z.of_nat i, fixed) else (fixed, Z.of_nat i) in
      if (x =? y)%Z then store_line e row_slice fixed (S i) r          (* 119-120 skip diagonals *)
      else match get_rho_index (e_dim e) x y with                       (* 122 *)
           | Err ex => (e, Err ex)
           | Ok k => match store e k v with                             (* 123 *)
                     | (e', Ok _) => store_line e' row_slice fixed (S i) r
                     | (e', Err ex) => (e', Err ex)
                     end
           end
    end.

  (** values of a line assignment, abstract.py:112-114: a scalar is repeated, otherwise the length must be d
      (a (d,1) matrix iterates over one-element rows; wider rows cannot be stored into an element) *)
  Definition line_values (d : nat) (v : value) : result (list fl) :=
    match v with
    | VScalar x => Ok (repeat x d)
    | VVec l => if Nat.eqb (length l) d then Ok l else Err ValueError
    | VMat m => if Nat.eqb (nr m) d && Nat.eqb (nc m) 1 then Ok (map (fun i => get m i 0%nat) (seq 0 d)) else Err ValueError
    end.

  Definition and_then (s : ell * result unit) (f : ell -> ell * result unit) : ell * result unit :=
    match s with (e, Ok _) => f e | (e, Err x) => (e, Err x) end.

  (** abstract.py:91-96 and 108-110: [self[:] = value] *)
  Definition set_all (e : ell) (v : value) : ell * result unit :=
    match near_psd_fl v with
    | Err x => (e, Err x)
    | Ok m => if Nat.eqb (nr m) (e_dim e) && Nat.eqb (nc m) (e_dim e)
              then match bind (tri_indices (e_dim e) 1 "lower") (take m) with
                   | Ok rhos => (mkEll (e_dim e) false rhos, Ok tt)
                   | Err x => (e, Err x)
                   end
              else (e, Err ValueError)
    end.

  (** abstract.py:78-129 *)
  Definition setitem (e : ell) (ix : index) (v : value) : ell * result unit :=
    if out_of_range v then (e, Err ValueError)
    else match ix with
    | ISlice => set_all e v
    | IInt z =>
      match bind (as_scalar ValueError v) (fun x => rmap (fun k => (k, x)) (wrap (length (e_rhos e)) z)) with
      | Err ex => (e, Err ex)
      | Ok (k, x) => and_then (store e k x) force_psd
      end
    | ITuple [CSlice; CSlice] => set_all e v
    | ITuple [CSlice; CInt y] =>
      match line_values (e_dim e) v with
      | Err ex => (e, Err ex)
      | Ok l => and_then (store_line e true y 0 l) force_psd
      end
    | ITuple [CInt x; CSlice] =>
      match line_values (e_dim e) v with
      | Err ex => (e, Err ex)
      | Ok l => and_then (store_line e false x 0 l) force_psd
      end
    | ITuple [CInt x; CInt y] =>
      match get_rho_index (e_dim e) x y with
      | Err ex => (e, Err ex)
      | Ok k => match as_scalar TypeError v with
                | Err ex => (e, Err ex)
                | Ok w => and_then (store e k w) force_psd
                end
      end
    | ITuple _ => (e, Err IndexError)
    end.
End Oracles.

(** abstract.py:66-76 for the two integer forms *)
Definition getitem2 (e : ell) (x y : Z) : result fl :=
  bind (sigma e) (fun s => bind (wrap (nr s) x) (fun i => bind (wrap (nc s) y) (fun j => Ok (get s i j)))).
Definition getitem1 (e : ell) (z : Z) : result fl :=
  bind (wrap (length (e_rhos e)) z) (fun k => match nth_error (e_rhos e) k with Some v => Ok v | None => Err IndexError end).

(** An array-like given to a params setter: its numpy dtype (integer or float) and entries. *)
Record parr := mkParr { pa_int : bool; pa_vals : list fl }.
Inductive gparams := GScalar (isint : bool) (v : fl) | GArr (a : parr).

(** gaussian.py:70-73: no check of length or range *)
Definition gauss_set_params (e : ell) (p : gparams) : ell * result unit :=
  match p with
  | GScalar b v => (mkEll (e_dim e) b (repeat v (length (e_rhos e))), Ok tt)
  | GArr a => (mkEll (e_dim e) (pa_int a) (pa_vals a), Ok tt)
  end.

(** student.py: object with degrees of freedom *)
Record student := mkStudent { s_df : fl; s_ell : ell }.
(** student.py:34-55: df is stored unchecked *)
Definition new_student (d : nat) (df : fl) : student := mkStudent df (new_ell d).
Inductive sparams := SParams (df : fl) (rho : parr) | SArr (a : parr).

(** student.py:152-167 *)
Definition student_set_params (s : student) (p : sparams) : student * result unit :=
  match p with
  | SParams df rho => (mkStudent df (mkEll (e_dim (s_ell s)) (pa_int rho) (pa_vals rho)), Ok tt)    (* 154-156 *)
  | SArr a =>
    if negb (Nat.eqb (length (pa_vals a)) (1 + n_rhos (e_dim (s_ell s)))) then (s, Err ValueError)  (* 159-160 *)
    else match pa_vals a with
         | [] => (s, Err IndexError)
         | df :: rho =>
           if match df with Some r => Rleb r 0 | None => false end then (s, Err ValueError)          (* 163-164 *)
           else (mkStudent df (mkEll (e_dim (s_ell s)) (pa_int a) rho), Ok tt)                       (* 166-167 *)
         end
  end.
(** student.py:150 *)
Definition student_get_params (s : student) : fl * list fl := (s_df s, e_rhos (s_ell s)).

(** Histories of public mutating calls on a Gaussian copula. *)
Inductive gop := GSetItem (ix : index) (v : value) | GSetParams (p : gparams).
Definition gauss_step eig nearest (e : ell) (o : gop) : ell :=
  match o with
  | GSetItem ix v => fst (setitem eig nearest e ix v)
  | GSetParams p => fst (gauss_set_params e p)
  end.
Definition gauss_run eig nearest (d : nat) (ops : list gop) : ell := fold_left (gauss_step eig nearest) ops (new_ell d).

Inductive sop := SSetItem (ix : index) (v : value) | SSetParams (p : sparams).
Definition student_step eig nearest (s : student) (o : sop) : student :=
  match o with
  | SSetItem ix v => mkStudent (s_df s) (fst (setitem eig nearest (s_ell s) ix v))
  | SSetParams p => fst (student_set_params s p)
  end.
Definition student_run eig nearest (d : nat) (df : fl) (ops : list sop) : student :=
  fold_left (student_step eig nearest) ops (new_student d df).

(** abstract.py:39-46: the guards of log_lik ([df] is None for a Gaussian copula).  The exact-arithmetic
    likelihood itself is an argument; [None] stands for -inf. *)
Definition ell_log_lik (eig : mat R -> list R) (e : ell) (df : option R) (base : result R) : result (option R) :=
  bind (sigma e) (fun s =>
    if negb (negb (has_nan s) && is_psd eig false psd_tol (AMat (unfl s))) then Ok None
    else match df with
         | Some v => if Rleb v 0 then Ok None else rmap Some base
         | None => rmap Some base
         end).

(** abstract.py:20-37,48-50,62-64 and gaussian.py:57-58, element-wise *)
Definition ell_rho (r : R) : R := asin (r / 2) * 6 / PI.
Definition ell_tau (r : R) : R := 2 * asin r / PI.
Definition ell_itau (t : R) : R := sin (t * PI / 2).
Definition gauss_irho (r : R) : R := sin (r * PI / 6) * 2.
Definition ell_drho (x : R) : R := 6 / (PI * sqrt (4 - x ^ 2)).
Definition ell_dtau (x : R) : R := 2 / (PI * sqrt (1 - x ^ 2)).
