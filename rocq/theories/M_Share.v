(** The parameter arrays of elliptical copulas in memory: which array an assignment writes to and which it rebinds.
    /repo/copulae/elliptical/abstract.py:78-137, gaussian.py:64-73, student.py:150-167, copula/estimator/corr_inversion.py:40,
    copula/estimator/max_likelihood.py:65-68.  The values are those of M_Elliptical; here they sit in shared numpy arrays. *)
From Verif Require Import Base RSumLib M_Matrix M_Linalg M_Elliptical.
Open Scope R_scope.

(** [_rhos] of an object is a view: an array and an offset (Student copulas keep params[1:], student.py:167). *)
Record obj := mkObj { o_dim : nat; o_ref : nat; o_off : nat }.
(** the arrays allocated so far are those below [w_next] *)
Record world := mkWorld { w_next : nat; w_mem : nat -> parr; w_obj : nat -> obj }.
Definition view (w : world) (a : nat) : ell :=
  let o := w_obj w a in mkEll (o_dim o) (pa_int (w_mem w (o_ref o))) (skipn (o_off o) (pa_vals (w_mem w (o_ref o)))).
Definition upd {A} (f : nat -> A) (i : nat) (v : A) : nat -> A := fun j => if Nat.eqb j i then v else f j.
(** element stores through the view *)
Definition write (w : world) (a : nat) (l : list fl) : world :=
  let o := w_obj w a in let arr := w_mem w (o_ref o) in
  mkWorld (w_next w) (upd (w_mem w) (o_ref o) (mkParr (pa_int arr) (firstn (o_off o) (pa_vals arr) ++ l))) (w_obj w).
(** [self._rhos = a new array] *)
Definition rebind (w : world) (a : nat) (l : list fl) : world :=
  mkWorld (S (w_next w)) (upd (w_mem w) (w_next w) (mkParr false l)) (upd (w_obj w) a (mkObj (o_dim (w_obj w a)) (w_next w) 0)).
(** [np.asarray] of an array is the array itself: gaussian.py:73, student.py:156,158,167, with the array [id].  [copy.params = other.params]
    is [bind_array] with the array and offset of the other.  The checks of the setters are in M_Elliptical. *)
Definition bind_array (w : world) (a id off : nat) : world :=
  mkWorld (w_next w) (w_mem w) (upd (w_obj w) a (mkObj (o_dim (w_obj w a)) id off)).

(** What an item assignment does to [_rhos]: refuse, bind a new array (a whole matrix), or store elements and then bind a new array. *)
Inductive plan := Refuse (x : exn) | Rebind (l : list fl) | InPlace (e : ell) (r : result unit).
Section Oracles.
  Variable eig : mat R -> list R.
  Variable nearest : mat R -> mat R.
  Definition plan_all (e : ell) (v : value) : plan :=                        (* abstract.py:91-96 *)
    match near_psd_fl eig nearest v with
    | Err x => Refuse x
    | Ok m => if Nat.eqb (nr m) (e_dim e) && Nat.eqb (nc m) (e_dim e)
              then match bind (tri_indices (e_dim e) 1 "lower") (take m) with Ok l => Rebind l | Err x => Refuse x end
              else Refuse ValueError
    end.
  Definition in_place (s : ell * result unit) : plan := InPlace (fst s) (snd s).
  (** abstract.py:78-127, up to the call of _force_psd *)
  Definition plan_of (e : ell) (ix : index) (v : value) : plan :=
    if out_of_range v then Refuse ValueError
    else match ix with
    | ISlice => plan_all e v
    | IInt z => match bind (as_scalar ValueError v) (fun x => rmap (fun k => (k, x)) (wrap (length (e_rhos e)) z)) with
                | Err ex => Refuse ex
                | Ok (k, x) => in_place (store e k x)
                end
    | ITuple [CSlice; CSlice] => plan_all e v
    | ITuple [CSlice; CInt y] => match line_values (e_dim e) v with Err ex => Refuse ex | Ok l => in_place (store_line e true y 0 l) end
    | ITuple [CInt x; CSlice] => match line_values (e_dim e) v with Err ex => Refuse ex | Ok l => in_place (store_line e false x 0 l) end
    | ITuple [CInt x; CInt y] =>
      match get_rho_index (e_dim e) x y with
      | Err ex => Refuse ex
      | Ok k => match as_scalar TypeError v with Err ex => Refuse ex | Ok x => in_place (store e k x) end
      end
    | ITuple _ => Refuse IndexError
    end.
  (** abstract.py:78-137 on memory *)
  Definition assign (w : world) (a : nat) (ix : index) (v : value) : world * result unit :=
    match plan_of (view w a) ix v with
    | Refuse x => (w, Err x)
    | Rebind l => (rebind w a l, Ok tt)
    | InPlace e (Err x) => (write w a (e_rhos e), Err x)
    | InPlace e (Ok _) =>
      let w1 := write w a (e_rhos e) in
      match force_psd eig nearest (view w1 a) with
      | (e', Ok _) => (rebind w1 a (e_rhos e'), Ok tt)
      | (_, Err x) => (w1, Err x)
      end
    end.
End Oracles.
(** corr_inversion.py:40: [copula.params[:] = estimate] on a Gaussian copula, for an estimate of the right length *)
Definition assign_estimate (w : world) (a : nat) (l : list fl) : world := write w a l.
