(** Specification vocabulary for the elliptical parameter object. *)
From Verif Require Import Base RSumLib S_Matrix S_Linalg M_Matrix M_Linalg M_Elliptical.
Open Scope R_scope.

(** The number of stored correlations fits the dimension. *)
Definition consistent (e : ell) : Prop :=
  (2 <= e_dim e)%nat /\ (2 * length (e_rhos e) = e_dim e * (e_dim e - 1))%nat.
(** [sigma] of the copula is the real matrix [m] (no nan) *)
Definition shows (e : ell) (m : mat R) : Prop := exists s, sigma e = Ok s /\ mat_eq s (enfl m).
(** [m] with entries (x,y) and (y,x) replaced by [v] *)
Definition replaced (m : mat R) (x y : nat) (v : R) : mat R :=
  mkMat (nr m) (nc m) (fun i j => if (Nat.eqb i x && Nat.eqb j y) || (Nat.eqb i y && Nat.eqb j x) then v else get m i j).
(** [m] with row and column [x] replaced by [l], the diagonal kept *)
Definition line_replaced (m : mat R) (x : nat) (l : nat -> R) : mat R :=
  mkMat (nr m) (nc m) (fun i j => if Nat.eqb i j then get m i j
                                  else if Nat.eqb i x then l j else if Nat.eqb j x then l i else get m i j).
(** [m] with a unit diagonal *)
Definition with_unit_diagonal (m : mat R) : mat R :=
  mkMat (nr m) (nc m) (fun i j => if Nat.eqb i j then 1 else get m i j).

(** Assumption on numpy.linalg.eigvalsh, lower-bound half of Rayleigh's characterisation. *)
Definition eig_ok (eigvalsh : mat R -> list R) : Prop :=
  forall m c, nr m = nc m ->
    ((forall e, In e (eigvalsh m) -> c <= e) <->
     (forall x, c * norm2 (nr m) x <= quad (nr m) (lower_sym m) x)).
(** Assumption on statsmodels' cov_nearest: the shape is kept. *)
Definition shape_kept (f : mat R -> mat R) : Prop := forall m, nr (f m) = nr m /\ nc (f m) = nc m.

(** psd up to the code's tolerance *)
Definition almost_psd (d : nat) (m : mat R) : Prop :=
  forall x, - (psd_tol + EPS) * norm2 d x <= quad d (get m) x.
(** the documented effect of statsmodels' cov_nearest on a matrix with positive variances: same shape, same
    variances, a positive semi-definite matrix *)
Definition nearest_ok (f : mat R -> mat R) : Prop :=
  forall m, nr (f m) = nr m /\ nc (f m) = nc m /\
    ((forall i, (i < nr m)%nat -> 0 < get m i i) ->
     (forall i, (i < nr m)%nat -> get (f m) i i = get m i i) /\ pos_semidef (nr m) (lower_sym (f m))).
(** a matrix value has a positive diagonal *)
Definition positive_diagonal (v : value) : Prop :=
  match v with VMat m => forall i, (i < nr m)%nat -> 0 < val (get m i i) | _ => True end.

(** parameter vectors assigned in the history have the length the dimension requires *)
Definition gop_fits (d : nat) (o : gop) : Prop :=
  match o with GSetParams (GArr a) => length (pa_vals a) = n_rhos d | _ => True end.
Definition sop_fits (d : nat) (o : sop) : Prop :=
  match o with SSetParams (SParams _ r) => length (pa_vals r) = n_rhos d | _ => True end.
