(** Specification vocabulary for fitting. *)
From Verif Require Import Base RSumLib Ext M_Matrix S_Matrix M_Linalg S_Linalg M_Elliptical S_Elliptical M_Fit.
Open Scope R_scope.

(** IEEE comparison a < b: False as soon as one side is nan *)
Definition better (a b : ext) : Prop :=
  match a, b with
  | Fin x, Fin y => x < y
  | Ninf, Fin _ | Ninf, Pinf | Fin _, Pinf => True
  | _, _ => False
  end.
(** the data set the estimation works on: the data given, or its pseudo-observations *)
Definition worked_on (pobs : data -> result data) (to_pobs : bool) (d d' : data) : Prop :=
  if to_pobs then pobs d = Ok d' else d' = d.
Definition outside_unit (v : fl) : Prop := exists r, v = Some r /\ (r < 0 \/ 1 < r).
(** the shape and range requirements on the data *)
Definition well_shaped (F : family) (d : data) : Prop := d_ndim d = 2%nat /\ d_cols d = f_dim F.
Definition in_unit (d : data) : Prop := forall v, In v (d_vals d) -> ~ outside_unit v.
Definition fittable (F : family) (d : data) : Prop := well_shaped F d /\ in_unit d /\ (f_dim F <= d_rows d)%nat.

(** the parameters a copula shows, as a list of numbers (degrees of freedom first) *)
Definition parameters (s : pstate) : list fl :=
  match s with
  | PGauss e => e_rhos e
  | PStudent t => s_df t :: e_rhos (s_ell t)
  | PArch t => [t]
  | POther l => l
  end.
Definition numbers (a : sarr) : list fl := match a with SScalar v => [v] | SVec l => l end.
(** objects of one copula: the same kind and the same dimension *)
Definition same_object (s t : pstate) : Prop :=
  match s, t with
  | PGauss e, PGauss e' => e_dim e = e_dim e'
  | PStudent a, PStudent b => e_dim (s_ell a) = e_dim (s_ell b)
  | PArch _, PArch _ => True
  | POther _, POther _ => True
  | _, _ => False
  end.
(** the minimiser works with vectors, as scipy's minimize does *)
Inductive uses_vectors : optimiser -> Prop :=
| uv_ask l k : (forall v, uses_vectors (k v)) -> uses_vectors (Ask (SVec l) k)
| uv_report b l f : uses_vectors (Report b (SVec l) f)
| uv_crash e : uses_vectors (Crash e).
(** the minimiser reports a point it has evaluated, with the value it got there *)
Inductive honest : list (sarr * ext) -> optimiser -> Prop :=
| ho_ask seen p k : (forall v, honest ((p, v) :: seen) (k v)) -> honest seen (Ask p k)
| ho_report seen b x f : In (x, f) seen -> honest seen (Report b x f)
| ho_crash seen e : honest seen (Crash e).
(** the minimiser never claims convergence *)
Inductive never_converges : optimiser -> Prop :=
| nc_ask p k : (forall v, never_converges (k v)) -> never_converges (Ask p k)
| nc_report x f : never_converges (Report false x f)
| nc_crash e : never_converges (Crash e).
(** [s'] is reached from [s] by assigning points to the params attribute, one after the other; an assignment that raises
    leaves the parameters as they are *)
Inductive assigned (F : family) : pstate -> list sarr -> pstate -> Prop :=
| as_nil s : assigned F s [] s
| as_ok s p s1 l s2 : set_params F s p = (s1, Ok tt) -> assigned F s1 l s2 -> assigned F s (p :: l) s2
| as_err s p e l s2 : set_params F s p = (s, Err e) -> assigned F s l s2 -> assigned F s (p :: l) s2.

(** the correlation matrix whose Kendall taus are [tau]: element-wise sine inversion *)
Definition sine_matrix (tau : mat R) : mat R := mkMat (nr tau) (nc tau) (fun i j => sin (get tau i j * PI / 2)).
(** an elliptical copula's inversion of Kendall's tau, on vectors *)
Definition elliptical_itau (F : family) : Prop :=
  forall l, f_itau F (map Some l) = Ok (map (fun t => Some (sin (t * PI / 2))) l).
(** [x] is the average of [l] *)
Definition average (l : list R) (x : R) : Prop := l <> [] /\ INR (length l) * x = fold_right Rplus 0 l.
(** the copula object of an elliptical copula shows the correlation matrix [m] *)
Definition object_shows (s : pstate) (m : mat R) : Prop :=
  match s with PGauss e => shows e m | PStudent t => shows (s_ell t) m | _ => False end.
(** an elliptical object of dimension d with floating point parameters *)
Definition elliptical_object (F : family) (s : pstate) : Prop :=
  match s with
  | PGauss e => lower (f_name F) = "gaussian"%string /\ e_dim e = f_dim F /\ consistent e /\ e_int e = false
  | PStudent t => lower (f_name F) = "student"%string /\ e_dim (s_ell t) = f_dim F
  | _ => False
  end.
(** the parameter of an Archimedean copula passes its range check (nan is not a number) *)
Definition admissible (F : family) (v : fl) : Prop := match v with Some x => f_theta_ok F x = true | None => True end.
