(** Specification vocabulary for the densities and tails of the elliptical copulas. *)
From Coquelicot Require Import Coquelicot.
From Verif Require Import Base RSumLib Ext S_Linalg S_Stats.
Open Scope R_scope.

(** F is a distribution function with the continuous positive density f *)
Definition distribution (F f : R -> R) : Prop :=
  (forall x, is_derive F x (f x)) /\ (forall x, 0 < f x) /\ (forall x, continuous f x) /\ is_lim F m_infty 0 /\ is_lim F p_infty 1.
(** q inverts F on (0, 1) *)
Definition quantile (F q : R -> R) : Prop := forall u, 0 < u < 1 -> F (q u) = u.
(** the integral of g over (-oo, x] is l *)
Definition integral_up_to (g : R -> R) (x l : R) : Prop := is_RInt_gen g (Rbar_locally m_infty) (at_point x) l.
(** M is the joint distribution function of the density m: the double integral over (-oo, x] x (-oo, y], in either order *)
Definition joint_cdf (m M : R -> R -> R) : Prop :=
  (exists G, (forall s y, integral_up_to (m s) y (G s y)) /\ (forall x y, integral_up_to (fun s => G s y) x (M x y))) /\
  (exists H, (forall x t, integral_up_to (fun s => m s t) x (H x t)) /\ (forall x y, integral_up_to (H x) y (M x y))).

(** the standard normal density; the normal density with covariance matrix given by its determinant and inverse *)
Definition normal_density (x : R) : R := exp (- (x * x) / 2) / sqrt (2 * PI).
Definition normal_density_n (d : nat) (det : R) (inv : nat -> nat -> R) (x : nat -> R) : R :=
  exp (- quad d inv x / 2) / sqrt ((2 * PI) ^ d * det).
(** the t density with nu degrees of freedom *)
Definition t_density (gamma : R -> R) (nu x : R) : R :=
  gamma ((nu + 1) / 2) / (gamma (nu / 2) * sqrt (nu * PI)) * Rpower (1 + x * x / nu) (- ((nu + 1) / 2)).
(** the two bivariate densities, written out for the correlation rho *)
Definition normal2 (rho x y : R) : R :=
  exp (- (x * x - 2 * rho * x * y + y * y) / (2 * (1 - rho * rho))) / (2 * PI * sqrt (1 - rho * rho)).
Definition t2 (gamma : R -> R) (nu rho x y : R) : R :=
  gamma ((nu + 2) / 2) / (gamma (nu / 2) * (nu * PI) * sqrt (1 - rho * rho))
  * Rpower (1 + (x * x - 2 * rho * x * y + y * y) / ((1 - rho * rho) * nu)) (- ((nu + 2) / 2)).

(** what is assumed of scipy's multivariate normal log-density, numpy's determinant and numpy's inverse; [im m] is the inverse of m *)
Definition documented_mvn (det : mat R -> R) (im : mat R -> nat -> nat -> R) (logpdf : mat R -> list (list R) -> result (list ext)) : Prop :=
  forall d cov rows, nr cov = d -> nc cov = d -> pos_semidef d (get cov) -> 0 < det cov -> inverse d (get cov) (im cov) ->
    Forall (fun x => length x = d) rows ->
    logpdf cov rows = Ok (map (fun x => Fin (ln (normal_density_n d (det cov) (im cov) (fun i => nth i x 0)))) rows).
Definition im_2 (det : mat R -> R) (im : mat R -> nat -> nat -> R) : Prop :=
  forall m, nr m = 2%nat -> nc m = 2%nat -> det m <> 0 -> inverse 2 (get m) (im m).
Definition det_2 (det : mat R -> R) : Prop :=
  forall m, nr m = 2%nat -> nc m = 2%nat -> det m = get m 0%nat 0%nat * get m 1%nat 1%nat - get m 0%nat 1%nat * get m 1%nat 0%nat.
Definition inv_2 (det : mat R -> R) (inv : mat R -> result (mat R)) : Prop :=
  forall m, nr m = 2%nat -> nc m = 2%nat -> det m <> 0 -> exists ic, inv m = Ok ic /\ inverse 2 (get m) (get ic).
(** the number in the answer for a single point *)
Definition only (r : result (list ext)) : R := match r with Ok [Fin x] => x | _ => 0 end.
(** the 2 x 2 correlation matrix *)
Definition is_corr2 (rho : R) (m : mat R) : Prop :=
  nr m = 2%nat /\ nc m = 2%nat /\ get m 0%nat 0%nat = 1 /\ get m 1%nat 1%nat = 1 /\ get m 0%nat 1%nat = rho /\ get m 1%nat 0%nat = rho.
(** the tail of the t copula: 2 T_(nu+1) (- sqrt ((nu + 1) (1 - rho) / (1 + rho))) *)
Definition t_tail (T' : R -> R) (nu rho : R) : R := 2 * T' (- sqrt ((nu + 1) * (1 - rho) / (1 + rho))).
