(** Specification of sampling from the multivariate t distribution. *)
From Coquelicot Require Import Coquelicot.
From Verif Require Import Base RSumLib Ext S_Linalg S_Stats S_EllipDensity S_Sampling.
Open Scope R_scope.

(** Euler's gamma function *)
Definition euler_gamma (gamma : R -> R) : Prop := forall a, 0 < a -> half_line (fun v => Rpower v (a - 1) * exp (- v)) (gamma a).
(** the density of the chi-square distribution *)
Definition chi_square_density (gamma : R -> R) (nu w : R) : R := Rpower w (nu / 2 - 1) * exp (- (w / 2)) / (Rpower 2 (nu / 2) * gamma (nu / 2)).
(** the density of mu + Z / sqrt (w / nu), Z normal with mean 0 and covariance matrix given by its determinant and inverse: the normal
    density with mean mu and that matrix divided by s = w / nu *)
Definition scaled_normal_density (nu : R) (d : nat) (det : R) (inv : nat -> nat -> R) (mu x : nat -> R) (w : R) : R :=
  normal_density_n d (det / (w / nu) ^ d) (fun i j => w / nu * inv i j) (fun i => x i - mu i).
(** numpy's RandomState: a state s has a next normal number g s.  The first chi-square variate with df > 2 degrees of freedom is made
    from it by the method of Marsaglia and Tsang, if the method accepts it ([acc]), and the first entry of a standard normal matrix is it. *)
Definition marsaglia_tsang (df x : R) : R := let b := df / 2 - 1 / 3 in 2 * (b * (1 + / (3 * sqrt b) * x) ^ 3).
Definition shares_normals {St : Type} (g : St -> R) (acc : R -> St -> Prop) (chisq : R -> nat -> St -> list R * St)
  (mvn : list R -> mat R -> nat -> St -> list (list R) * St) : Prop :=
  (forall df n s, 2 < df -> acc df s -> 0 < 1 + / (3 * sqrt (df / 2 - 1 / 3)) * g s /\
     exists rest, fst (chisq df (S n) s) = marsaglia_tsang df (g s) :: rest) /\
  (forall cov n s, (forall i j, get cov i j = if Nat.eqb i j then 1 else 0) -> exists more rows, fst (mvn (repeat 0 (nr cov)) cov (S n) s) = (g s :: more) :: rows).
