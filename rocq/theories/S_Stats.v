(** Specification vocabulary for the samplers and the multivariate t density. *)
From Verif Require Import Base RSumLib Ext S_Linalg.
Open Scope R_scope.

(** a float that is an integer >= 1 *)
Definition positive_integer (v : ext) : Prop := exists n : nat, (1 <= n)%nat /\ v = Fin (INR n).
(** Kemp's generator for the logarithmic series distribution Log(1 - e^alpha): what the sampler should return for the uniform
    draws u1 and u2, away from u1 = 0 *)
Definition kemp (alpha u1 u2 : R) : R :=
  let q := 1 - exp (u2 * alpha) in
  if Rlt_dec (1 - exp alpha) u1 then 1
  else if Rlt_dec u1 (q * q) then 1 + IZR (Int_part (ln u1 / ln q))
  else if Rlt_dec q u1 then 1 else 2.

(** the density of the d-dimensional t distribution: location mu, scale matrix with the given determinant and inverse *)
Definition student_quad (d : nat) (inv : nat -> nat -> R) (x mu : nat -> R) : R := quad d inv (fun i => x i - mu i).
Definition student_density (gamma : R -> R) (nu : R) (d : nat) (det : R) (inv : nat -> nat -> R) (x mu : nat -> R) : R :=
  gamma ((nu + INR d) / 2) / (gamma (nu / 2) * Rpower (nu * PI) (INR d / 2) * sqrt det)
  * Rpower (1 + student_quad d inv x mu / nu) (- ((nu + INR d) / 2)).
Definition student_log_density (gamma : R -> R) (nu : R) (d : nat) (det : R) (inv : nat -> nat -> R) (x mu : nat -> R) : R :=
  ln (gamma ((nu + INR d) / 2)) - ln (gamma (nu / 2)) - INR d / 2 * ln (nu * PI) - ln det / 2
  - (nu + INR d) / 2 * ln (1 + student_quad d inv x mu / nu).
(** what is used about scipy's gamma and beta *)
Definition gamma_beta (gamma : R -> R) (beta : R -> R -> R) : Prop :=
  (forall a, 0 < a -> 0 < gamma a) /\ (forall a b, 0 < a -> 0 < b -> beta a b = gamma a * gamma b / gamma (a + b)).
(** right inverse of a square matrix *)
Definition inverse (n : nat) (m im : nat -> nat -> R) : Prop :=
  forall i j, (i < n)%nat -> (j < n)%nat -> rsum n (fun k => m i k * im k j) = if Nat.eqb i j then 1 else 0.
