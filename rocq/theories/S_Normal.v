(** Specification vocabulary: the distribution function of the standard normal law. *)
From Coq Require Import Reals.
From Coquelicot Require Import Coquelicot.
From Verif Require Import Base.
Open Scope R_scope.

(** the primitive of the normal density that goes from 0 to 1; there is exactly one such function *)
Definition normal_cdf (F : R -> R) : Prop :=
  (forall z, is_derive F z (exp (- (z * z) / 2) / sqrt (2 * PI))) /\ is_lim F m_infty 0 /\ is_lim F p_infty 1.
