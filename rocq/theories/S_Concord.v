(** Specification vocabulary: Kendall's tau and Spearman's rho of a bivariate copula. *)
From Coquelicot Require Import Coquelicot.
From Verif Require Import Base RSumLib S_Archimedean.
Open Scope R_scope.

(** the integral of g over the open unit interval is l *)
Definition integral_01 (g : R -> R) (l : R) : Prop := is_RInt_gen g (at_right 0) (at_left 1) l.
(** Kendall's tau of C: 4 E C(U,V) - 1 = 1 - 4 (the integral of dC/du dC/dv over the unit square), the square integrated line by line *)
Definition kendall_tau (C : R -> R -> R) (t : R) : Prop :=
  exists Cu Cv I, (forall u v, 0 < u < 1 -> 0 < v < 1 -> is_derive (fun u => C u v) u (Cu u v) /\ is_derive (fun v => C u v) v (Cv u v)) /\
    (forall u, 0 < u < 1 -> integral_01 (fun v => Cu u v * Cv u v) (I u)) /\ integral_01 I ((1 - t) / 4).
(** Spearman's rho of C: 12 (the integral of C over the unit square) - 3 *)
Definition spearman_rho (C : R -> R -> R) (r : R) : Prop :=
  exists I, (forall u, 0 < u < 1 -> integral_01 (fun v => C u v) (I u)) /\ integral_01 I ((r + 3) / 12).
(** C is the copula with density c: the mixed derivative of C is c, and C vanishes on the left and the lower edge *)
Definition copula_of_density (C c : R -> R -> R) : Prop :=
  exists h, (forall u v, 0 < u < 1 -> 0 < v < 1 -> is_derive (fun u => C u v) u (h u v) /\ is_derive (fun v => h u v) v (c u v)) /\
    (forall u, 0 < u < 1 -> lim_0 (fun v => h u v) 0) /\ (forall v, 0 < v < 1 -> lim_0 (fun u => C u v) 0).
