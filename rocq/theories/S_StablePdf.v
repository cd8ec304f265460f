(** Specification vocabulary: Nolan's integral for the density of a stable law (parametrisation S0), alpha <> 1. *)
From Coquelicot Require Import Coquelicot.
From Verif Require Import Base RSumLib Ext.
Open Scope R_scope.

(** the integral of f over the open interval (a, b) is l *)
Definition integral_on (a b : R) (f : R -> R) (l : R) : Prop := is_RInt_gen f (at_right a) (at_left b) l.
(** the two constants of Nolan (1997) *)
Definition nolan_zeta (alpha beta : R) : R := - beta * tan (PI * alpha / 2).
Definition nolan_theta0 (alpha beta : R) : R := atan (beta * tan (PI * alpha / 2)) / alpha.
Definition nolan_V (alpha t0 th : R) : R :=
  Rpower (cos (alpha * t0)) (1 / (alpha - 1)) * Rpower (cos th / sin (alpha * (t0 + th))) (alpha / (alpha - 1))
  * (cos (alpha * t0 + (alpha - 1) * th) / cos th).
(** the exponent of Nolan's integrand at distance xm from zeta *)
Definition nolan_g (alpha t0 xm th : R) : R := Rpower xm (alpha / (alpha - 1)) * nolan_V alpha t0 th.
(** d is the density at x: right of zeta by the integral, left of zeta by reflection *)
Definition nolan_right (alpha t0 xm d : R) : Prop :=
  exists I, integral_on (- t0) (PI / 2) (fun th => nolan_g alpha t0 xm th * exp (- nolan_g alpha t0 xm th)) I /\
    d = alpha / (PI * Rabs (alpha - 1) * xm) * I.
Definition nolan_density (alpha beta x d : R) : Prop :=
  (nolan_zeta alpha beta < x /\ nolan_right alpha (nolan_theta0 alpha beta) (x - nolan_zeta alpha beta) d) \/
  (x < nolan_zeta alpha beta /\ nolan_right alpha (nolan_theta0 alpha (- beta)) (- x - nolan_zeta alpha (- beta)) d).

(** what is assumed of scipy: quad gives the integral of a function that is finite inside the interval (0 on an empty interval); brentq
    stays in a bracket with a sign change, and finds a zero if there is one inside *)
Definition exact_quad (quad : (R -> ext) -> R -> R -> ext) : Prop :=
  (forall f a, quad f a a = Fin 0) /\
  forall f h a b l, a < b -> (forall x, a < x < b -> f x = Fin (h x)) -> integral_on a b h l -> quad f a b = Fin l.
Definition opposite_signs (a b : ext) : Prop :=
  match a, b with
  | Fin x, Fin y => x * y < 0
  | Fin x, Pinf | Pinf, Fin x => x < 0
  | Fin x, Ninf | Ninf, Fin x => 0 < x
  | Pinf, Ninf | Ninf, Pinf => True
  | _, _ => False
  end.
Definition exact_brentq (brentq : (R -> ext) -> R -> R -> R) : Prop :=
  forall f a b, a < b -> opposite_signs (f a) (f b) ->
    a <= brentq f a b <= b /\ ((exists c, a < c < b /\ f c = Fin 0) -> a < brentq f a b < b /\ f (brentq f a b) = Fin 0).
