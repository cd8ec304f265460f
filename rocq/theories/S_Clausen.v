(** The Clausen function of order two on one period, - \int_0^x ln (2 sin (t/2)) dt, characterised by its derivative and its limit at 0+.
    The integrand is unbounded at 0, so the limit takes the place of the lower end of the integral.  No reference to the code. *)
From Coq Require Import Reals.
Open Scope R_scope.

Definition vanishes_at_0 (f : R -> R) : Prop := forall eps, 0 < eps -> exists d, 0 < d /\ forall x, 0 < x < d -> Rabs (f x) < eps.
Definition is_clausen (f : R -> R) : Prop :=
  vanishes_at_0 f /\ forall x, 0 < x < 2 * PI -> derivable_pt_lim f x (- ln (2 * sin (x / 2))).
