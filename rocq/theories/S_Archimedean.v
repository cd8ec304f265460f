(** Specification vocabulary for bivariate and multivariate distribution functions on the unit cube. *)
From Verif Require Import Base RSumLib Ext.
Open Scope R_scope.

Definition unit_cube (l : list R) : Prop := Forall (fun x => 0 <= x <= 1) l.
(** (1, .., 1, u, 1, .., 1) with u at position k *)
Definition one_but (d k : nat) (u : R) : list R := map (fun i => if Nat.eqb i k then u else 1) (seq 0 d).
(** coordinate-wise order *)
Definition below (l l' : list R) : Prop := Forall2 Rle l l'.

(** Textbook bivariate copulas *)
Definition clayton_C (th u v : R) : R := Rpower (Rpower u (- th) + Rpower v (- th) - 1) (-1 / th).
Definition gumbel_C (th u v : R) : R := exp (- Rpower (Rpower (- ln u) th + Rpower (- ln v) th) (1 / th)).
Definition frank_C (th u v : R) : R :=
  -1 / th * ln (1 + (exp (- th * u) - 1) * (exp (- th * v) - 1) / (exp (- th) - 1)).

(** the real number in a finite answer *)
Definition val (r : result ext) : R := match r with Ok (Fin x) => x | _ => 0 end.
(** mass that a distribution function C gives to the box (a1,b1] x .. x (ad,bd]: the alternating sum over its corners *)
Fixpoint box_mass (C : list R -> R) (sides : list (R * R)) (acc : list R) : R :=
  match sides with
  | [] => C acc
  | (a, b) :: r => box_mass C r (acc ++ [b]) - box_mass C r (acc ++ [a])
  end.
(** one-sided limits *)
Definition lim_0 (f : R -> R) (L : R) : Prop := forall e, 0 < e -> exists d, 0 < d /\ forall u, 0 < u < d -> Rabs (f u - L) < e.
Definition lim_1 (f : R -> R) (L : R) : Prop := forall e, 0 < e -> exists d, 0 < d /\ forall u, 1 - d < u < 1 -> Rabs (f u - L) < e.
(** integrand of the Debye functions, continued by its limit at 0 *)
Definition debye_kernel (n : nat) (t : R) : R := if Reqb t 0 then (if Nat.eqb n 1 then 1 else 0) else t ^ n / (exp t - 1).
From Coquelicot Require Import Coquelicot.
(** D_n(x) = n / x^n * integral of t^n/(e^t - 1) over [0, x] *)
Definition debye (n : nat) (x : R) : R := INR n / x ^ n * RInt (debye_kernel n) 0 x.
