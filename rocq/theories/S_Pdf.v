(** Specification vocabulary for densities: mixed partial derivatives. *)
From Coquelicot Require Import Coquelicot.
From Verif Require Import Base RSumLib Ext.
Open Scope R_scope.

(** The mixed derivative d^n F / dx_1 .. dx_n exists at the point u and equals v. *)
Fixpoint mixed_derivative (F : list R -> R) (u : list R) (v : R) : Prop :=
  match u with
  | [] => F [] = v
  | x :: r => exists g, locally x (fun y => mixed_derivative (fun l => F (y :: l)) r (g y)) /\ is_derive g x v
  end.
Definition open_cube (u : list R) : Prop := Forall (fun x => 0 < x < 1) u.
(** the Frank copula in any dimension *)
Definition frank_copula (th : R) (u : list R) : R :=
  - / th * ln (1 + (exp (- th) - 1) * lprod (map (fun x => (exp (- (x * th)) - 1) / (exp (- th) - 1)) u)).
