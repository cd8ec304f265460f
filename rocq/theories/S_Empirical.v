(** Specification vocabulary for the empirical copula: the beta law, single points, dominated rows. *)
From Coq Require Import Qreals.
From Coquelicot Require Import Coquelicot.
From Verif Require Import Base RSumLib Ext M_Rank M_Empirical.
Local Close Scope Q_scope. Local Close Scope Z_scope. Open Scope R_scope.

(** x^p for p >= 0, continued by 0^0 = 1 and 0^p = 0 *)
Definition pw (x p : R) : R := if Rleb x 0 then (if Reqb p 0 then 1 else 0) else Rpower x p.
(** the unnormalised density of the beta law with parameters a, b >= 1 *)
Definition beta_kernel (a b t : R) : R := pw t (a - 1) * pw (1 - t) (b - 1).
Definition beta_function (a b : R) : R := RInt (beta_kernel a b) 0 1.
(** density and distribution function of the beta law on [0,1] *)
Definition beta_density (a b t : R) : R := beta_kernel a b t / beta_function a b.
Definition beta_distribution (a b v : R) : R := RInt (beta_kernel a b) 0 v / beta_function a b.
(** what scipy's functions are expected to compute *)
Definition computes_beta_distribution (f : R -> R -> R -> R) : Prop :=
  forall a b v, 1 <= a -> 1 <= b -> 0 <= v <= 1 -> f a b v = beta_distribution a b v.
Definition computes_beta_density (f : R -> R -> R -> R) : Prop :=
  forall a b v, 1 <= a -> 1 <= b -> 0 <= v <= 1 -> f a b v = beta_density a b v.
Definition computes_beta_log_density (f : R -> R -> R -> ext) : Prop :=
  forall a b v, 1 <= a -> 1 <= b -> 0 <= v <= 1 -> f a b v = elog (Fin (beta_density a b v)).

(** one point as a table with one row; row k of a table *)
Definition one_row (l : list R) : mat R := mkMat 1 (length l) (fun _ j => nth j l 0).
Definition row (m : mat R) (k : nat) : list R := map (get m k) (seq 0 (nc m)).
Definition number (e : ext) : R := match e with Fin x => x | _ => 0 end.
(** the answer for one point *)
Definition at_point (f : mat R -> result (list ext)) (l : list R) : ext :=
  match f (one_row l) with Ok [x] => x | _ => Nan end.

(** the copulas the constructor accepts: some data, a documented method of breaking ties *)
Definition documented (ties : string) : Prop := In (lower ties) ["average"; "min"; "max"; "dense"; "ordinal"]%string.
Definition smoothed (s : string) : Prop := s = "none" \/ s = "beta" \/ s = "checkerboard".
Definition usable (e : empirical) : Prop :=
  (0 < nr (e_data e))%nat /\ (0 < nc (e_data e))%nat /\ documented (e_ties e) /\ smoothed (e_smoothing e) /\ 0 <= e_offset e.
(** the pseudo-observations of the data *)
Definition pobs_of (e : empirical) (i j : nat) : R :=
  match pseudo_obs Rleb (e_data e) (e_ties e) with Ok u => Q2R (get u i j) | Err _ => 0 end.
(** row i of the pseudo-observations lies below the point *)
Definition dominated (e : empirical) (l : list R) (i : nat) : bool :=
  forallb (fun j => Rleb (pobs_of e i j) (nth j l 0)) (seq 0 (nc (e_data e))).

(** the point l with coordinate k replaced by t *)
Definition set_nth (k : nat) (t : R) (l : list R) : list R := map (fun j => if Nat.eqb j k then t else nth j l 0) (seq 0 (length l)).
Definition interior (l : list R) : Prop := Forall (fun x => 0 < x < 1) l.
(** f is the mixed partial derivative of F over all d coordinates: differentiate one coordinate after the other *)
Definition mixed_derivative (d : nat) (F f : list R -> R) : Prop :=
  exists G : nat -> list R -> R,
    (forall l, length l = d -> interior l -> G O l = F l) /\ (forall l, length l = d -> interior l -> G d l = f l) /\
    forall k l, (k < d)%nat -> length l = d -> interior l -> is_derive (fun t => G k (set_nth k t l)) (nth k l 0) (G (S k) l).
