(** Specification vocabulary for the special functions: what the numbers count and the series they come from. *)
From Verif Require Import Base RSumLib.
From Coq Require Import ZArith Permutation.
Open Scope nat_scope.

(** exactly [c] objects satisfy [P] *)
Definition there_are {A} (c : nat) (P : A -> Prop) : Prop := exists L : list A, NoDup L /\ (forall x, In x L <-> P x) /\ length L = c.

(** A partition of {0, .., n-1} into blocks, written as the list sending every element to the least element of its block:
    the least element is no larger than the element and is its own least element. *)
Definition set_partition (n : nat) (l : list nat) : Prop :=
  length l = n /\ forall i, i < n -> nth i l 0 <= i /\ nth (nth i l 0) l 0 = nth i l 0.
(** number of blocks = number of elements that are least in their block *)
Definition blocks (l : list nat) : nat := count (fun i => Nat.eqb (nth i l 0) i) (seq 0 (length l)).

(** a permutation a_1 .. a_n of 1, .., n and its number of ascents a_i < a_{i+1} *)
Definition permutation_of (n : nat) (l : list nat) : Prop := Permutation l (seq 1 n).
Fixpoint ascents (l : list nat) : nat :=
  match l with
  | a :: (b :: _) as r => (if Nat.ltb a b then 1 else 0) + ascents r
  | _ => 0
  end.

(** x (x-1) .. (x-n+1) *)
Fixpoint falling (x : Z) (n : nat) : Z := match n with O => 1%Z | S m => (falling x m * (x - Z.of_nat m))%Z end.
(** f 0 + .. + f (n-1) *)
Fixpoint zsum (n : nat) (f : nat -> Z) : Z := match n with O => 0%Z | S m => (zsum m f + f m)%Z end.

(** c_0 x^0 + c_1 x^1 + .. for the coefficient list [c_0; c_1; ..] *)
Definition poly_sum (coef : list R) (x : R) : R := rsum (length coef) (fun i => nth i coef 0 * x ^ i)%R.

(** the operator z d/dz iterated *)
From Coquelicot Require Import Coquelicot.
Fixpoint z_d_dz (n : nat) (f : R -> R) (z : R) : R := match n with O => f z | S m => (z * Derive (z_d_dz m f) z)%R end.
(** the polylogarithm of order -n: sum over k >= 1 of k^n z^k *)
Definition is_polylog_neg (n : nat) (z v : R) : Prop := is_series (fun k => INR (S k) ^ n * z ^ (S k))%R v.
