(** Specification vocabulary for the tests of exchangeability, radial symmetry and goodness of fit. *)
From Verif Require Import Base RSumLib S_Rank.
Local Close Scope Q_scope. Local Close Scope Z_scope. Open Scope R_scope.

(** what np.argsort is expected to return: the positions 0..n-1 in some order, in which the values ascend *)
Definition argsorts (f : list R -> list Z) : Prop :=
  forall l, Permutation (f l) (map Z.of_nat (seq 0 (length l))) /\
    forall i j, (i <= j)%nat -> (j < length l)%nat -> nth (Z.to_nat (nth i (f l) 0%Z)) l 0 <= nth (Z.to_nat (nth j (f l) 0%Z)) l 0.

(** the share of the rows 0..n-1 with a property *)
Definition share (n : nat) (P : nat -> bool) : R := INR (count P (seq 0 n)) / INR n.

(** p is the p-value the documentation describes: the statistic s against the simulated statistics s0 *)
Definition documented_p_value (s : R) (s0 : list R) (p : R) : Prop :=
  p = (INR (length (filter (fun a => if Rle_dec s a then true else false) s0)) + / 2) / (INR (length s0) + 1).

(** rows i and p(i) of a sample of pairs mirror one another in the diagonal *)
Definition own_mirror_image (n : nat) (x y : nat -> R) : Prop :=
  exists p, row_permutation n p /\ forall i, (i < n)%nat -> x (p i) = y i /\ y (p i) = x i.
(** rows i and p(i) of a table are opposite one another with respect to a centre *)
Definition radially_symmetric (x : mat R) : Prop :=
  exists p centre, row_permutation (nr x) p /\ forall i j, (i < nr x)%nat -> (j < nc x)%nat -> get x (p i) j = 2 * centre j - get x i j.
(** the same numbers in every column, in any order: the dependence between the columns may differ *)
Definition same_columns (x y : mat R) : Prop :=
  nr x = nr y /\ nc x = nc y /\
  forall j, (j < nc x)%nat -> Permutation (map (fun i => get x i j) (seq 0 (nr x))) (map (fun i => get y i j) (seq 0 (nr y))).
(** all columns ascend together *)
Definition comonotone (x : mat R) : Prop :=
  forall i k j, (i <= k)%nat -> (k < nr x)%nat -> (j < nc x)%nat -> get x i j <= get x k j.
(** up to the order of the rows, two rows of column j of v tie whenever the corresponding places of the sorted column j of u tie *)
Definition keeps_ties (u v : mat R) (j : nat) : Prop :=
  exists p s, row_permutation (nr u) p /\ sorted_column Rleb (nr u) (fun i => get u i j) s /\
    forall a b, (a < nr u)%nat -> (b < nr u)%nat -> nth a s 0 = nth b s 0 -> get v (p a) j = get v (p b) j.
(** two tables with the same numbers *)
Definition agree (a b : mat R) : Prop := nr a = nr b /\ nc a = nc b /\ forall i j, (i < nr a)%nat -> (j < nc a)%nat -> get a i j = get b i j.
(** fitting and evaluating a copula reads nothing but the numbers in the tables *)
Definition reads_entries (fit : mat R -> result (mat R -> nat -> R)) : Prop :=
  forall a b, agree a b -> match fit a, fit b with
    | Ok f, Ok g => forall c d k, agree c d -> (k < nr c)%nat -> f c k = g d k
    | Err e, Err e' => e = e'
    | _, _ => False
    end.
