(** Model of rank_data and pseudo_obs.
    /repo/copulae/core/misc.py:39-145. *)
From Coq Require Import QArith.
From Verif Require Import Base.
Open Scope nat_scope.

Inductive ties := Average | MinRank | MaxRank | Dense | Ordinal.

(** misc.py:134 [ties.lower()], and scipy.stats.rankdata's own check of the
    method name, which raises ValueError. *)
Definition parse_ties (s : string) : result ties :=
  let s := lower s in
  if String.eqb s "average" then Ok Average
  else if String.eqb s "min" then Ok MinRank
  else if String.eqb s "max" then Ok MaxRank
  else if String.eqb s "dense" then Ok Dense
  else if String.eqb s "ordinal" then Ok Ordinal
  else Err ValueError.

Section Rank.
  Context {A : Type} (leb : A -> A -> bool).

  Definition ltb (x y : A) : bool := negb (leb y x).
  Definition eqb (x y : A) : bool := leb x y && leb y x.

  (** A column is its length [n] and its entries [x 0 .. x (n-1)]. *)

  (** scipy.stats.rankdata, called at misc.py:138,141,143.  scipy is an external
      library: it is modelled by its documented meaning (position of an entry in
      the sorted column, ties resolved by the method), by counting; the data is
      assumed to contain no nan.  Ranks are rationals because of 'average'. *)
  Definition n_lt (n : nat) (x : nat -> A) (i : nat) : nat :=
    count (fun k => ltb (x k) (x i)) (seq 0 n).
  Definition n_le (n : nat) (x : nat -> A) (i : nat) : nat :=
    count (fun k => leb (x k) (x i)) (seq 0 n).
  (** no earlier entry of the column equals entry [k] *)
  Definition first_occ (x : nat -> A) (k : nat) : bool :=
    negb (existsb (fun j => eqb (x j) (x k)) (seq 0 k)).

  Definition rankdata (t : ties) (n : nat) (x : nat -> A) (i : nat) : Q :=
    match t with
    | Average => (inject_Z (Z.of_nat (n_le n x i + n_lt n x i + 1)) / inject_Z 2)%Q
    | MinRank => inject_Z (Z.of_nat (S (n_lt n x i)))
    | MaxRank => inject_Z (Z.of_nat (n_le n x i))
    | Dense   => inject_Z (Z.of_nat
        (S (count (fun k => ltb (x k) (x i) && first_occ x k) (seq 0 n))))
    | Ordinal => inject_Z (Z.of_nat
        (S (n_lt n x i + count (fun k => eqb (x k) (x i)) (seq 0 i))))
    end.

  (** misc.py:139-145, two dimensional data.  axis 0: each row is ranked;
      axis 1: each column is ranked and the list of columns is transposed back.
      Note: with zero rows (axis 0) or zero columns (axis 1) the real
      comprehension loses the second dimension; shapes are positive here. *)
  Definition rank_data2 (obs : mat A) (axis : nat) (ties_name : string) : result (mat Q) :=
    bind (parse_ties ties_name) (fun t =>
    match axis with
    | 0 => Ok (mkMat (nr obs) (nc obs)
                 (fun i j => rankdata t (nc obs) (fun k => get obs i k) j))
    | 1 => Ok (mkMat (nr obs) (nc obs)
                 (fun i j => rankdata t (nr obs) (fun k => get obs k j) i))
    | _ => Err ValueError
    end).

  (** misc.py:137-138, one dimensional data *)
  Definition rank_data1 (n : nat) (x : nat -> A) (ties_name : string) : result (nat -> Q) :=
    bind (parse_ties ties_name) (fun t => Ok (rankdata t n x)).

  (** misc.py:102.  The re-wrapping into a DataFrame (103-104) is [pseudo_obs_frame]
      in M_CorrTable. *)
  Definition pseudo_obs (data : mat A) (ties_name : string) : result (mat Q) :=
    rmap (fun r => mkMat (nr r) (nc r)
            (fun i j => (get r i j / inject_Z (Z.of_nat (nr data + 1)))%Q))
         (rank_data2 data 1 ties_name).

  (** misc.py:102 with one dimensional data *)
  Definition pseudo_obs1 (n : nat) (x : nat -> A) (ties_name : string) : result (nat -> Q) :=
    rmap (fun r i => (r i / inject_Z (Z.of_nat (n + 1)))%Q) (rank_data1 n x ties_name).
End Rank.
