(** Specification vocabulary for data in which all observations occur several times. *)
From Coq Require Import QArith.
From Verif Require Import Base RSumLib S_Matrix M_Rank M_Gmc S_Gmc.
Local Close Scope Q_scope. Local Close Scope Z_scope. Open Scope R_scope.

(** the table [m] written t times, one below the other *)
Definition repeated {A} (t : nat) (m : mat A) : mat A := mkMat (t * nr m) (nc m) (fun i j => get m (i mod nr m)%nat j).
(** mixtures with the same numbers *)
Definition alike (p p' : gmc) : Prop :=
  n_clusters p' = n_clusters p /\ n_dim p' = n_dim p
  /\ forall k, (k < n_clusters p)%nat -> weight p' k = weight p k /\ (forall j, (j < n_dim p)%nat -> centre p' k j = centre p k j) /\ mat_eq (spread_of p' k) (spread_of p k).
(** the rank among t copies of each observation of what has rank r among the observations *)
Definition rank_among_copies (ty : ties) (t : nat) (r : Q) : Q :=
  let t := inject_Z (Z.of_nat t) in
  match ty with
  | Average => (t * r - (t - 1) / 2)%Q
  | MinRank => (t * (r - 1) + 1)%Q
  | MaxRank => (t * r)%Q
  | Dense | Ordinal => r
  end.
