(** Properties C01-C06: ranks and pseudo-observations
    (/repo/copulae/core/misc.py:39-145). *)
From Coq Require Import QArith.
From Verif Require Import Base M_Rank S_Rank CountLib P_Rank.
Open Scope nat_scope.

(** A 5x2 sample with ties in the first column, used as the concrete case below. *)
Definition sample : mat Q := mkMat 5 2 (fun i j =>
  nth j (nth i [[3#1; 1#2]; [1#1; 7#3]; [3#1; 0#1]; [2#1; 5#1]; [3#1; (-1)#4]]%Q []) 0%Q).
Definition col0 (m : mat Q) : list Q := map (fun i => Qred (get m i 0)) (seq 0 (nr m)).
Definition pobs_col0 (s : string) : result (list Q) := rmap col0 (pseudo_obs Qle_bool sample s).

(** C01: every pseudo-observation is strictly between 0 and 1. *)
Theorem C01_pseudo_obs_open_unit_interval :
  forall (A : Type) (leb : A -> A -> bool), total_preorder leb ->
  forall (data : mat A) (ties : string) (u : mat Q),
  pseudo_obs leb data ties = Ok u ->
  nr u = nr data /\ nc u = nc data /\
  forall i j, i < nr data -> j < nc data -> (0 < get u i j /\ get u i j < 1)%Q.
Proof.
  intros A leb Hp data s u H. destruct (pseudo_obs_Ok leb _ _ _ H) as [t [_ [H1 [H2 _]]]].
  split; [exact H1|]. split; [exact H2|]. intros i j Hi _. exact (pobs_range leb Hp data s u H i j Hi).
Qed.
Print Assumptions C01_pseudo_obs_open_unit_interval.

(** ... and the call succeeds exactly for the five documented names, in any letter case. *)
Theorem C01_pseudo_obs_accepts_documented_ties :
  forall (A : Type) (leb : A -> A -> bool) (data : mat A) (ties : string),
  (In (lower ties) ["average"; "min"; "max"; "dense"; "ordinal"]%string ->
     exists u, pseudo_obs leb data ties = Ok u) /\
  (~ In (lower ties) ["average"; "min"; "max"; "dense"; "ordinal"]%string ->
     pseudo_obs leb data ties = Err ValueError).
Proof.
  intros A leb data s. split; intros H; unfold pseudo_obs, rank_data2.
  - destruct (parse_ties_ok s H) as [t ->]. cbn. eexists; reflexivity.
  - rewrite (parse_ties_err s H). reflexivity.
Qed.
Print Assumptions C01_pseudo_obs_accepts_documented_ties.

Example C01_case : pobs_col0 "Average" = Ok [2#3; 1#6; 2#3; 1#3; 2#3]%Q.
Proof. vm_compute. reflexivity. Qed.

(** C02: strict order is preserved; ties stay ties (ordinal: separated by position). *)
Theorem C02_pseudo_obs_order_preserving :
  forall (A : Type) (leb : A -> A -> bool), total_preorder leb ->
  forall (data : mat A) (ties : string) (u : mat Q),
  pseudo_obs leb data ties = Ok u ->
  forall i k j, i < nr data -> k < nr data -> j < nc data ->
    (below leb (get data i j) (get data k j) -> (get u i j < get u k j)%Q) /\
    (tied leb (get data i j) (get data k j) -> lower ties <> "ordinal"%string ->
       (get u i j == get u k j)%Q) /\
    (tied leb (get data i j) (get data k j) -> lower ties = "ordinal"%string -> i < k ->
       (get u i j < get u k j)%Q).
Proof.
  intros A leb Hp data s u H i k j Hi Hk Hj. repeat split.
  - intros B. exact (pobs_lt leb Hp data s u H i k j Hi Hk B).
  - intros T Hs. exact (pobs_tied leb Hp data s u H Hs i k j T).
  - intros T Hs Hik. exact (pobs_ordinal leb Hp data s u H Hs i k j Hik Hk T).
Qed.
Print Assumptions C02_pseudo_obs_order_preserving.

Example C02_case : pobs_col0 "ordinal" = Ok [1#2; 1#6; 2#3; 1#3; 5#6]%Q.
Proof. vm_compute. reflexivity. Qed.

(** C03: strictly increasing transforms of the columns do not change anything. *)
Theorem C03_pseudo_obs_increasing_transform_invariant :
  forall (A B : Type) (leA : A -> A -> bool) (leB : B -> B -> bool),
  total_preorder leA -> total_preorder leB ->
  forall (f : nat -> A -> B),
  (forall j a b, below leA a b -> below leB (f j a) (f j b)) ->
  (forall j a b, tied leA a b -> tied leB (f j a) (f j b)) ->
  forall (data : mat A) (ties : string) (u : mat Q) (v : mat Q),
  pseudo_obs leA data ties = Ok u ->
  pseudo_obs leB (mkMat (nr data) (nc data) (fun i j => f j (get data i j))) ties = Ok v ->
  forall i j, i < nr data -> get v i j = get u i j.
Proof.
  intros A B leA leB HA HB f H1 H2 data s u v Hu Hv.
  exact (pobs_transform leA leB data f s u v
           (fun j => strictly_increasing_leb leA leB (f j) HA HB (H1 j) (H2 j)) Hu Hv).
Qed.
Print Assumptions C03_pseudo_obs_increasing_transform_invariant.

Example C03_case : (* x |-> 2x+1 on the first column *)
  rmap col0 (pseudo_obs Qle_bool (mkMat 5 2 (fun i j => (2 * get sample i j + 1)%Q)) "dense") = pobs_col0 "dense"
  /\ pobs_col0 "dense" = Ok [1#2; 1#6; 1#2; 1#3; 1#2]%Q.
Proof. vm_compute. split; reflexivity. Qed.

(** C04: permuting the observations permutes the pseudo-observations. *)
Theorem C04_pseudo_obs_row_equivariant :
  forall (A : Type) (leb : A -> A -> bool), total_preorder leb ->
  forall (data : mat A) (ties : string) (p : nat -> nat) (u v : mat Q),
  lower ties <> "ordinal"%string -> row_permutation (nr data) p ->
  pseudo_obs leb data ties = Ok u ->
  pseudo_obs leb (mkMat (nr data) (nc data) (fun i j => get data (p i) j)) ties = Ok v ->
  forall i j, i < nr data -> get v i j = get u (p i) j.
Proof. intros A leb Hp. exact (pobs_perm leb Hp). Qed.
Print Assumptions C04_pseudo_obs_row_equivariant.

Example C04_case : row_permutation 5 (fun i => 4 - i).
Proof. exists (fun i => 4 - i). intros i Hi. repeat split; lia. Qed.

(** ... and with ties='ordinal' the equivariance is lost as soon as there are ties. *)
Theorem C04_ordinal_row_equivariance_refuted :
  exists (data u v : mat Q) (p : nat -> nat) (i j : nat),
    row_permutation (nr data) p /\
    pseudo_obs Qle_bool data "ordinal" = Ok u /\
    pseudo_obs Qle_bool (mkMat (nr data) (nc data) (fun i j => get data (p i) j)) "ordinal" = Ok v /\
    i < nr data /\ j < nc data /\ ~ (get v i j == get u (p i) j)%Q.
Proof.
  exists (mkMat 2 1 (fun _ _ => 1%Q)). eexists. eexists. exists (fun i => 1 - i), 0, 0.
  split; [exists (fun i => 1 - i); cbn [nr]; intros i Hi; repeat split; lia|].
  split; [reflexivity|]. split; [reflexivity|]. cbn [nr nc get].
  split; [lia|]. split; [lia|]. vm_compute. discriminate.
Qed.
Print Assumptions C04_ordinal_row_equivariance_refuted.

(** C05: pseudo-observations of pseudo-observations are the same. *)
Theorem C05_pseudo_obs_idempotent :
  forall (A : Type) (leb : A -> A -> bool), total_preorder leb ->
  forall (data : mat A) (ties : string) (u : mat Q),
  pseudo_obs leb data ties = Ok u ->
  exists v, pseudo_obs Qle_bool u ties = Ok v /\ nr v = nr u /\ nc v = nc u /\
    forall i j, i < nr data -> get v i j = get u i j.
Proof. intros A leb Hp. exact (pobs_idem leb Hp). Qed.
Print Assumptions C05_pseudo_obs_idempotent.

Example C05_case : forall s, In s ["average"; "min"; "max"; "dense"; "ordinal"]%string ->
  bind (pseudo_obs Qle_bool sample s) (fun u => rmap col0 (pseudo_obs Qle_bool u s)) = pobs_col0 s.
Proof. intros s H. cbn in H. repeat (destruct H as [<-|H]; [vm_compute; reflexivity|]). destruct H. Qed.

(** C06: ranks are the positions in the sorted column. *)
Theorem C06_rank_is_position_in_sorted_column :
  forall (A : Type) (leb : A -> A -> bool), total_preorder leb ->
  forall (n : nat) (x : nat -> A) (s : list A) (i : nat),
  sorted_column leb n x s -> i < n ->
  exists first last ord,
    first_position leb s first (x i) /\ last_position leb s last (x i) /\ holds_at leb s ord (x i) /\
    (rankdata leb MinRank n x i == inject_Z (Z.of_nat first))%Q /\
    (rankdata leb MaxRank n x i == inject_Z (Z.of_nat last))%Q /\
    (rankdata leb Average n x i == inject_Z (Z.of_nat (first + last)) / 2)%Q /\
    (rankdata leb Ordinal n x i == inject_Z (Z.of_nat ord))%Q.
Proof.
  intros A leb Hp n x s i Hs Hi.
  exists (S (n_lt leb n x i)), (n_le leb n x i), (ordn leb n x i).
  split; [exact (first_position_min leb Hp n x s i Hs Hi)|].
  split; [exact (last_position_max leb Hp n x s i Hs Hi)|].
  split; [exact (ordinal_position leb Hp n x s i Hs Hi)|].
  split; [reflexivity|]. split; [reflexivity|]. split; [|reflexivity].
  unfold rankdata. replace (S (n_lt leb n x i) + n_le leb n x i) with (n_le leb n x i + n_lt leb n x i + 1) by lia.
  reflexivity.
Qed.
Print Assumptions C06_rank_is_position_in_sorted_column.

Theorem C06_dense_rank_is_position_among_distinct_values :
  forall (A : Type) (leb : A -> A -> bool), total_preorder leb ->
  forall (n : nat) (x : nat -> A) (s : list A) (i : nat),
  StronglySorted (below leb) s ->
  (forall k, k < n -> exists b, In b s /\ tied leb (x k) b) ->
  (forall b, In b s -> exists k, k < n /\ tied leb b (x k)) ->
  i < n ->
  exists p, holds_at leb s p (x i) /\ (rankdata leb Dense n x i == inject_Z (Z.of_nat p))%Q.
Proof.
  intros A leb Hp n x s i H1 H2 H3 Hi. eexists.
  split; [exact (dense_position leb Hp n x s i H1 H2 H3 Hi)|reflexivity].
Qed.
Print Assumptions C06_dense_rank_is_position_among_distinct_values.

Theorem C06_ordinal_ranks_are_a_permutation :
  forall (A : Type) (leb : A -> A -> bool), total_preorder leb ->
  forall (n : nat) (x : nat -> A),
  exists l, Permutation l (seq 1 n) /\
    map (rankdata leb Ordinal n x) (seq 0 n) = map (fun k => inject_Z (Z.of_nat k)) l.
Proof.
  intros A leb Hp n x. exists (map (ordn leb n x) (seq 0 n)).
  split; [exact (ordn_perm leb Hp n x)|]. rewrite map_map. reflexivity.
Qed.
Print Assumptions C06_ordinal_ranks_are_a_permutation.

Theorem C06_ranks_without_ties_are_a_permutation :
  forall (A : Type) (leb : A -> A -> bool), total_preorder leb ->
  forall (t : ties) (n : nat) (x : nat -> A), no_ties leb n x ->
  exists r : nat -> nat, Permutation (map r (seq 0 n)) (seq 1 n) /\
    forall i, i < n -> (rankdata leb t n x i == inject_Z (Z.of_nat (r i)))%Q.
Proof.
  intros A leb Hp t n x Hn. exists (ordn leb n x). split; [exact (ordn_perm leb Hp n x)|].
  intros i Hi. rewrite rankdata_r2, (no_ties_r2 leb Hp t n x i Hn Hi), <- inject_double. reflexivity.
Qed.
Print Assumptions C06_ranks_without_ties_are_a_permutation.

Theorem C06_average_ranks_sum :
  forall (A : Type) (leb : A -> A -> bool) (n : nat) (x : nat -> A),
  (Qsum (map (rankdata leb Average n x) (seq 0 n)) == inject_Z (Z.of_nat (n * (n + 1))) / 2)%Q.
Proof. intros A leb. exact (average_sum leb). Qed.
Print Assumptions C06_average_ranks_sum.

(** pseudo_obs called with the name of the method (in any letter case) gives documented rank / (n + 1) *)
Theorem C06_pseudo_obs_by_method_name :
  forall (A : Type) (leb : A -> A -> bool), total_preorder leb ->
  forall (data : mat A) (name : string) (i j : nat) (s : list A),
  i < nr data -> j < nc data -> sorted_column leb (nr data) (fun k => get data k j) s ->
  In (lower name) ["average"; "min"; "max"; "ordinal"]%string ->
  exists m r, pseudo_obs leb data name = Ok m /\ documented_rank leb s (get data i j) (lower name) r /\
    (get m i j == r / inject_Z (Z.of_nat (nr data + 1)))%Q.
Proof.
  intros A leb Hp data name i j s Hi Hj Hs Hin.
  destruct (C06_rank_is_position_in_sorted_column A leb Hp (nr data) (fun k => get data k j) s i Hs Hi)
    as [first [last [ord [H1 [H2 [H3 [Hmin [Hmax [Havg Hord]]]]]]]]].
  unfold pseudo_obs, rank_data2, parse_ties.
  destruct Hin as [E|[E|[E|[E|[]]]]]; rewrite <- E; cbn [String.eqb Ascii.eqb Bool.eqb bind rmap]; eexists; eexists;
    (split; [reflexivity|]); (split; [|reflexivity]);
    (exists first, last; split; [exact H1|]; split; [exact H2|]; repeat split; intros Q; try discriminate Q); try assumption.
  exists ord. split; assumption.
Qed.
Print Assumptions C06_pseudo_obs_by_method_name.

Example C06_case : sorted_column Qle_bool 5 (fun i => get sample i 0) [1; 2; 3; 3; 3]%Q
  /\ map (fun t => rankdata Qle_bool t 5 (fun i => get sample i 0) 2) [MinRank; MaxRank; Dense; Ordinal]
     = [3; 5; 3; 4]%Q.
Proof.
  split; [|vm_compute; reflexivity]. split.
  - vm_compute. apply Permutation_sym, Permutation_cons_app with (l1 := [3]%Q).
    simpl. apply Permutation_cons_app with (l1 := [3; 3]%Q). reflexivity.
  - repeat (constructor; [|repeat constructor]). constructor.
Qed.
