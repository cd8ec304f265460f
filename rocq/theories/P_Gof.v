(** Lemmas about the tests of exchangeability, radial symmetry and goodness of fit. *)
From Coq Require Import QArith Qreals Qround Lra Lia.
From Coquelicot Require Import Coquelicot.
From Verif Require Import Base RSumLib CountLib Ext M_Rank S_Rank P_Rank M_Special M_Stats M_Empirical S_Empirical P_Empirical M_Gof S_Gof.
Local Close Scope Q_scope. Local Close Scope Z_scope. Open Scope R_scope.

(** * sums, counts, p-values *)
Lemma rsum_ind n (b : nat -> bool) : rsum n (fun i => ind (b i)) = INR (count b (seq 0 n)).
Proof.
  rewrite rsum_lsum. induction (seq 0 n) as [|i l IH]; [reflexivity|]. cbn [map lsum]. rewrite IH, count_cons, plus_INR. unfold ind. destruct (b i); cbn; ring.
Qed.
Lemma ind_mul a b : ind a * ind b = ind (a && b).
Proof. destruct a, b; cbn; ring. Qed.
Lemma count_filter {A} (f : A -> bool) l : count f l = length (filter f l).
Proof. induction l as [|x l IH]; [reflexivity|]. rewrite count_cons. cbn. destruct (f x); cbn; lia. Qed.
Lemma p_value_spec s0 s : documented_p_value s s0 (p_value s0 s).
Proof.
  unfold documented_p_value, p_value. rewrite <- count_filter. reflexivity.
Qed.
Lemma p_value_range s0 s : 0 < p_value s0 s < 1.
Proof.
  unfold p_value. pose proof (pos_INR (count (fun a => Rleb s a) s0)) as H. assert (H' : INR (count (fun a => Rleb s a) s0) <= INR (length s0)) by apply le_INR, count_le_length.
  set (k := INR (count _ _)) in *. set (n := INR (length s0)) in *. split; [apply Rdiv_lt_0_compat; lra|].
  apply Rmult_lt_reg_r with (n + 1); [lra|]. unfold Rdiv. rewrite Rmult_assoc, Rinv_l; lra.
Qed.
Lemma p_value_anti s0 s s' : s <= s' -> p_value s0 s' <= p_value s0 s.
Proof.
  intros H. unfold p_value. assert (E : INR (count (fun a => Rleb s' a) s0) <= INR (count (fun a => Rleb s a) s0)).
  { apply le_INR, count_mono. intros x _. rewrite !Rleb_true. lra. }
  apply Rmult_le_compat_r; [|lra]. left. apply Rinv_0_lt_compat. pose proof (pos_INR (length s0)). lra.
Qed.

(** * the exchangeability statistic *)
Lemma cn_share u v x y n : cn u v x y n = share n (fun i => Rleb (u i) x && Rleb (v i) y).
Proof. unfold cn, share. rewrite <- rsum_ind. f_equal. apply rsum_ext. intros. apply ind_mul. Qed.
Lemma cn_swap u v x y n : cn v u x y n = cn u v y x n.
Proof. unfold cn. f_equal. apply rsum_ext. intros. ring. Qed.
Lemma der_swap u v x y n : der_cn_1 v u x y n = der_cn_2 u v y x n.
Proof. unfold der_cn_1, der_cn_2. rewrite !(cn_swap u v). reflexivity. Qed.
Lemma influence_swap U V n x y j : influence V U n x y j = - influence U V n x y j.
Proof. unfold influence. rewrite !(der_swap U V), <- !(der_swap V U). unfold Rdiv. ring. Qed.
Lemma influence_anti U V n x y j : influence U V n y x j = - influence U V n x y j.
Proof. unfold influence, Rdiv. ring. Qed.
Lemma cn_ext u v u' v' x y n : (forall i, (i < n)%nat -> u i = u' i /\ v i = v' i) -> cn u v x y n = cn u' v' x y n.
Proof. intros H. unfold cn. f_equal. apply rsum_ext. intros i Hi. destruct (H i Hi) as [-> ->]. reflexivity. Qed.

Definition swapped (u : mat R) : mat R := mkMat (nr u) 2 (fun i c => get u i (1 - c)%nat).
(** at the same points, and at swapped points *)
Lemma stat_swap u g n m : exch_test_stat (swapped u) g n m = exch_test_stat u g n m /\ exch_test_stat (swapped u) (swapped g) n m = exch_test_stat u g n m.
Proof.
  unfold exch_test_stat, swapped; cbn [get]; cbn [Nat.sub]. split; f_equal; f_equal; apply rsum_ext; intros i _.
  - rewrite !(cn_swap (fun k => get u k 0%nat)). ring.
  - rewrite !(cn_swap (fun k => get u k 0%nat)). ring.
Qed.
Lemma multiplier_swap U V g n m r : multiplier V U g n m r = multiplier U V g n m r /\ multiplier V U (swapped g) n m r = multiplier U V g n m r.
Proof.
  unfold multiplier, swapped; cbn [get]; cbn [Nat.sub]. split; f_equal; apply rsum_ext; intros j _.
  - rewrite (rsum_ext n (fun k => _ * influence V U _ _ _ _) (fun k => - ((r k - rsum n (fun j0 => r j0 / INR n)) * influence U V n (get g j 0) (get g j 1) k)));
      [rewrite rsum_opp; ring|]. intros k _. rewrite influence_swap. ring.
  - f_equal; apply rsum_ext; intros k _; rewrite influence_swap, influence_anti; ring.
Qed.
Lemma stat_nonneg u g n m : 0 <= exch_test_stat u g n m.
Proof.
  unfold exch_test_stat, Rdiv. assert (H : forall k, 0 <= / INR k).
  { intros [|k]; [cbn; rewrite Rinv_0; lra|]. left. apply Rinv_0_lt_compat, lt_0_INR. lia. }
  apply Rmult_le_pos; [|apply H]. apply Rmult_le_pos; [|apply pos_INR]. apply rsum_nonneg. intros i _. apply Rle_0_sqr.
Qed.
Lemma multiplier_nonneg U V g n m r : 0 <= multiplier U V g n m r.
Proof.
  unfold multiplier, Rdiv. assert (H : 0 <= / INR m). { destruct m as [|k]; [cbn; rewrite Rinv_0; lra|]. left. apply Rinv_0_lt_compat, lt_0_INR. lia. }
  apply Rmult_le_pos; [|apply H]. apply rsum_nonneg. intros i _. apply Rle_0_sqr.
Qed.
Lemma rsum_perm n p f : row_permutation n p -> rsum n (fun i => f (p i)) = rsum n f.
Proof.
  intros H. rewrite !rsum_lsum. rewrite <- (map_map p f). apply lsum_perm, Permutation_map, row_perm_Permutation, H.
Qed.
Lemma stat_mirror u g n m p : row_permutation n p -> (forall i, (i < n)%nat -> get u (p i) 0 = get u i 1 /\ get u (p i) 1 = get u i 0) -> exch_test_stat u g n m = 0.
Proof.
  intros Hp H. unfold exch_test_stat. rewrite rsum_zero; [unfold Rdiv; ring|]. intros i _. set (x := get g i 0). set (y := get g i 1).
  assert (E : cn (fun k => get u k 0) (fun k => get u k 1) x y n = cn (fun k => get u k 0) (fun k => get u k 1) y x n); [|rewrite E; ring].
  rewrite <- cn_swap. unfold cn. f_equal. rewrite <- (rsum_perm n p _ Hp). apply rsum_ext. intros k Hk. destruct (H k Hk) as [-> ->]. reflexivity.
Qed.

(** * reading rows by index *)
Lemma Permutation_rows n l : Permutation l (seq 0 n) -> row_permutation n (fun j => nth j l 0%nat).
Proof.
  intros H. pose proof (Permutation_length H) as L. rewrite seq_length in L. pose proof (Permutation_NoDup (Permutation_sym H) (seq_NoDup n 0)) as Nd.
  pose proof (proj1 (Permutation_nth l (seq 0 n) 0%nat) H) as [Hl [f [Hb [Hi Hf]]]]. rewrite L in *.
  exists f. intros i Hin. assert (P : forall j, (j < n)%nat -> (nth j l 0 < n)%nat).
  { intros j Hj. assert (Q : In (nth j l 0%nat) (seq 0 n)) by (apply (Permutation_in _ H), nth_In; lia). apply in_seq in Q. lia. }
  assert (F : forall j, (j < n)%nat -> nth (f j) l 0%nat = j). { intros j Hj. rewrite <- (Hf j) by lia. apply seq_nth. lia. }
  repeat split; [apply P, Hin|apply Hb, Hin| |apply F, Hin].
  apply (proj1 (NoDup_nth l 0%nat) Nd); [rewrite L; apply Hb, P, Hin|lia|]. apply F, P, Hin.
Qed.
Lemma row_permutation_comp n p q : row_permutation n p -> row_permutation n q -> row_permutation n (fun i => p (q i)).
Proof.
  intros [p' Hp] [q' Hq]. exists (fun i => q' (p' i)). intros i Hi. destruct (Hq i Hi) as [A1 [A2 [A3 A4]]]. destruct (Hp i Hi) as [B1 [B2 [B3 B4]]].
  destruct (Hp (q i) A1) as [C1 [C2 [C3 C4]]]. destruct (Hq (p' i) B2) as [D1 [D2 [D3 D4]]]. repeat split; [exact C1|exact D2| |]; congruence.
Qed.
Lemma row_permutation_inv n p : row_permutation n p -> exists q, row_permutation n q /\ forall i, (i < n)%nat -> (p i < n)%nat /\ (q i < n)%nat /\ q (p i) = i /\ p (q i) = i.
Proof. intros [q Hq]. exists q. split; [exists p|exact Hq]. intros i Hi. destruct (Hq i Hi) as [A [B [C D]]]. auto. Qed.
Lemma row_permutation_id n : row_permutation n (fun i => i).
Proof. exists (fun i => i). intros. auto. Qed.
Lemma read_Ok n z : (0 <= z < Z.of_nat n)%Z -> read n z = Ok (Z.to_nat z).
Proof. intros H. unfold read. rewrite (proj2 (Z.leb_le _ _)), (proj2 (Z.ltb_lt _ _)) by lia. reflexivity. Qed.
Lemma mapM_fun {A B} (f : A -> result B) (g : A -> B) l : (forall x, In x l -> f x = Ok (g x)) -> mapM f l = Ok (map g l).
Proof.
  induction l as [|x l IH]; intros H; [reflexivity|]. cbn [mapM map]. rewrite (H x) by (left; reflexivity). cbn [bind]. rewrite IH by (intros; apply H; right; assumption). reflexivity.
Qed.

Section Retie.
  Variable argsort : list R -> list Z. Hypothesis Ha : argsorts argsort.

  Lemma permute_Ok ub i : exists ub' p, permute argsort ub i = Ok ub' /\ nr ub' = nr ub /\ nc ub' = nc ub /\ row_permutation (nr ub) p /\
    (forall j c, (j < nr ub)%nat -> get ub' j c = get ub (p j) c) /\
    (forall a b, (a <= b)%nat -> (b < nr ub)%nat -> get ub' a i <= get ub' b i).
  Proof.
    unfold permute. destruct (Ha (column ub i)) as [Hp Hs]. set (order := argsort (column ub i)) in *.
    assert (L : length (column ub i) = nr ub) by (unfold column; rewrite map_length, seq_length; reflexivity). rewrite L in *.
    assert (Lo : length order = nr ub) by (rewrite (Permutation_length Hp), map_length, seq_length; reflexivity).
    assert (Hr : forall j, (j < nr ub)%nat -> (0 <= nth j order (-1)%Z < Z.of_nat (nr ub))%Z).
    { intros j Hj. assert (Q : In (nth j order (-1)%Z) (map Z.of_nat (seq 0 (nr ub)))) by (apply (Permutation_in _ Hp), nth_In; lia).
      apply in_map_iff in Q. destruct Q as [k [E Hk]]. apply in_seq in Hk. lia. }
    rewrite (mapM_fun _ (fun j => Z.to_nat (nth j order (-1)%Z))) by (intros j Hj; apply in_seq in Hj; apply read_Ok, Hr; lia).
    cbn [rmap]. set (idx := map _ _).
    assert (N : forall j, (j < nr ub)%nat -> nth j idx 0%nat = Z.to_nat (nth j order (-1)%Z)).
    { intros j Hj. unfold idx. rewrite (nth_indep _ _ (Z.to_nat (nth 0 order (-1)%Z))) by (rewrite map_length, seq_length; exact Hj).
      rewrite (map_nth (fun j => Z.to_nat (nth j order (-1)%Z))), seq_nth by exact Hj. reflexivity. }
    assert (Hi : row_permutation (nr ub) (fun j => nth j idx 0%nat)).
    { apply Permutation_rows. replace idx with (map Z.to_nat order).
      - rewrite (Permutation_map Z.to_nat Hp), map_map. erewrite map_ext; [rewrite map_id; reflexivity|]. intros k. apply Nat2Z.id.
      - apply (nth_ext _ _ 0%nat 0%nat); [unfold idx; rewrite !map_length, seq_length; exact Lo|]. intros j Hj. rewrite map_length, Lo in Hj.
        rewrite N by exact Hj. rewrite (nth_indep _ _ (Z.to_nat (-1))) by (rewrite map_length; lia). apply map_nth. }
    eexists. exists (fun j => nth j idx 0%nat). split; [reflexivity|]. cbn [nr nc get]. repeat split; [exact Hi|].
    intros a b Hab Hb. rewrite !N by lia. specialize (Hs a b Hab Hb).
    assert (C : forall j, (j < nr ub)%nat -> nth (Z.to_nat (nth j order 0%Z)) (column ub i) 0 = get ub (Z.to_nat (nth j order (-1)%Z)) i).
    { intros j Hj. rewrite (nth_indep order 0%Z (-1)%Z) by lia. specialize (Hr j Hj). unfold column.
      rewrite (nth_indep _ 0 (get ub 0 i)) by (rewrite map_length, seq_length; lia). rewrite (map_nth (fun k => get ub k i)), seq_nth by lia. reflexivity. }
    rewrite !C in Hs by lia. exact Hs.
  Qed.
  Lemma impose_Ok ir ub i : (forall j, (j < nr ub)%nat -> (0 <= get ir j i < Z.of_nat (nr ub))%Z) ->
    exists ub', impose ir ub i = Ok ub' /\ nr ub' = nr ub /\ nc ub' = nc ub /\
    (forall j c, c <> i -> get ub' j c = get ub j c) /\ (forall j, (j < nr ub)%nat -> get ub' j i = get ub (Z.to_nat (get ir j i)) i).
  Proof.
    intros H. unfold impose. rewrite (mapM_fun _ (fun j => Z.to_nat (get ir j i))) by (intros j Hj; apply in_seq in Hj; apply read_Ok, H; lia).
    cbn [rmap]. eexists. split; [reflexivity|]. cbn [nr nc get]. repeat split.
    - intros j c Hc. rewrite (proj2 (Nat.eqb_neq c i) Hc). reflexivity.
    - intros j Hj. rewrite Nat.eqb_refl. f_equal. rewrite (nth_indep _ _ (Z.to_nat (get ir 0 i))) by (rewrite map_length, seq_length; exact Hj).
      rewrite (map_nth (fun j => Z.to_nat (get ir j i))), seq_nth by exact Hj. reflexivity.
  Qed.
  (** places j of ir that agree in column c hold the same index: then the rows tie, up to reordering *)
  Definition tied_as (ir : mat Z) (ub : mat R) (c : nat) : Prop :=
    exists p, row_permutation (nr ub) p /\ forall a b, (a < nr ub)%nat -> (b < nr ub)%nat -> get ir a c = get ir b c -> get ub (p a) c = get ub (p b) c.
  Lemma retie_Ok ir cols : forall ub, (forall j c, (j < nr ub)%nat -> (c < cols)%nat -> (0 <= get ir j c < Z.of_nat (nr ub))%Z) ->
    exists ub', retie argsort ir cols ub = Ok ub' /\ nr ub' = nr ub /\ nc ub' = nc ub /\ forall c, (c < cols)%nat -> tied_as ir ub' c.
  Proof.
    induction cols as [|n IH]; intros ub H.
    - exists ub. unfold retie. cbn. repeat split. intros c Hc. lia.
    - destruct (IH ub) as [u1 [E1 [R1 [C1 T1]]]]; [intros; apply H; lia|]. unfold retie in *. rewrite seq_S, fold_left_app, E1. cbn [fold_left bind Nat.add].
      destruct (permute_Ok u1 n) as [u2 [p [E2 [R2 [C2 [P2 [G2 _]]]]]]]. rewrite E2. cbn [bind].
      destruct (impose_Ok ir u2 n) as [u3 [E3 [R3 [C3 [G3 V3]]]]]; [intros j Hj; rewrite R2, R1 in *; apply H; lia|]. rewrite E3.
      exists u3. split; [reflexivity|]. split; [congruence|]. split; [congruence|]. intros c Hc. unfold tied_as. replace (nr u3) with (nr u1) by congruence.
      destruct (Nat.eq_dec c n) as [->|Hne].
      + exists (fun j => j). split; [apply row_permutation_id|]. intros a b Ha' Hb' E. rewrite !V3 by (rewrite R2; assumption). rewrite E. reflexivity.
      + destruct (T1 c ltac:(lia)) as [q [Hq Tq]]. destruct (row_permutation_inv _ _ P2) as [p' [Hp' Hinv]].
        exists (fun j => p' (q j)). split; [apply row_permutation_comp; assumption|]. intros a b Ha' Hb' E. rewrite !G3 by exact Hne.
        assert (Q : forall j, (j < nr u1)%nat -> (q j < nr u1)%nat) by (destruct Hq as [q' Hq]; intros j Hj; apply (Hq j Hj)).
        rewrite !G2 by (apply Hinv, Q; assumption). rewrite (proj2 (proj2 (proj2 (Hinv (q a) (Q a Ha'))))), (proj2 (proj2 (proj2 (Hinv (q b) (Q b Hb'))))).
        apply Tq; assumption.
  Qed.
End Retie.

(** * the tables of indices *)
Lemma Qfloor_rank t n x i : (i < n)%nat -> (1 <= Qfloor (rankdata Rleb t n x i) <= Z.of_nat n)%Z.
Proof.
  intros H. destruct (rankdata_bounds Rleb Rleb_preorder t n x i H) as [H1 H2]. apply Qfloor_resp_le in H1. apply Qfloor_resp_le in H2.
  change 1%Q with (inject_Z 1) in H1. rewrite Qfloor_Z in *. lia.
Qed.
Lemma tie_indices_Ok u : exists ir, tie_indices u = Ok ir /\
  (forall j c, (j < nr u)%nat -> (0 <= get ir j c < Z.of_nat (nr u))%Z) /\
  (forall a b c, nth a (sort (column u c)) 0 = nth b (sort (column u c)) 0 -> get ir a c = get ir b c).
Proof.
  unfold tie_indices, rank_data2. change (parse_ties "average") with (@Ok ties Average). cbn [bind rmap nr nc get sort_columns]. eexists. split; [reflexivity|]. cbn [get]. split.
  - intros j c Hj. pose proof (Qfloor_rank Average (nr u) (fun k => nth k (sort (column u c)) 0) j Hj). lia.
  - intros a b c E. unfold rankdata, n_le, n_lt. rewrite E. reflexivity.
Qed.
Lemma pobs_average_Ok m : exists u, pseudo_obs Rleb m "average" = Ok u.
Proof. unfold pseudo_obs, rank_data2. eexists. reflexivity. Qed.
Lemma column_sorted u c : sorted_column Rleb (nr u) (fun i => get u i c) (sort (column u c)).
Proof. apply sort_column. Qed.

Lemma sort_columns_mono u i k j : (i <= k)%nat -> (k < nr u)%nat -> get (sort_columns u) i j <= get (sort_columns u) k j.
Proof.
  intros H Hk. cbn [sort_columns get]. assert (L : length (sort (column u j)) = nr u) by (rewrite sort_length; unfold column; rewrite map_length, seq_length; reflexivity).
  pose proof (sort_sorted (column u j)) as S. rewrite <- L in Hk. clear L. revert i k H Hk.
  induction S as [|x l Sl IH Fx]; intros i k H Hk; [cbn in Hk; lia|]. destruct k as [|k]; [replace i with 0%nat by lia; lra|]. destruct i as [|i]; cbn [nth length] in *.
  - rewrite Forall_forall in Fx. apply Rleb_true, Fx, nth_In. lia.
  - apply IH; lia.
Qed.
Lemma sort_in l k : (k < length l)%nat -> In (nth k (sort l) 0) l.
Proof. intros H. apply (Permutation_in _ (Permutation_sym (sort_perm l))), nth_In. rewrite sort_length. exact H. Qed.
Lemma duplicated_ranks_Ok data : exists dup, duplicated_ranks data = Ok dup /\ nr dup = nr data /\ nc dup = nc data /\
  (forall i j, (i < nr data)%nat -> (0 <= get dup i j < Z.of_nat (nr data))%Z) /\
  (forall i k j, (i <= k)%nat -> (k < nr data)%nat -> (get dup i j <= get dup k j)%Z).
Proof.
  unfold duplicated_ranks, rank_data2. change (parse_ties "average") with (@Ok ties Average). cbn [bind rmap]. eexists. split; [reflexivity|]. cbn [nr nc get]. split; [reflexivity|]. split; [reflexivity|].
  set (m := real_mat _). assert (Rm : nr m = nr data) by reflexivity. split.
  - intros i j Hi. cbn [sort_columns get]. assert (H : In (nth i (sort (column m j)) 0) (column m j)) by (apply sort_in; unfold column; rewrite map_length, seq_length; exact Hi).
    set (y := nth _ _ _) in *. unfold column in H. apply in_map_iff in H. destruct H as [k [E Hk]]. apply in_seq in Hk.
    assert (B : 1 <= y <= INR (nr data)). { rewrite <- E. unfold m. cbn [real_mat get]. apply rank_R. lia. }
    rewrite INR_IZR_INZ in B. destruct (base_Int_part y) as [B1 B2]. assert (0 < Int_part y)%Z by (apply lt_IZR; lra). assert (Int_part y < Z.of_nat (nr data) + 1)%Z by (apply lt_IZR; rewrite plus_IZR; lra). lia.
  - intros i k j Hik Hk. pose proof (sort_columns_mono m i k j Hik ltac:(rewrite Rm; exact Hk)) as H.
    destruct (base_Int_part (get (sort_columns m) i j)) as [B1 B2]. destruct (base_Int_part (get (sort_columns m) k j)) as [B3 B4].
    assert (Int_part (get (sort_columns m) i j) < Int_part (get (sort_columns m) k j) + 1)%Z by (apply lt_IZR; rewrite plus_IZR; lra). lia.
Qed.

(** * imposing the ranks of the data on a bootstrap sample *)
Definition imposed (dup : mat Z) (s : mat R) (cols i j : nat) : R := if Nat.ltb j cols then get s (Z.to_nat (get dup i j)) j else get s i j.
Lemma impose_all dup cols : forall s, (forall j c, (j < nr s)%nat -> (c < cols)%nat -> (0 <= get dup j c < Z.of_nat (nr s))%Z) ->
  exists s', fold_left (fun r i => bind r (fun u => impose dup u i)) (seq 0 cols) (Ok s) = Ok s' /\ nr s' = nr s /\ nc s' = nc s /\
    forall i j, (i < nr s)%nat -> get s' i j = imposed dup s cols i j.
Proof.
  induction cols as [|n IH]; intros s H.
  - exists s. cbn. repeat split.
  - destruct (IH s) as [u1 [E1 [R1 [C1 G1]]]]; [intros; apply H; lia|]. rewrite seq_S, fold_left_app, E1. cbn [fold_left bind Nat.add].
    destruct (impose_Ok dup u1 n) as [u3 [E3 [R3 [C3 [G3 V3]]]]]; [intros j Hj; rewrite R1 in *; apply H; lia|]. rewrite E3.
    exists u3. split; [reflexivity|]. split; [congruence|]. split; [congruence|]. intros i j Hi. unfold imposed. destruct (Nat.eq_dec j n) as [->|Hne].
    + rewrite V3 by (rewrite R1; exact Hi). rewrite (proj2 (Nat.ltb_lt n (Datatypes.S n))) by lia. specialize (H i n Hi ltac:(lia)). rewrite G1 by lia. unfold imposed. rewrite Nat.ltb_irrefl. reflexivity.
    + rewrite G3, G1 by assumption. unfold imposed. destruct (Nat.ltb_spec j n); destruct (Nat.ltb_spec j (Datatypes.S n)); try reflexivity; lia.
Qed.
Lemma sort_data_Ok data dup u : duplicated_ranks data = Ok dup -> nr u = nr data -> nc u = nc data ->
  exists v, sort_data_by_column dup u = Ok v /\ nr v = nr u /\ nc v = nc u /\ 
    forall i j, (i < nr u)%nat -> (j < nc u)%nat -> get v i j = get (sort_columns u) (Z.to_nat (get dup i j)) j.
Proof.
  intros Hd Hr Hc. destruct (duplicated_ranks_Ok data) as [d [Ed [Rd [Cd [Bd _]]]]]. assert (d = dup) by congruence. subst d.
  unfold sort_data_by_column. rewrite Rd, Cd, Hr, Hc, !Nat.eqb_refl. cbn [negb andb].
  destruct (impose_all dup (nc u) (sort_columns u)) as [v [Ev [Rv [Cv Gv]]]]; [intros j c Hj _; cbn [sort_columns nr] in *; rewrite Hr in *; apply Bd, Hj|].
  rewrite Hc in Ev. exists v. rewrite Ev. split; [reflexivity|]. cbn [sort_columns nr nc] in Rv, Cv. split; [congruence|]. split; [congruence|].
  intros i j Hi Hj. rewrite Gv by (cbn [sort_columns nr]; rewrite Hr; exact Hi). unfold imposed. rewrite (proj2 (Nat.ltb_lt j (nc u))) by (rewrite Hc; exact Hj). reflexivity.
Qed.
Lemma sorted_unique l l' : Permutation l l' -> sort l = sort l'.
Proof.
  intros H. assert (P : Permutation (sort l) (sort l')) by (rewrite <- !sort_perm; exact H). pose proof (sort_sorted l) as S. pose proof (sort_sorted l') as S'.
  revert P S S'. generalize (sort l) (sort l'). clear. intros a. induction a as [|x a IH]; intros b P S S'.
  - apply Permutation_nil in P. congruence.
  - destruct b as [|y b]; [apply Permutation_sym, Permutation_nil in P; discriminate|]. inversion S as [|? ? S1 F1]; subst. inversion S' as [|? ? S2 F2]; subst.
    rewrite Forall_forall in F1, F2. assert (x = y).
    { assert (A : In x (y :: b)) by (apply (Permutation_in _ P); left; reflexivity). assert (B : In y (x :: a)) by (apply (Permutation_in _ (Permutation_sym P)); left; reflexivity).
      destruct A as [A|A]; [congruence|]. destruct B as [B|B]; [congruence|]. apply F2, Rleb_true in A. apply F1, Rleb_true in B. lra. }
    subst y. f_equal. apply IH; [apply Permutation_cons_inv in P; exact P|assumption|assumption].
Qed.

(** * radial symmetry *)
Definition rows_below (n p : nat) (u : nat -> nat -> R) (k : nat) : R :=
  rsum n (fun i => lprod (map (fun j => ind (Rleb (u i j) (u k j))) (seq 0 p)) - lprod (map (fun j => ind (Rleb (1 - u i j) (u k j))) (seq 0 p))).
Lemma diff_cn_rows u k : (k < nr u)%nat -> diff_cn (ravelF u) (nr u) (nc u) k = rows_below (nr u) (nc u) (get u) k / INR (nr u).
Proof.
  intros Hk. unfold diff_cn, rows_below. f_equal. apply rsum_ext. intros i Hi. rewrite !fold_prod, !Rmult_1_l. f_equal; apply lprod_map_ext; intros j _; rewrite !ravelF_get by assumption; reflexivity.
Qed.
Lemma rad_stat_rows u : rad_sym_test_stat (ravelF u) (nr u) (nc u) = rsum (nr u) (fun k => (rows_below (nr u) (nc u) (get u) k / INR (nr u)) * (rows_below (nr u) (nc u) (get u) k / INR (nr u))).
Proof. unfold rad_sym_test_stat. apply rsum_ext. intros k Hk. rewrite !diff_cn_rows by exact Hk. reflexivity. Qed.
Lemma rad_stat_nonneg u n p : 0 <= rad_sym_test_stat u n p.
Proof. apply rsum_nonneg. intros. apply Rle_0_sqr. Qed.
Lemma rows_below_zero n p u q k : row_permutation n q -> (forall i j, (i < n)%nat -> (j < p)%nat -> u (q i) j = 1 - u i j) -> (k < n)%nat -> rows_below n p u k = 0.
Proof.
  intros Hq H Hk. unfold rows_below. rewrite rsum_minus. rewrite <- (rsum_perm n q (fun i => lprod (map (fun j => ind (Rleb (u i j) (u k j))) (seq 0 p))) Hq).
  rewrite <- rsum_minus. apply rsum_zero. intros i Hi. apply Rminus_diag_eq, lprod_map_ext. intros j Hj. apply in_seq in Hj. rewrite H by (assumption || lia). reflexivity.
Qed.
(** average ranks of mirrored data *)
Lemma mirrored_average n x c i : (i < n)%nat -> Q2R (rankdata Rleb Average n (fun k => c - x k) i) = INR n + 1 - Q2R (rankdata Rleb Average n x i).
Proof.
  intros Hi. assert (A : (n_le Rleb n (fun k => c - x k)%R i + n_lt Rleb n x i = n)%nat).
  { unfold n_le, n_lt. rewrite <- (seq_length n 0) at 3. rewrite <- (count_all (fun _ => true) (seq 0 n)) by reflexivity. rewrite <- count_disj.
    - apply count_ext. intros k _. unfold ltb. destruct (Rleb (c - x k) (c - x i)) eqn:E1; destruct (Rleb (x i) (x k)) eqn:E2; try reflexivity. apply Rleb_false in E1. apply Rleb_true in E2. lra.
    - intros k _ H. unfold ltb. apply negb_false_iff. apply Rleb_true in H. apply Rleb_true. lra. }
  assert (B : (n_lt Rleb n (fun k => c - x k)%R i + n_le Rleb n x i = n)%nat).
  { unfold n_le, n_lt. rewrite <- (seq_length n 0) at 3. rewrite <- (count_all (fun _ => true) (seq 0 n)) by reflexivity. rewrite <- count_disj.
    - apply count_ext. intros k _. unfold ltb. destruct (Rleb (c - x i) (c - x k)) eqn:E1; destruct (Rleb (x k) (x i)) eqn:E2; try reflexivity. apply Rleb_true in E1. apply Rleb_false in E2. lra.
    - intros k _ H. unfold ltb in H. apply negb_true_iff, Rleb_false in H. apply Rleb_false. lra. }
  unfold rankdata. rewrite !Q2R_div by discriminate. unfold Q2R, inject_Z. cbn [Qnum Qden]. rewrite <- !INR_IZR_INZ, Rinv_1, !Rmult_1_r.
  rewrite !plus_INR. apply (f_equal INR) in A. apply (f_equal INR) in B. rewrite plus_INR in A, B. replace (INR 1) with 1 by reflexivity. lra.
Qed.

(** * whole tests *)
Definition pairs (t : ties) (n : nat) (x y : nat -> R) : mat R :=
  mkMat n 2 (fun i c => Q2R (if Nat.eqb c 0 then (rankdata Rleb t n x i / inject_Z (Z.of_nat (n + 1)))%Q else (rankdata Rleb t n y i / inject_Z (Z.of_nat (n + 1)))%Q)).
Definition points_of (u : mat R) (m : nat) : mat R := if Nat.eqb m 0 then u else exch_grid m.
Definition number_of (n m : nat) : nat := if Nat.eqb m 0 then n else (m * m)%nat.
Definition untied (u : mat R) : bool := distinct (column u 0) && distinct (column u 1).
Definition simulated argsort (u : mat R) (n m N : nat) normals (bits : nat -> nat -> bool) : result (list R) :=
  if untied u then Ok (exch_test_cn u (points_of u m) n (number_of n m) N normals)
  else bind (tie_indices u) (fun ir => mapM (fun k => exch_replication argsort ir u (points_of u m) n m (number_of n m) (bits k)) (seq 0 N)).
Lemma exch_test_eq argsort n x y N m ties normals bits t : parse_ties ties = Ok t -> (0 < N)%nat ->
  exch_test argsort n n x y N m ties normals bits =
  bind (simulated argsort (pairs t n x y) n m N normals bits) (fun s0 =>
    let s := exch_test_stat (pairs t n x y) (points_of (pairs t n x y) m) n (number_of n m) in Ok (s, p_value s0 s)).
Proof.
  intros Ht HN. unfold exch_test, pseudo_obs1, rank_data1. rewrite Ht. cbn [bind rmap]. rewrite Nat.eqb_refl. cbn [negb]. rewrite (proj2 (Nat.eqb_neq N 0)) by lia. reflexivity.
Qed.
Lemma exch_test_inv argsort n n' x y N m ties normals bits r : exch_test argsort n n' x y N m ties normals bits = Ok r -> n' = n /\ (0 < N)%nat /\ exists t, parse_ties ties = Ok t.
Proof.
  unfold exch_test, pseudo_obs1, rank_data1. destruct (parse_ties ties) as [t|e]; cbn [bind rmap]; [|discriminate]. destruct (Nat.eqb_spec n n') as [E|E]; cbn [negb]; [|discriminate].
  destruct (Nat.eqb_spec N 0) as [E'|E']; [discriminate|]. intros _. repeat split; [congruence|lia|]. exists t. reflexivity.
Qed.
Lemma replication_Ok argsort ir u g n m ng bits : argsorts argsort -> tie_indices u = Ok ir -> exists s, exch_replication argsort ir u g n m ng bits = Ok s /\ 0 <= s.
Proof.
  intros Ha Hi. destruct (tie_indices_Ok u) as [ir' [E [B _]]]. assert (ir' = ir) by congruence. subst ir'. unfold exch_replication. set (ub := mkMat _ _ _).
  destruct (retie_Ok argsort Ha ir 2 ub) as [ub' [E' _]]; [intros; apply B; assumption|]. rewrite E'. cbn [bind]. destruct (pobs_average_Ok ub') as [v ->]. cbn [bind].
  eexists. split; [reflexivity|]. apply stat_nonneg.
Qed.
Lemma mapM_all {A B} (f : A -> result B) (P : B -> Prop) l : (forall x, In x l -> exists y, f x = Ok y /\ P y) -> exists r, mapM f l = Ok r /\ length r = length l /\ Forall P r.
Proof.
  induction l as [|x l IH]; intros H; [exists []; repeat split; constructor|]. destruct (H x) as [y [E Hy]]; [left; reflexivity|]. destruct IH as [r [Er [L F]]]; [intros; apply H; right; assumption|].
  exists (y :: r). cbn [mapM]. rewrite E. cbn [bind]. rewrite Er. cbn. repeat split; [congruence|constructor; assumption].
Qed.
Lemma simulated_Ok argsort u n m N normals bits : argsorts argsort -> exists s0, simulated argsort u n m N normals bits = Ok s0 /\ length s0 = N /\ Forall (fun s => 0 <= s) s0.
Proof.
  intros Ha. unfold simulated. destruct (untied u).
  - eexists. split; [reflexivity|]. unfold exch_test_cn. split; [rewrite map_length, seq_length; reflexivity|]. apply Forall_forall. intros s Hs. apply in_map_iff in Hs. destruct Hs as [k [<- _]]. apply multiplier_nonneg.
  - destruct (tie_indices_Ok u) as [ir [E _]]. rewrite E. cbn [bind]. destruct (mapM_all (fun k => exch_replication argsort ir u (points_of u m) n m (number_of n m) (bits k)) (fun s => 0 <= s) (seq 0 N)) as [r [Er [L F]]].
    + intros k _. apply replication_Ok; assumption.
    + exists r. rewrite seq_length in L. auto.
Qed.
Lemma exch_test_Ok argsort n x y N m ties normals bits : argsorts argsort -> documented ties -> (0 < N)%nat -> exists s p, exch_test argsort n n x y N m ties normals bits = Ok (s, p).
Proof.
  intros Ha Hd HN. destruct (parse_ties_ok ties Hd) as [t Ht]. rewrite (exch_test_eq _ _ _ _ _ _ _ _ _ t Ht HN). destruct (simulated_Ok argsort (pairs t n x y) n m N normals bits Ha) as [s0 [-> _]]. cbn [bind]. eauto.
Qed.
(** the pairs of (y, x) are those of (x, y) swapped, entry by entry *)
Lemma pairs_swap t n x y i c : (c < 2)%nat -> get (pairs t n y x) i c = get (swapped (pairs t n x y)) i c.
Proof. intros H. destruct c as [|[|c]]; [reflexivity|reflexivity|lia]. Qed.
Lemma stat_ext u u' g g' n m : (forall i c, (c < 2)%nat -> get u i c = get u' i c) -> (forall i c, (c < 2)%nat -> get g i c = get g' i c) -> exch_test_stat u g n m = exch_test_stat u' g' n m.
Proof.
  intros H H'. unfold exch_test_stat. f_equal. f_equal. apply rsum_ext. intros i _. rewrite !H' by lia.
  rewrite !(cn_ext (fun k => get u k 0%nat) (fun k => get u k 1%nat) (fun k => get u' k 0%nat) (fun k => get u' k 1%nat)) by (intros; split; apply H; lia). reflexivity.
Qed.
Lemma points_swap t n x y m i c : (c < 2)%nat -> get (points_of (pairs t n y x) m) i c = get (if Nat.eqb m 0 then swapped (pairs t n x y) else exch_grid m) i c.
Proof. intros H. unfold points_of. destruct (Nat.eqb m 0); [apply pairs_swap, H|reflexivity]. Qed.
Lemma test_stat_swap t n x y m :
  exch_test_stat (pairs t n y x) (points_of (pairs t n y x) m) n (number_of n m) = exch_test_stat (pairs t n x y) (points_of (pairs t n x y) m) n (number_of n m).
Proof.
  rewrite (stat_ext _ _ _ _ n (number_of n m) (pairs_swap t n x y) (points_swap t n x y m)). unfold points_of. destruct (Nat.eqb m 0); apply stat_swap.
Qed.
Lemma rsum_mult_ext U V g g' n m r : (forall i c, (c < 2)%nat -> get g i c = get g' i c) -> multiplier U V g n m r = multiplier U V g' n m r.
Proof. intros H. unfold multiplier. f_equal. apply rsum_ext. intros j _. rewrite !H by lia. reflexivity. Qed.
Lemma simulated_swap argsort t n x y m N normals bits : untied (pairs t n x y) = true ->
  simulated argsort (pairs t n y x) n m N normals bits = simulated argsort (pairs t n x y) n m N normals bits.
Proof.
  intros H. assert (H' : untied (pairs t n y x) = true).
  { unfold untied in *. change (column (pairs t n y x) 0) with (column (pairs t n x y) 1). change (column (pairs t n y x) 1) with (column (pairs t n x y) 0). rewrite andb_comm. exact H. }
  unfold simulated. rewrite H, H'. f_equal. unfold exch_test_cn. apply map_ext. intros k. 
  change (fun k0 => get (pairs t n y x) k0 0%nat) with (fun k0 => get (pairs t n x y) k0 1%nat). change (fun k0 => get (pairs t n y x) k0 1%nat) with (fun k0 => get (pairs t n x y) k0 0%nat).
  rewrite (rsum_mult_ext _ _ _ _ _ _ _ (points_swap t n x y m)). unfold points_of. destruct (Nat.eqb m 0); apply multiplier_swap.
Qed.
Lemma distinct_true l : (forall i j, (i < length l)%nat -> (j < length l)%nat -> nth i l 0 = nth j l 0 -> i = j) -> distinct l = true.
Proof.
  intros H. unfold distinct. apply forallb_forall. intros i Hi. apply forallb_forall. intros j Hj. apply in_seq in Hi. apply in_seq in Hj.
  destruct (Nat.eqb_spec i j) as [_|E]; [reflexivity|]. cbn [orb]. apply negb_true_iff, Reqb_false. intros E'. apply E, H; lia || assumption.
Qed.
Lemma distinct_false l i j : (i < length l)%nat -> (j < length l)%nat -> i <> j -> nth i l 0 = nth j l 0 -> distinct l = false.
Proof.
  intros Hi Hj Hne E. apply not_true_iff_false. intros H. unfold distinct in H. rewrite forallb_forall in H. specialize (H i ltac:(apply in_seq; lia)). cbv beta in H. rewrite forallb_forall in H.
  specialize (H j ltac:(apply in_seq; lia)). cbv beta in H. rewrite (proj2 (Nat.eqb_neq i j) Hne) in H. cbn [orb] in H. apply negb_true_iff, Reqb_false in H. contradiction.
Qed.
Lemma rank_inj t n x : no_ties Rleb n x -> forall i j, (i < n)%nat -> (j < n)%nat -> (rankdata Rleb t n x i == rankdata Rleb t n x j)%Q -> i = j.
Proof.
  intros H i j Hi Hj E. rewrite !(rankdata_r2 Rleb t n) in E. destruct (lt_eq_lt_dec (r2 Rleb t n x i) (r2 Rleb t n x j)) as [[L|L]|L].
  - pose proof (r2_half_lt _ _ L) as Q. rewrite E in Q. exfalso. exact (Qlt_irrefl _ Q).
  - destruct (Rle_dec (x i) (x j)) as [L1|L1]; destruct (Rle_dec (x j) (x i)) as [L2|L2]; try lra.
    + apply H; [assumption|assumption|]. apply Rtied. lra.
    + assert (B : ltb Rleb (x i) (x j) = true) by (unfold ltb; apply negb_true_iff, Rleb_false; lra). pose proof (r2_lt Rleb Rleb_preorder t n x i j Hi Hj B). lia.
    + assert (B : ltb Rleb (x j) (x i) = true) by (unfold ltb; apply negb_true_iff, Rleb_false; lra). pose proof (r2_lt Rleb Rleb_preorder t n x j i Hj Hi B). lia.
  - pose proof (r2_half_lt _ _ L) as Q. rewrite E in Q. exfalso. exact (Qlt_irrefl _ Q).
Qed.
Lemma Q2R_pobs1 t n x i : Q2R (rankdata Rleb t n x i / inject_Z (Z.of_nat (n + 1)))%Q = Q2R (rankdata Rleb t n x i) / (INR n + 1).
Proof.
  rewrite Q2R_div. 2:{ intros E. pose proof (Qn1_pos n) as P. rewrite E in P. apply Qlt_irrefl in P. exact P. }
  f_equal. unfold Q2R, inject_Z. cbn [Qnum Qden]. rewrite <- INR_IZR_INZ, plus_INR, Rinv_1. cbn. ring.
Qed.
Lemma pobs_inj t n x i j : no_ties Rleb n x -> (i < n)%nat -> (j < n)%nat -> Q2R (rankdata Rleb t n x i) / (INR n + 1) = Q2R (rankdata Rleb t n x j) / (INR n + 1) -> i = j.
Proof.
  intros H Hi Hj E. apply (rank_inj t n x H i j Hi Hj). apply eqR_Qeq. pose proof (pos_INR n). apply Rmult_eq_reg_r with (/ (INR n + 1)); [exact E|]. apply Rinv_neq_0_compat. lra.
Qed.
Lemma column_nth u j i : (i < nr u)%nat -> nth i (column u j) 0 = get u i j.
Proof. intros H. unfold column. rewrite (nth_indep _ 0 (get u 0 j)) by (rewrite map_length, seq_length; lia). rewrite (map_nth (fun k => get u k j)), seq_nth by lia. reflexivity. Qed.
Lemma column_length u j : length (column u j) = nr u.
Proof. unfold column. rewrite map_length, seq_length. reflexivity. Qed.
Lemma untied_pairs t n x y : no_ties Rleb n x -> no_ties Rleb n y -> untied (pairs t n x y) = true.
Proof.
  intros Hx Hy. unfold untied. apply andb_true_intro. split; apply distinct_true; intros i j Hi Hj; rewrite column_length in *; rewrite !column_nth by assumption; cbn [pairs get nr Nat.eqb] in *;
    rewrite !Q2R_pobs1; apply pobs_inj; assumption.
Qed.

(** * radial symmetry, whole test *)
Lemma rad_replicate_Ok argsort u ir n p tied bits : argsorts argsort -> tie_indices u = Ok ir -> exists s, rad_sym_replicate argsort u ir n p tied bits = Ok s /\ 0 <= s.
Proof.
  intros Ha Hi. destruct (tie_indices_Ok u) as [ir' [E [B _]]]. assert (ir' = ir) by congruence. subst ir'. unfold rad_sym_replicate. set (ub := mkMat _ _ _).
  assert (X : exists ub', (if tied then retie argsort ir p ub else Ok ub) = Ok ub').
  { destruct tied; [|eauto]. destruct (retie_Ok argsort Ha ir p ub) as [ub' [E' _]]; [intros; apply B; assumption|]. eauto. }
  destruct X as [ub' ->]. cbn [bind]. destruct (pobs_average_Ok ub') as [v ->]. cbn [bind]. eexists. split; [reflexivity|]. apply rad_stat_nonneg.
Qed.
Lemma rad_test_inv argsort x N ties bits s p : argsorts argsort -> rad_sym_test argsort x N ties bits = Ok (s, p) -> (0 < N)%nat /\ exists u ir s0, pseudo_obs Rleb x ties = Ok u /\
  tie_indices (real_mat u) = Ok ir /\ s = rad_sym_test_stat (ravelF (real_mat u)) (nr x) (nc x) /\
  mapM (fun k => rad_sym_replicate argsort (real_mat u) ir (nr x) (nc x) (has_ties x) (bits k)) (seq 0 N) = Ok s0 /\ length s0 = N /\ Forall (fun s => 0 <= s) s0 /\ p = p_value s0 s.
Proof.
  intros Ha. unfold rad_sym_test. destruct (Nat.eqb_spec N 0) as [|HN]; [discriminate|]. destruct (pseudo_obs Rleb x ties) as [u|]; [|discriminate]. cbn [bind].
  destruct (tie_indices_Ok (real_mat u)) as [ir [E _]]. rewrite E. cbn [bind].
  destruct (mapM_all (fun k => rad_sym_replicate argsort (real_mat u) ir (nr x) (nc x) (has_ties x) (bits k)) (fun s => 0 <= s) (seq 0 N)) as [s0 [E0 [L F]]]; [intros; apply rad_replicate_Ok; assumption|].
  rewrite E0. cbn [bind]. intros [= <- <-]. split; [lia|]. exists u, ir, s0. rewrite seq_length in L. repeat split; assumption.
Qed.
Lemma rad_test_Ok argsort x N ties bits : argsorts argsort -> documented ties -> (0 < N)%nat -> exists s p, rad_sym_test argsort x N ties bits = Ok (s, p).
Proof.
  intros Ha Hd HN. unfold rad_sym_test. rewrite (proj2 (Nat.eqb_neq N 0)) by lia. destruct (parse_ties_ok ties Hd) as [t Ht]. unfold pseudo_obs, rank_data2. rewrite Ht. cbn [bind rmap]. set (u := real_mat _).
  destruct (tie_indices_Ok u) as [ir [E _]]. rewrite E. cbn [bind].
  destruct (mapM_all (fun k => rad_sym_replicate argsort u ir (nr x) (nc x) (has_ties x) (bits k)) (fun s => 0 <= s) (seq 0 N)) as [s0 [E0 _]]; [intros; apply rad_replicate_Ok; assumption|].
  rewrite E0. cbn [bind]. eauto.
Qed.
Lemma p_value_zero s0 s : s = 0 -> Forall (fun a => 0 <= a) s0 -> p_value s0 s = (INR (length s0) + / 2) / (INR (length s0) + 1).
Proof. intros -> F. unfold p_value. rewrite count_all; [reflexivity|]. rewrite Forall_forall in F. intros a Ha. apply Rleb_true, F, Ha. Qed.
Lemma rows_below_ext n p u v k : (forall i j, (i < n)%nat -> (j < p)%nat -> u i j = v i j) -> (k < n)%nat -> rows_below n p u k = rows_below n p v k.
Proof.
  intros H Hk. unfold rows_below. apply rsum_ext. intros i Hi. f_equal; apply lprod_map_ext; intros j Hj; apply in_seq in Hj; rewrite !H by lia; reflexivity.
Qed.
