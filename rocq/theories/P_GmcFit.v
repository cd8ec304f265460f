(** Lemmas about the k-means start and the copula object of Gaussian mixtures. *)
From Verif Require Import Base RSumLib CountLib Ext S_Matrix S_Linalg M_Special M_Stats M_Linalg P_Linalg P_Rayleigh M_Gmc S_Gmc P_Gmc P_GmcMarg P_GmcEm.
Local Close Scope Z_scope. Open Scope R_scope. Open Scope list_scope.

Lemma libraries_exist : exists eig cn, libraries eig cn.
Proof.
  destruct rayleigh_exists as [eig H]. exists eig, (fun c => mkMat (nr c) (nc c) (fun _ _ => 0)). split; [intros; apply H|].
  intros d c [S1 S2]. split; [split; assumption|]. split; [intros i j _ _; reflexivity|]. intros x. cbn. unfold quad. rewrite rsum_zero; [lra|].
  intros i _. apply rsum_zero. intros j _. ring.
Qed.

Lemma quad_lsum {A} d (w : A -> nat -> R) c l x : quad d (fun a b => lsum (map (fun i => w i a * w i b) l) / c) x = lsum (map (fun i => rsum d (fun a => x a * w i a) * rsum d (fun a => x a * w i a)) l) / c.
Proof.
  induction l as [|i l IH].
  - cbn. unfold quad, Rdiv. rewrite Rmult_0_l. apply rsum_zero. intros a _. apply rsum_zero. intros b _. ring.
  - cbn [map lsum]. unfold Rdiv in *. rewrite Rmult_plus_distr_r, <- IH, rsum_mul. unfold quad. rewrite <- rsum_scal_r, <- rsum_plus. apply rsum_ext. intros a _.
    rewrite <- rsum_scal_r, <- rsum_plus. apply rsum_ext. intros b _. ring.
Qed.
(** the numbers of rows of the groups add up *)
Lemma group_sizes m (labels : nat -> nat) l : (forall i, In i l -> (labels i < m)%nat) ->
  rsum m (fun g => INR (length (filter (fun i => Nat.eqb (labels i) g) l))) = INR (length l).
Proof.
  induction l as [|i l IH]; intros H; [apply rsum_zero; reflexivity|]. cbn [length]. rewrite S_INR, <- IH by (intros k Hk; apply H; right; exact Hk).
  rewrite <- (rsum_delta m (labels i) (fun _ => 1)) by (apply H; left; reflexivity). rewrite <- rsum_plus. apply rsum_ext. intros g _. cbn [filter].
  rewrite (Nat.eqb_sym g). destruct (Nat.eqb (labels i) g); [cbn [length]; rewrite S_INR; ring|ring].
Qed.

Section Kmeans.
  Variables (eig : mat R -> list R) (cn : mat R -> mat R). Hypothesis L : libraries eig cn.
  Variables (data : mat R) (m d : nat) (labels : nat -> nat).
  Let rows g := filter (fun i => Nat.eqb (labels i) g) (seq 0 (nr data)).
  Let size g := INR (length (rows g)).
  Hypothesis Hl : forall i, (i < nr data)%nat -> (labels i < m)%nat.

  Lemma rows_in g i : In i (rows g) <-> (i < nr data)%nat /\ labels i = g.
  Proof. unfold rows. rewrite filter_In, in_seq, Nat.eqb_eq. intuition lia. Qed.
  Definition present := filter (fun g => existsb (fun i => Nat.eqb (labels i) g) (seq 0 (nr data))) (seq 0 m).
  Lemma present_all : (forall g, (g < m)%nat -> exists i, (i < nr data)%nat /\ labels i = g) -> present = seq 0 m.
  Proof.
    intros H. apply filter_true_id. intros g Hg. apply in_seq in Hg. destruct (H g ltac:(lia)) as [i [Hi E]]. apply existsb_exists. exists i. split; [apply in_seq; lia|apply Nat.eqb_eq, E].
  Qed.
  Lemma present_less g : (g < m)%nat -> (forall i, (i < nr data)%nat -> labels i <> g) -> (length present < m)%nat.
  Proof.
    intros Hg H. assert (G : forall (f : nat -> bool) l, In g l -> f g = false -> (length (filter f l) < length l)%nat).
    { intros f l. induction l as [|x l IH]; intros I E; [destruct I|]. cbn. destruct I as [->|I].
      - rewrite E. assert (length (filter f l) <= length l)%nat; [|lia]. clear. induction l as [|y l IH]; cbn; [lia|]. destruct (f y); cbn; lia.
      - specialize (IH I E). destruct (f x); cbn; lia. }
    unfold present. rewrite <- (seq_length m 0) at 2. apply G; [apply in_seq; lia|]. apply not_true_is_false. rewrite existsb_exists. intros [i [Hi E]]. apply in_seq in Hi. apply Nat.eqb_eq in E. apply (H i); [lia|exact E].
  Qed.

  Lemma k_means_ok : (0 < nr data)%nat -> nc data = d -> d <> 1%nat -> (forall g, (g < m)%nat -> (2 <= length (rows g))%nat) ->
    exists p, k_means eig cn data m d labels = Ok p /\ valid p /\ Forall (covariance d) (covs p) /\ lsum (prob p) = 1 /\ n_clusters p = m /\ n_dim p = d /\
      forall g, (g < m)%nat ->
        weight p g = size g / INR (nr data)
        /\ (forall j, centre p g j = lsum (map (fun i => get data i j) (rows g)) / size g)
        /\ (forall a b, get (spread_of p g) a b = lsum (map (fun i => (get data i a - centre p g a) * (get data i b - centre p g b)) (rows g)) / (size g - 1)).
  Proof.
    intros Hn Hc Hd Hr. unfold k_means. fold present.
    assert (Ep : present = seq 0 m).
    { apply present_all. intros g Hg. specialize (Hr g Hg). destruct (rows g) as [|i l] eqn:E; [cbn in Hr; lia|]. exists i. apply rows_in. rewrite E. left. reflexivity. }
    rewrite Ep. set (pr := map (fun g => size g / INR (nr data)) (seq 0 m)). assert (Pn : 0 < INR (nr data)) by (apply lt_0_INR; exact Hn).
    assert (Sp : lsum pr = 1).
    { unfold pr. rewrite <- rsum_lsum. unfold Rdiv. rewrite rsum_scal_r. unfold size, rows. rewrite group_sizes, seq_length; [apply Rinv_r; lra|]. intros i Hi. apply in_seq in Hi. apply Hl. lia. }
    assert (W : weights pr).
    { apply weights_exact; [|exact Sp]. apply Forall_map, Forall_forall. intros g _. apply Rmult_le_pos; [apply pos_INR|left; apply Rinv_0_lt_compat; exact Pn]. }
    rewrite <- (map_map (fun g => INR (length (filter (fun i => Nat.eqb (labels i) g) (seq 0 (nr data)))) / INR (nr data)) Fin).
    assert (Lp : length pr = m) by (unfold pr; rewrite map_length, seq_length; reflexivity).
    change (map (fun g => INR (length (filter (fun i => Nat.eqb (labels i) g) (seq 0 (nr data)))) / INR (nr data)) (seq 0 m)) with pr.
    rewrite (proj2 (check_prob_ok m (map Fin pr) pr)) by auto. cbn [bind].
    rewrite seq_length. set (mean := fun g j => lsum (map (fun i => get data i j) (rows g)) / size g).
    set (mu := mkMat m (nc data) _). rewrite (proj2 (check_means_ok m d mu mu)) by (cbn; auto). cbn [bind].
    rewrite Hc, (proj2 (Nat.eqb_neq d 1)) by exact Hd.
    replace (existsb (fun g => Nat.eqb (length (filter (fun i => Nat.eqb (labels i) g) (seq 0 (nr data)))) 1) (seq 0 m)) with false.
    2:{ symmetry. apply not_true_is_false. rewrite existsb_exists. intros [g [Hg E]]. apply in_seq in Hg. apply Nat.eqb_eq in E. specialize (Hr g ltac:(lia)). unfold rows in Hr. lia. }
    set (cov := fun g => mkMat d d (fun a b => lsum (map (fun i => (get data i a - mean g a) * (get data i b - mean g b)) (rows g)) / (size g - 1))).
    change (map _ (seq 0 m)) with (map cov (seq 0 m)).
    assert (Cv : Forall (covariance d) (map cov (seq 0 m))).
    { apply Forall_map, Forall_forall. intros g Hg. apply in_seq in Hg. split; [split; reflexivity|]. split.
      - intros a b _ _. unfold cov. cbn [get]. f_equal. apply lsum_map_ext. intros. ring.
      - intros x. unfold cov. cbn [get]. rewrite (quad_lsum d (fun i a => get data i a - mean g a)). apply Rmult_le_pos.
        + apply lsum_nonneg. intros y Hy. apply in_map_iff in Hy. destruct Hy as [i [<- _]]. apply Rle_0_sqr.
        + left. apply Rinv_0_lt_compat. specialize (Hr g ltac:(lia)). apply le_INR in Hr. fold (size g) in Hr. cbn in Hr. lra. }
    rewrite (check_covs_same eig cn m d _ L) by (try exact Cv; rewrite map_length, seq_length; reflexivity). cbn [bind].
    eexists. split; [reflexivity|]. split.
    { unfold valid. cbn. rewrite map_length, seq_length. split; [exact Lp|]. split; [exact W|]. split; [reflexivity|]. split; [exact Hc|]. split; [reflexivity|]. eapply Forall_impl; [|exact Cv]. intros; apply covariance_almost; assumption. }
    cbn. split; [exact Cv|]. split; [exact Sp|]. split; [reflexivity|]. split; [reflexivity|]. intros g Hg. unfold weight, centre, spread_of. cbn [prob means covs get].
    unfold pr, mu. rewrite nth_map_seq by exact Hg. split; [reflexivity|]. cbn [get]. rewrite seq_nth by exact Hg. cbn [Nat.add]. split; [reflexivity|].
    intros a b. rewrite nth_map_seq by exact Hg. reflexivity.
  Qed.
  Lemma k_means_empty g : (g < m)%nat -> (forall i, (i < nr data)%nat -> labels i <> g) -> k_means eig cn data m d labels = Err GMCParamError.
  Proof.
    intros Hg H. unfold k_means. fold present. pose proof (present_less g Hg H) as Ln. unfold check_prob. rewrite map_length, (proj2 (Nat.eqb_neq (length present) m)) by lia. reflexivity.
  Qed.
  Lemma k_means_single g : (0 < nr data)%nat -> nc data = d -> d <> 1%nat -> (forall g, (g < m)%nat -> (1 <= length (rows g))%nat) -> (g < m)%nat -> length (rows g) = 1%nat ->
    k_means eig cn data m d labels = Err NonSymmetricMatrixError.
  Proof.
    intros Hn Hc Hd Hr Hg H1. unfold k_means. fold present.
    assert (Ep : present = seq 0 m).
    { apply present_all. intros g' Hg'. specialize (Hr g' Hg'). destruct (rows g') as [|i l] eqn:E; [cbn in Hr; lia|]. exists i. apply rows_in. rewrite E. left. reflexivity. }
    rewrite Ep. set (pr := map (fun g => size g / INR (nr data)) (seq 0 m)). assert (Pn : 0 < INR (nr data)) by (apply lt_0_INR; exact Hn).
    assert (Sp : lsum pr = 1).
    { unfold pr. rewrite <- rsum_lsum. unfold Rdiv. rewrite rsum_scal_r. unfold size, rows. rewrite group_sizes, seq_length; [apply Rinv_r; lra|]. intros i Hi. apply in_seq in Hi. apply Hl. lia. }
    assert (W : weights pr).
    { apply weights_exact; [|exact Sp]. apply Forall_map, Forall_forall. intros g' _. apply Rmult_le_pos; [apply pos_INR|left; apply Rinv_0_lt_compat; exact Pn]. }
    rewrite <- (map_map (fun g => INR (length (filter (fun i => Nat.eqb (labels i) g) (seq 0 (nr data)))) / INR (nr data)) Fin).
    change (map (fun g => INR (length (filter (fun i => Nat.eqb (labels i) g) (seq 0 (nr data)))) / INR (nr data)) (seq 0 m)) with pr.
    assert (Lp : length pr = m) by (unfold pr; rewrite map_length, seq_length; reflexivity).
    rewrite (proj2 (check_prob_ok m (map Fin pr) pr)) by auto. cbn [bind]. rewrite seq_length.
    set (mu := mkMat m (nc data) _). rewrite (proj2 (check_means_ok m d mu mu)) by (cbn; auto). cbn [bind]. rewrite Hc, (proj2 (Nat.eqb_neq d 1)) by exact Hd.
    replace (existsb _ (seq 0 m)) with true; [reflexivity|]. symmetry. apply existsb_exists. exists g. split; [apply in_seq; lia|]. apply Nat.eqb_eq, H1.
  Qed.
End Kmeans.
