(** Stirling numbers: the row loops compute the recurrences, which count set partitions and expand falling factorials. *)
From Verif Require Import Base CountLib M_Special S_Special.
From Coq Require Import ZArith Permutation.
Open Scope Z_scope.

Fixpoint s1 (n k : nat) : Z :=
  match n, k with
  | O, O => 1 | O, S _ => 0
  | S m, O => 0
  | S m, S p => s1 m p - Z.of_nat m * s1 m k
  end.
Fixpoint s2 (n k : nat) : Z :=
  match n, k with
  | O, O => 1 | O, S _ => 0
  | S m, O => 0
  | S m, S p => s2 m p + Z.of_nat k * s2 m k
  end.
Lemma s1_SS m p : s1 (S m) (S p) = s1 m p - Z.of_nat m * s1 m (S p). Proof. reflexivity. Qed.
Lemma s2_SS m p : s2 (S m) (S p) = s2 m p + Z.of_nat (S p) * s2 m (S p). Proof. reflexivity. Qed.
Lemma s1_n0 n : (0 < n)%nat -> s1 n 0 = 0. Proof. destruct n; [lia|reflexivity]. Qed.
Lemma s2_n0 n : (0 < n)%nat -> s2 n 0 = 0. Proof. destruct n; [lia|reflexivity]. Qed.
Lemma s1_big n : forall k, (n < k)%nat -> s1 n k = 0.
Proof.
  induction n as [|n IH]; intros k H; [destruct k; [lia|reflexivity]|].
  destruct k as [|k]; [lia|]. rewrite s1_SS, !IH by lia. ring.
Qed.
Lemma s2_big n : forall k, (n < k)%nat -> s2 n k = 0.
Proof.
  induction n as [|n IH]; intros k H; [destruct k; [lia|reflexivity]|].
  destruct k as [|k]; [lia|]. rewrite s2_SS, !IH by lia. ring.
Qed.
Lemma s1_diag n : s1 n n = 1.
Proof. induction n as [|n IH]; [reflexivity|]. rewrite s1_SS, IH, s1_big by lia. ring. Qed.
Lemma s2_diag n : s2 n n = 1.
Proof. induction n as [|n IH]; [reflexivity|]. rewrite s2_SS, IH, s2_big by lia. ring. Qed.

Lemma nth_map_seq {A} (f : nat -> A) n i d : (i < n)%nat -> nth i (map f (seq 0 n)) d = f i.
Proof.
  intros H. rewrite (nth_indep _ d (f 0%nat)) by (rewrite map_length, seq_length; exact H).
  rewrite map_nth, seq_nth by exact H. reflexivity.
Qed.
Lemma last_map_seq {A} (f : nat -> A) n d : last (map f (seq 0 (S n))) d = f n.
Proof. rewrite seq_S, map_app. cbn [map]. rewrite last_last. reflexivity. Qed.
Lemma last_init k v : (0 < k)%nat -> v :: repeat 0 (k - 1) = map (fun j => if Nat.eqb j 0 then v else 0) (seq 0 k).
Proof.
  intros H. destruct k as [|k]; [lia|]. replace (S k - 1)%nat with k by lia.
  cbn [seq map Nat.eqb]. f_equal. rewrite <- seq_shift, map_map. cbn.
  clear H. generalize 0%nat as s. induction k as [|k IH]; intros s; [reflexivity|]. cbn. f_equal. apply (IH (S s)).
Qed.
Lemma row_first k m : (0 < k)%nat ->
  fold_left (fun s i => stirling_first_step k (Z.of_nat i) s) (seq 1 m) (1 :: repeat 0 (k - 1))
  = map (fun j => s1 (S m) (S j)) (seq 0 k).
Proof.
  intros Hk. induction m as [|m IH].
  - cbn [seq fold_left]. rewrite last_init by exact Hk. apply map_ext. intros j.
    rewrite s1_SS. destruct j; cbn; reflexivity.
  - rewrite seq_S, fold_left_app. cbn [fold_left]. rewrite IH. unfold stirling_first_step.
    apply map_ext_in. intros j Hj. apply in_seq in Hj. rewrite (s1_SS (S m) j).
    destruct j as [|p].
    + rewrite nth_map_seq by lia. rewrite (s1_n0 (S m)) by lia. replace (1 + m)%nat with (S m) by lia. ring.
    + rewrite !nth_map_seq by lia. replace (1 + m)%nat with (S m) by lia. reflexivity.
Qed.
Lemma row_second k m : (0 < k)%nat ->
  fold_left (fun s _ => stirling_second_step k s) (seq 1 m) (1 :: repeat 0 (k - 1)) = map (fun j => s2 (S m) (S j)) (seq 0 k).
Proof.
  intros Hk. induction m as [|m IH].
  - cbn [seq fold_left]. rewrite last_init by exact Hk. apply map_ext. intros j.
    rewrite s2_SS. destruct j; cbn; lia.
  - rewrite seq_S, fold_left_app. cbn [fold_left]. rewrite IH. unfold stirling_second_step.
    apply map_ext_in. intros j Hj. apply in_seq in Hj. rewrite (s2_SS (S m) j).
    destruct j as [|p].
    + rewrite nth_map_seq by lia. rewrite (s2_n0 (S m)) by lia. ring.
    + rewrite !nth_map_seq by lia. replace (Z.of_nat (S (S p))) with (Z.of_nat (S p) + 1) by lia. ring.
Qed.

Lemma stirling_first_ok (n k : nat) : (k <= n)%nat -> stirling_first (Z.of_nat n) (Z.of_nat k) = Ok (s1 n k).
Proof.
  intros H. unfold stirling_first.
  replace ((0 <=? Z.of_nat k) && (Z.of_nat k <=? Z.of_nat n)) with true by (symmetry; rewrite andb_true_iff, !Z.leb_le; lia).
  cbn [negb]. destruct (Z.eqb_spec (Z.of_nat n) 0) as [E|E].
  { assert (n = 0%nat) by lia. assert (k = 0%nat) by lia. subst. reflexivity. }
  cbn [orb]. destruct (Z.eqb_spec (Z.of_nat n) (Z.of_nat k)) as [E'|E'].
  { assert (n = k) by lia. subst. rewrite s1_diag. reflexivity. }
  destruct (Z.eqb_spec (Z.of_nat k) 0) as [E2|E2].
  { assert (k = 0%nat) by lia. subst. rewrite s1_n0 by lia. reflexivity. }
  cbv zeta. rewrite !Nat2Z.id, row_first by lia. destruct k as [|k]; [lia|]. rewrite last_map_seq.
  replace (S (n - 1)) with n by lia. reflexivity.
Qed.
Lemma stirling_second_ok (n k : nat) : (k <= n)%nat -> stirling_second (Z.of_nat n) (Z.of_nat k) = Ok (s2 n k).
Proof.
  intros H. unfold stirling_second.
  replace ((0 <=? Z.of_nat k) && (Z.of_nat k <=? Z.of_nat n)) with true by (symmetry; rewrite andb_true_iff, !Z.leb_le; lia).
  cbn [negb]. destruct (Z.eqb_spec (Z.of_nat n) 0) as [E|E].
  { assert (n = 0%nat) by lia. assert (k = 0%nat) by lia. subst. reflexivity. }
  cbn [orb]. destruct (Z.eqb_spec (Z.of_nat n) (Z.of_nat k)) as [E'|E'].
  { assert (n = k) by lia. subst. rewrite s2_diag. reflexivity. }
  destruct (Z.eqb_spec (Z.of_nat k) 0) as [E2|E2].
  { assert (k = 0%nat) by lia. subst. rewrite s2_n0 by lia. reflexivity. }
  cbv zeta. rewrite !Nat2Z.id, row_second by lia. destruct k as [|k]; [lia|]. rewrite last_map_seq.
  replace (S (n - 1)) with n by lia. reflexivity.
Qed.
Lemma mapM_ok {A B} (f : A -> result B) (g : A -> B) l : (forall x, In x l -> f x = Ok (g x)) -> mapM f l = Ok (map g l).
Proof.
  induction l as [|x l IH]; intros H; [reflexivity|]. cbn [mapM map]. rewrite H by (left; reflexivity). cbn [bind].
  rewrite IH by (intros y Hy; apply H; right; exact Hy). reflexivity.
Qed.
Lemma stirling_first_all_ok n : stirling_first_all (Z.of_nat n) = Ok (map (fun j => s1 n (S j)) (seq 0 n)).
Proof.
  unfold stirling_first_all, range. rewrite Nat2Z.id.
  rewrite (mapM_ok _ (fun k => s1 n (S (Z.to_nat k)))).
  - rewrite map_map. f_equal. apply map_ext. intros j. rewrite Nat2Z.id. reflexivity.
  - intros x Hx. apply in_map_iff in Hx. destruct Hx as [j [<- Hj]]. apply in_seq in Hj. rewrite Nat2Z.id.
    replace (Z.of_nat j + 1) with (Z.of_nat (S j)) by lia. apply stirling_first_ok. lia.
Qed.
Lemma stirling_second_all_ok n : stirling_second_all (Z.of_nat n) = Ok (map (fun j => s2 n (S j)) (seq 0 n)).
Proof.
  unfold stirling_second_all, range. rewrite Nat2Z.id.
  rewrite (mapM_ok _ (fun k => s2 n (S (Z.to_nat k)))).
  - rewrite map_map. f_equal. apply map_ext. intros j. rewrite Nat2Z.id. reflexivity.
  - intros x Hx. apply in_map_iff in Hx. destruct Hx as [j [<- Hj]]. apply in_seq in Hj. rewrite Nat2Z.id.
    replace (Z.of_nat j + 1) with (Z.of_nat (S j)) by lia. apply stirling_second_ok. lia.
Qed.

(** ** sums *)
Lemma zsum_ext n f g : (forall i, (i < n)%nat -> f i = g i) -> zsum n f = zsum n g.
Proof. induction n as [|n IH]; intros H; [reflexivity|]. cbn [zsum]. rewrite IH, H by (try intros; auto with arith). reflexivity. Qed.
Lemma zsum_plus n f g : zsum n (fun i => f i + g i) = zsum n f + zsum n g.
Proof. induction n as [|n IH]; cbn [zsum]; [ring|]. rewrite IH. ring. Qed.
Lemma zsum_scal n c f : zsum n (fun i => c * f i) = c * zsum n f.
Proof. induction n as [|n IH]; cbn [zsum]; [ring|]. rewrite IH. ring. Qed.
Lemma zsum_Sl n f : zsum (S n) f = f 0%nat + zsum n (fun i => f (S i)).
Proof. induction n as [|n IH]; [cbn; ring|]. change (zsum (S (S n)) f) with (zsum (S n) f + f (S n)). rewrite IH. cbn [zsum]. ring. Qed.

(** ** falling factorials *)
Lemma falling_s1 x n : falling x n = zsum (S n) (fun k => s1 n k * x ^ Z.of_nat k).
Proof.
  induction n as [|n IH]; [reflexivity|].
  cbn [falling]. rewrite IH. rewrite (zsum_Sl (S n)). rewrite s1_n0 by lia.
  rewrite (zsum_ext (S n) (fun i => s1 (S n) (S i) * x ^ Z.of_nat (S i))
     (fun i => x * (s1 n i * x ^ Z.of_nat i) + - Z.of_nat n * (s1 n (S i) * x ^ Z.of_nat (S i)))).
  2:{ intros i Hi. rewrite s1_SS, Nat2Z.inj_succ, Z.pow_succ_r by lia. ring. }
  rewrite zsum_plus, !zsum_scal.
  assert (E : zsum (S n) (fun i => s1 n (S i) * x ^ Z.of_nat (S i)) = zsum (S n) (fun k => s1 n k * x ^ Z.of_nat k) - s1 n 0).
  { rewrite (zsum_Sl n (fun k => s1 n k * x ^ Z.of_nat k)). cbn [zsum]. rewrite (s1_big n (S n)) by lia.
    change (Z.of_nat 0) with 0. rewrite Z.pow_0_r. ring. }
  rewrite E. destruct n as [|n]; [change (Z.of_nat 0) with 0; ring|]. rewrite (s1_n0 (S n)) by lia. ring.
Qed.
Lemma falling_s2 x n : x ^ Z.of_nat n = zsum (S n) (fun k => s2 n k * falling x k).
Proof.
  induction n as [|n IH]; [reflexivity|].
  rewrite Nat2Z.inj_succ, Z.pow_succ_r by lia. rewrite IH. rewrite (zsum_Sl (S n)). rewrite s2_n0 by lia.
  rewrite (zsum_ext (S n) (fun i => s2 (S n) (S i) * falling x (S i))
     (fun i => s2 n i * falling x (S i) + Z.of_nat (S i) * s2 n (S i) * falling x (S i))).
  2:{ intros i Hi. rewrite s2_SS. ring. }
  rewrite zsum_plus.
  assert (E : zsum (S n) (fun i => Z.of_nat (S i) * s2 n (S i) * falling x (S i))
              = zsum (S n) (fun i => Z.of_nat i * s2 n i * falling x i)).
  { rewrite (zsum_Sl n (fun i => Z.of_nat i * s2 n i * falling x i)). cbn [zsum]. rewrite (s2_big n (S n)) by lia.
    change (Z.of_nat 0) with 0. ring. }
  rewrite E, <- zsum_plus, <- zsum_scal.
  rewrite (zsum_ext _ (fun i => s2 n i * falling x (S i) + Z.of_nat i * s2 n i * falling x i) (fun i => x * (s2 n i * falling x i)))
    by (intros i Hi; cbn [falling]; ring). ring.
Qed.
