(** The second kind Stirling numbers count set partitions. *)
From Verif Require Import Base CountLib M_Special S_Special P_Stirling.
From Coq Require Import ZArith Permutation.
Open Scope nat_scope.

Definition fixed (l : list nat) : list nat := filter (fun i => Nat.eqb (nth i l 0) i) (seq 0 (length l)).
Definition extend (l : list nat) : list (list nat) := map (fun x => l ++ [x]) (length l :: fixed l).
Fixpoint parts (n : nat) : list (list nat) := match n with O => [[]] | S m => flat_map extend (parts m) end.

Lemma nth_snoc_lt (l : list nat) x i : i < length l -> nth i (l ++ [x]) 0 = nth i l 0.
Proof. intros H. apply app_nth1. exact H. Qed.
Lemma nth_snoc_eq (l : list nat) x : nth (length l) (l ++ [x]) 0 = x.
Proof. rewrite app_nth2 by lia. rewrite Nat.sub_diag. reflexivity. Qed.

Lemma blocks_length_fixed l : blocks l = length (fixed l). Proof. reflexivity. Qed.
Lemma blocks_snoc l x : blocks (l ++ [x]) = blocks l + (if Nat.eqb x (length l) then 1 else 0).
Proof.
  unfold blocks. rewrite app_length. cbn [length]. rewrite Nat.add_1_r, seq_S, count_app. cbn [plus].
  rewrite (count_ext _ (fun i => Nat.eqb (nth i l 0) i)).
  2:{ intros i Hi. apply in_seq in Hi. rewrite nth_snoc_lt by lia. reflexivity. }
  rewrite count_cons, nth_snoc_eq, count_nil. lia.
Qed.
Lemma set_partition_snoc n l x : set_partition (S n) (l ++ [x]) <-> length l = n /\ set_partition n l /\ In x (n :: fixed l).
Proof.
  unfold set_partition. rewrite app_length. cbn [length]. split.
  - intros [HL H]. assert (L : length l = n) by lia. split; [exact L|].
    assert (Hl : forall i, i < n -> nth i l 0 <= i /\ nth (nth i l 0) l 0 = nth i l 0).
    { intros i Hi. destruct (H i ltac:(lia)) as [A B]. rewrite (nth_snoc_lt l x i) in A, B by lia.
      rewrite nth_snoc_lt in B by lia. auto. }
    split; [split; [exact L|exact Hl]|].
    destruct (H n ltac:(lia)) as [A B]. rewrite <- L, nth_snoc_eq in A, B.
    destruct (Nat.eq_dec x (length l)) as [->|Hx]; [left; auto|right].
    apply filter_In. split; [apply in_seq; lia|]. rewrite nth_snoc_lt in B by lia. apply Nat.eqb_eq. exact B.
  - intros [L [[_ H] I]]. split; [lia|]. intros i Hi. destruct (Nat.eq_dec i n) as [->|Hne].
    + assert (Ex : nth n (l ++ [x]) 0 = x) by (rewrite <- L; apply nth_snoc_eq). rewrite Ex. destruct I as [<-|I].
      * split; [lia|exact Ex].
      * apply filter_In in I. destruct I as [I1 I2]. apply in_seq in I1. apply Nat.eqb_eq in I2. split; [lia|].
        rewrite nth_snoc_lt by lia. exact I2.
    + destruct (H i ltac:(lia)) as [A B]. rewrite (nth_snoc_lt l x i) by lia. rewrite nth_snoc_lt by lia. auto.
Qed.
Lemma parts_length n l : In l (parts n) -> length l = n.
Proof.
  revert l; induction n as [|n IH]; intros l H; cbn in H.
  - destruct H as [<-|[]]. reflexivity.
  - apply in_flat_map in H. destruct H as [m [Hm H]]. apply in_map_iff in H. destruct H as [x [<- _]].
    rewrite app_length, (IH m Hm). cbn. lia.
Qed.
Lemma parts_spec n : forall l, In l (parts n) <-> set_partition n l.
Proof.
  induction n as [|n IH]; intros l.
  - cbn. split.
    + intros [<-|[]]. split; [reflexivity|]. intros; lia.
    + intros [H _]. left. destruct l; [reflexivity|discriminate].
  - cbn [parts]. rewrite in_flat_map. split.
    + intros [m [Hm H]]. apply in_map_iff in H. destruct H as [x [<- Hx]].
      pose proof (parts_length _ _ Hm) as Lm. rewrite Lm in Hx. apply IH in Hm. apply set_partition_snoc. auto.
    + intros H. destruct (@exists_last _ l) as [m [x E]].
      { destruct H as [HL _]. destruct l; [discriminate|discriminate]. }
      subst l. apply set_partition_snoc in H. destruct H as [L [Hm I]]. exists m. split; [apply IH; exact Hm|].
      unfold extend. apply in_map_iff. exists x. rewrite L. auto.
Qed.
Lemma NoDup_flat_map {A B} (f : A -> list B) l :
  NoDup l -> (forall x, In x l -> NoDup (f x)) -> (forall x y z, In x l -> In y l -> In z (f x) -> In z (f y) -> x = y) ->
  NoDup (flat_map f l).
Proof.
  induction 1 as [|x l Hx Hn IH]; intros H1 H2; [constructor|]. cbn [flat_map].
  assert (D : forall z, In z (f x) -> ~ In z (flat_map f l)).
  { intros z Hz Hz'. apply in_flat_map in Hz'. destruct Hz' as [y [Hy Hzy]].
    assert (x = y) by (apply (H2 x y z); cbn; auto). subst. contradiction. }
  assert (N : NoDup (flat_map f l)).
  { apply IH; [intros; apply H1; right; auto|]. intros a b z Ha Hb. apply H2; right; auto. }
  assert (Nx : NoDup (f x)) by (apply H1; left; reflexivity). clear IH H1 H2.
  induction Nx as [|b m Hb Nm IHm]; [exact N|]. cbn [app]. constructor.
  - rewrite in_app_iff. intros [C|C]; [contradiction|]. apply (D b); [left; reflexivity|exact C].
  - apply IHm. intros z Hz. apply D. right; exact Hz.
Qed.
Lemma NoDup_fixed l : NoDup (fixed l). Proof. apply NoDup_filter, seq_NoDup. Qed.
Lemma parts_NoDup n : NoDup (parts n).
Proof.
  induction n as [|n IH]; [repeat constructor; auto|]. cbn [parts]. apply NoDup_flat_map; [exact IH| |].
  - intros l _. apply FinFun.Injective_map_NoDup.
    + intros a b E. apply app_inj_tail in E. tauto.
    + constructor; [|apply NoDup_fixed]. intros H. apply filter_In in H. destruct H as [H _]. apply in_seq in H. lia.
  - intros a b z _ _ Ha Hb. apply in_map_iff in Ha, Hb. destruct Ha as [x [<- _]], Hb as [y [E _]].
    apply app_inj_tail in E. symmetry. tauto.
Qed.
Definition bc k := count (fun l => Nat.eqb (blocks l) k).
Lemma bc_extend l k : bc k (extend l) = (if Nat.eqb (S (blocks l)) k then 1 else 0) + (if Nat.eqb (blocks l) k then k else 0).
Proof.
  unfold bc, extend. rewrite count_map, count_cons. f_equal.
  - rewrite blocks_snoc, Nat.eqb_refl, Nat.add_1_r. reflexivity.
  - rewrite (count_ext _ (fun _ => Nat.eqb (blocks l) k)).
    2:{ intros x Hx. apply filter_In in Hx. destruct Hx as [Hx _]. apply in_seq in Hx. rewrite blocks_snoc.
        replace (Nat.eqb x (length l)) with false by (symmetry; apply Nat.eqb_neq; lia). rewrite Nat.add_0_r. reflexivity. }
    destruct (Nat.eqb_spec (blocks l) k) as [E|E].
    + rewrite count_all by auto. rewrite <- blocks_length_fixed. exact E.
    + apply count_zero. auto.
Qed.
Lemma bc_flat k P : bc k (flat_map extend P) = (match k with O => 0 | S p => bc p P end) + k * bc k P.
Proof.
  induction P as [|l P IH]; [destruct k; cbn; lia|]. cbn [flat_map]. unfold bc in *. rewrite count_app, IH. fold (bc k (extend l)).
  rewrite bc_extend. destruct k as [|p]; rewrite ?count_cons.
  - destruct (Nat.eqb (blocks l) 0); cbn; lia.
  - rewrite (Nat.eqb_sym (S (blocks l))). cbn [Nat.eqb]. rewrite (Nat.eqb_sym p). destruct (Nat.eqb (blocks l) p), (Nat.eqb (blocks l) (S p)); lia.
Qed.
Lemma bc_s2 n : forall k, Z.of_nat (bc k (parts n)) = s2 n k.
Proof.
  induction n as [|n IH]; intros k; [destruct k; reflexivity|].
  cbn [parts]. rewrite bc_flat, Nat2Z.inj_add, Nat2Z.inj_mul. destruct k as [|p]; [reflexivity|].
  rewrite !IH, s2_SS. ring.
Qed.
Lemma s2_counts n k : there_are (Z.to_nat (s2 n k)) (fun l => set_partition n l /\ blocks l = k).
Proof.
  exists (filter (fun l => Nat.eqb (blocks l) k) (parts n)). split; [apply NoDup_filter, parts_NoDup|]. split.
  - intros l. rewrite filter_In, parts_spec, Nat.eqb_eq. reflexivity.
  - rewrite <- bc_s2, Nat2Z.id. reflexivity.
Qed.
Lemma s2_nonneg n k : (0 <= s2 n k)%Z. Proof. rewrite <- bc_s2. lia. Qed.
Lemma s2_pos n : forall k, 1 <= k <= n -> (0 < s2 n k)%Z.
Proof.
  induction n as [|n IH]; intros k H; [lia|]. destruct k as [|k]; [lia|]. rewrite s2_SS.
  destruct (Nat.eq_dec k n) as [->|Hne].
  - rewrite s2_diag, s2_big by lia. lia.
  - assert (P := IH (S k) ltac:(lia)). pose proof (s2_nonneg n k). nia.
Qed.
(** |s1 n k| = (-1)^(n-k) s1 n k, positive for 1 <= k <= n *)
Open Scope Z_scope.
Definition par (n k : nat) : Z := if Nat.even (n + k) then 1 else -1.
Lemma par_S n k : par (S n) k = - par n k.
Proof. unfold par. cbn [plus]. rewrite Nat.even_succ, <- Nat.negb_even. destruct (Nat.even (n + k)); reflexivity. Qed.
Lemma par_SS n k : par (S n) (S k) = par n k.
Proof. unfold par. rewrite Nat.add_succ_r. cbn [plus]. reflexivity. Qed.
Lemma par_kS n k : par n (S k) = - par n k.
Proof. unfold par. rewrite Nat.add_succ_r, Nat.even_succ, <- Nat.negb_even. destruct (Nat.even (n + k)); reflexivity. Qed.
Lemma par_nn n : par n n = 1.
Proof. unfold par. replace (n + n)%nat with (2 * n)%nat by lia. rewrite Nat.even_mul. reflexivity. Qed.
Lemma par_sq n k : par n k * par n k = 1.
Proof. unfold par. destruct (Nat.even (n + k)); reflexivity. Qed.
Lemma s1_sign n : forall k, 0 <= par n k * s1 n k.
Proof.
  induction n as [|n IH]; intros k; [destruct k; cbn; [lia|rewrite Z.mul_0_r; lia]|].
  destruct k as [|k]; [cbn [s1]; lia|]. rewrite s1_SS.
  assert (A := IH k). assert (B := IH (S k)). rewrite par_SS. rewrite par_kS in B. nia.
Qed.
Lemma s1_pos n : forall k, (1 <= k <= n)%nat -> 0 < par n k * s1 n k.
Proof.
  induction n as [|n IH]; intros k H; [lia|]. destruct k as [|k]; [lia|]. rewrite s1_SS, par_SS.
  destruct (Nat.eq_dec k n) as [->|Hne].
  - rewrite s1_diag, s1_big by lia. rewrite par_nn. lia.
  - assert (P := IH (S k) ltac:(lia)). pose proof (s1_sign n k). rewrite par_kS in P.
    replace (par n k * (s1 n k - Z.of_nat n * s1 n (S k))) with (par n k * s1 n k + Z.of_nat n * (- par n k * s1 n (S k))) by ring. nia.
Qed.
Lemma s1_abs n k : Z.abs (s1 n k) = par n k * s1 n k.
Proof. pose proof (s1_sign n k). pose proof (par_sq n k). unfold par in *. destruct (Nat.even (n + k)); lia. Qed.
