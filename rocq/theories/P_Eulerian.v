(** Eulerian numbers: the alternating sum, the recurrence, and the count of permutations by ascents. *)
From Verif Require Import Base CountLib RSumLib M_Special S_Special P_Stirling P_Partitions.
From Coq Require Import ZArith Permutation.
Open Scope Z_scope.

Fixpoint A (n k : nat) : Z :=
  match n, k with
  | O, O => 1 | O, S _ => 0
  | S m, O => A m O
  | S m, S p => (Z.of_nat p + 2) * A m k + (Z.of_nat m - Z.of_nat p) * A m p
  end.
Lemma A_SS m p : A (S m) (S p) = (Z.of_nat p + 2) * A m (S p) + (Z.of_nat m - Z.of_nat p) * A m p. Proof. reflexivity. Qed.
Lemma A_S0 n : A n 0 = 1. Proof. induction n as [|n IH]; [reflexivity|exact IH]. Qed.
Lemma A_big n : forall k, (0 < n <= k)%nat -> A n k = 0.
Proof.
  induction n as [|n IH]; intros k H; [lia|]. destruct k as [|k]; [lia|]. rewrite A_SS.
  destruct n as [|n].
  - cbn [A]. destruct k; cbn; ring.
  - rewrite IH by lia. destruct (Nat.eq_dec k (S n)) as [->|Hne]; [ring|]. rewrite IH by lia. ring.
Qed.
Lemma A_top n : A (S n) n = 1.
Proof. induction n as [|n IH]; [reflexivity|]. rewrite A_SS, A_big by lia. rewrite IH. lia. Qed.
Lemma A_sym n : forall k, (k <= n)%nat -> A (S n) k = A (S n) (n - k).
Proof.
  induction n as [|n IH]; intros k H; [replace k with 0%nat by lia; reflexivity|].
  destruct k as [|k].
  { rewrite Nat.sub_0_r, A_top, A_S0. reflexivity. }
  destruct (Nat.eq_dec k n) as [->|Hne].
  { rewrite Nat.sub_diag, A_top, A_S0. reflexivity. }
  replace (S n - S k)%nat with (S (n - S k)) by lia. rewrite (A_SS (S n) k), (A_SS (S n) (n - S k)).
  rewrite (IH (S k)) by lia. rewrite (IH k) by lia. replace (S (n - S k)) with (n - k)%nat by lia.
  rewrite !Nat2Z.inj_sub, !Nat2Z.inj_succ by lia. ring.
Qed.
Lemma A_nonneg n : forall k, 0 <= A n k.
Proof.
  induction n as [|n IH]; intros k; [destruct k; cbn; lia|]. destruct k as [|k]; [apply IH|]. rewrite A_SS.
  assert (P := IH k). assert (Q := IH (S k)). destruct (Nat.le_gt_cases k n) as [L|L]; [nia|].
  destruct n as [|n]; [destruct k; [lia|]; cbn [A]; lia|]. rewrite (A_big (S n) k), (A_big (S n) (S k)) by lia. lia.
Qed.
Fixpoint zfact (n : nat) : Z := match n with O => 1 | S m => Z.of_nat n * zfact m end.
Lemma A_row n : forall N, (n < N)%nat -> zsum N (A n) = zfact n.
Proof.
  induction n as [|n IH]; intros N H.
  - destruct N as [|N]; [lia|]. rewrite zsum_Sl. cbn [A zfact]. rewrite (zsum_ext N _ (fun i => 0 * 0)) by reflexivity. rewrite zsum_scal. lia.
  - destruct N as [|N]; [lia|]. rewrite zsum_Sl, A_S0.
    rewrite (zsum_ext N _ (fun i => (Z.of_nat (S i) + 1) * A n (S i) + (Z.of_nat n - Z.of_nat i) * A n i))
      by (intros i _; rewrite A_SS; f_equal; f_equal; lia).
    rewrite zsum_plus.
    assert (E : 1 + zsum N (fun i => (Z.of_nat (S i) + 1) * A n (S i)) = zsum N (fun i => (Z.of_nat i + 1) * A n i)).
    { assert (E' : zsum (S N) (fun i => (Z.of_nat i + 1) * A n i) = zsum N (fun i => (Z.of_nat i + 1) * A n i)).
      { cbn [zsum]. destruct n; [destruct N; [lia|cbn; lia]|rewrite A_big by lia; lia]. }
      rewrite <- E', zsum_Sl, A_S0. change (Z.of_nat 0) with 0. lia. }
    rewrite Z.add_assoc, E, <- zsum_plus.
    rewrite (zsum_ext N _ (fun i => (Z.of_nat n + 1) * A n i)) by (intros; ring).
    rewrite zsum_scal, IH by lia. cbn [zfact]. lia.
Qed.

(** ** binomials and the alternating sum *)
Fixpoint bin (n k : nat) : Z :=
  match n, k with
  | _, O => 1 | O, S _ => 0
  | S m, S p => bin m p + bin m (S p)
  end.
Lemma bin_SS m p : bin (S m) (S p) = bin m p + bin m (S p). Proof. reflexivity. Qed.
Lemma bin_0 n : bin n 0 = 1. Proof. destruct n; reflexivity. Qed.
Lemma bin_big n : forall k, (n < k)%nat -> bin n k = 0.
Proof. induction n as [|n IH]; intros k H; (destruct k as [|k]; [lia|]); [reflexivity|]. rewrite bin_SS, !IH by lia. reflexivity. Qed.
Lemma bin_step n : forall k, (Z.of_nat k + 1) * bin n (S k) = (Z.of_nat n - Z.of_nat k) * bin n k.
Proof.
  induction n as [|n IH]; intros k.
  - destruct k; cbn; lia.
  - rewrite bin_SS. destruct k as [|k].
    + assert (E := IH 0%nat). rewrite !bin_0 in *. change (Z.of_nat 0) with 0 in *. lia.
    + rewrite bin_SS. assert (E1 := IH k). assert (E2 := IH (S k)). rewrite !Nat2Z.inj_succ in *. nia.
Qed.
Lemma bin_fact n : forall k, (k <= n)%nat -> bin n k * zfact k * zfact (n - k) = zfact n.
Proof.
  induction k as [|k IH]; intros H.
  - rewrite bin_0, Nat.sub_0_r. cbn [zfact]. ring.
  - assert (I := IH ltac:(lia)). replace (n - k)%nat with (S (n - S k)) in I by lia. cbn [zfact] in *.
    rewrite <- I. pose proof (bin_step n k) as B.
    replace (bin n (S k) * (Z.of_nat (S k) * zfact k) * zfact (n - S k))
      with ((Z.of_nat k + 1) * bin n (S k) * zfact k * zfact (n - S k)) by (rewrite Nat2Z.inj_succ; ring).
    rewrite B. replace (Z.of_nat (S (n - S k))) with (Z.of_nat n - Z.of_nat k) by lia. ring.
Qed.
Definition sg (j : nat) : Z := if Nat.even j then 1 else -1.
Lemma sg_S j : sg (S j) = - sg j.
Proof. unfold sg. rewrite Nat.even_succ, <- Nat.negb_even. destruct (Nat.even j); reflexivity. Qed.
Definition E (n k : nat) : Z := zsum (S k) (fun j => sg j * bin (S n) j * (Z.of_nat k + 1 - Z.of_nat j) ^ Z.of_nat n).
Lemma E_SS n k : E (S n) (S k) = (Z.of_nat k + 2) * E n (S k) + (Z.of_nat n - Z.of_nat k) * E n k.
Proof.
  unfold E at 1 2. rewrite !(zsum_Sl (S k)). rewrite !bin_0. change (sg 0) with 1. change (Z.of_nat 0) with 0.
  rewrite Z.mul_add_distr_l, <- zsum_scal. unfold E. rewrite <- zsum_scal, <- Z.add_assoc, <- zsum_plus. f_equal.
  - rewrite (Nat2Z.inj_succ n), Z.pow_succ_r by lia. rewrite Nat2Z.inj_succ. ring_simplify. f_equal. 
  - apply zsum_ext. intros j Hj. rewrite sg_S, (bin_SS (S n) j).
    rewrite (Nat2Z.inj_succ n), Z.pow_succ_r by lia.
    replace (Z.of_nat (S k) + 1 - Z.of_nat (S j)) with (Z.of_nat k + 1 - Z.of_nat j) by lia.
    set (p := (Z.of_nat k + 1 - Z.of_nat j) ^ Z.of_nat n). pose proof (bin_step (S n) j) as B. rewrite Nat2Z.inj_succ in B.
    replace ((Z.of_nat k + 2) * (- sg j * bin (S n) (S j) * p) + (Z.of_nat n - Z.of_nat k) * (sg j * bin (S n) j * p))
      with (- sg j * p * ((Z.of_nat k + 1 - Z.of_nat j) * bin (S n) (S j) + (Z.of_nat j + 1) * bin (S n) (S j) - (Z.of_nat n - Z.of_nat k) * bin (S n) j)) by ring.
    rewrite B. ring.
Qed.
Lemma E_0k k : E 0 k = if Nat.eqb k 0 then 1 else 0.
Proof.
  unfold E. change (Z.of_nat 0) with 0. destruct k as [|k]; [reflexivity|]. rewrite !zsum_Sl.
  rewrite (zsum_ext k _ (fun i => 0 * 0)).
  - rewrite zsum_scal. rewrite !Z.pow_0_r. reflexivity.
  - intros i Hi. rewrite (bin_big 1 (S (S i))) by lia. ring.
Qed.
Lemma E_n0 n : E n 0 = 1.
Proof. unfold E. cbn [zsum]. rewrite bin_0. change (Z.of_nat 0) with 0. replace (0 + 1 - 0) with 1 by ring. rewrite Z.pow_1_l by lia. reflexivity. Qed.
Lemma E_A n : forall k, E n k = A n k.
Proof.
  induction n as [|n IH]; intros k.
  - rewrite E_0k. destruct k; reflexivity.
  - destruct k as [|k]; [rewrite E_n0, A_S0; reflexivity|]. rewrite E_SS, A_SS, !IH. reflexivity.
Qed.

(** ** the float computation *)
Lemma Int_part_IZR z : Int_part (IZR z) = z.
Proof.
  unfold Int_part. rewrite <- (tech_up (IZR z) (z + 1)); [ring| |].
  - rewrite plus_IZR. lra.
  - rewrite plus_IZR. lra.
Qed.
Lemma py_round_IZR z : py_round (IZR z) = z.
Proof.
  unfold py_round. rewrite Int_part_IZR. destruct (Rltb (IZR z - IZR z) (1 / 2)) eqn:H; [reflexivity|].
  apply Rltb_false in H. lra.
Qed.
Definition gamma_on_integers (gamma : R -> R) : Prop := forall m, gamma (INR m + 1)%R = INR (fact m).
Lemma zfact_fact n : IZR (zfact n) = INR (fact n).
Proof.
  induction n as [|n IH]; [reflexivity|]. cbn [zfact]. rewrite mult_IZR, IH, <- INR_IZR_INZ.
  change (fact (S n)) with (S n * fact n)%nat. rewrite mult_INR. reflexivity.
Qed.
Lemma comb_bin gamma n r : gamma_on_integers gamma -> (r <= n)%nat -> comb gamma (INR n) (INR r) = IZR (bin n r).
Proof.
  intros G H. unfold comb. replace (INR n + 1 - INR r)%R with (INR (n - r) + 1)%R by (rewrite minus_INR by exact H; ring).
  rewrite !G. rewrite <- !zfact_fact, <- (bin_fact n r H), !mult_IZR, !zfact_fact.
  field. split; apply INR_fact_neq_0.
Qed.
Lemma rsum_IZR n f : rsum n (fun i => IZR (f i)) = IZR (zsum n f).
Proof. induction n as [|n IH]; [reflexivity|]. cbn [rsum zsum]. rewrite plus_IZR, IH. reflexivity. Qed.
Lemma eulerian_sum gamma n k : gamma_on_integers gamma -> (k <= n)%nat ->
  rsum (S k) (fun j => (if Nat.even j then 1 else -1) * comb gamma (IZR (Z.of_nat n + 1)) (INR j)
                       * IZR (Z.of_nat k + 1 - Z.of_nat j) ^ n)%R = IZR (A n k).
Proof.
  intros G H. rewrite <- E_A. unfold E. rewrite <- rsum_IZR. apply rsum_ext. intros j Hj.
  replace (Z.of_nat n + 1) with (Z.of_nat (S n)) by lia. rewrite <- INR_IZR_INZ, (comb_bin gamma (S n) j G) by lia.
  rewrite !mult_IZR, <- pow_IZR. unfold sg. destruct (Nat.even j); reflexivity.
Qed.
Lemma eulerian_ok gamma (n k : nat) : gamma_on_integers gamma -> (k <= n)%nat -> (0 < n)%nat ->
  eulerian gamma (Z.of_nat n) (Z.of_nat k) = Ok (A n k).
Proof.
  intros G H Hn. unfold eulerian.
  replace ((0 <=? Z.of_nat k) && (Z.of_nat k <=? Z.of_nat n)) with true by (symmetry; rewrite andb_true_iff, !Z.leb_le; lia).
  cbn [negb]. destruct (Z.eqb_spec (Z.of_nat k) (Z.of_nat n)) as [E1|E1]; [rewrite A_big by lia; reflexivity|].
  destruct (Z.eqb_spec (Z.of_nat k) 0) as [E2|E2].
  { replace k with 0%nat by lia. rewrite A_S0. reflexivity. }
  cbv zeta. destruct ((Z.of_nat n + 1) / 2 <=? Z.of_nat k) eqn:D.
  - replace (Z.of_nat n - Z.of_nat k - 1) with (Z.of_nat (n - 1 - k)) by lia.
    replace (Z.to_nat (Z.of_nat (n - 1 - k) + 1)) with (S (n - 1 - k)) by lia. rewrite Nat2Z.id.
    rewrite (eulerian_sum gamma n (n - 1 - k) G) by lia. rewrite py_round_IZR. f_equal.
    destruct n as [|n]; [lia|]. replace (S n - 1 - k)%nat with (n - k)%nat by lia. symmetry. apply A_sym. lia.
  - replace (Z.to_nat (Z.of_nat k + 1)) with (S k) by lia. rewrite Nat2Z.id.
    rewrite (eulerian_sum gamma n k G) by lia. rewrite py_round_IZR. reflexivity.
Qed.
Lemma eulerian_all_ok gamma n : gamma_on_integers gamma -> (0 < n)%nat ->
  eulerian_all gamma (Z.of_nat n) = Ok (Lst (map (A n) (seq 0 n))).
Proof.
  intros G Hn. unfold eulerian_all. replace (Z.of_nat n <? 0) with false by (symmetry; apply Z.ltb_ge; lia).
  replace (Z.of_nat n =? 0) with false by (symmetry; apply Z.eqb_neq; lia).
  unfold range. rewrite Nat2Z.id.
  rewrite (mapM_ok _ (fun k => A n (Z.to_nat k))).
  - cbn [rmap]. rewrite map_map. f_equal. f_equal. apply map_ext. intros j. rewrite Nat2Z.id. reflexivity.
  - intros x Hx. apply in_map_iff in Hx. destruct Hx as [j [<- Hj]]. apply in_seq in Hj. rewrite Nat2Z.id.
    apply eulerian_ok; [exact G|lia|exact Hn].
Qed.

(** ** permutations by ascents *)
Open Scope nat_scope.
Fixpoint inserts (x : nat) (l : list nat) : list (list nat) :=
  match l with [] => [[x]] | a :: r => (x :: a :: r) :: map (cons a) (inserts x r) end.
Fixpoint perms (n : nat) : list (list nat) := match n with O => [[]] | S m => flat_map (inserts (S m)) (perms m) end.
Lemma inserts_in x l m : In m (inserts x l) <-> exists a b, l = a ++ b /\ m = a ++ x :: b.
Proof.
  revert m; induction l as [|y l IH]; intros m; cbn [inserts].
  - split.
    + intros [<-|[]]. exists [], []. auto.
    + intros [a [b [H1 H2]]]. symmetry in H1. apply app_eq_nil in H1. destruct H1; subst. left; reflexivity.
  - split.
    + intros [<-|H]; [exists [], (y :: l); auto|]. apply in_map_iff in H. destruct H as [m' [<- H]]. apply IH in H.
      destruct H as [a [b [-> ->]]]. exists (y :: a), b. auto.
    + intros [a [b [H1 H2]]]. destruct a as [|z a]; cbn in *; subst; [left; reflexivity|right].
      injection H1 as <- ->. apply in_map_iff. exists (a ++ x :: b). split; [reflexivity|]. apply IH. eauto.
Qed.
Lemma inserts_perm x l m : In m (inserts x l) -> Permutation m (x :: l).
Proof. rewrite inserts_in. intros [a [b [-> ->]]]. symmetry. apply Permutation_middle. Qed.
Lemma seq_perm n : Permutation (seq 1 (S n)) (S n :: seq 1 n).
Proof. rewrite seq_S. cbn [plus]. symmetry. apply Permutation_cons_append. Qed.
Lemma perms_spec n : forall l, In l (perms n) <-> permutation_of n l.
Proof.
  unfold permutation_of. induction n as [|n IH]; intros l.
  - cbn. split; [intros [<-|[]]; constructor|]. intros H. left. symmetry. apply Permutation_nil. symmetry. exact H.
  - cbn [perms]. rewrite in_flat_map. split.
    + intros [m [Hm H]]. apply inserts_perm in H. apply IH in Hm. rewrite H, Hm. symmetry. apply seq_perm.
    + intros H. assert (I : In (S n) l) by (apply (Permutation_in _ (Permutation_sym H)), in_seq; lia).
      apply in_split in I. destruct I as [a [b ->]]. exists (a ++ b). split.
      * apply IH. rewrite seq_perm in H. apply (Permutation_cons_inv (a := S n)). rewrite <- H. apply Permutation_middle.
      * apply inserts_in. eauto.
Qed.
Lemma NoDup_inserts x l : ~ In x l -> NoDup (inserts x l).
Proof.
  induction l as [|a l IH]; intros H; cbn [inserts]; [repeat constructor; auto|]. constructor.
  - intros C. apply in_map_iff in C. destruct C as [m [E _]]. injection E as -> _. apply H. left; reflexivity.
  - apply FinFun.Injective_map_NoDup; [intros u v Q; injection Q; auto|]. apply IH. intros C; apply H; right; exact C.
Qed.
Lemma split_unique (x : nat) a b c d : ~ In x (a ++ b) -> ~ In x (c ++ d) -> a ++ x :: b = c ++ x :: d -> a = c /\ b = d.
Proof.
  revert c. induction a as [|y a IH]; intros [|z c] H1 H2 Q; cbn in *.
  - injection Q; auto.
  - injection Q as <- _. exfalso. apply H2. left; reflexivity.
  - injection Q as -> _. exfalso. apply H1. left; reflexivity.
  - injection Q as -> Q. destruct (IH c) as [-> ->]; auto.
Qed.
Lemma perm_notin n l : permutation_of n l -> ~ In (S n) l.
Proof. intros H C. apply (Permutation_in _ H), in_seq in C. lia. Qed.
Lemma perms_NoDup n : NoDup (perms n).
Proof.
  induction n as [|n IH]; [repeat constructor; auto|]. cbn [perms]. apply NoDup_flat_map; [exact IH| |].
  - intros l Hl. apply NoDup_inserts, perm_notin, perms_spec. exact Hl.
  - intros u v z Hu Hv Iu Iv. apply inserts_in in Iu, Iv. destruct Iu as [a [b [-> ->]]], Iv as [c [d [-> Q]]].
    apply perms_spec, perm_notin in Hu, Hv. destruct (split_unique _ _ _ _ _ Hu Hv Q) as [-> ->]. reflexivity.
Qed.
Lemma ascents_cons a b l : ascents (a :: b :: l) = (if Nat.ltb a b then 1 else 0) + ascents (b :: l). Proof. reflexivity. Qed.
Lemma ascents_lt l : l <> [] -> ascents l < length l.
Proof.
  induction l as [|a l IH]; [congruence|]. intros _. destruct l as [|b l]; [cbn; lia|]. rewrite ascents_cons. cbn [length].
  assert (I := IH ltac:(discriminate)). cbn [length] in I. destruct (Nat.ltb a b); lia.
Qed.
Definition ac (k : nat) := count (fun l => Nat.eqb (ascents l) k).
(** inserting a new maximum after a first element [a] *)
Lemma ac_inserts_tail x : forall l a k, (forall y, In y (a :: l) -> y < x) ->
  count (fun m => Nat.eqb (ascents (a :: m)) k) (inserts x l)
  = (if Nat.eqb (ascents (a :: l)) k then ascents (a :: l) else 0)
    + (if Nat.eqb (S (ascents (a :: l))) k then S (length l) - ascents (a :: l) else 0).
Proof.
  induction l as [|b l IH]; intros a k H.
  - cbn [inserts]. rewrite count_cons, count_nil. cbn [ascents length].
    replace (Nat.ltb a x) with true by (symmetry; apply Nat.ltb_lt, H; left; reflexivity). cbn [plus].
    destruct (Nat.eqb 1 k), (Nat.eqb 0 k); lia.
  - cbn [inserts]. rewrite count_cons, count_map.
    rewrite (count_ext _ (fun m => if Nat.ltb a b then match k with O => false | S p => Nat.eqb (ascents (b :: m)) p end
                                   else Nat.eqb (ascents (b :: m)) k)).
    2:{ intros m Hm. rewrite ascents_cons. destruct (Nat.ltb a b); [|reflexivity]. destruct k; reflexivity. }
    rewrite ascents_cons. replace (Nat.ltb a x) with true by (symmetry; apply Nat.ltb_lt, H; left; reflexivity).
    rewrite (ascents_cons x b). replace (Nat.ltb x b) with false by (symmetry; apply Nat.ltb_ge, Nat.lt_le_incl, H; right; left; reflexivity).
    rewrite (ascents_cons a b). assert (L := ascents_lt (b :: l) ltac:(discriminate)). cbn [length] in *.
    assert (Hb : forall y, In y (b :: l) -> y < x) by (intros y Hy; apply H; right; exact Hy).
    destruct (Nat.ltb a b).
    + destruct k as [|p].
      * rewrite count_zero by auto. cbn [plus Nat.eqb]. reflexivity.
      * rewrite (IH b p Hb). cbn [plus]. change (Nat.eqb (S (S (ascents (b :: l)))) (S p)) with (Nat.eqb (S (ascents (b :: l))) p).
        change (Nat.eqb (S (ascents (b :: l))) (S p)) with (Nat.eqb (ascents (b :: l)) p).
        destruct (Nat.eqb_spec (ascents (b :: l)) p), (Nat.eqb_spec (S (ascents (b :: l))) p); lia.
    + rewrite (IH b k Hb). cbn [plus]. destruct (Nat.eqb_spec (ascents (b :: l)) k), (Nat.eqb_spec (S (ascents (b :: l))) k); lia.
Qed.
Lemma ac_inserts x l k : l <> [] -> (forall y, In y l -> y < x) ->
  ac k (inserts x l) = (if Nat.eqb (ascents l) k then S k else 0) + (if Nat.eqb (S (ascents l)) k then S (length l) - k else 0).
Proof.
  intros Hl H. destruct l as [|a l]; [congruence|]. unfold ac. cbn [inserts]. rewrite count_cons, count_map, (ac_inserts_tail x l a k H).
  rewrite (ascents_cons x a). replace (Nat.ltb x a) with false by (symmetry; apply Nat.ltb_ge, Nat.lt_le_incl, H; left; reflexivity).
  assert (L := ascents_lt (a :: l) Hl). cbn [length plus] in *.
  destruct (Nat.eqb_spec (ascents (a :: l)) k), (Nat.eqb_spec (S (ascents (a :: l))) k); lia.
Qed.
Lemma ac_flat x n k P : 0 < n -> (forall l, In l P -> length l = n /\ forall y, In y l -> y < x) ->
  ac k (flat_map (inserts x) P) = S k * ac k P + match k with O => 0 | S p => (S n - k) * ac p P end.
Proof.
  intros Hn. induction P as [|l P IH]; intros H; [destruct k; cbn; lia|].
  cbn [flat_map]. unfold ac in *. rewrite count_app, IH by (intros m Hm; apply H; right; exact Hm). fold (ac k (inserts x l)).
  destruct (H l ltac:(left; reflexivity)) as [L Hl]. rewrite ac_inserts by (try exact Hl; intros ->; cbn in L; lia).
  rewrite L, count_cons. destruct k as [|p].
  - destruct (Nat.eqb (ascents l) 0); cbn [Nat.eqb]; lia.
  - rewrite count_cons. cbn [Nat.eqb]. set (m := S n - S p). set (c1 := count _ P). set (c2 := count _ P). clearbody m c1 c2.
    destruct (Nat.eqb_spec (ascents l) p), (Nat.eqb_spec (ascents l) (S p)); nia.
Qed.
Lemma ac_le n k : 0 < n -> n <= k -> ac k (perms n) = 0.
Proof.
  intros Hn H. apply count_zero. intros l Hl. apply perms_spec in Hl. apply Nat.eqb_neq.
  assert (L : length l = n) by (rewrite (Permutation_length Hl), seq_length; reflexivity).
  assert (ascents l < length l) by (apply ascents_lt; intros ->; cbn in L; lia). lia.
Qed.
Lemma ac_A n : forall k, Z.of_nat (ac k (perms n)) = A n k.
Proof.
  induction n as [|n IH]; intros k; [destruct k; reflexivity|].
  destruct (Nat.eq_dec n 0) as [->|Hn].
  { destruct k as [|[|k]]; [reflexivity|reflexivity|]. rewrite ac_le by lia. rewrite A_big by lia. reflexivity. }
  cbn [perms]. rewrite (ac_flat (S n) n); [|lia|].
  - destruct k as [|p].
    + rewrite Nat.add_0_r, Nat.mul_1_l. apply IH.
    + rewrite A_SS, <- !IH. destruct (Nat.le_gt_cases p n) as [L|L].
      * rewrite Nat2Z.inj_add, !Nat2Z.inj_mul. replace (Z.of_nat (S n - S p)) with (Z.of_nat n - Z.of_nat p)%Z by lia. rewrite !Nat2Z.inj_succ; ring.
      * rewrite !ac_le by lia. lia.
  - intros l Hl. apply perms_spec in Hl. split; [rewrite (Permutation_length Hl), seq_length; reflexivity|].
    intros y Hy. apply (Permutation_in _ Hl), in_seq in Hy. lia.
Qed.
Lemma A_counts n k : there_are (Z.to_nat (A n k)) (fun l => permutation_of n l /\ ascents l = k).
Proof.
  exists (filter (fun l => Nat.eqb (ascents l) k) (perms n)). split; [apply NoDup_filter, perms_NoDup|]. split.
  - intros l. rewrite filter_In, perms_spec, Nat.eqb_eq. reflexivity.
  - rewrite <- ac_A, Nat2Z.id. reflexivity.
Qed.
