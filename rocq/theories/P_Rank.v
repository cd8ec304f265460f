From Coq Require Import QArith Lqa.
From Verif Require Import Base CountLib M_Rank S_Rank.
Open Scope nat_scope.

(** twice the rank, as a natural number *)
Definition r2 {A} (leb : A -> A -> bool) (t : ties) (n : nat) (x : nat -> A) (i : nat) : nat :=
  match t with
  | Average => n_le leb n x i + n_lt leb n x i + 1
  | MinRank => 2 * S (n_lt leb n x i)
  | MaxRank => 2 * n_le leb n x i
  | Dense => 2 * S (count (fun k => ltb leb (x k) (x i) && first_occ leb x k) (seq 0 n))
  | Ordinal => 2 * S (n_lt leb n x i + count (fun k => eqb leb (x k) (x i)) (seq 0 i))
  end.

Lemma inject_double (k : nat) : (inject_Z (Z.of_nat k) == inject_Z (Z.of_nat (2 * k)) / inject_Z 2)%Q.
Proof.
  replace (Z.of_nat (2*k)) with (2 * Z.of_nat k)%Z by lia. rewrite inject_Z_mult.
  field. 
Qed.

Lemma rankdata_r2 {A} (leb : A -> A -> bool) t n x i :
  (rankdata leb t n x i == inject_Z (Z.of_nat (r2 leb t n x i)) / inject_Z 2)%Q.
Proof. destruct t; unfold rankdata, r2; [reflexivity| | | | ]; apply inject_double. Qed.

Section R.
  Context {A : Type} (leb : A -> A -> bool).
  Hypothesis Hpre : total_preorder leb.
  Notation ltb := (ltb leb). Notation eqb := (eqb leb).

  Lemma leb_total x y : leb x y = true \/ leb y x = true. Proof. apply (proj1 Hpre). Qed.
  Lemma leb_trans x y z : leb x y = true -> leb y z = true -> leb x z = true. Proof. apply (proj2 Hpre). Qed.
  Lemma leb_refl x : leb x x = true. Proof. destruct (leb_total x x); assumption. Qed.
  Lemma ltb_spec x y : ltb x y = true <-> leb y x = false.
  Proof. unfold M_Rank.ltb; destruct (leb y x); simpl; split; congruence. Qed.
  Lemma ltb_leb x y : ltb x y = true -> leb x y = true.
  Proof. rewrite ltb_spec; intros H; destruct (leb_total x y); congruence. Qed.
  Lemma ltb_irrefl x : ltb x x = false.
  Proof. unfold M_Rank.ltb; rewrite leb_refl; reflexivity. Qed.
  Lemma ltb_leb_trans x y z : ltb x y = true -> leb y z = true -> ltb x z = true.
  Proof.
    rewrite !ltb_spec; intros H1 H2. destruct (leb z x) eqn:E; [|reflexivity].
    rewrite <- H1; symmetry; eapply leb_trans; eassumption.
  Qed.
  Lemma leb_ltb_trans x y z : leb x y = true -> ltb y z = true -> ltb x z = true.
  Proof.
    rewrite !ltb_spec; intros H1 H2. destruct (leb z x) eqn:E; [|reflexivity].
    rewrite <- H2; symmetry; eapply leb_trans; eassumption.
  Qed.
  Lemma eqb_spec x y : eqb x y = true <-> leb x y = true /\ leb y x = true.
  Proof. apply andb_true_iff. Qed.
  Lemma eqb_refl x : eqb x x = true. Proof. apply eqb_spec; split; apply leb_refl. Qed.
  Lemma eqb_sym x y : eqb x y = eqb y x. Proof. apply andb_comm. Qed.
  Lemma eqb_trans x y z : eqb x y = true -> eqb y z = true -> eqb x z = true.
  Proof. rewrite !eqb_spec; intros [] []; split; eapply leb_trans; eassumption. Qed.
  Lemma leb_split x y : leb x y = ltb x y || eqb x y.
  Proof.
    unfold M_Rank.ltb, M_Rank.eqb. pose proof (leb_total x y).
    destruct (leb x y), (leb y x); simpl; try reflexivity; destruct H; congruence.
  Qed.
  Lemma ltb_not_eqb x y : ltb x y = true -> eqb x y = false.
  Proof. rewrite ltb_spec. unfold M_Rank.eqb. intros ->. apply andb_false_r. Qed.
  Lemma tied_eqb x y : tied leb x y <-> eqb x y = true.
  Proof. symmetry; apply eqb_spec. Qed.
  Lemma below_ltb x y : below leb x y <-> ltb x y = true.
  Proof. unfold below; rewrite ltb_spec. split; [tauto|]. intros H; split; [|exact H]. destruct (leb_total x y); congruence. Qed.

  Lemma eqb_leb_l a b c : eqb a b = true -> leb a c = leb b c.
  Proof.
    rewrite eqb_spec; intros [H1 H2]. destruct (leb a c) eqn:E1, (leb b c) eqn:E2; try reflexivity.
    - rewrite <- E2; symmetry; eapply leb_trans; eassumption.
    - rewrite <- E1; eapply leb_trans; eassumption.
  Qed.
  Lemma eqb_leb_r a b c : eqb a b = true -> leb c a = leb c b.
  Proof.
    rewrite eqb_spec; intros [H1 H2]. destruct (leb c a) eqn:E1, (leb c b) eqn:E2; try reflexivity.
    - rewrite <- E2; symmetry; eapply leb_trans; eassumption.
    - rewrite <- E1; eapply leb_trans; eassumption.
  Qed.
  Lemma eqb_ltb_r a b c : eqb a b = true -> ltb c a = ltb c b.
  Proof. intros H; unfold M_Rank.ltb; rewrite (eqb_leb_l _ _ c H); reflexivity. Qed.

  (** lexicographic comparison (value, position) used by ordinal ranks *)
  Definition lexb (x : nat -> A) (k i : nat) : bool := ltb (x k) (x i) || (eqb (x k) (x i) && (k <=? i)).

  Lemma seq_split3 n i : i < n -> seq 0 n = seq 0 i ++ i :: seq (S i) (n - i - 1).
  Proof.
    intros H. replace n with (i + (1 + (n - i - 1))) at 1 by lia.
    rewrite seq_app, seq_app. replace (0 + i + 1) with (S i) by lia. reflexivity.
  Qed.

  Lemma ordinal_lex n x i : i < n ->
    S (n_lt leb n x i + count (fun k => eqb (x k) (x i)) (seq 0 i)) = count (fun k => lexb x k i) (seq 0 n).
  Proof.
    intros Hi. unfold lexb.
    rewrite (count_disj (fun k => ltb (x k) (x i)) (fun k => eqb (x k) (x i) && (k <=? i))).
    2:{ intros k _ H. rewrite (ltb_not_eqb _ _ H). reflexivity. }
    unfold n_lt.
    enough (count (fun k => eqb (x k) (x i) && (k <=? i)) (seq 0 n)
            = S (count (fun k => eqb (x k) (x i)) (seq 0 i))) as -> by lia.
    rewrite (seq_split3 n i Hi), count_app, count_cons.
    rewrite eqb_refl, Nat.leb_refl. cbn [andb].
    rewrite (count_zero _ (seq (S i) _)).
    2:{ intros k Hk. apply in_seq in Hk. destruct (Nat.leb_spec k i); [lia|]. apply andb_false_r. }
    rewrite (count_ext _ (fun k => eqb (x k) (x i)) (seq 0 i)); [lia|].
    intros k Hk. apply in_seq in Hk. destruct (Nat.leb_spec k i); [|lia]. apply andb_true_r.
  Qed.

  Lemma lexb_refl x i : lexb x i i = true.
  Proof. unfold lexb; rewrite eqb_refl, Nat.leb_refl. apply orb_true_r. Qed.
  Lemma lexb_trans x i j k : lexb x i j = true -> lexb x j k = true -> lexb x i k = true.
  Proof.
    unfold lexb; rewrite !orb_true_iff, !andb_true_iff, !Nat.leb_le.
    intros [H1|[H1 L1]] [H2|[H2 L2]].
    - left. eapply ltb_leb_trans; [exact H1|apply ltb_leb; exact H2].
    - left. eapply ltb_leb_trans; [exact H1|]. apply eqb_spec in H2; tauto.
    - left. eapply leb_ltb_trans; [|exact H2]. apply eqb_spec in H1; tauto.
    - right; split; [eapply eqb_trans; eassumption|lia].
  Qed.
  Lemma lexb_total x i j : lexb x i j = true \/ lexb x j i = true.
  Proof.
    unfold lexb; rewrite !orb_true_iff, !andb_true_iff, !Nat.leb_le, !eqb_spec, !ltb_spec.
    destruct (leb (x i) (x j)) eqn:E1, (leb (x j) (x i)) eqn:E2; try tauto.
    destruct (Nat.le_ge_cases i j); tauto.
  Qed.
  Lemma lexb_antisym x i j : lexb x i j = true -> lexb x j i = true -> i = j.
  Proof.
    unfold lexb; rewrite !orb_true_iff, !andb_true_iff, !Nat.leb_le, !ltb_spec, !eqb_spec.
    intros [H1|[[H1 H1'] L1]] [H2|[[H2 H2'] L2]]; try congruence; try lia.
    destruct (leb_total (x i) (x j)); congruence.
  Qed.

  Lemma n_lt_lt_n_le n x i : i < n -> n_lt leb n x i < n_le leb n x i.
  Proof.
    intros H. unfold n_lt, n_le. eapply (count_lt _ _ _ i).
    - intros k _; apply ltb_leb.
    - apply seq_in; exact H.
    - apply ltb_irrefl.
    - apply leb_refl.
  Qed.
  Lemma n_le_bound n x i : n_le leb n x i <= n.
  Proof. unfold n_le. rewrite <- (seq_length n 0) at 2. apply count_le_length. Qed.
  Lemma dense_le n x i :
    count (fun k => ltb (x k) (x i) && first_occ leb x k) (seq 0 n) <= n_lt leb n x i.
  Proof. apply count_mono. intros k _; rewrite andb_true_iff; tauto. Qed.

  Lemma r2_bounds t n x i : i < n -> 2 <= r2 leb t n x i <= 2 * n.
  Proof.
    intros H. pose proof (n_lt_lt_n_le n x i H). pose proof (n_le_bound n x i).
    pose proof (dense_le n x i).
    destruct t; cbn [r2]; try lia.
    rewrite (ordinal_lex n x i H).
    pose proof (count_le_length (fun k => lexb x k i) (seq 0 n)). rewrite seq_length in *.
    pose proof (count_pos (fun k => lexb x k i) (seq 0 n) i (proj2 (seq_in n i) H) (lexb_refl x i)). lia.
  Qed.

  (* each tie class has a first occurrence *)
  Lemma first_occ_exists n x i : i < n -> exists k, k < n /\ first_occ leb x k = true /\ eqb (x k) (x i) = true.
  Proof.
    intros H. revert n H. induction i as [i IH] using lt_wf_ind. intros n H.
    destruct (first_occ leb x i) eqn:E; [exists i; rewrite eqb_refl; auto|].
    unfold first_occ in E. apply negb_false_iff, existsb_exists in E. destruct E as [j [Hj Ej]].
    apply seq_in in Hj. destruct (IH j Hj n ltac:(lia)) as [k [Hk [F Ek]]].
    exists k; repeat split; auto. eapply eqb_trans; eassumption.
  Qed.

  Lemma r2_lt t n x i k : i < n -> k < n -> ltb (x i) (x k) = true -> r2 leb t n x i < r2 leb t n x k.
  Proof.
    intros Hi Hk L.
    assert (E1 : n_lt leb n x i < n_lt leb n x k).
    { unfold n_lt. eapply (count_lt _ _ _ i).
      - intros j _ Hj. eapply ltb_leb_trans; [exact Hj|apply ltb_leb; exact L].
      - apply seq_in; exact Hi.
      - apply ltb_irrefl.
      - exact L. }
    assert (E2 : n_le leb n x i < n_le leb n x k).
    { unfold n_le. eapply (count_lt _ _ _ k).
      - intros j _ Hj. apply ltb_leb. eapply leb_ltb_trans; eassumption.
      - apply seq_in; exact Hk.
      - apply ltb_spec; exact L.
      - apply leb_refl. }
    destruct t; cbn [r2]; try lia.
    - destruct (first_occ_exists n x i Hi) as [f [Hf [Ff Ef]]].
      enough (count (fun k0 => ltb (x k0) (x i) && first_occ leb x k0) (seq 0 n)
              < count (fun k0 => ltb (x k0) (x k) && first_occ leb x k0) (seq 0 n)) by lia.
      apply (count_lt _ _ _ f).
      + intros j _. rewrite !andb_true_iff; intros [Hj Fj]; split; [|exact Fj].
        eapply ltb_leb_trans; [exact Hj|apply ltb_leb; exact L].
      + apply seq_in; exact Hf.
      + apply andb_false_iff; left.
        destruct (ltb (x f) (x i)) eqn:E; [|reflexivity]. apply ltb_not_eqb in E. congruence.
      + apply andb_true_iff; split; [|exact Ff]. eapply leb_ltb_trans; [|exact L]. apply eqb_spec in Ef; tauto.
    - rewrite !ordinal_lex by assumption.
      enough (count (fun k0 => lexb x k0 i) (seq 0 n) < count (fun k0 => lexb x k0 k) (seq 0 n)) by lia.
      assert (Lik : lexb x i k = true) by (unfold lexb; rewrite L; reflexivity).
      apply (count_lt _ _ _ k).
      + intros j _ Hj. eapply lexb_trans; eassumption.
      + apply seq_in; exact Hk.
      + destruct (lexb x k i) eqn:E; [|reflexivity]. pose proof (lexb_antisym _ _ _ E Lik); subst.
        rewrite ltb_irrefl in L; discriminate.
      + apply lexb_refl.
  Qed.

  Lemma r2_ordinal_lt n x i k : i < n -> k < n -> i <> k -> lexb x i k = true ->
    r2 leb Ordinal n x i < r2 leb Ordinal n x k.
  Proof.
    intros Hi Hk Hne L. cbn [r2]. rewrite !ordinal_lex by assumption.
    enough (count (fun k0 => lexb x k0 i) (seq 0 n) < count (fun k0 => lexb x k0 k) (seq 0 n)) by lia.
    apply (count_lt _ _ _ k).
    - intros j _ Hj. eapply lexb_trans; eassumption.
    - apply seq_in; exact Hk.
    - destruct (lexb x k i) eqn:E; [|reflexivity]. pose proof (lexb_antisym _ _ _ E L); congruence.
    - apply lexb_refl.
  Qed.

  Lemma r2_eq t n x i k : t <> Ordinal -> eqb (x i) (x k) = true -> r2 leb t n x i = r2 leb t n x k.
  Proof.
    intros Ht E.
    assert (E1 : n_lt leb n x i = n_lt leb n x k).
    { apply count_ext. intros j _. apply eqb_ltb_r; exact E. }
    assert (E2 : n_le leb n x i = n_le leb n x k).
    { apply count_ext. intros j _. apply eqb_leb_r; exact E. }
    destruct t; cbn [r2]; try lia; [|congruence].
    do 2 f_equal. apply count_ext. intros j _. rewrite (eqb_ltb_r _ _ (x j) E). reflexivity.
  Qed.

  Lemma leb_r2 t n x i k : t <> Ordinal -> i < n -> k < n ->
    (r2 leb t n x i <=? r2 leb t n x k) = leb (x i) (x k).
  Proof.
    intros Ht Hi Hk. destruct (leb (x i) (x k)) eqn:E.
    - rewrite leb_split in E. apply orb_true_iff in E. apply Nat.leb_le. destruct E as [E|E].
      + apply Nat.lt_le_incl, r2_lt; assumption.
      + rewrite (r2_eq t n x i k Ht E). reflexivity.
    - apply Nat.leb_gt. apply r2_lt; try assumption. apply ltb_spec; exact E.
  Qed.
  Lemma lex_r2 n x i k : i < n -> k < n ->
    (r2 leb Ordinal n x i <=? r2 leb Ordinal n x k) = lexb x i k.
  Proof.
    intros Hi Hk. destruct (Nat.eq_dec i k) as [->|Hne].
    - rewrite lexb_refl. apply Nat.leb_refl.
    - destruct (lexb x i k) eqn:E.
      + apply Nat.leb_le, Nat.lt_le_incl, r2_ordinal_lt; assumption.
      + apply Nat.leb_gt, r2_ordinal_lt; auto. destruct (lexb_total x i k); congruence.
  Qed.
End R.

(** order-isomorphic columns have the same ranks *)
Section Iso.
  Context {A B : Type} (leA : A -> A -> bool) (leB : B -> B -> bool).
  Lemma rankdata_iso t n (x : nat -> A) (y : nat -> B) i :
    (forall j k, j < n -> k < n -> leA (x j) (x k) = leB (y j) (y k)) -> i < n ->
    rankdata leA t n x i = rankdata leB t n y i.
  Proof.
    intros H Hi.
    assert (Hlt : forall j k, j < n -> k < n -> ltb leA (x j) (x k) = ltb leB (y j) (y k)).
    { intros j k Hj Hk. unfold ltb. rewrite H by assumption. reflexivity. }
    assert (Heq : forall j k, j < n -> k < n -> eqb leA (x j) (x k) = eqb leB (y j) (y k)).
    { intros j k Hj Hk. unfold eqb. rewrite !H by assumption. reflexivity. }
    assert (E1 : n_lt leA n x i = n_lt leB n y i).
    { apply count_ext. intros k Hk. apply seq_in in Hk. apply Hlt; assumption. }
    assert (E2 : n_le leA n x i = n_le leB n y i).
    { apply count_ext. intros k Hk. apply seq_in in Hk. apply H; assumption. }
    unfold rankdata. rewrite E1, E2. destruct t; try reflexivity.
    - f_equal. f_equal. f_equal. apply count_ext. intros k Hk. apply seq_in in Hk.
      rewrite Hlt by assumption. f_equal. unfold first_occ. f_equal.
      assert (G : forall l, (forall j, In j l -> j < n) ->
        existsb (fun j => eqb leA (x j) (x k)) l = existsb (fun j => eqb leB (y j) (y k)) l).
      { induction l as [|a l IH]; intros Hl; [reflexivity|]. simpl.
        rewrite Heq, IH; auto; intros; apply Hl; [right|left]; auto. }
      apply G. intros j Hj. apply seq_in in Hj. lia.
    - f_equal. f_equal. f_equal. f_equal. apply count_ext. intros k Hk. apply seq_in in Hk. apply Heq; lia.
  Qed.
End Iso.

Section R2.
  Context {A : Type} (leb : A -> A -> bool).
  Hypothesis Hpre : total_preorder leb.
  Notation ltb := (ltb leb). Notation eqb := (eqb leb).

  (** dense counts depend only on the set of values of the column *)
  Lemma dense_mono n m (x y : nat -> A) a :
    (forall k, k < n -> exists j, j < m /\ eqb (x k) (y j) = true) ->
    count (fun k => ltb (x k) a && first_occ leb x k) (seq 0 n)
    <= count (fun j => ltb (y j) a && first_occ leb y j) (seq 0 m).
  Proof.
    intros H.
    set (P := fun k j => eqb (x k) (y j) && first_occ leb y j).
    set (h := fun k => hd 0 (filter (P k) (seq 0 m))).
    assert (Hh : forall k, k < n -> h k < m /\ eqb (x k) (y (h k)) = true /\ first_occ leb y (h k) = true).
    { intros k Hk. destruct (H k Hk) as [j [Hj Ej]].
      destruct (first_occ_exists leb Hpre m y j Hj) as [f [Hf [Ff Ef]]].
      assert (Pf : P k f = true).
      { unfold P. apply andb_true_iff; split; [|exact Ff].
        eapply (eqb_trans leb Hpre); [exact Ej|]. rewrite eqb_sym; exact Ef. }
      assert (Hin : In f (filter (P k) (seq 0 m))).
      { apply filter_In; split; [apply seq_in; exact Hf|exact Pf]. }
      unfold h. destruct (filter (P k) (seq 0 m)) as [|g r] eqn:E; [destruct Hin|]. cbn [hd].
      assert (Hg : In g (filter (P k) (seq 0 m))) by (rewrite E; left; reflexivity).
      apply filter_In in Hg. destruct Hg as [Hg1 Hg2]. unfold P in Hg2. apply andb_true_iff in Hg2.
      apply seq_in in Hg1. tauto. }
    apply (count_inj _ _ h).
    - apply seq_NoDup.
    - intros k Hk. apply seq_in in Hk. rewrite andb_true_iff; intros [L F].
      destruct (Hh k Hk) as [H1 [H2 H3]]. split; [apply seq_in; exact H1|].
      apply andb_true_iff; split; [|exact H3].
      eapply (leb_ltb_trans leb Hpre); [|exact L]. apply eqb_spec in H2; tauto.
    - assert (W : forall k k', k < k' -> k' < n -> first_occ leb x k' = true -> h k = h k' -> False).
      { intros k k' Hkk Hk' F' E.
        destruct (Hh k ltac:(lia)) as [_ [H2 _]]. destruct (Hh k' Hk') as [_ [H2' _]].
        rewrite <- E in H2'.
        assert (Ekk : eqb (x k) (x k') = true) by (eapply (eqb_trans leb Hpre); [exact H2|rewrite eqb_sym; exact H2']).
        unfold first_occ in F'. apply negb_true_iff in F'.
        assert (existsb (fun j => eqb (x j) (x k')) (seq 0 k') = true).
        { apply existsb_exists. exists k; split; [apply seq_in; exact Hkk|exact Ekk]. }
        congruence. }
      intros k k' Hk Hk' Fk Fk' E. apply seq_in in Hk. apply seq_in in Hk'.
      apply andb_true_iff in Fk. apply andb_true_iff in Fk'.
      destruct (Nat.lt_trichotomy k k') as [C|[C|C]]; [|exact C|]; exfalso.
      + eapply W; try eassumption; tauto.
      + symmetry in E. eapply W; try eassumption; tauto.
  Qed.

  (** row permutations *)
  Lemma row_perm_Permutation n p : row_permutation n p -> Permutation (map p (seq 0 n)) (seq 0 n).
  Proof.
    intros [q Hq]. apply NoDup_Permutation_bis.
    - assert (G : forall l, NoDup l -> (forall i, In i l -> i < n) -> NoDup (map p l)).
      { induction 1 as [|i l Hi Hl IH]; intros B; simpl; constructor.
        - rewrite in_map_iff; intros [k [E Hk]].
          pose proof (Hq i (B i (or_introl eq_refl))) as [_ [_ [Qi _]]].
          pose proof (Hq k (B k (or_intror Hk))) as [_ [_ [Qk _]]].
          assert (i = k) by congruence. subst; contradiction.
        - apply IH. intros; apply B; right; assumption. }
      apply G; [apply seq_NoDup|]. intros i; apply seq_in.
    - rewrite map_length; reflexivity.
    - intros y. rewrite in_map_iff; intros [i [<- Hi]]. apply seq_in in Hi. apply seq_in. apply (Hq i Hi).
  Qed.

  Lemma rankdata_perm t n x p i : t <> Ordinal -> row_permutation n p -> i < n ->
    rankdata leb t n (fun k => x (p k)) i = rankdata leb t n x (p i).
  Proof.
    intros Ht Hp Hi. pose proof (row_perm_Permutation n p Hp) as P.
    assert (E1 : n_lt leb n (fun k => x (p k)) i = n_lt leb n x (p i)).
    { unfold n_lt. rewrite <- (count_perm (fun k => ltb (x k) (x (p i))) _ _ P), count_map. reflexivity. }
    assert (E2 : n_le leb n (fun k => x (p k)) i = n_le leb n x (p i)).
    { unfold n_le. rewrite <- (count_perm (fun k => leb (x k) (x (p i))) _ _ P), count_map. reflexivity. }
    unfold rankdata. rewrite E1, E2. destruct t; try reflexivity; [|congruence].
    f_equal. f_equal. f_equal. destruct Hp as [q Hq]. apply Nat.le_antisymm; apply dense_mono.
    - intros k Hk. exists (p k). split; [apply (Hq k Hk)|]. apply eqb_refl; exact Hpre.
    - intros k Hk. exists (q k). destruct (Hq k Hk) as [_ [H1 [_ H2]]]. split; [exact H1|].
      rewrite H2. apply eqb_refl; exact Hpre.
  Qed.

  (** sums *)
  Fixpoint nsum (f : nat -> nat) (l : list nat) : nat := match l with [] => 0 | i :: r => f i + nsum f r end.
  Lemma nsum_ext f g l : (forall i, In i l -> f i = g i) -> nsum f l = nsum g l.
  Proof. induction l as [|i l IH]; intros H; [reflexivity|]. simpl. rewrite (H i (or_introl eq_refl)), IH; [reflexivity|]. intros; apply H; right; assumption. Qed.
  Lemma nsum_add f g l : nsum (fun i => f i + g i) l = nsum f l + nsum g l.
  Proof. induction l as [|i l IH]; simpl; lia. Qed.
  Lemma nsum_const c l : nsum (fun _ => c) l = c * length l.
  Proof. induction l as [|i l IH]; simpl; lia. Qed.
  Lemma count_nsum (f : nat -> bool) l : count f l = nsum (fun i => if f i then 1 else 0) l.
  Proof. induction l as [|i l IH]; [reflexivity|]. rewrite count_cons, IH; reflexivity. Qed.
  Lemma nsum_swap (f : nat -> nat -> nat) l l' :
    nsum (fun i => nsum (fun j => f i j) l') l = nsum (fun j => nsum (fun i => f i j) l) l'.
  Proof.
    induction l as [|i l IH]; simpl.
    - rewrite nsum_const; lia.
    - rewrite IH, <- nsum_add. reflexivity.
  Qed.

  Lemma average_sum_nat n x : nsum (r2 leb Average n x) (seq 0 n) = n * n + n.
  Proof.
    rewrite (nsum_ext _ (fun i => n_le leb n x i + n_lt leb n x i + 1)) by reflexivity.
    rewrite nsum_add, nsum_const, nsum_add, seq_length.
    unfold n_le, n_lt.
    rewrite (nsum_ext _ (fun i => nsum (fun k => if leb (x k) (x i) then 1 else 0) (seq 0 n)))
      by (intros; apply count_nsum).
    rewrite (nsum_ext (fun i => count _ _) (fun i => nsum (fun k => if ltb (x k) (x i) then 1 else 0) (seq 0 n)))
      by (intros; apply count_nsum).
    rewrite (nsum_swap (fun i k => if ltb (x k) (x i) then 1 else 0)).
    rewrite <- nsum_add.
    rewrite (nsum_ext _ (fun _ => n)).
    - rewrite nsum_const, seq_length. lia.
    - intros i _. rewrite <- nsum_add.
      rewrite (nsum_ext _ (fun _ => 1)).
      + rewrite nsum_const, seq_length. lia.
      + intros k _. unfold M_Rank.ltb. destruct (leb (x k) (x i)); reflexivity.
  Qed.

  Lemma Qsum_nsum (f : nat -> Q) (g : nat -> nat) l :
    (forall i, In i l -> (f i == inject_Z (Z.of_nat (g i)) / inject_Z 2)%Q) ->
    (Qsum (map f l) == inject_Z (Z.of_nat (nsum g l)) / inject_Z 2)%Q.
  Proof.
    induction l as [|i l IH]; intros H; [reflexivity|]. simpl map; simpl Qsum; simpl nsum.
    rewrite (H i (or_introl eq_refl)), IH by (intros; apply H; right; assumption).
    rewrite Nat2Z.inj_add, inject_Z_plus. field.
  Qed.

  Lemma average_sum n x :
    (Qsum (map (rankdata leb Average n x) (seq 0 n)) == inject_Z (Z.of_nat (n * (n + 1))) / inject_Z 2)%Q.
  Proof.
    rewrite (Qsum_nsum _ (r2 leb Average n x)) by (intros; apply rankdata_r2).
    rewrite average_sum_nat. replace (n * (n+1)) with (n*n+n) by lia. reflexivity.
  Qed.

  (** ordinal ranks are 1..n in some order; and without ties all methods agree with it *)
  Definition ordn n x i := S (n_lt leb n x i + count (fun k => eqb (x k) (x i)) (seq 0 i)).
  Lemma ordn_perm n x : Permutation (map (ordn n x) (seq 0 n)) (seq 1 n).
  Proof.
    apply NoDup_Permutation_bis.
    - assert (G : forall l, NoDup l -> (forall i, In i l -> i < n) -> NoDup (map (ordn n x) l)).
      { induction 1 as [|i l Hi Hl IH]; intros B; simpl; constructor.
        - rewrite in_map_iff; intros [k [E Hk]].
          assert (Bi : i < n) by (apply B; left; reflexivity).
          assert (Bk : k < n) by (apply B; right; assumption).
          assert (Hne : i <> k) by (intros ->; contradiction).
          destruct (lexb_total leb x i k) as [L|L].
          + pose proof (r2_ordinal_lt leb Hpre n x i k Bi Bk Hne L) as R. cbn [r2] in R. unfold ordn in E. lia.
          + pose proof (r2_ordinal_lt leb Hpre n x k i Bk Bi ltac:(auto) L) as R. cbn [r2] in R. unfold ordn in E. lia.
        - apply IH. intros; apply B; right; assumption. }
      apply G; [apply seq_NoDup|]. intros i; apply seq_in.
    - rewrite map_length, !seq_length; reflexivity.
    - intros y. rewrite in_map_iff; intros [i [<- Hi]]. apply seq_in in Hi. apply in_seq.
      pose proof (r2_bounds leb Hpre Ordinal n x i Hi) as R. cbn [r2] in R. unfold ordn. lia.
  Qed.

  Lemma no_ties_r2 t n x i : no_ties leb n x -> i < n -> r2 leb t n x i = 2 * ordn n x i.
  Proof.
    intros Hn Hi.
    assert (Z : count (fun k => eqb (x k) (x i)) (seq 0 i) = 0).
    { apply count_zero. intros k Hk. apply seq_in in Hk.
      destruct (eqb (x k) (x i)) eqn:E; [|reflexivity].
      apply tied_eqb in E. apply Hn in E; lia. }
    assert (E2 : n_le leb n x i = n_lt leb n x i + 1).
    { unfold n_le, n_lt.
      rewrite (count_ext _ (fun k => ltb (x k) (x i) || eqb (x k) (x i))) by (intros; apply leb_split; exact Hpre).
      rewrite count_disj by (intros k _; apply ltb_not_eqb).
      f_equal. rewrite (seq_split3 n i Hi), count_app, count_cons, Z, (eqb_refl leb Hpre).
      rewrite count_zero; [reflexivity|]. intros k Hk. apply in_seq in Hk.
      destruct (eqb (x k) (x i)) eqn:E; [|reflexivity].
      apply tied_eqb in E. apply Hn in E; lia. }
    unfold ordn. destruct t; cbn [r2]; rewrite ?E2, ?Z; try lia.
    do 2 f_equal. rewrite Nat.add_0_r. apply count_ext. intros k Hk. apply seq_in in Hk.
    replace (first_occ leb x k) with true; [apply andb_true_r|].
    symmetry. unfold first_occ. apply negb_true_iff.
    destruct (existsb (fun j => eqb (x j) (x k)) (seq 0 k)) eqn:E; [|reflexivity].
    apply existsb_exists in E. destruct E as [j [Hj Ej]]. apply seq_in in Hj.
    apply tied_eqb in Ej. apply Hn in Ej; lia.
  Qed.

  (** positions in the sorted column *)
  Lemma sorted_count (f : A -> bool) s p b :
    StronglySorted (fun a b => leb a b = true) s ->
    (forall a b, leb a b = true -> f b = true -> f a = true) ->
    nth_error s p = Some b -> (f b = true <-> p < count f s).
  Proof.
    intros Hs Hd. revert p. induction Hs as [|a s Hs IH Ha]; intros p Hp.
    - destruct p; discriminate.
    - destruct p as [|p]; cbn [nth_error] in Hp.
      + injection Hp as ->. rewrite count_cons. split.
        * intros ->. lia.
        * destruct (f b) eqn:E; [reflexivity|]. intros H.
          destruct (count_ex f s ltac:(lia)) as [c [Hc Ec]].
          rewrite Forall_forall in Ha. rewrite (Hd b c (Ha c Hc) Ec) in E. discriminate.
      + rewrite count_cons. assert (Hin : In b s) by (eapply nth_error_In; exact Hp).
        rewrite (IH p Hp). rewrite Forall_forall in Ha.
        destruct (f a) eqn:E; [lia|]. split; [|lia]. intros H.
        apply (IH p Hp) in H. rewrite (Hd a b (Ha b Hin) H) in E. discriminate.
  Qed.

  Lemma sorted_counts n x s a : sorted_column leb n x s ->
    count (fun k => ltb (x k) a) (seq 0 n) = count (fun b => ltb b a) s /\
    count (fun k => leb (x k) a) (seq 0 n) = count (fun b => leb b a) s.
  Proof.
    intros [P _]. split; rewrite <- (count_perm _ _ _ P), count_map; reflexivity.
  Qed.

  Lemma position_iff n x s a p : sorted_column leb n x s -> 
    holds_at leb s p a <->
    (count (fun k => ltb (x k) a) (seq 0 n) < p <= count (fun k => leb (x k) a) (seq 0 n)).
  Proof.
    intros Hs. destruct (sorted_counts n x s a Hs) as [-> ->].
    assert (D1 : forall u v, leb u v = true -> ltb v a = true -> ltb u a = true)
      by (intros; eapply leb_ltb_trans; eassumption).
    assert (D2 : forall u v, leb u v = true -> leb v a = true -> leb u a = true)
      by (intros; eapply leb_trans; eassumption).
    split.
    - intros [H1 [b [Hb [T1 T2]]]].
      pose proof (sorted_count (fun b => ltb b a) s (p-1) b (proj2 Hs) D1 Hb) as E1.
      pose proof (sorted_count (fun b => leb b a) s (p-1) b (proj2 Hs) D2 Hb) as E2.
      cbn beta in *. rewrite ltb_spec in E1.
      assert (~ p - 1 < count (fun b => ltb b a) s) by (intros H; apply E1 in H; congruence).
      apply E2 in T2. lia.
    - intros [H1 H2]. split; [lia|].
      destruct (nth_error s (p-1)) as [b|] eqn:Hb.
      2:{ apply nth_error_None in Hb. pose proof (count_le_length (fun b => leb b a) s). lia. }
      exists b; split; [reflexivity|].
      pose proof (sorted_count (fun b => ltb b a) s (p-1) b (proj2 Hs) D1 Hb) as E1.
      pose proof (sorted_count (fun b => leb b a) s (p-1) b (proj2 Hs) D2 Hb) as E2.
      cbn beta in *. rewrite ltb_spec in E1. split; [|apply E2; lia].
      destruct (leb a b) eqn:E; [reflexivity|]. assert (p - 1 < count (fun b => ltb b a) s) by (apply E1; reflexivity). lia.
  Qed.

  Lemma first_position_min n x s i : sorted_column leb n x s -> i < n ->
    first_position leb s (S (n_lt leb n x i)) (x i).
  Proof.
    intros Hs Hi. pose proof (n_lt_lt_n_le leb Hpre n x i Hi) as L. unfold n_lt, n_le in *. split.
    - apply (position_iff n x); [exact Hs|]. lia.
    - intros q Hq. apply (position_iff n x) in Hq; [|exact Hs]. lia.
  Qed.
  Lemma last_position_max n x s i : sorted_column leb n x s -> i < n ->
    last_position leb s (n_le leb n x i) (x i).
  Proof.
    intros Hs Hi. pose proof (n_lt_lt_n_le leb Hpre n x i Hi) as L. unfold n_lt, n_le in *. split.
    - apply (position_iff n x); [exact Hs|]. lia.
    - intros q Hq. apply (position_iff n x) in Hq; [|exact Hs]. lia.
  Qed.
  Lemma ordinal_position n x s i : sorted_column leb n x s -> i < n ->
    holds_at leb s (ordn n x i) (x i).
  Proof.
    intros Hs Hi. apply (position_iff n x); [exact Hs|]. unfold ordn. split; [unfold n_lt; lia|].
    rewrite (ordinal_lex leb Hpre n x i Hi). apply count_mono.
    intros k _. unfold lexb. rewrite orb_true_iff, andb_true_iff.
    intros [H|[H _]]; [apply ltb_leb; assumption|]. apply eqb_spec in H; tauto.
  Qed.

  (** dense rank = position in the strictly sorted list of distinct values *)
  Lemma dense_position n x s i :
    StronglySorted (below leb) s ->
    (forall k, k < n -> exists b, In b s /\ tied leb (x k) b) ->
    (forall b, In b s -> exists k, k < n /\ tied leb b (x k)) ->
    i < n ->
    holds_at leb s (S (count (fun k => ltb (x k) (x i) && first_occ leb x k) (seq 0 n))) (x i).
  Proof.
    intros Hs H1 H2 Hi.
    set (y := fun j => nth j s (x i)).
    assert (Hys : map y (seq 0 (length s)) = s).
    { unfold y. clear. induction s as [|a s IH]; [reflexivity|]. cbn [length seq map nth]. f_equal.
      rewrite <- seq_shift, map_map. exact IH. }
    assert (Hle : StronglySorted (fun a b => leb a b = true) s).
    { clear -Hs. induction Hs as [|a s Hs IH Ha]; constructor; [exact IH|].
      eapply Forall_impl; [|exact Ha]. intros b [Hb _]; exact Hb. }
    assert (Hc : sorted_column leb (length s) y s) by (split; [rewrite Hys; reflexivity|exact Hle]).
    assert (Hnt : forall j k, j < k -> k < length s -> ltb (y j) (y k) = true).
    { clear -Hs Hpre. subst y. induction Hs as [|a s Hs IH Ha]; intros j k Hjk Hk; [simpl in Hk; lia|].
      destruct k as [|k]; [lia|]. destruct j as [|j]; cbn [nth].
      - apply (below_ltb leb Hpre). rewrite Forall_forall in Ha. apply Ha, nth_In. simpl in Hk; lia.
      - apply IH; simpl in Hk; lia. }
    assert (E : count (fun k => ltb (x k) (x i) && first_occ leb x k) (seq 0 n)
                = count (fun j => ltb (y j) (x i)) (seq 0 (length s))).
    { transitivity (count (fun j => ltb (y j) (x i) && first_occ leb y j) (seq 0 (length s))).
      - apply Nat.le_antisymm; apply dense_mono.
        + intros k Hk. destruct (H1 k Hk) as [b [Hb T]]. apply (In_nth _ _ (x i)) in Hb.
          destruct Hb as [j [Hj Ej]]. exists j; split; [exact Hj|]. unfold y; rewrite Ej. apply (tied_eqb leb); exact T.
        + intros j Hj. destruct (H2 (y j)) as [k [Hk T]]; [apply nth_In; exact Hj|].
          exists k; split; [exact Hk|apply (tied_eqb leb); exact T].
      - apply count_ext. intros j Hj. apply seq_in in Hj.
        replace (first_occ leb y j) with true; [apply andb_true_r|].
        symmetry. unfold first_occ. apply negb_true_iff.
        destruct (existsb (fun j0 => eqb (y j0) (y j)) (seq 0 j)) eqn:E; [|reflexivity].
        apply existsb_exists in E. destruct E as [k [Hk Ek]]. apply seq_in in Hk.
        pose proof (Hnt k j Hk Hj) as L. apply ltb_not_eqb in L. congruence. }
    rewrite E. apply (position_iff (length s) y); [exact Hc|]. split; [lia|].
    destruct (H1 i Hi) as [b [Hb [T1 T2]]]. apply (In_nth _ _ (x i)) in Hb. destruct Hb as [j [Hj Ej]].
    eapply (count_lt _ _ _ j).
    - intros k _; apply ltb_leb; exact Hpre.
    - apply seq_in; exact Hj.
    - unfold y. rewrite Ej. unfold M_Rank.ltb; rewrite T1; reflexivity.
    - unfold y. rewrite Ej. exact T2.
  Qed.
End R2.

(** ---- lifting to pseudo_obs ---- *)
Section Pobs.
  Context {A : Type} (leb : A -> A -> bool).

  Lemma pseudo_obs_Ok data s u : pseudo_obs leb data s = Ok u ->
    exists t, parse_ties s = Ok t /\ nr u = nr data /\ nc u = nc data /\
      forall i j, get u i j = (rankdata leb t (nr data) (fun k => get data k j) i
                               / inject_Z (Z.of_nat (nr data + 1)))%Q.
  Proof.
    unfold pseudo_obs, rank_data2. destruct (parse_ties s) as [t|e]; cbn; [|discriminate].
    intros [= <-]. exists t. cbn. auto.
  Qed.

  Lemma parse_ties_ordinal s t : parse_ties s = Ok t -> lower s <> "ordinal"%string -> t <> Ordinal.
  Proof.
    intros H N ->. revert H. unfold parse_ties.
    repeat (match goal with |- context [String.eqb ?a ?b] => destruct (String.eqb_spec a b) end; [congruence|]).
    congruence.
  Qed.
  Lemma parse_ties_is_ordinal s t : parse_ties s = Ok t -> lower s = "ordinal"%string -> t = Ordinal.
  Proof. unfold parse_ties. intros H E. rewrite E in H. cbn in H. congruence. Qed.
  Lemma parse_ties_ok s : In (lower s) ["average"; "min"; "max"; "dense"; "ordinal"]%string ->
    exists t, parse_ties s = Ok t.
  Proof.
    unfold parse_ties. cbn. intuition (subst; match goal with H : _ = lower s |- _ => rewrite <- H; cbn; eauto end).
  Qed.
  Lemma parse_ties_err s : ~ In (lower s) ["average"; "min"; "max"; "dense"; "ordinal"]%string ->
    parse_ties s = Err ValueError.
  Proof.
    unfold parse_ties. cbn. intros H.
    repeat (match goal with |- context [String.eqb ?a ?b] => destruct (String.eqb_spec a b) as [E|_] end;
            [exfalso; apply H; rewrite E; tauto|]). reflexivity.
  Qed.

  Lemma Qn1_pos n : (0 < inject_Z (Z.of_nat (n + 1)))%Q.
  Proof. replace 0%Q with (inject_Z 0) by reflexivity. rewrite <- Zlt_Qlt. lia. Qed.

  Hypothesis Hpre : total_preorder leb.

  Lemma Qdiv_lt_mono a b c : (0 < c)%Q -> (a < b)%Q -> (a / c < b / c)%Q.
  Proof. intros Hc H. unfold Qdiv. apply Qmult_lt_r; [apply Qinv_lt_0_compat; exact Hc|exact H]. Qed.
  Lemma Qdiv_le_mono a b c : (0 < c)%Q -> (a <= b)%Q <-> (a / c <= b / c)%Q.
  Proof. intros Hc. unfold Qdiv. symmetry. apply Qmult_le_r, Qinv_lt_0_compat; exact Hc. Qed.

  Lemma r2_half_lt a b : a < b -> (inject_Z (Z.of_nat a) / inject_Z 2 < inject_Z (Z.of_nat b) / inject_Z 2)%Q.
  Proof. intros H. apply Qdiv_lt_mono; [reflexivity|]. rewrite <- Zlt_Qlt. lia. Qed.
  Lemma r2_half_le a b : (inject_Z (Z.of_nat a) / inject_Z 2 <= inject_Z (Z.of_nat b) / inject_Z 2)%Q <-> a <= b.
  Proof. rewrite <- Qdiv_le_mono by reflexivity. rewrite <- Zle_Qle. lia. Qed.

  Lemma rankdata_bounds t n x i : i < n ->
    (inject_Z 1 <= rankdata leb t n x i <= inject_Z (Z.of_nat n))%Q.
  Proof.
    intros H. pose proof (r2_bounds leb Hpre t n x i H) as [H1 H2].
    rewrite rankdata_r2. split.
    - change (inject_Z 1) with (inject_Z (Z.of_nat 1)). rewrite inject_double.
      apply r2_half_le. lia.
    - rewrite (inject_double n). apply r2_half_le; lia.
  Qed.

  Lemma pobs_range data s u : pseudo_obs leb data s = Ok u ->
    forall i j, i < nr data -> (0 < get u i j /\ get u i j < 1)%Q.
  Proof.
    intros H i j Hi. destruct (pseudo_obs_Ok _ _ _ H) as [t [_ [_ [_ Hg]]]]. rewrite Hg.
    pose proof (rankdata_bounds t (nr data) (fun k => get data k j) i Hi) as [B1 B2].
    split.
    - apply Qlt_shift_div_l; [apply Qn1_pos|].
      eapply Qlt_le_trans; [|exact B1]. rewrite Qmult_0_l. reflexivity.
    - apply Qlt_shift_div_r; [apply Qn1_pos|].
      eapply Qle_lt_trans; [exact B2|]. rewrite Qmult_1_l. rewrite <- Zlt_Qlt. lia.
  Qed.

  Lemma pobs_lt data s u : pseudo_obs leb data s = Ok u ->
    forall i k j, i < nr data -> k < nr data -> below leb (get data i j) (get data k j) ->
    (get u i j < get u k j)%Q.
  Proof.
    intros H i k j Hi Hk B. destruct (pseudo_obs_Ok _ _ _ H) as [t [_ [_ [_ Hg]]]]. rewrite !Hg.
    apply Qdiv_lt_mono; [apply Qn1_pos|]. rewrite !rankdata_r2. apply r2_half_lt.
    apply (r2_lt leb Hpre t (nr data) (fun k => get data k j)); try assumption.
    apply (below_ltb leb Hpre); exact B.
  Qed.

  Lemma pobs_tied data s u : pseudo_obs leb data s = Ok u -> lower s <> "ordinal"%string ->
    forall i k j, tied leb (get data i j) (get data k j) ->
    (get u i j == get u k j)%Q.
  Proof.
    intros H Hs i k j T. destruct (pseudo_obs_Ok _ _ _ H) as [t [Ht [_ [_ Hg]]]]. rewrite !Hg.
    rewrite !rankdata_r2.
    rewrite (r2_eq leb Hpre t (nr data) (fun k => get data k j) i k); [reflexivity| |].
    - eapply parse_ties_ordinal; eassumption.
    - apply (tied_eqb leb); exact T.
  Qed.

  Lemma pobs_ordinal data s u : pseudo_obs leb data s = Ok u -> lower s = "ordinal"%string ->
    forall i k j, i < k -> k < nr data -> tied leb (get data i j) (get data k j) ->
    (get u i j < get u k j)%Q.
  Proof.
    intros H Hs i k j Hik Hk T. destruct (pseudo_obs_Ok _ _ _ H) as [t [Ht [_ [_ Hg]]]]. rewrite !Hg.
    rewrite (parse_ties_is_ordinal _ _ Ht Hs).
    apply Qdiv_lt_mono; [apply Qn1_pos|]. rewrite !rankdata_r2. apply r2_half_lt.
    apply (r2_ordinal_lt leb Hpre); try lia.
    unfold lexb. apply (tied_eqb leb) in T. rewrite T. destruct (Nat.leb_spec i k); [|lia]. apply orb_true_r.
  Qed.

  Lemma pobs_perm data s p u v : lower s <> "ordinal"%string -> row_permutation (nr data) p ->
    pseudo_obs leb data s = Ok u ->
    pseudo_obs leb (mkMat (nr data) (nc data) (fun i j => get data (p i) j)) s = Ok v ->
    forall i j, i < nr data -> get v i j = get u (p i) j.
  Proof.
    intros Hs Hp Hu Hv i j Hi.
    destruct (pseudo_obs_Ok _ _ _ Hu) as [t [Ht [_ [_ Hg]]]].
    destruct (pseudo_obs_Ok _ _ _ Hv) as [t' [Ht' [_ [_ Hg']]]]. cbn [nr nc get] in *.
    assert (t' = t) by congruence. subst t'.
    rewrite Hg, Hg'. f_equal.
    rewrite (rankdata_perm leb Hpre t (nr data) (fun k => get data k j) p i); try assumption; [reflexivity|].
    eapply parse_ties_ordinal; eassumption.
  Qed.

  Lemma Qle_bool_half n a b :
    Qle_bool (inject_Z (Z.of_nat a) / inject_Z 2 / inject_Z (Z.of_nat (n+1)))
             (inject_Z (Z.of_nat b) / inject_Z 2 / inject_Z (Z.of_nat (n+1))) = (a <=? b).
  Proof.
    apply eq_true_iff_eq. rewrite Qle_bool_iff, Nat.leb_le, <- Qdiv_le_mono by apply Qn1_pos.
    apply r2_half_le.
  Qed.

  Lemma Qle_bool_total_preorder : total_preorder Qle_bool.
  Proof.
    split.
    - intros x y. rewrite !Qle_bool_iff. destruct (Qlt_le_dec x y) as [L|L]; [left; apply Qlt_le_weak; exact L|right; exact L].
    - intros x y z. rewrite !Qle_bool_iff. apply Qle_trans.
  Qed.

  Lemma Qle_bool_comp a b c d : (a == b)%Q -> (c == d)%Q -> Qle_bool a c = Qle_bool b d.
  Proof. intros E1 E2. apply eq_true_iff_eq. rewrite !Qle_bool_iff, E1, E2. reflexivity. Qed.

  Lemma pobs_rank_order t n x i k : i < n -> k < n ->
    Qle_bool (rankdata leb t n x i / inject_Z (Z.of_nat (n + 1)))
             (rankdata leb t n x k / inject_Z (Z.of_nat (n + 1)))
    = match t with Ordinal => lexb leb x i k | _ => leb (x i) (x k) end.
  Proof.
    intros Hi Hk. erewrite Qle_bool_comp; [|rewrite rankdata_r2; reflexivity|rewrite rankdata_r2; reflexivity].
    rewrite Qle_bool_half. destruct t; try (apply leb_r2; [exact Hpre|discriminate|assumption|assumption]).
    apply lex_r2; assumption.
  Qed.

  Lemma pobs_idem data s u : pseudo_obs leb data s = Ok u ->
    exists v, pseudo_obs Qle_bool u s = Ok v /\ nr v = nr u /\ nc v = nc u /\
      forall i j, i < nr data -> get v i j = get u i j.
  Proof.
    intros H. destruct (pseudo_obs_Ok _ _ _ H) as [t [Ht [Hr [Hc Hg]]]].
    unfold pseudo_obs, rank_data2. rewrite Ht. cbn. eexists; split; [reflexivity|]. cbn.
    split; [reflexivity|]. split; [reflexivity|]. intros i j Hi. rewrite Hr. rewrite (Hg i j). f_equal.
    destruct t.
    1-4: (symmetry; apply (rankdata_iso leb Qle_bool); [|exact Hi];
          intros a b Ha Hb; rewrite !Hg, pobs_rank_order by assumption; reflexivity).
    unfold rankdata.
    apply (f_equal (fun k => inject_Z (Z.of_nat k))).
    rewrite (ordinal_lex Qle_bool Qle_bool_total_preorder (nr data) (fun k => get u k j)) by exact Hi.
    rewrite (ordinal_lex leb Hpre (nr data) (fun k => get data k j)) by exact Hi.
    apply count_ext. intros k Hk. apply seq_in in Hk.
    transitivity (Qle_bool (get u k j) (get u i j)).
    2:{ rewrite !Hg, pobs_rank_order by assumption. reflexivity. }
    unfold lexb. rewrite (leb_split Qle_bool Qle_bool_total_preorder (get u k j) (get u i j)).
    destruct (Nat.eq_dec k i) as [->|Hne].
    - rewrite (eqb_refl Qle_bool Qle_bool_total_preorder), Nat.leb_refl. reflexivity.
    - f_equal. replace (eqb Qle_bool (get u k j) (get u i j)) with false; [reflexivity|].
      symmetry. unfold eqb. rewrite !Hg, !pobs_rank_order by assumption.
      destruct (lexb leb (fun k0 => get data k0 j) k i) eqn:E1; [|reflexivity].
      destruct (lexb leb (fun k0 => get data k0 j) i k) eqn:E2; [|reflexivity].
      exfalso; apply Hne. eapply lexb_antisym; eassumption.
  Qed.
End Pobs.

Lemma pobs_transform {A B} (leA : A -> A -> bool) (leB : B -> B -> bool) data (f : nat -> A -> B) s u v :
  (forall j a b, leA a b = leB (f j a) (f j b)) ->
  pseudo_obs leA data s = Ok u ->
  pseudo_obs leB (mkMat (nr data) (nc data) (fun i j => f j (get data i j))) s = Ok v ->
  forall i j, i < nr data -> get v i j = get u i j.
Proof.
  intros Hf Hu Hv i j Hi.
  destruct (pseudo_obs_Ok _ _ _ _ Hu) as [t [Ht [_ [_ Hg]]]].
  destruct (pseudo_obs_Ok _ _ _ _ Hv) as [t' [Ht' [_ [_ Hg']]]]. cbn [nr nc get] in *.
  assert (t' = t) by congruence. subst t'. rewrite Hg, Hg'. f_equal. symmetry.
  apply (rankdata_iso leA leB t (nr data) (fun k => get data k j) (fun k => f j (get data k j))); [|exact Hi].
  intros a b _ _. apply Hf.
Qed.

Lemma strictly_increasing_leb {A B} (leA : A -> A -> bool) (leB : B -> B -> bool) (f : A -> B) :
  total_preorder leA -> total_preorder leB ->
  (forall a b, below leA a b -> below leB (f a) (f b)) ->
  (forall a b, tied leA a b -> tied leB (f a) (f b)) ->
  forall a b, leA a b = leB (f a) (f b).
Proof.
  intros HA HB H1 H2 a b. destruct (leA a b) eqn:E1; destruct (leA b a) eqn:E2.
  - symmetry. apply (H2 a b). split; assumption.
  - symmetry. apply (H1 a b). split; assumption.
  - symmetry. apply (H1 b a). split; assumption.
  - destruct (proj1 HA a b); congruence.
Qed.
