(** Lemmas about correlation matrices. *)
From Verif Require Import Base RSumLib Ext M_Corr S_Corr.
Open Scope nat_scope.

Lemma pairs_in n i j : In (i, j) (pairs n) <-> i < j < n.
Proof.
  unfold pairs. rewrite in_flat_map. split.
  - intros [k [Hk H]]. apply in_map_iff in H. destruct H as [l [E H]]. injection E as -> ->. apply in_seq in Hk. apply in_seq in H. lia.
  - intros H. exists i. split; [apply in_seq; lia|]. apply in_map_iff. exists j. split; [reflexivity|apply in_seq; lia].
Qed.

Section S.
  Variable scipy : cmethod -> list R -> list R -> result ext.
  Notation value m u rows i j := (compute_corr scipy m (fst (pair_vectors rows u i j)) (snd (pair_vectors rows u i j))).

  Definition hits (p : nat * nat) (a b : nat) : Prop := p = (a, b) \/ p = (b, a).
  Lemma set2_get c i j v a b : get (set2 c i j v) a b = v /\ hits (i, j) a b \/ get (set2 c i j v) a b = get c a b /\ ~ hits (i, j) a b.
  Proof.
    unfold set2, hits. cbn [get]. destruct (Nat.eqb_spec a i), (Nat.eqb_spec b j), (Nat.eqb_spec a j), (Nat.eqb_spec b i); cbn; subst;
      try (left; split; [reflexivity|]; auto; fail); right; (split; [reflexivity|]); intros [H|H]; injection H; intros; congruence.
  Qed.
  Lemma fill_shape m u rows l : forall c c', fill scipy m u rows l c = Ok c' -> nr c' = nr c /\ nc c' = nc c.
  Proof.
    induction l as [|[i j] l IH]; intros c c'; cbn [fill]; [intros H; injection H as <-; auto|].
    destruct (pair_vectors rows u i j) as [a b]. destruct (compute_corr scipy m a b); cbn [bind]; [|discriminate]. intros H. apply IH in H. exact H.
  Qed.
  Lemma fill_spec m u rows l : forall c c', fill scipy m u rows l c = Ok c' -> forall a b,
    (exists i j v, In (i, j) l /\ hits (i, j) a b /\ value m u rows i j = Ok v /\ get c' a b = v) \/
    ((forall p, In p l -> ~ hits p a b) /\ get c' a b = get c a b).
  Proof.
    induction l as [|[i j] l IH]; intros c c'; cbn [fill].
    - intros H. injection H as <-. intros a b. right. split; [intros p []|reflexivity].
    - destruct (pair_vectors rows u i j) as [x y] eqn:Ep. destruct (compute_corr scipy m x y) as [v|e] eqn:Ev; cbn [bind]; [|discriminate].
      intros H a b. destruct (IH _ _ H a b) as [[i' [j' [v' [A [B [C D]]]]]]|[A B]].
      + left. exists i', j', v'. split; [right; exact A|]. auto.
      + destruct (set2_get c i j v a b) as [[G1 G2]|[G1 G2]].
        * left. exists i, j, v. split; [left; reflexivity|]. split; [exact G2|]. rewrite Ep. split; [exact Ev|congruence].
        * right. split; [|congruence]. intros p [<-|Hp]; [exact G2|apply A; exact Hp].
  Qed.
  Lemma corr_entry n rows method use c : corr scipy n rows method use = Ok c ->
    nr c = n /\ nc c = n /\ (forall i, get c i i = Fin 1) /\
    exists m u, corr_method method = Ok m /\ validate_use use = Ok u /\
    forall i j, i < j < n -> exists v, value m u rows i j = Ok v /\ get c i j = v /\ get c j i = v.
  Proof.
    unfold corr. destruct (validate_use use) as [u|e] eqn:Eu; cbn [bind]; [|discriminate].
    destruct (corr_method method) as [m|e] eqn:Em; cbn [bind]; [|discriminate]. intros H.
    pose proof (fill_shape m u rows _ _ _ H) as [S1 S2]. split; [exact S1|]. split; [exact S2|]. split.
    - intros i. destruct (fill_spec m u rows _ _ _ H i i) as [[a [b [v [A [B _]]]]]|[_ ->]].
      + apply pairs_in in A. exfalso. destruct B as [B|B]; injection B; lia.
      + cbn. rewrite Nat.eqb_refl. reflexivity.
    - exists m, u. split; [reflexivity|]. split; [reflexivity|]. intros i j Hij. assert (Hin : In (i, j) (pairs n)) by (apply pairs_in; exact Hij).
      assert (U : forall a b, a = i /\ b = j \/ a = j /\ b = i -> exists v, value m u rows i j = Ok v /\ get c a b = v).
      { intros a b Hab. destruct (fill_spec m u rows _ _ _ H a b) as [[i' [j' [v [A [B [C D]]]]]]|[A _]].
        - apply pairs_in in A. assert (i' = i /\ j' = j) as [-> ->].
          { destruct B as [B|B]; injection B as -> ->; destruct Hab as [[-> ->]|[-> ->]]; lia. }
          exists v. auto.
        - exfalso. apply (A (i, j) Hin). destruct Hab as [[-> ->]|[-> ->]]; [left|right]; reflexivity. }
      destruct (U i j ltac:(auto)) as [v [V1 V2]]. destruct (U j i ltac:(auto)) as [w [W1 W2]].
      exists v. split; [exact V1|]. split; [exact V2|]. congruence.
  Qed.

  Lemma fill_ext m u u' rows rows' l : (forall i j, In (i, j) l -> pair_vectors rows u i j = pair_vectors rows' u' i j) ->
    forall c, fill scipy m u rows l c = fill scipy m u' rows' l c.
  Proof.
    induction l as [|[i j] l IH]; intros H c; [reflexivity|]. cbn [fill]. rewrite (H i j) by (left; reflexivity).
    destruct (pair_vectors rows' u' i j) as [a b]. destruct (compute_corr scipy m a b); cbn [bind]; [|reflexivity].
    apply IH. intros i' j' Hin. apply H. right. exact Hin.
  Qed.

  Lemma all_finite_none l : all_finite l = None <-> exists v, In v l /\ ~ is_number v.
  Proof.
    induction l as [|v l IH]; cbn [all_finite].
    - split; [discriminate|]. intros [v [[] _]].
    - destruct v as [r| | |]; cbn [finite_value].
      + destruct (all_finite l) as [xs|] eqn:E.
        * split; [discriminate|]. intros [v [[<-|Hv] Hn]]; [exfalso; apply Hn; eexists; reflexivity|].
          assert (@None (list R) = None) by reflexivity. exfalso. cut (Some xs = None); [discriminate|]. apply IH. eauto.
        * split; [|reflexivity]. intros _. destruct (proj1 IH eq_refl) as [v [Hv Hn]]. exists v. split; [right; exact Hv|exact Hn].
      + split; [|reflexivity]. intros _. exists Pinf. split; [left; reflexivity|]. intros [r E]. discriminate.
      + split; [|reflexivity]. intros _. exists Ninf. split; [left; reflexivity|]. intros [r E]. discriminate.
      + split; [|reflexivity]. intros _. exists Nan. split; [left; reflexivity|]. intros [r E]. discriminate.
  Qed.
  Lemma bad_column_iff rows j : all_finite (column rows j) = None <-> bad_column rows j.
  Proof.
    rewrite all_finite_none. unfold column, bad_column. split.
    - intros [v [Hv Hn]]. apply in_map_iff in Hv. destruct Hv as [r [<- Hr]]. eauto.
    - intros [r [Hr Hn]]. eexists. split; [apply in_map_iff; exists r; split; [reflexivity|exact Hr]|exact Hn].
  Qed.

  Lemma kept_filter {A} (P : A -> Prop) (f : A -> bool) : (forall a, f a = true <-> P a) -> forall l l', kept P l l' -> filter f l = l'.
  Proof.
    intros Hf l l' H. induction H as [|a l l' Pa K IH|a l l' Pa K IH]; [reflexivity| |]; cbn [filter].
    - rewrite (proj2 (Hf a) Pa). f_equal. exact IH.
    - destruct (f a) eqn:E; [exfalso; apply Pa, Hf, E|exact IH].
  Qed.
  Lemma kept_exists {A} (P : A -> Prop) (f : A -> bool) : (forall a, f a = true <-> P a) -> forall l, kept P l (filter f l).
  Proof.
    intros Hf l. induction l as [|a l IH]; cbn [filter]; [constructor|]. destruct (f a) eqn:E.
    - apply kept_in; [apply Hf, E|exact IH].
    - apply kept_out; [intros H; apply Hf in H; congruence|exact IH].
  Qed.
  Lemma isnan_spec v : negb (isnan v) = true <-> v <> Nan.
  Proof. destruct v; cbn; split; congruence. Qed.
  Lemma complete_row_spec r : forallb (fun v => negb (isnan v)) r = true <-> complete_row r.
  Proof.
    rewrite forallb_forall. unfold complete_row. split.
    - intros H Hn. apply H in Hn. discriminate.
    - intros H v Hv. apply isnan_spec. intros ->. contradiction.
  Qed.
  Lemma both_present_spec i j r : (negb (isnan (nth i r Nan)) && negb (isnan (nth j r Nan))) = true <-> both_present i j r.
  Proof. rewrite andb_true_iff, !isnan_spec. reflexivity. Qed.
End S.

(** ---- Pearson ---- *)
Open Scope R_scope.
Lemma dot_self_nonneg u : 0 <= dot u u.
Proof. induction u; cbn; [lra|nra]. Qed.
Lemma dot_quad u : forall v t, length u = length v -> 0 <= dot u u + 2 * t * dot u v + t * t * dot v v.
Proof.
  induction u as [|x u IH]; intros [|y v] t H; cbn in *; try discriminate; [lra|].
  specialize (IH v t ltac:(congruence)). pose proof (Rle_0_sqr (x + t * y)). unfold Rsqr in *. nra.
Qed.
Lemma cauchy u v : length u = length v -> dot u v * dot u v <= dot u u * dot v v.
Proof.
  intros H. pose proof (dot_self_nonneg v) as Hv. destruct (Req_dec (dot v v) 0) as [E|E].
  - rewrite E, Rmult_0_r. destruct (Req_dec (dot u v) 0) as [E2|E2]; [rewrite E2; lra|].
    pose proof (dot_quad u v (- (dot u u + 1) / (2 * dot u v)) H) as Q. rewrite E in Q.
    replace (2 * (- (dot u u + 1) / (2 * dot u v)) * dot u v) with (- (dot u u + 1)) in Q by (field; exact E2). lra.
  - assert (0 < dot v v) by lra. pose proof (dot_quad u v (- dot u v / dot v v) H) as Q.
    replace (dot u u + 2 * (- dot u v / dot v v) * dot u v + - dot u v / dot v v * (- dot u v / dot v v) * dot v v) with ((dot u u * dot v v - dot u v * dot u v) / dot v v) in Q by (field; exact E).
    assert (0 <= dot u u * dot v v - dot u v * dot u v); [|lra].
    replace (dot u u * dot v v - dot u v * dot u v) with ((dot u u * dot v v - dot u v * dot u v) / dot v v * dot v v) by (field; exact E). nra.
Qed.
Lemma dot_short u v : dot u v = dot (firstn (length v) u) (firstn (length u) v).
Proof. revert v. induction u as [|x u IH]; intros [|y v]; cbn; try reflexivity. rewrite IH. reflexivity. Qed.
Lemma pearson_coefficient a b : length a = length b -> coefficient (pearson a b).
Proof.
  intros H. unfold pearson. destruct (Rltb 0 (dot (centred a) (centred a) * dot (centred b) (centred b))) eqn:E; [|exact I].
  apply Rltb_true in E. cbn [coefficient].
  assert (C : dot (centred a) (centred b) * dot (centred a) (centred b) <= dot (centred a) (centred a) * dot (centred b) (centred b)).
  { apply cauchy. unfold centred. rewrite !map_length. exact H. }
  set (p := dot (centred a) (centred a) * dot (centred b) (centred b)) in *. set (q := dot (centred a) (centred b)) in *.
  assert (0 < sqrt p) by (apply sqrt_lt_R0; exact E). pose proof (sqrt_sqrt p ltac:(lra)).
  assert (- sqrt p <= q <= sqrt p) by (split; nra).
  split; apply (Rmult_le_reg_r (sqrt p)); auto; unfold Rdiv; rewrite Rmult_assoc, Rinv_l; lra.
Qed.
