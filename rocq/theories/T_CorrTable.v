(** Property C120: labelled tables of corr and pseudo_obs (/repo/copulae/stats/correlation.py, core/misc.py). *)
From Coq Require Import Permutation QArith.
From Verif Require Import Base RSumLib Ext M_Rank M_Corr S_Corr P_Corr M_CorrTable S_CorrTable.
Open Scope nat_scope.

Lemma corr_arrays_cases scipy x y method use c : corr_arrays scipy (asarray x) (option_map asarray y) method use = Ok c ->
  (exists n rows, asarray x = Array2 n rows /\ y = None /\ corr scipy n rows method use = Ok c) \/
  (exists v w y', asarray x = Array1 v /\ y = Some y' /\ asarray y' = Array1 w /\ corr2 scipy v w method use = Ok c).
Proof.
  intros H. destruct (asarray x) as [v|n rows|nm v|cs rows] eqn:E, y as [y'|]; cbn [corr_arrays option_map] in H;
    try (destruct (validate_use use); [destruct (corr_method method)|]; cbn [bind] in H; discriminate H).
  - destruct (asarray y') eqn:F; try (destruct (validate_use use); [destruct (corr_method method)|]; cbn [bind] in H; discriminate H).
    right. exists v, v0, y'. auto.
  - left. exists n, rows. auto.
Qed.
Lemma corr2_shape scipy v w method use c : corr2 scipy v w method use = Ok c -> nr c = 2 /\ nc c = 2.
Proof.
  unfold corr2. destruct (validate_use use); cbn [bind]; [|discriminate]. destruct (corr_method method); cbn [bind]; [|discriminate].
  destruct (form_xy _ _ _) as [pq|]; cbn [bind]; [|discriminate]. destruct (compute_corr _ _ _ _); cbn [bind]; [|discriminate].
  intros H. injection H as <-. auto.
Qed.
Lemma label_eqb_spec a b : label_eqb a b = true <-> a = b.
Proof.
  destruct a, b; cbn; try (split; [discriminate|intros H; discriminate H]).
  - rewrite String.eqb_eq. split; [intros ->; reflexivity|intros H; injection H; auto].
  - rewrite Z.eqb_eq. split; [intros ->; reflexivity|intros H; injection H; auto].
Qed.
Lemma suffix_distinct s : (s ++ "1")%string <> (s ++ "2")%string.
Proof. induction s as [|a s IH]; cbn; [discriminate|]. intros H. injection H as H. exact (IH H). Qed.
Lemma series_labels_length a b : length (series_labels a b) = 2.
Proof. unfold series_labels. cbv zeta. destruct (label_eqb _ _); reflexivity. Qed.
Lemma series_labels_distinct a b : exists u v, series_labels a b = [u; v] /\ u <> v.
Proof.
  unfold series_labels. cbv zeta. destruct (label_eqb _ _) eqn:E.
  - apply label_eqb_spec in E. rewrite E. eexists _, _. split; [reflexivity|]. unfold suffixed. intros H. injection H. apply suffix_distinct.
  - eexists _, _. split; [reflexivity|]. intros H. apply label_eqb_spec in H. congruence.
Qed.

(** the numbers never depend on the labels, and adding the labels never fails: a call on pandas data succeeds exactly when the call on the
    bare arrays does, with the same matrix; the result is a table exactly for a data frame and for two series *)
Theorem C120_values : forall scipy x y method use,
  match corr_table scipy (asarray x) (option_map asarray y) method use, corr_table scipy x y method use with
  | Ok (Plain c), Ok o => values o = c /\
      match x, y with
      | Frame columns _, _ => o = Table columns columns c
      | Series _ _, Some (Series _ _) => exists a b, o = Table [a; b] [a; b] c
      | _, _ => o = Plain c
      end
  | Err e, Err e' => e = e'
  | _, _ => False
  end.
Proof.
  intros scipy x y method use. unfold corr_table.
  assert (I1 : asarray (asarray x) = asarray x) by (destruct x; reflexivity).
  assert (I2 : option_map asarray (option_map asarray y) = option_map asarray y) by (destruct y as [[]|]; reflexivity).
  rewrite I1, I2. destruct (corr_arrays scipy (asarray x) (option_map asarray y) method use) as [c|e] eqn:E; cbn [bind]; [|reflexivity].
  assert (K : (match asarray x with Frame columns _ => data_frame c columns | Series nx _ => match option_map asarray y with Some (Series ny _) => data_frame c (series_labels nx ny) | _ => Ok (Plain c) end | _ => Ok (Plain c) end) = Ok (Plain c)).
  { destruct x; reflexivity. }
  replace (match asarray x with
    | Series nx _ => match option_map asarray y with Some (Series ny _) => data_frame c (series_labels nx ny) | _ => Ok (Plain c) end
    | Frame columns _ => data_frame c columns | _ => Ok (Plain c) end) with (@Ok output (Plain c)).
  apply corr_arrays_cases in E. destruct x as [v|n rows|nm v|cs rows].
  - split; reflexivity.
  - split; reflexivity.
  - destruct y as [[w|m rows|ny w|cs rows]|]; try (split; reflexivity).
    destruct E as [[n [rows [A _]]]|[v' [w' [y' [A [B [C D]]]]]]]; [discriminate A|].
    apply corr2_shape in D. destruct D as [D1 D2]. unfold data_frame. rewrite D1, D2, series_labels_length. cbn. split; [reflexivity|].
    destruct (series_labels_distinct nm ny) as [a [b [-> _]]]. eauto.
  - destruct E as [[n [rows' [A [B C]]]]|[v [w [y' [A _]]]]]; [|discriminate A]. cbn in A. injection A as <- <-.
    apply corr_entry in C. destruct C as [C1 [C2 _]]. unfold data_frame. rewrite C1, C2, Nat.eqb_refl. cbn. auto.
Qed.
Print Assumptions C120_values.

(** two series: the two labels are different, whatever the names; names that count as true and differ are kept *)
Theorem C120_two_series : forall scipy nx ny v w method use o,
  corr_table scipy (Series nx v) (Some (Series ny w)) method use = Ok o ->
  exists a b c, o = Table [a; b] [a; b] c /\ nr c = 2 /\ nc c = 2 /\ a <> b /\
    (forall p q, nx = Some p -> ny = Some q -> truthy p -> truthy q -> p <> q -> a = p /\ b = q) /\
    (nx = None -> ny = None -> a = LStr "X" /\ b = LStr "Y").
Proof.
  intros scipy nx ny v w method use o H. unfold corr_table in H. cbn [option_map asarray] in H.
  destruct (corr_arrays scipy (Array1 v) (Some (Array1 w)) method use) as [c|e] eqn:E; cbn [bind] in H; [|discriminate].
  cbn [corr_arrays] in E. apply corr2_shape in E. destruct E as [E1 E2]. unfold data_frame in H. rewrite E1, E2, series_labels_length in H. cbn in H.
  injection H as <-. destruct (series_labels_distinct nx ny) as [a [b [L D]]]. exists a, b, c. rewrite L.
  do 3 (split; [auto|]). split; [exact D|]. split.
  - intros p q -> -> [P1 P2] [Q1 Q2] N. unfold series_labels in L. cbv zeta in L.
    assert (Ep : name_or (Some p) "X" = p) by (destruct p as [[|ch s]|[|z|z]]; cbn; congruence).
    assert (Eq : name_or (Some q) "Y" = q) by (destruct q as [[|ch s]|[|z|z]]; cbn; congruence).
    rewrite Ep, Eq in L. destruct (label_eqb p q) eqn:F; [apply label_eqb_spec in F; contradiction|]. injection L as <- <-. auto.
  - intros -> ->. cbn in L. injection L as <- <-. auto.
Qed.
Print Assumptions C120_two_series.

(** but a series named 0, as the columns of an unlabelled data frame are, loses its name, and an unnamed series takes away
    the name of a series called "Y" *)
Theorem C120_names_refuted : forall scipy v w method use o,
  (corr_table scipy (Series (Some (LInt 0)) v) (Some (Series (Some (LInt 1)) w)) method use = Ok o ->
     exists c, o = Table [LStr "X"; LInt 1] [LStr "X"; LInt 1] c) /\
  (corr_table scipy (Series (Some (LStr "Y")) v) (Some (Series None w)) method use = Ok o ->
     exists c, o = Table [LStr "Y1"; LStr "Y2"] [LStr "Y1"; LStr "Y2"] c).
Proof.
  intros scipy v w method use o. split; intros H; unfold corr_table in H; cbn [option_map asarray corr_arrays] in H;
    destruct (corr2 scipy v w method use) as [c|e] eqn:E; cbn [bind] in H; try discriminate; apply corr2_shape in E; destruct E as [E1 E2];
    unfold data_frame in H; rewrite E1, E2 in H; cbn in H; injection H as <-; eexists; reflexivity.
Qed.
Print Assumptions C120_names_refuted.

(** ** Order of columns *)
Section Order.
  Variable scipy : cmethod -> list R -> list R -> result ext.
  Hypothesis sym : scipy_symmetric scipy.
  Notation value m u rows i j := (compute_corr scipy m (fst (pair_vectors rows u i j)) (snd (pair_vectors rows u i j))).

  Lemma order_nth n p i : an_order n p -> i < n -> nth i p 0 < n.
  Proof.
    intros P Hi. assert (H : In (nth i p 0) (seq 0 n)).
    { apply (Permutation_in _ P). apply nth_In. rewrite (Permutation_length P), seq_length. exact Hi. }
    apply in_seq in H. lia.
  Qed.
  Lemma order_length n p : an_order n p -> length p = n.
  Proof. intros P. rewrite (Permutation_length P). apply seq_length. Qed.
  Lemma order_inj n p i j : an_order n p -> i < n -> j < n -> nth i p 0 = nth j p 0 -> i = j.
  Proof.
    intros P Hi Hj E. assert (N : NoDup p) by (apply (Permutation_NoDup (Permutation_sym P)); apply seq_NoDup).
    apply (proj1 (NoDup_nth p 0) N); rewrite ?(order_length n p P); auto.
  Qed.
  Lemma order_onto n p k : an_order n p -> k < n -> exists i, i < n /\ nth i p 0 = k.
  Proof.
    intros P Hk. assert (H : In k p) by (apply (Permutation_in _ (Permutation_sym P)); apply in_seq; lia).
    apply (In_nth _ _ 0) in H. destruct H as [i [Hi E]]. rewrite (order_length n p P) in Hi. eauto.
  Qed.
  Lemma reorder_nth {A} (d : A) p l i : i < length p -> nth i (reorder d p l) d = nth (nth i p 0) l d.
  Proof. intros H. unfold reorder. rewrite (nth_indep _ d (nth 0 l d)) by (rewrite map_length; exact H). apply (map_nth (fun k => nth k l d)). Qed.
  Lemma reorder_forallb n p (f : ext -> bool) r : an_order n p -> length r = n -> forallb f (reorder Nan p r) = forallb f r.
  Proof.
    intros P L. apply eq_true_iff_eq. rewrite !forallb_forall. split; intros H v Hv.
    - apply (In_nth _ _ Nan) in Hv. destruct Hv as [k [Hk E]]. destruct (order_onto n p k P) as [i [Hi Ei]]; [lia|].
      apply H. rewrite <- E, <- Ei. unfold reorder. apply in_map_iff. exists (nth i p 0). split; [reflexivity|].
      apply nth_In. rewrite (order_length n p P). exact Hi.
    - unfold reorder in Hv. apply in_map_iff in Hv. destruct Hv as [k [<- Hk]]. apply H. apply nth_In.
      apply (Permutation_in _ P) in Hk. apply in_seq in Hk. lia.
  Qed.
  Lemma filter_map_comm {A B} (g : A -> B) f f' l : (forall a, In a l -> f (g a) = f' a) -> filter f (map g l) = map g (filter f' l).
  Proof.
    induction l as [|a l IH]; intros H; [reflexivity|]. cbn. rewrite (H a) by (left; reflexivity). destruct (f' a); cbn; rewrite IH; auto;
      intros b Hb; apply H; right; exact Hb.
  Qed.
  Lemma column_reorder n p rows i : an_order n p -> i < n -> column (map (reorder Nan p) rows) i = column rows (nth i p 0).
  Proof.
    intros P Hi. unfold column. rewrite map_map. apply map_ext. intros r. apply reorder_nth. rewrite (order_length n p P). exact Hi.
  Qed.
  Lemma pair_vectors_reorder n p rows u i j : an_order n p -> Forall (fun r => length r = n) rows -> i < n -> j < n ->
    pair_vectors (map (reorder Nan p) rows) u i j = pair_vectors rows u (nth i p 0) (nth j p 0).
  Proof.
    intros P L Hi Hj. rewrite Forall_forall in L. pose proof (order_length n p P) as Lp. destruct u; cbn [pair_vectors].
    - now rewrite !(column_reorder n) by assumption.
    - replace (drop_pair (map (reorder Nan p) rows) i j) with (map (reorder Nan p) (drop_pair rows (nth i p 0) (nth j p 0))).
      + now rewrite !(column_reorder n) by assumption.
      + symmetry. apply filter_map_comm. intros r _. now rewrite !reorder_nth by lia.
    - replace (drop_rows (map (reorder Nan p) rows)) with (map (reorder Nan p) (drop_rows rows)).
      + now rewrite !(column_reorder n) by assumption.
      + symmetry. apply filter_map_comm. intros r Hr. apply (reorder_forallb n); [exact P|]. apply L, Hr.
  Qed.
  Lemma compute_corr_sym m a b : compute_corr scipy m a b = compute_corr scipy m b a.
  Proof. unfold compute_corr. destruct (all_finite a), (all_finite b); auto. Qed.
  Lemma value_sym m u rows i j : value m u rows i j = value m u rows j i.
  Proof.
    rewrite compute_corr_sym. destruct u; cbn [pair_vectors fst snd]; try reflexivity.
    replace (drop_pair rows j i) with (drop_pair rows i j); [reflexivity|]. apply filter_ext. intros r. apply andb_comm.
  Qed.
  Lemma fill_total m u rows l : (forall i j, In (i, j) l -> exists v, value m u rows i j = Ok v) -> forall c, exists c', fill scipy m u rows l c = Ok c'.
  Proof.
    induction l as [|[i j] l IH]; intros H c; [eexists; reflexivity|]. cbn [fill]. destruct (H i j) as [v Hv]; [left; reflexivity|].
    destruct (pair_vectors rows u i j) as [a b]. cbn [fst snd] in Hv. rewrite Hv. cbn [bind]. apply IH. intros i' j' Hin. apply H. right. exact Hin.
  Qed.
  Lemma corr_reorder n p rows method use c : an_order n p -> Forall (fun r => length r = n) rows -> corr scipy n rows method use = Ok c ->
    exists c', corr scipy n (map (reorder Nan p) rows) method use = Ok c' /\
      forall i j, i < n -> j < n -> get c' i j = get c (nth i p 0) (nth j p 0).
  Proof.
    intros P L H. destruct (corr_entry scipy n rows method use c H) as [_ [_ [D [m [u [Em [Eu G]]]]]]].
    assert (G' : forall i j, i < n -> j < n -> i <> j -> value m u rows i j = Ok (get c i j)).
    { intros i j Hi Hj N. destruct (Nat.lt_ge_cases i j) as [C|C].
      - destruct (G i j ltac:(lia)) as [v [V [A B]]]. congruence.
      - destruct (G j i ltac:(lia)) as [v [V [A B]]]. rewrite value_sym. congruence. }
    assert (V : forall i j, i < n -> j < n -> i <> j -> value m u (map (reorder Nan p) rows) i j = Ok (get c (nth i p 0) (nth j p 0))).
    { intros i j Hi Hj N. rewrite (pair_vectors_reorder n) by assumption. apply G'; try (apply (order_nth n); assumption).
      intros E. apply N. apply (order_inj n p); assumption. }
    destruct (fill_total m u (map (reorder Nan p) rows) (pairs n)) with (c := identity n) as [c' Hc].
    { intros i j Hin. apply pairs_in in Hin. eexists. apply V; lia. }
    assert (Hcorr : corr scipy n (map (reorder Nan p) rows) method use = Ok c') by (unfold corr; rewrite Eu, Em; exact Hc).
    exists c'. split; [exact Hcorr|]. intros i j Hi Hj.
    destruct (corr_entry scipy n _ method use c' Hcorr) as [_ [_ [D' [m' [u' [Em' [Eu' G2]]]]]]].
    assert (m' = m) by congruence. assert (u' = u) by congruence. subst m' u'.
    destruct (Nat.lt_trichotomy i j) as [C|[->|C]].
    - destruct (G2 i j ltac:(lia)) as [v [Hv [A B]]]. rewrite V in Hv by lia. congruence.
    - now rewrite D, D'.
    - destruct (G2 j i ltac:(lia)) as [v [Hv [A B]]]. rewrite value_sym, V in Hv by lia. congruence.
  Qed.
End Order.

(** taking the columns of a data frame in another order gives a table with the same number at the same two labels, and raises for the same data *)
Theorem C120_column_order : forall scipy, scipy_symmetric scipy -> forall columns rows p d method use o,
  an_order (length columns) p -> Forall (fun r => length r = length columns) rows ->
  corr_table scipy (Frame columns rows) None method use = Ok o ->
  exists o', corr_table scipy (Frame (reorder d p columns) (map (reorder Nan p) rows)) None method use = Ok o' /\
    forall a b v, cell o a b v <-> cell o' a b v.
Proof.
  intros scipy Hs columns rows p d method use o P L H. set (n := length columns) in *.
  unfold corr_table in H. cbn [asarray option_map corr_arrays] in H. fold n in H.
  destruct (corr scipy n rows method use) as [c|e] eqn:E; cbn [bind] in H; [|discriminate].
  destruct (corr_reorder scipy Hs n p rows method use c P L E) as [c' [E' G]].
  pose proof (corr_entry scipy _ _ _ _ _ E) as [C1 [C2 _]]. pose proof (corr_entry scipy _ _ _ _ _ E') as [C1' [C2' _]].
  unfold data_frame in H. fold n in H. rewrite C1, C2, Nat.eqb_refl in H. cbn in H. injection H as <-.
  assert (Ln : length (reorder d p columns) = n) by (unfold reorder; rewrite map_length; apply (order_length n p P)).
  exists (Table (reorder d p columns) (reorder d p columns) c'). split.
  { unfold corr_table. cbn [asarray option_map corr_arrays]. rewrite Ln, E'. cbn [bind]. unfold data_frame. rewrite Ln, C1', C2', Nat.eqb_refl. reflexivity. }
  assert (Hl : forall i, i < n -> nth_error (reorder d p columns) i = nth_error columns (nth i p 0)).
  { intros i Hi. rewrite (nth_error_nth' (reorder d p columns) d) by lia. rewrite reorder_nth by (rewrite (order_length n p P); exact Hi).
    symmetry. apply nth_error_nth'. apply (order_nth n); assumption. }
  intros a b v. cbn [cell]. split.
  - intros [i [j [A [B V]]]]. assert (Hi : i < n) by (apply nth_error_Some; congruence). assert (Hj : j < n) by (apply nth_error_Some; congruence).
    destruct (order_onto n p i P Hi) as [i' [Hi' Ei]]. destruct (order_onto n p j P Hj) as [j' [Hj' Ej]]. exists i', j'.
    rewrite !Hl, G, Ei, Ej by assumption. auto.
  - intros [i [j [A [B V]]]]. assert (Hi : i < n) by (rewrite <- Ln; apply nth_error_Some; congruence).
    assert (Hj : j < n) by (rewrite <- Ln; apply nth_error_Some; congruence).
    exists (nth i p 0), (nth j p 0). rewrite <- !Hl, <- G by assumption. auto.
Qed.
Print Assumptions C120_column_order.

(** the pseudo-observations of a data frame carry its labels, and their entries are the ranks divided by the number of rows plus one,
    whatever the labels *)
Theorem C120_pseudo_obs : forall A (leb : A -> A -> bool) (d : frame A) ties,
  match pseudo_obs_frame leb d ties, pseudo_obs leb (f_values d) ties with
  | Ok u, Ok m => f_index u = f_index d /\ f_columns u = f_columns d /\ f_values u = m /\
                  nr (f_values u) = nr (f_values d) /\ nc (f_values u) = nc (f_values d)
  | Err e, Err e' => e = e'
  | _, _ => False
  end.
Proof.
  intros A leb d ties. unfold pseudo_obs_frame. destruct (pseudo_obs leb (f_values d) ties) as [m|e] eqn:E; cbn; [|reflexivity].
  do 3 (split; [reflexivity|]). unfold pseudo_obs, rank_data2 in E. destruct (parse_ties ties); cbn in E; [|discriminate]. injection E as <-. auto.
Qed.
Print Assumptions C120_pseudo_obs.

Example C120_case :
  scipy_symmetric (fun _ a b => Ok (pearson a b)) /\ an_order 3 [2; 0; 1] /\ truthy (LStr "A") /\ truthy (LInt 3) /\
  (exists o, corr_table (fun _ a b => Ok (pearson a b)) (Frame [LStr "A"; LInt 0; LStr "C"] [[Fin 1; Fin 2; Nan]; [Fin 2; Fin 5; Fin 1]; [Fin 4; Fin 1; Fin 0]]%R)
     None "tau" "complete" = Ok o) /\
  (exists c, corr_table (fun _ a b => Ok (pearson a b)) (Series (Some (LStr "A")) [Fin 1; Fin 2]%R) (Some (Series (Some (LInt 3)) [Fin 3; Fin 9]%R)) "pearson" "everything"
     = Ok (Table [LStr "A"; LInt 3] [LStr "A"; LInt 3] c)).
Proof.
  split.
  { intros m a b. f_equal. unfold pearson. assert (D : forall u v, dot u v = dot v u).
    { induction u as [|x u IH]; intros [|y v]; cbn; try reflexivity. rewrite IH. ring. }
    cbv zeta. rewrite (D (centred a) (centred b)), (Rmult_comm (dot (centred a) (centred a))). reflexivity. }
  split. { unfold an_order. cbn. apply Permutation_sym. apply (Permutation_cons_app [2] [1] 0). cbn. apply perm_swap. }
  split; [split; discriminate|]. split; [split; discriminate|]. split; eexists; reflexivity.
Qed.
