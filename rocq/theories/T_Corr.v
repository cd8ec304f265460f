(** Properties C48, C49: correlation matrices (/repo/copulae/stats/correlation.py). *)
From Verif Require Import Base RSumLib Ext M_Corr S_Corr P_Corr.
Open Scope nat_scope.

(** C48: for every data set, method and use-mode, whenever a matrix is returned *)
Theorem C48_correlation_matrix : forall scipy, scipy_in_range scipy -> forall n rows method use c, corr scipy n rows method use = Ok c ->
  nr c = n /\ nc c = n /\ (forall i, i < n -> get c i i = Fin 1) /\
  (forall i j, i < n -> j < n -> get c i j = get c j i /\ coefficient (get c i j)).
Proof.
  intros scipy Hs n rows method use c H. destruct (corr_entry scipy n rows method use c H) as [S1 [S2 [D [m [u [Em [Eu G]]]]]]].
  split; [exact S1|]. split; [exact S2|]. split; [intros; apply D|].
  assert (K : forall i j, i < j < n -> get c i j = get c j i /\ coefficient (get c i j)).
  { intros i j Hij. destruct (G i j Hij) as [v [V [A B]]]. split; [congruence|]. rewrite A. revert V. unfold compute_corr.
    destruct (all_finite _) as [x|]; [destruct (all_finite _) as [y|]|]; [apply Hs| |]; intros V; injection V as <-; exact Logic.I. }
  intros i j Hi Hj. destruct (Nat.lt_trichotomy i j) as [C|[->|C]].
  - apply K; lia.
  - split; [reflexivity|]. rewrite D. cbn. lra.
  - destruct (K j i ltac:(lia)) as [A B]. split; [congruence|]. rewrite <- A. exact B.
Qed.
Print Assumptions C48_correlation_matrix.
(** the two-vector form *)
Theorem C48_two_vectors : forall scipy, scipy_in_range scipy -> forall x y method use c, corr2 scipy x y method use = Ok c ->
  nr c = 2 /\ nc c = 2 /\ get c 0 0 = Fin 1 /\ get c 1 1 = Fin 1 /\ get c 0 1 = get c 1 0 /\ coefficient (get c 0 1).
Proof.
  intros scipy Hs x y method use c. unfold corr2. destruct (validate_use use); cbn [bind]; [|discriminate].
  destruct (corr_method method) as [m|]; cbn [bind]; [|discriminate]. destruct (form_xy _ x y) as [p|]; cbn [bind]; [|discriminate].
  destruct (compute_corr scipy m (fst p) (snd p)) as [v|] eqn:V; cbn [bind]; [|discriminate]. intros H. injection H as <-. cbn.
  do 5 (split; [reflexivity|]). revert V. unfold compute_corr. destruct (all_finite (fst p)) as [a1|]; [destruct (all_finite (snd p)) as [b|]|]; [apply Hs| |]; intros V; injection V as <-; exact Logic.I.
Qed.
Print Assumptions C48_two_vectors.
(** exactly the documented names are accepted, in any case; everything else is a ValueError before any computation *)
Theorem C48_names : forall scipy n rows method use,
  (~ In (lower use) ["everything"; "pairwise.complete"; "complete"]%string \/ ~ In (lower method) ["pearson"; "kendall"; "spearman"; "tau"; "rho"]%string ->
     corr scipy n rows method use = Err ValueError) /\
  (In (lower use) ["everything"; "pairwise.complete"; "complete"]%string -> In (lower method) ["pearson"; "kendall"; "spearman"; "tau"; "rho"]%string ->
     (forall m a b, exists v, scipy m a b = Ok v) -> exists c, corr scipy n rows method use = Ok c).
Proof.
  intros scipy n rows method use. unfold corr, validate_use, corr_method. cbv zeta. cbn [existsb]. split.
  - intros H.
    destruct (String.eqb_spec (lower use) "everything") as [E|E]; [|destruct (String.eqb_spec (lower use) "pairwise.complete") as [E1|E1]; [|destruct (String.eqb_spec (lower use) "complete") as [E2|E2]; [|reflexivity]]];
      cbn [bind];
      repeat match goal with |- context [String.eqb (lower method) ?x] => destruct (String.eqb_spec (lower method) x) end; cbn; try reflexivity;
      exfalso; destruct H as [H|H]; apply H; cbn; auto 10.
  - intros Hu Hm Hs.
    assert (Eu : exists u, (if String.eqb (lower use) "everything" then Ok UEverything else if String.eqb (lower use) "pairwise.complete" then Ok UPairwise else if String.eqb (lower use) "complete" then Ok UComplete else Err ValueError) = Ok u).
    { destruct Hu as [<-|[<-|[<-|[]]]]; cbn; eauto. }
    destruct Eu as [u ->]. cbn [bind].
    assert (Em : exists m, (if String.eqb (lower method) "kendall" || (String.eqb (lower method) "tau" || false) then Ok CKendall else
      if String.eqb (lower method) "spearman" || (String.eqb (lower method) "rho" || false) then Ok CSpearman else if String.eqb (lower method) "pearson" then Ok CPearson else Err ValueError) = Ok m).
    { destruct Hm as [<-|[<-|[<-|[<-|[<-|[]]]]]]; cbn; eauto. }
    destruct Em as [m ->]. cbn [bind].
    generalize (identity n). generalize (pairs n). induction l as [|[i j] l IH]; intros c; [cbn; eauto|]. cbn [fill].
    destruct (pair_vectors rows u i j) as [a b]. unfold compute_corr at 1. destruct (all_finite a) as [x|]; [destruct (all_finite b) as [y|]|]; cbn [bind]; auto.
    destruct (Hs m x y) as [v ->]. cbn [bind]. auto.
Qed.
Print Assumptions C48_names.

(** C49: use='complete' is use='everything' on the rows without missing values *)
Theorem C49_complete : forall scipy n rows rows' method, kept complete_row rows rows' ->
  corr scipy n rows method "complete" = corr scipy n rows' method "everything".
Proof.
  intros scipy n rows rows' method K. unfold corr. cbn [bind validate_use lower]. change (validate_use "complete") with (Ok UComplete).
  change (validate_use "everything") with (Ok UEverything). cbn [bind]. destruct (corr_method method) as [m|]; cbn [bind]; [|reflexivity].
  apply fill_ext. intros i j _. cbn [pair_vectors]. assert (Er : drop_rows rows = rows') by exact (kept_filter _ _ complete_row_spec rows rows' K). rewrite Er. reflexivity.
Qed.
Print Assumptions C49_complete.
(** use='pairwise.complete': each entry is the correlation of the two columns on the rows where both values are there *)
Theorem C49_pairwise : forall scipy n rows method c, corr scipy n rows method "pairwise.complete" = Ok c ->
  forall i j rows', i < j < n -> kept (both_present i j) rows rows' ->
  exists c2, corr2 scipy (map (fun r => nth i r Nan) rows') (map (fun r => nth j r Nan) rows') method "everything" = Ok c2 /\
    get c i j = get c2 0 1 /\ get c j i = get c2 0 1.
Proof.
  intros scipy n rows method c H i j rows' Hij K. destruct (corr_entry scipy n rows method _ c H) as [_ [_ [_ [m [u [Em [Eu G]]]]]]].
  change (validate_use "pairwise.complete") with (Ok UPairwise) in Eu. injection Eu as <-.
  destruct (G i j Hij) as [v [V [A B]]]. cbn [pair_vectors fst snd] in V. 
  assert (Er : drop_pair rows i j = rows') by exact (kept_filter _ _ (both_present_spec i j) rows rows' K). rewrite Er in V.
  unfold corr2. change (validate_use "everything") with (Ok UEverything). cbn [bind]. rewrite Em. cbn [bind]. unfold form_xy. rewrite !map_length, Nat.eqb_refl. cbn [negb bind fst snd].
  unfold column in V. rewrite V. cbn [bind]. eexists. split; [reflexivity|]. cbn. auto.
Qed.
Print Assumptions C49_pairwise.
(** use='everything': an entry off the diagonal is nan exactly if one of its two columns has a missing or infinite value *)
Theorem C49_everything : forall scipy, scipy_defined scipy -> forall n rows method c, corr scipy n rows method "everything" = Ok c ->
  forall i j, i < n -> j < n -> i <> j -> (get c i j = Nan <-> bad_column rows i \/ bad_column rows j).
Proof.
  intros scipy Hs n rows method c H. destruct (corr_entry scipy n rows method _ c H) as [_ [_ [_ [m [u [Em [Eu G]]]]]]].
  change (validate_use "everything") with (Ok UEverything) in Eu. injection Eu as <-.
  assert (K : forall i j, i < j < n -> (get c i j = Nan <-> bad_column rows i \/ bad_column rows j)).
  { intros i j Hij. destruct (G i j Hij) as [v [V [A B]]]. rewrite A. cbn [pair_vectors fst snd] in V. rewrite <- !bad_column_iff. unfold compute_corr in V.
    destruct (all_finite (column rows i)) as [x|], (all_finite (column rows j)) as [y|].
    - pose proof (Hs m x y v V). split; [intros; contradiction|intros [C|C]; discriminate].
    - injection V as <-. split; auto.
    - injection V as <-. split; auto.
    - injection V as <-. split; auto. }
  intros i j Hi Hj Hne. destruct (Nat.lt_trichotomy i j) as [C|[C|C]]; [apply K; lia|lia|].
  destruct (G j i ltac:(lia)) as [v [_ [A B]]]. rewrite B, <- A, (K j i) by lia. tauto.
Qed.
Print Assumptions C49_everything.
(** with complete data all modes agree *)
Theorem C49_complete_data : forall scipy n rows method use use', Forall complete_row rows -> Forall (fun r => length r = n) rows ->
  In (lower use) ["everything"; "pairwise.complete"; "complete"]%string -> In (lower use') ["everything"; "pairwise.complete"; "complete"]%string ->
  corr scipy n rows method use = corr scipy n rows method use'.
Proof.
  intros scipy n rows method.
  assert (K : forall use, Forall complete_row rows -> Forall (fun r => length r = n) rows ->
    In (lower use) ["everything"; "pairwise.complete"; "complete"]%string -> corr scipy n rows method use = corr scipy n rows method "everything").
  { intros use HC HL Hu. unfold corr, validate_use. cbv zeta. change (lower "everything") with "everything"%string.
    assert (Ea : forall P : list ext -> bool, (forall r, In r rows -> P r = true) -> filter P rows = rows).
    { intros P HP. clear -HP. induction rows as [|r l IH]; [reflexivity|]. cbn [filter]. rewrite (HP r) by (left; reflexivity). f_equal. apply IH. intros; apply HP; right; assumption. }
    rewrite Forall_forall in HC, HL.
    destruct Hu as [<-|[<-|[<-|[]]]]; cbn [String.eqb Ascii.eqb Bool.eqb bind]; (destruct (corr_method method) as [m|]; cbn [bind]; [|reflexivity]); [reflexivity| |].
    - apply fill_ext. intros i j Hij. apply pairs_in in Hij. cbn [pair_vectors]. unfold drop_pair. rewrite Ea; [reflexivity|].
      intros r Hr. apply both_present_spec. specialize (HC r Hr). specialize (HL r Hr). split; intros E; apply HC; rewrite <- E; apply nth_In; lia.
    - apply fill_ext. intros i j _. cbn [pair_vectors]. unfold drop_rows. rewrite Ea; [reflexivity|].
      intros r Hr. apply complete_row_spec. apply HC. exact Hr. }
  intros use use' HC HL Hu Hu'. rewrite (K use HC HL Hu), (K use' HC HL Hu'). reflexivity.
Qed.
Print Assumptions C49_complete_data.
(** two vectors: 'complete' and 'pairwise.complete' both use the positions where both are present; different lengths are refused *)
Theorem C49_two_vectors : forall scipy x y method use z, length x = length y -> In (lower use) ["pairwise.complete"; "complete"]%string ->
  kept (fun p : ext * ext => fst p <> Nan /\ snd p <> Nan) (combine x y) z ->
  corr2 scipy x y method use = corr2 scipy (map fst z) (map snd z) method "everything".
Proof.
  intros scipy x y method use z HL Hu K. unfold corr2. change (validate_use "everything") with (Ok UEverything). cbn [bind].
  assert (Eu : exists u, validate_use use = Ok u /\ u <> UEverything).
  { unfold validate_use. cbv zeta. destruct Hu as [<-|[<-|[]]]; cbn; eexists; (split; [reflexivity|discriminate]). }
  destruct Eu as [u [-> Hne]]. cbn [bind]. destruct (corr_method method) as [m|]; cbn [bind]; [|reflexivity].
  assert (Ek : filter (fun p => negb (isnan (fst p) || isnan (snd p))) (combine x y) = z).
  { apply (kept_filter (fun p : ext * ext => fst p <> Nan /\ snd p <> Nan)); [|exact K]. intros [a b]. cbn [fst snd].
    rewrite negb_orb, andb_true_iff, !isnan_spec. reflexivity. }
  unfold form_xy. rewrite HL, Nat.eqb_refl, !map_length, Nat.eqb_refl. cbn [negb]. rewrite Ek. destruct u; [congruence| |]; reflexivity.
Qed.
Print Assumptions C49_two_vectors.
Theorem C49_lengths : forall scipy x y method use, length x <> length y -> corr2 scipy x y method use = Err ValueError.
Proof.
  intros scipy x y method use HL. unfold corr2, form_xy. destruct (validate_use use) as [u|e] eqn:Eu; cbn [bind].
  - destruct (corr_method method) as [m|e] eqn:Em; cbn [bind].
    + destruct (Nat.eqb_spec (length x) (length y)); [contradiction|reflexivity].
    + unfold corr_method in Em. cbv zeta in Em. destruct (existsb _ _) in Em; [discriminate|]. destruct (existsb _ _) in Em; [discriminate|].
      destruct (String.eqb _ _) in Em; congruence.
  - unfold validate_use in Eu. cbv zeta in Eu. repeat (destruct (String.eqb _ _) in Eu; [discriminate|]). congruence.
Qed.
Print Assumptions C49_lengths.

(** the assumptions can be met: Pearson's formula on vectors of equal length, nan otherwise *)
Definition scipy_case (m : cmethod) (a b : list R) : result ext := Ok (if Nat.eqb (length a) (length b) then pearson a b else Nan).
Example C48_case : scipy_in_range scipy_case /\ exists c, corr scipy_case 2 [[Fin 1; Fin 2]; [Fin 3; Nan]; [Fin 0; Fin 1]] "Pearson" "Pairwise.Complete" = Ok c.
Proof.
  split.
  - intros m a b v H. unfold scipy_case in H. injection H as <-. destruct (Nat.eqb_spec (length a) (length b)); [apply pearson_coefficient; assumption|exact Logic.I].
  - eexists. reflexivity.
Qed.
Example C49_case : kept complete_row [[Fin 1; Fin 2]; [Fin 3; Nan]; [Fin 0; Pinf]] [[Fin 1; Fin 2]; [Fin 0; Pinf]] /\
  kept (both_present 0 1) [[Fin 1; Fin 2; Nan]; [Fin 3; Nan; Nan]] [[Fin 1; Fin 2; Nan]] /\
  scipy_defined (fun _ _ _ => Ok (Fin 0)) /\ bad_column [[Fin 1; Fin 2]; [Fin 3; Pinf]] 1 /\ ~ bad_column [[Fin 1; Fin 2]; [Fin 3; Pinf]] 0.
Proof.
  split; [|split; [|split; [|split]]].
  - apply kept_in; [intros [H|[H|[]]]; discriminate|]. apply kept_out; [intros H; apply H; cbn; auto|]. apply kept_in; [intros [H|[H|[]]]; discriminate|constructor].
  - apply kept_in; [split; discriminate|]. apply kept_out; [intros [_ H]; apply H; reflexivity|constructor].
  - intros m a b v H. injection H as <-. discriminate.
  - exists [Fin 3; Pinf]. split; [cbn; auto|]. intros [r H]. discriminate.
  - intros [r [[<-|[<-|[]]] H]]; apply H; eexists; reflexivity.
Qed.
