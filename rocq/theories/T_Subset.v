(** Theorems: some of the variables have the copula, the ranks, the samples and the correlations of their own. *)
From Coq Require Import Reals QArith Qreals Permutation.
From Verif Require Import Base RSumLib CountLib Ext S_Archimedean M_Archimedean M_Special M_Stats M_Stable M_Sampling M_Rank S_Rank P_Rank M_Empirical S_Empirical P_Empirical M_Corr P_Corr M_Marginal S_Subset.
Local Close Scope Q_scope. Local Close Scope Z_scope. Open Scope R_scope. Open Scope list_scope.

(** ** Archimedean copulas *)
Lemma esum_drop f row rest : f (Fin 1) = Fin 0 -> without_ones row rest -> esum (map f row) = esum (map f rest).
Proof.
  intros F H. induction H as [|l l' _ IH|x l l' _ IH]; [reflexivity| |]; cbn [map]; unfold esum in *; cbn [fold_right]; [|rewrite IH; reflexivity].
  rewrite F, IH. destruct (fold_right eadd (Fin 0) (map f l')); cbn; try reflexivity. f_equal. ring.
Qed.
Lemma clayton_one th : clayton_ipsi th (Fin 1) = Fin 0.
Proof. unfold clayton_ipsi. rewrite epow_pos by lra. unfold Rpower. rewrite ln_1, Rmult_0_r, exp_0. cbn. f_equal. ring. Qed.
Lemma gumbel_one th : 1 <= th -> gumbel_ipsi th (Fin 1) = Fin 0.
Proof.
  intros H. unfold gumbel_ipsi, elog. rewrite (proj2 (Rltb_true 0 1)) by lra. cbn [eopp]. rewrite ln_1, Ropp_0. unfold epow.
  rewrite ?(proj2 (Rltb_false 0 0)), ?(proj2 (Reqb_true 0 0) eq_refl), ?(proj2 (Rltb_true 0 th)), ?(proj2 (Reqb_false th 0)) by lra. reflexivity.
Qed.
Lemma frank_one th : frank_ipsi th (Fin 1) = Fin 0.
Proof.
  unfold frank_ipsi. rewrite Rmult_1_l. destruct (Rleb (Rabs th) (1 / 100 * Rabs th)) eqn:E.
  - apply Rleb_true in E. f_equal. destruct (Req_dec th 0) as [->|N]; [reflexivity|]. apply Rabs_pos_lt in N. lra.
  - replace (th - th) with 0 by ring. rewrite Rabs_R0, (proj2 (Rltb_true 0 (1 / 2))) by lra. rewrite exp_0. replace (1 + exp (- th) * (1 - 1) / (exp (- th) - 1)) with 1.
    2:{ unfold Rdiv. ring. }
    unfold elog. rewrite (proj2 (Rltb_true 0 1)) by lra. rewrite ln_1. cbn. f_equal. ring.
Qed.
(** Every parameter, also those for which the cdf is wrong; every point, also with nan and infinite coordinates. *)
Theorem C133_archimedean : forall C, (exists th, C = clayton_cdf th \/ (1 <= th /\ C = gumbel_cdf th) \/ C = frank_cdf th) ->
  forall point rest, without_ones point rest -> C point = C rest.
Proof.
  intros C [th H] point rest W. destruct H as [->|[[H ->]| ->]]; unfold clayton_cdf, gumbel_cdf, frank_cdf, arch_cdf; f_equal; apply esum_drop; try exact W;
  [apply clayton_one|apply gumbel_one, H|apply frank_one].
Qed.
Print Assumptions C133_archimedean.

(** ** Products over some of the variables *)
Lemma nodup_app (l l' : list nat) : NoDup l -> (forall j, In j l -> In j l' -> False) -> NoDup l' -> NoDup (l ++ l').
Proof.
  intros H D N. induction H as [|x l Hx _ IH]; [exact N|]. cbn. constructor.
  - rewrite in_app_iff. intros [I|I]; [exact (Hx I)|]. apply (D x); [left; reflexivity|exact I].
  - apply IH. intros j I. apply D. right. exact I.
Qed.
Lemma split_columns n cols : columns_of n cols -> exists rest, Permutation (seq 0 n) (cols ++ rest) /\ forall j, In j rest -> (j < n)%nat /\ ~ In j cols.
Proof.
  intros [N F]. exists (filter (fun j => negb (existsb (Nat.eqb j) cols)) (seq 0 n)).
  assert (M : forall j, existsb (Nat.eqb j) cols = true <-> In j cols).
  { intros j. rewrite existsb_exists. split; [intros [x [I E]]; apply Nat.eqb_eq in E; subst; exact I|intros I; exists j; split; [exact I|apply Nat.eqb_refl]]. }
  assert (R : forall j, In j (filter (fun j => negb (existsb (Nat.eqb j) cols)) (seq 0 n)) <-> (j < n)%nat /\ ~ In j cols).
  { intros j. rewrite filter_In, in_seq, Bool.negb_true_iff, <- Bool.not_true_iff_false, M. split; intros [A B]; split; try assumption; lia. }
  split; [|intros j I; apply R, I]. apply NoDup_Permutation.
  - apply seq_NoDup.
  - apply nodup_app; [exact N| |].
    + intros j I1 I2. apply R in I2. tauto.
    + apply NoDup_filter, seq_NoDup.
  - intros j. rewrite in_app_iff, R, in_seq. rewrite Forall_forall in F. split; [|intros [I|I]; [apply F in I|]; lia].
    intros I. destruct (in_dec Nat.eq_dec j cols) as [I2|I2]; [left; exact I2|right; split; [lia|exact I2]].
Qed.
Lemma prod_columns n cols (F : nat -> R) : columns_of n cols -> (forall j, (j < n)%nat -> ~ In j cols -> F j = 1) -> lprod (map F (seq 0 n)) = lprod (map F cols).
Proof.
  intros H O. destruct (split_columns n cols H) as [rest [P R]]. rewrite (lprod_perm _ _ (Permutation_map F P)), map_app, lprod_app.
  rewrite (lprod_ones F rest), Rmult_1_r by (intros j I; apply R in I; apply O; tauto). reflexivity.
Qed.
Lemma nth_columns cols {A} (F : nat -> A) : map F cols = map (fun a => F (nth a cols 0%nat)) (seq 0 (length cols)).
Proof. rewrite <- (map_map (fun a => nth a cols 0%nat) F). f_equal. induction cols as [|c cols IH]; [reflexivity|]. cbn [length seq map nth]. f_equal. rewrite <- seq_shift, map_map. exact IH. Qed.

(** ** Ranks *)
Theorem C133_pseudo_observations : forall (x : mat R) ties cols, pseudo_obs Rleb (some_columns cols x) ties = rmap (some_columns cols) (pseudo_obs Rleb x ties).
Proof. intros x ties cols. unfold pseudo_obs, rank_data2. destruct (parse_ties ties); reflexivity. Qed.
Print Assumptions C133_pseudo_observations.

(** ** The empirical copula, with every smoothing *)
Theorem C133_empirical : forall btdtr e cols l, computes_beta_distribution btdtr -> usable e -> cols <> [] -> columns_of (nc (e_data e)) cols ->
  unit_cube l -> length l = nc (e_data e) -> (forall j, (j < length l)%nat -> ~ In j cols -> nth j l 0 = 1) ->
  at_point (fun u => emp_cdf btdtr e u false) l =
  at_point (fun u => emp_cdf btdtr (mkEmp (some_columns cols (e_data e)) (e_smoothing e) (e_ties e) (e_offset e)) u false) (pick 0 cols l).
Proof.
  intros btdtr e cols l Hb U Nc Hc Hl L O. rewrite point_eq by assumption. rewrite point_eq.
  2:{ destruct U as [U1 [U2 [U3 [U4 U5]]]]. repeat split; cbn; try assumption. destruct cols; [congruence|cbn; lia]. }
  2:{ apply Forall_forall. intros x I. unfold pick in I. apply in_map_iff in I. destruct I as [j [<- _]]. apply nth_cube, Hl. }
  2:{ cbn. unfold pick. apply map_length. }
  cbn [e_data e_offset some_columns nr nc]. do 2 f_equal. destruct (g_props btdtr Hb e U) as [_ [G1 _]]. unfold mix. apply rsum_ext. intros i Hi.
  rewrite (prod_columns (nc (e_data e)) cols) by (try exact Hc; intros j Hj I; rewrite O by (try exact I; lia); apply G1; assumption).
  rewrite nth_columns. f_equal. apply map_ext_in. intros a Ia. apply in_seq in Ia. unfold g_of. cbn [e_data e_smoothing nr some_columns]. f_equal.
  - unfold pobs_of. cbn [e_data e_ties]. rewrite C133_pseudo_observations. destruct (pseudo_obs Rleb (e_data e) (e_ties e)); reflexivity.
  - unfold pick. rewrite (nth_indep (map (fun j => nth j l 0) cols) 0 (nth 0%nat l 0)) by (rewrite map_length; lia). rewrite (map_nth (fun j => nth j l 0)). reflexivity.
Qed.
Print Assumptions C133_empirical.

(** ** Independence *)
Lemma fold_lprod (F : nat -> R) s p : fold_left (fun p j => p * F j) s p = p * lprod (map F s).
Proof. revert p. induction s as [|j s IH]; intros p; cbn [fold_left map lprod]; [ring|]. rewrite IH. ring. Qed.
Theorem C133_independence : forall x cols, columns_of (nc x) cols -> (forall i j, (i < nr x)%nat -> (j < nc x)%nat -> ~ In j cols -> get x i j = 1) ->
  indep_cdf x false = indep_cdf (some_columns cols x) false.
Proof.
  intros x cols Hc O. unfold indep_cdf. cbn [some_columns nr nc get]. apply map_ext_in. intros i Ii. apply in_seq in Ii. f_equal. rewrite !fold_lprod. f_equal.
  rewrite (prod_columns (nc x) cols) by (try exact Hc; intros j Hj I; apply O; try assumption; lia). apply f_equal, nth_columns.
Qed.
Print Assumptions C133_independence.

(** ** Samples: the variables of a sampled row, from the frailty of the row and the draws of these variables (three or more dimensions) *)
Lemma mapM_pick {A B} (f : A -> result B) da db ws r cols : mapM f ws = Ok r -> Forall (fun j => (j < length ws)%nat) cols -> mapM f (pick da cols ws) = Ok (pick db cols r).
Proof.
  intros H. assert (N : forall j, (j < length ws)%nat -> f (nth j ws da) = Ok (nth j r db)).
  { revert r H. induction ws as [|w ws IH]; intros r H j Hj; cbn in Hj; [lia|]. cbn in H. destruct (f w) as [b|] eqn:E; [|discriminate H]. cbn in H. destruct (mapM f ws) as [bs|]; [|discriminate H]. injection H as <-.
    destruct j as [|j]; [exact E|]. cbn. apply (IH bs eq_refl). lia. }
  intros F. induction F as [|j cols Hj _ IH]; [reflexivity|]. cbn. rewrite (N j Hj). cbn. unfold pick in IH. rewrite IH. reflexivity.
Qed.
Lemma map_pick {A B} (f : A -> B) da db ws cols : Forall (fun j => (j < length ws)%nat) cols -> map f (pick da cols ws) = pick db cols (map f ws).
Proof. intros F. induction F as [|j cols Hj _ IH]; [reflexivity|]. cbn. f_equal; [|exact IH]. rewrite (nth_indep _ db (f da)) by (rewrite map_length; exact Hj). symmetry. apply map_nth. Qed.
Theorem C133_samples : forall cols ws r, Forall (fun j => (j < length ws)%nat) cols ->
  (forall th v, clayton_random_row th v ws = Ok r -> clayton_random_row th v (pick 0 cols ws) = Ok (pick Nan cols r)) /\
  (forall argmax cauchy th u w, gumbel_random_row argmax cauchy th u w ws = Ok r -> gumbel_random_row argmax cauchy th u w (pick 0 cols ws) = Ok (pick Nan cols r)) /\
  (forall fuel th u1 u2, frank_random_row fuel th u1 u2 ws = Some (Ok r) -> frank_random_row fuel th u1 u2 (pick 0 cols ws) = Some (Ok (pick Nan cols r))).
Proof.
  intros cols ws r F. repeat split.
  - intros th v. unfold clayton_random_row. destruct (Rltb _ _); intros H; [injection H as <-; f_equal; apply map_pick, F|apply (mapM_pick _ _ _ ws); assumption].
  - intros argmax cauchy th u w. unfold gumbel_random_row. destruct (gumbel_frailty _ _ _ _ _) as [fr|e]; [|discriminate]. cbn [bind].
    destruct fr; intros H; try (injection H as <-; f_equal; apply map_pick, F). apply (mapM_pick _ _ _ ws); assumption.
  - intros fuel th u1 u2. unfold frank_random_row. destruct (Rltb _ _); [intros H; injection H as <-; do 2 f_equal; apply map_pick, F|].
    destruct (Reqb _ 0); [intros H; injection H as <-; do 2 f_equal; apply map_pick, F|]. destruct (random_log_series _ _ _ _) as [fr|]; [|discriminate]. cbn [option_map]. intros H. injection H as H. f_equal.
    destruct fr as [|[f| | |] [|]]; try (apply (mapM_pick _ _ _ ws); assumption). injection H as <-. f_equal. apply map_pick, F.
Qed.
Print Assumptions C133_samples.

(** ** Correlation tables *)
Lemma column_pick rows cols a : (a < length cols)%nat -> column (map (pick Nan cols) rows) a = column rows (nth a cols 0%nat).
Proof.
  intros H. unfold column. rewrite map_map. apply map_ext. intros r. unfold pick. rewrite (nth_indep (map (fun j => nth j r Nan) cols) Nan (nth 0%nat r Nan)) by (rewrite map_length; exact H).
  apply (map_nth (fun j => nth j r Nan)).
Qed.
Lemma pick_nth {r : list ext} cols a : (a < length cols)%nat -> nth a (pick Nan cols r) Nan = nth (nth a cols 0%nat) r Nan.
Proof. intros H. pose proof (column_pick [r] cols a H) as E. injection E as E. exact E. Qed.
Lemma pair_pick rows cols a b : (a < length cols)%nat -> (b < length cols)%nat ->
  drop_pair (map (pick Nan cols) rows) a b = map (pick Nan cols) (drop_pair rows (nth a cols 0%nat) (nth b cols 0%nat)).
Proof.
  intros Ha Hb. induction rows as [|r rows IH]; [reflexivity|]. cbn [map]. unfold drop_pair in *. cbn [filter]. rewrite !pick_nth by assumption.
  destruct (negb _ && negb _); cbn [map]; rewrite IH; reflexivity.
Qed.
(** Columns in their order, missing values left in or left out pair by pair. *)
Theorem C133_correlations : forall scipy n rows cols method use c c', use = "everything"%string \/ use = "pairwise.complete"%string ->
  (forall a b, (a < b < length cols)%nat -> (nth a cols 0 < nth b cols 0 < n)%nat) ->
  corr scipy n rows method use = Ok c -> corr scipy (length cols) (map (pick Nan cols) rows) method use = Ok c' ->
  forall a b, (a < length cols)%nat -> (b < length cols)%nat -> get c' a b = get c (nth a cols 0%nat) (nth b cols 0%nat).
Proof.
  intros scipy n rows cols method use c c' Hu I E E'.
  destruct (corr_entry scipy n rows method use c E) as [_ [_ [D [m [u [Em [Eu G]]]]]]].
  destruct (corr_entry scipy _ _ method use c' E') as [_ [_ [D' [m' [u' [Em' [Eu' G']]]]]]].
  assert (m' = m) by congruence. assert (u' = u) by congruence. subst m' u'.
  assert (V : forall a b, (a < b < length cols)%nat -> get c' a b = get c (nth a cols 0%nat) (nth b cols 0%nat) /\ get c' b a = get c (nth b cols 0%nat) (nth a cols 0%nat)).
  { intros a b H. destruct (G' a b H) as [v' [V' [-> ->]]]. destruct (G _ _ (I a b H)) as [v [V [-> ->]]].
    assert (X : pair_vectors (map (pick Nan cols) rows) u a b = pair_vectors rows u (nth a cols 0%nat) (nth b cols 0%nat)); [|rewrite X in V'; split; congruence].
    destruct Hu as [->| ->].
    - change (validate_use "everything") with (Ok UEverything) in Eu. injection Eu as <-. cbn [pair_vectors]. rewrite !column_pick by lia. reflexivity.
    - change (validate_use "pairwise.complete") with (Ok UPairwise) in Eu. injection Eu as <-. cbn [pair_vectors]. rewrite pair_pick, !column_pick by lia. reflexivity. }
  intros a b Ha Hb. destruct (lt_eq_lt_dec a b) as [[H| ->]|H].
  - apply (V a b). lia.
  - rewrite D, D'. reflexivity.
  - apply (V b a). lia.
Qed.
Print Assumptions C133_correlations.
(** With use = "complete" a variable with missing values decides which rows count for the others.  The two hypotheses are values of
    Pearson's correlation: 1 for two points on a rising line, 0 for a symmetric hat. *)
Theorem C133_complete_refuted : forall scipy, scipy CPearson [1; 2] [1; 2] = Ok (Fin 1) -> scipy CPearson [1; 2; 3] [1; 2; 1] = Ok (Fin 0) ->
  (exists v, scipy CPearson [1; 2] [5; 7] = Ok v) ->
  let rows := [[Fin 1; Fin 1; Fin 5]; [Fin 2; Fin 2; Fin 7]; [Fin 3; Fin 1; Nan]] in
  exists c c', corr scipy 3 rows "pearson" "complete" = Ok c /\ corr scipy 2 (map (pick Nan [0; 1]%nat) rows) "pearson" "complete" = Ok c' /\
    get c 0%nat 1%nat = Fin 1 /\ get c' 0%nat 1%nat = Fin 0.
Proof.
  intros scipy H1 H2 [v H3] rows. unfold corr. change (validate_use "complete") with (Ok UComplete). change (corr_method "pearson") with (Ok CPearson). cbn [bind].
  eexists. eexists. split.
  { cbn [pairs seq flat_map map app Nat.sub Nat.add fill]. unfold rows. cbn. rewrite H1. cbn. rewrite H3. cbn. reflexivity. }
  split. { unfold rows. cbn. rewrite H2. cbn. reflexivity. }
  cbn. split; reflexivity.
Qed.
Print Assumptions C133_complete_refuted.

(** Three variables of which the second is 1; three observations of three variables, of which the first and the third are kept. *)
Example C133_case : forall btdtr, computes_beta_distribution btdtr ->
  without_ones [Fin (1 / 2); Fin 1; Fin (1 / 3)] [Fin (1 / 2); Fin (1 / 3)] /\
  let e := mkEmp (mkMat 3 3 (fun i j => INR ((i + j) mod 3))) "beta" "average" 0 in
  usable e /\ columns_of (nc (e_data e)) [0; 2]%nat /\
  at_point (fun u => emp_cdf btdtr e u false) [1 / 2; 1; 1 / 3] =
  at_point (fun u => emp_cdf btdtr (mkEmp (some_columns [0; 2]%nat (e_data e)) "beta" "average" 0) u false) [1 / 2; 1 / 3].
Proof.
  intros btdtr Hb. split; [apply w_keep, w_drop, w_keep, w_nil|]. intros e.
  assert (U : usable e). { repeat split; cbn; try lia; try lra; [left; reflexivity|right; left; reflexivity]. }
  assert (Hc : columns_of (nc (e_data e)) [0; 2]%nat). { split; [repeat constructor; cbn; intuition discriminate|repeat constructor; cbn; lia]. }
  split; [exact U|]. split; [exact Hc|]. apply (C133_empirical btdtr e [0; 2]%nat [1 / 2; 1; 1 / 3] Hb U); [discriminate|exact Hc|repeat constructor; lra|reflexivity|].
  intros [|[|[|j]]] Hj Nj; cbn in *; try reflexivity; try lia; exfalso; apply Nj; auto.
Qed.
