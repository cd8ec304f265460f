(** Theorems: statistics do not depend on the order of the observations. *)
From Coq Require Import Reals Permutation QArith Qreals FunctionalExtensionality.
From Verif Require Import Base RSumLib CountLib Ext M_Corr S_Matrix S_Linalg S_Rank M_Rank P_Rank T_Rank M_Special M_Stats M_Empirical P_Empirical M_Gof S_Gof P_Gof S_Reorder.
Local Close Scope Q_scope. Local Close Scope Z_scope. Open Scope R_scope. Open Scope list_scope.

(** ** Exchangeability *)
Lemma cn_reorder u v u' v' q x y n : row_permutation n q -> (forall i, (i < n)%nat -> u' i = u (q i) /\ v' i = v (q i)) -> cn u' v' x y n = cn u v x y n.
Proof.
  intros P H. unfold cn. f_equal. rewrite <- (rsum_perm n q (fun i => ind (Rleb (u i) x) * ind (Rleb (v i) y)) P). apply rsum_ext. intros i Hi. destruct (H i Hi) as [-> ->]. reflexivity.
Qed.
Lemma influence_reorder u v u' v' q x y n j : row_permutation n q -> (forall i, (i < n)%nat -> u' i = u (q i) /\ v' i = v (q i)) -> (j < n)%nat ->
  influence u' v' n x y j = influence u v n x y (q j).
Proof.
  intros P H Hj. unfold influence, der_cn_1, der_cn_2. rewrite !(cn_reorder u v u' v' q _ _ n P H). destruct (H j Hj) as [-> ->]. reflexivity.
Qed.
Section Exch.
  Variables (n m : nat) (q : nat -> nat) (t : ties) (x y : nat -> R).
  Hypothesis P : row_permutation n q.
  Hypothesis Ho : t <> Ordinal.
  Let u := pairs t n x y.
  Let u' := pairs t n (fun i => x (q i)) (fun i => y (q i)).
  Lemma pairs_reorder i c : (i < n)%nat -> get u' i c = get u (q i) c.
  Proof. intros Hi. unfold u, u', pairs. cbn [get]. rewrite !(rankdata_perm Rleb Rleb_preorder t n _ q i Ho P Hi). reflexivity. Qed.
  Lemma cols i : (i < n)%nat -> get u' i 0 = get u (q i) 0 /\ get u' i 1 = get u (q i) 1.
  Proof. intros Hi. split; apply pairs_reorder, Hi. Qed.
  Lemma over_points (F : R -> R -> R) : rsum (number_of n m) (fun i => F (get (points_of u' m) i 0) (get (points_of u' m) i 1)) = rsum (number_of n m) (fun i => F (get (points_of u m) i 0) (get (points_of u m) i 1)).
  Proof.
    unfold points_of, number_of. destruct (Nat.eqb m 0); [|reflexivity]. rewrite <- (rsum_perm n q (fun i => F (get u i 0) (get u i 1)) P). apply rsum_ext. intros i Hi. rewrite !pairs_reorder by exact Hi. reflexivity.
  Qed.
  Lemma stat_reorder : exch_test_stat u' (points_of u' m) n (number_of n m) = exch_test_stat u (points_of u m) n (number_of n m).
  Proof.
    unfold exch_test_stat. f_equal. f_equal. cbv zeta.
    rewrite <- (over_points (fun x y => (cn (fun k => get u k 0) (fun k => get u k 1) x y n - cn (fun k => get u k 0) (fun k => get u k 1) y x n) * (cn (fun k => get u k 0) (fun k => get u k 1) x y n - cn (fun k => get u k 0) (fun k => get u k 1) y x n))).
    apply rsum_ext. intros i _. rewrite !(cn_reorder (fun k => get u k 0) (fun k => get u k 1) (fun k => get u' k 0) (fun k => get u' k 1) q _ _ n P cols). reflexivity.
  Qed.
  Lemma multiplier_reorder r : multiplier (fun k => get u' k 0) (fun k => get u' k 1) (points_of u' m) n (number_of n m) (fun k => r (q k))
    = multiplier (fun k => get u k 0) (fun k => get u k 1) (points_of u m) n (number_of n m) r.
  Proof.
    unfold multiplier. rewrite (rsum_perm n q (fun j => r j / INR n) P). f_equal. cbv zeta. set (mu := rsum n (fun j => r j / INR n)).
    set (pr := fun x y => rsum n (fun k => (r k - mu) * influence (fun k => get u k 0) (fun k => get u k 1) n x y k)).
    change (rsum (number_of n m) (fun j => rsum n (fun k => (r (q k) - mu) * influence (fun k0 => get u' k0 0) (fun k0 => get u' k0 1) n (get (points_of u' m) j 0) (get (points_of u' m) j 1) k)
       * rsum n (fun k => (r (q k) - mu) * influence (fun k0 => get u' k0 0) (fun k0 => get u' k0 1) n (get (points_of u' m) j 0) (get (points_of u' m) j 1) k))
     = rsum (number_of n m) (fun j => pr (get (points_of u m) j 0) (get (points_of u m) j 1) * pr (get (points_of u m) j 0) (get (points_of u m) j 1))).
    rewrite <- (over_points (fun x y => pr x y * pr x y)). apply rsum_ext. intros j _. f_equal;
      unfold pr; match goal with |- _ = rsum n ?F => rewrite <- (rsum_perm n q F P) end; apply rsum_ext; intros k Hk; rewrite (influence_reorder (fun k => get u k 0) (fun k => get u k 1) _ _ q _ _ n k P cols Hk); reflexivity.
  Qed.
End Exch.

(** The statistic stays the same; without ties and with the random numbers in the order of the observations so does the p-value. *)
Theorem C123_exchangeability : forall argsort n n' x y N m ties normals bits s p q, argsorts argsort -> lower ties <> "ordinal"%string -> row_permutation n q ->
  exch_test argsort n n' x y N m ties normals bits = Ok (s, p) ->
  (exists p', exch_test argsort n n' (fun i => x (q i)) (fun i => y (q i)) N m ties normals bits = Ok (s, p')) /\
  (no_ties Rleb n x -> no_ties Rleb n y -> exch_test argsort n n' (fun i => x (q i)) (fun i => y (q i)) N m ties (fun r k => normals r (q k)) bits = Ok (s, p)).
Proof.
  intros argsort n n' x y N m ties normals bits s p q Ha Hord P H. destruct (exch_test_inv _ _ _ _ _ _ _ _ _ _ _ H) as [-> [HN [t Ht]]].
  rewrite (exch_test_eq _ _ _ _ _ _ _ _ _ t Ht HN) in H. pose proof (parse_ties_ordinal ties t Ht Hord) as Ho.
  destruct (simulated_Ok argsort (pairs t n x y) n m N normals bits Ha) as [s0 [E _]]. rewrite E in H. cbn [bind] in H. injection H as Hs Hp. split.
  - rewrite (exch_test_eq _ _ _ _ _ _ _ _ _ t Ht HN). destruct (simulated_Ok argsort (pairs t n (fun i => x (q i)) (fun i => y (q i))) n m N normals bits Ha) as [s1 [-> _]]. cbn [bind].
    rewrite (stat_reorder n m q t x y P Ho), Hs. eexists. reflexivity.
  - intros Hx Hy. rewrite (exch_test_eq _ _ _ _ _ _ _ _ _ t Ht HN).
    assert (NT : forall z, no_ties Rleb n z -> no_ties Rleb n (fun i => z (q i))).
    { intros z Hz i k Hi Hk T. destruct P as [r Hr]. destruct (Hr i Hi) as [A1 [_ [A2 _]]]. destruct (Hr k Hk) as [B1 [_ [B2 _]]]. rewrite <- A2, <- B2. f_equal. apply Hz; assumption. }
    unfold simulated in *. rewrite (untied_pairs t n x y Hx Hy) in E. rewrite (untied_pairs t n _ _ (NT x Hx) (NT y Hy)). cbn [bind]. rewrite (stat_reorder n m q t x y P Ho), Hs.
    injection E as E. rewrite <- Hp. do 2 f_equal. rewrite Hs. f_equal. rewrite <- E. unfold exch_test_cn. apply map_ext. intros r. apply (multiplier_reorder n m q t x y P Ho (normals r)).
Qed.
Print Assumptions C123_exchangeability.

(** ** Radial symmetry *)
Lemma rad_reorder q (u u' : mat R) : row_permutation (nr u) q -> nr u' = nr u -> nc u' = nc u -> (forall i j, (i < nr u)%nat -> get u' i j = get u (q i) j) ->
  rad_sym_test_stat (ravelF u') (nr u') (nc u') = rad_sym_test_stat (ravelF u) (nr u) (nc u).
Proof.
  intros P N1 N2 H. rewrite !rad_stat_rows. rewrite N1, N2. match goal with |- _ = rsum _ ?F => rewrite <- (rsum_perm (nr u) q F P) end. apply rsum_ext. intros k Hk.
  assert (E : rows_below (nr u) (nc u) (get u') k = rows_below (nr u) (nc u) (get u) (q k)); [|rewrite E; reflexivity].
  unfold rows_below. match goal with |- _ = rsum _ ?F => rewrite <- (rsum_perm (nr u) q F P) end. apply rsum_ext. intros i Hi. f_equal; apply lprod_map_ext; intros j _; rewrite !H by assumption; reflexivity.
Qed.
Lemma pobs_reorder (x : mat R) ties u q : lower ties <> "ordinal"%string -> row_permutation (nr x) q -> pseudo_obs Rleb x ties = Ok u ->
  exists v, pseudo_obs Rleb (reorder q x) ties = Ok v /\ nr v = nr u /\ nc v = nc u /\ nr u = nr x /\ nc u = nc x /\ forall i j, (i < nr x)%nat -> get v i j = get u (q i) j.
Proof.
  intros Hord P H. destruct (pseudo_obs_Ok Rleb _ _ _ H) as [t [Ht [N1 [N2 G]]]].
  assert (E : exists v, pseudo_obs Rleb (reorder q x) ties = Ok v) by (unfold pseudo_obs, rank_data2; rewrite Ht; cbn [bind rmap]; eexists; reflexivity).
  destruct E as [v E]. destruct (pseudo_obs_Ok Rleb _ _ _ E) as [t' [Ht' [M1 [M2 G']]]]. cbn [reorder nr nc] in M1, M2.
  exists v. split; [exact E|]. split; [congruence|]. split; [congruence|]. split; [exact N1|]. split; [exact N2|].
  exact (C04_pseudo_obs_row_equivariant R Rleb Rleb_preorder x ties q u v Hord P H E).
Qed.
Lemma column_reorder q (x : mat R) j : row_permutation (nr x) q -> Permutation (column (reorder q x) j) (column x j).
Proof.
  intros P. unfold column, reorder. cbn [nr get]. rewrite <- (map_map q (fun i => get x i j)). apply Permutation_map. apply row_perm_Permutation, P.
Qed.
Theorem C123_radial_symmetry : forall argsort x N ties bits s p q, argsorts argsort -> lower ties <> "ordinal"%string -> row_permutation (nr x) q ->
  rad_sym_test argsort x N ties bits = Ok (s, p) ->
  exists p', rad_sym_test argsort (reorder q x) N ties bits = Ok (s, p').
Proof.
  intros argsort x N ties bits s p q Ha Hord P H. destruct (rad_test_inv _ _ _ _ _ _ _ Ha H) as [HN [u [ir [s0 [Hu [_ [Hs _]]]]]]].
  destruct (pobs_reorder x ties u q Hord P Hu) as [v [Hv [N1 [N2 [N3 [N4 G]]]]]].
  destruct (pseudo_obs_Ok Rleb _ _ _ Hu) as [t [Ht _]].
  assert (Ok' : exists s' p', rad_sym_test argsort (reorder q x) N ties bits = Ok (s', p')).
  { unfold rad_sym_test. rewrite (proj2 (Nat.eqb_neq N 0)) by lia. rewrite Hv. cbn [bind]. destruct (tie_indices_Ok (real_mat v)) as [ir' [E _]]. rewrite E. cbn [bind].
    destruct (mapM_all (fun k => rad_sym_replicate argsort (real_mat v) ir' (nr (reorder q x)) (nc (reorder q x)) (has_ties (reorder q x)) (bits k)) (fun s => 0 <= s) (seq 0 N)) as [s1 [E1 _]]; [|rewrite E1; cbn [bind]; eauto].
    intros k _. apply rad_replicate_Ok; assumption. }
  destruct Ok' as [s' [p' E]]. exists p'. rewrite E. destruct (rad_test_inv _ _ _ _ _ _ _ Ha E) as [_ [v' [_ [_ [Hv' [_ [Hs' _]]]]]]].
  assert (v' = v) by congruence. subst v'. do 2 f_equal. rewrite Hs, Hs'. cbn [reorder nr nc].
  assert (A1 : nr (real_mat u) = nr x) by exact N3. assert (A2 : nc (real_mat u) = nc x) by exact N4.
  assert (B1 : nr (real_mat v) = nr x) by (cbn; congruence). assert (B2 : nc (real_mat v) = nc x) by (cbn; congruence).
  rewrite <- B1 at 1. rewrite <- B2 at 1. rewrite <- A1, <- A2. apply (rad_reorder q); rewrite ?A1, ?A2, ?B1, ?B2; try reflexivity; [exact P|].
  intros i j Hi. cbn [real_mat get]. rewrite G by exact Hi. reflexivity.
Qed.
Print Assumptions C123_radial_symmetry.

(** ** Empirical copulas *)
Lemma emp_row_reorder (X X' Y Y' : mat R) k k' offset f q : row_permutation (nr Y) q -> (k < nr X)%nat -> (k' < nr X')%nat -> nc X' = nc X -> (forall j, get X' k' j = get X k j) ->
  nr Y' = nr Y -> (forall i j, (i < nr Y)%nat -> (j < nc X)%nat -> get Y' i j = get Y (q i) j) ->
  emp_dist_row (ravelF X') (ravelF Y') (nr X') (nr Y') (nc X') k' offset f = emp_dist_row (ravelF X) (ravelF Y) (nr X) (nr Y) (nc X) k offset f.
Proof.
  intros P Hk Hk' NX HX N H. unfold emp_dist_row. rewrite !(fold_sum (fun i => fold_left _ _ 1)), !Rplus_0_l, <- !rsum_lsum. rewrite N, NX.
  f_equal. match goal with |- _ = rsum _ ?F => rewrite <- (rsum_perm (nr Y) q F P) end. apply rsum_ext. intros i Hi.
  rewrite !(fold_prod (fun j => f _ _ _)), !Rmult_1_l. apply lprod_map_ext. intros j Hj. apply in_seq in Hj.
  assert (Hq : (q i < nr Y)%nat) by (destruct P as [r Hr]; apply Hr; exact Hi).
  assert (E : ravelF Y' (i + nr Y * j) = get Y' i j) by (rewrite <- N; apply ravelF_get; rewrite N; exact Hi).
  rewrite E, (ravelF_get Y (q i) j Hq), (ravelF_get X k j Hk), (ravelF_get X' k' j Hk'), HX, H by (try exact Hi; lia). reflexivity.
Qed.
Lemma emp_dist_reorder btdtr (X Y Y' : mat R) offset s q : row_permutation (nr Y) q -> nr Y' = nr Y -> nc Y' = nc Y -> (forall i j, (i < nr Y)%nat -> get Y' i j = get Y (q i) j) ->
  emp_dist_func btdtr X Y' s offset = emp_dist_func btdtr X Y s offset.
Proof.
  intros P N1 N2 H. unfold emp_dist_func. destruct (map_smoothing s) as [typ|]; [|reflexivity]. cbn [bind]. rewrite N2. destruct (negb _); [reflexivity|]. f_equal.
  unfold emp_copula_dist. apply map_ext_in. intros k Hk. apply in_seq in Hk. destruct typ as [|[|[|typ]]]; try reflexivity;
    apply (emp_row_reorder X X Y Y' k k offset _ q P); try exact N1; try lia; try reflexivity; intros i j Hi _; apply H; exact Hi.
Qed.
(** The distribution function of an empirical copula, at all points. *)
Theorem C123_empirical_copula : forall btdtr e u log q, lower (e_ties e) <> "ordinal"%string -> row_permutation (nr (e_data e)) q ->
  emp_cdf btdtr (mkEmp (reorder q (e_data e)) (e_smoothing e) (e_ties e) (e_offset e)) u log = emp_cdf btdtr e u log.
Proof.
  intros btdtr e u log q Hord P. unfold emp_cdf. cbn [e_data e_smoothing e_ties e_offset]. destruct (_ || _); [reflexivity|].
  destruct (pseudo_obs Rleb (e_data e) (e_ties e)) as [uu|x] eqn:E.
  - destruct (pobs_reorder (e_data e) (e_ties e) uu q Hord P E) as [v [-> [N1 [N2 [N3 [N4 G]]]]]]. cbn [bind]. f_equal.
    apply (emp_dist_reorder btdtr u (mkMat (nr uu) (nc uu) (fun i j => Q2R (get uu i j))) (mkMat (nr v) (nc v) (fun i j => Q2R (get v i j))) (e_offset e) _ q); cbn [nr nc get]; try assumption.
    + rewrite N3. exact P.
    + intros i j Hi. rewrite G by (rewrite <- N3; exact Hi). reflexivity.
  - cbn [bind]. unfold pseudo_obs, rank_data2 in *. destruct (parse_ties (e_ties e)); cbn [bind rmap] in *; [discriminate|]. congruence.
Qed.
Print Assumptions C123_empirical_copula.

(** ** Goodness of fit *)
Lemma has_ties_reorder q (x : mat R) : row_permutation (nr x) q -> has_ties (reorder q x) = has_ties x.
Proof.
  intros P. unfold has_ties. f_equal. cbn [reorder nc]. assert (E : forall l, forallb (fun j => distinct (column (reorder q x) j)) l = forallb (fun j => distinct (column x j)) l); [|apply E].
  induction l as [|j l IH]; [reflexivity|]. cbn [forallb]. rewrite IH. f_equal. pose proof (column_reorder q x j P) as Q.
  assert (D : forall l, distinct l = true <-> NoDup l).
  { intros l0. split.
    - intros H. apply (NoDup_nth l0 0). intros i k Hi Hk E0. unfold distinct in H. rewrite forallb_forall in H. specialize (H i ltac:(apply in_seq; lia)). cbv beta in H. rewrite forallb_forall in H. specialize (H k ltac:(apply in_seq; lia)). cbv beta in H.
      destruct (Nat.eqb_spec i k) as [->|N]; [reflexivity|]. cbn [orb] in H. apply negb_true_iff, Reqb_false in H. contradiction.
    - intros H. apply distinct_true. intros i k Hi Hk E0. apply (proj1 (NoDup_nth l0 0) H); assumption. }
  destruct (distinct (column x j)) eqn:E1.
  - apply D. apply (Permutation_NoDup (Permutation_sym Q)). apply D. exact E1.
  - destruct (distinct (column (reorder q x) j)) eqn:E2; [|reflexivity]. apply D in E2. apply (Permutation_NoDup Q) in E2. apply D in E2. congruence.
Qed.
Lemma duplicated_reorder q (x : mat R) : row_permutation (nr x) q -> duplicated_ranks (reorder q x) = duplicated_ranks x.
Proof.
  intros P. unfold duplicated_ranks, rank_data2. cbn [parse_ties lower bind rmap reorder nr nc]. destruct (parse_ties "average") as [t|] eqn:Et; [|reflexivity]. cbn [bind rmap]. f_equal.
  assert (Ho : t <> Ordinal) by (apply (parse_ties_ordinal "average" t Et); discriminate).
  f_equal. apply functional_extensionality. intros i. apply functional_extensionality. intros j. do 2 f_equal. unfold sort_columns. cbn [get real_mat nr]. f_equal.
  apply sorted_unique. unfold column. cbn [get real_mat nr].
  rewrite (map_ext_in _ (fun i0 => Q2R (rankdata Rleb t (nr x) (fun k => get x k j) (q i0)))).
  - rewrite <- (map_map q (fun i0 => Q2R (rankdata Rleb t (nr x) (fun k => get x k j) i0))). apply Permutation_map. apply row_perm_Permutation, P.
  - intros a Ha. apply in_seq in Ha. cbn [get nr]. f_equal. apply (rankdata_perm Rleb Rleb_preorder t (nr x) (fun k => get x k j) q a Ho P). lia.
Qed.
Lemma t_stat_reorder cdf cdf' (d d' : mat R) q : row_permutation (nr d) q -> nr d' = nr d -> nc d' = nc d -> (forall i j, (i < nr d)%nat -> get d' i j = get d (q i) j) ->
  (forall k, (k < nr d)%nat -> cdf' d' k = cdf d (q k)) -> gof_t_stat cdf' d' = gof_t_stat cdf d.
Proof.
  intros P N1 N2 H Hc. unfold gof_t_stat, emp_dist_func. change (map_smoothing (Some "none"%string)) with (@Ok nat 0%nat). cbn [bind].
  rewrite !Nat.eqb_refl. cbn [negb bind]. f_equal.
  assert (Hq : forall i, (i < nr d)%nat -> (q i < nr d)%nat) by (destruct P as [r Hr]; intros i Hi; apply Hr; exact Hi).
  set (e := fun (d : mat R) k => match emp_dist_row (ravelF d) (ravelF d) (nr d) (nr d) (nc d) k 0 emp_cop with Fin e => e | _ => 0 end).
  assert (S0 : forall (c : mat R -> nat -> R) (d : mat R), fold_left (fun s k => s + (match nth k (emp_copula_dist (fun _ _ _ => 0) d d 0 0) Nan with Fin e => e | _ => 0 end - c d k) ^ 2) (seq 0 (nr d)) 0 = rsum (nr d) (fun k => (e d k - c d k) ^ 2)).
  { intros c d0. rewrite (fold_sum (fun k => _ ^ 2)), Rplus_0_l, <- rsum_lsum. apply rsum_ext. intros k Hk. unfold emp_copula_dist. rewrite (nth_indep _ Nan (emp_dist_row (ravelF d0) (ravelF d0) (nr d0) (nr d0) (nc d0) 0 0 emp_cop)) by (rewrite map_length, seq_length; exact Hk).
    rewrite (map_nth (fun i => emp_dist_row (ravelF d0) (ravelF d0) (nr d0) (nr d0) (nc d0) i 0 emp_cop)), seq_nth by exact Hk. reflexivity. }
  rewrite !S0. rewrite N1. match goal with |- _ = rsum _ ?F => rewrite <- (rsum_perm (nr d) q F P) end. apply rsum_ext. intros k Hk. rewrite Hc by exact Hk.
  assert (E : e d' k = e d (q k)); [|rewrite E; reflexivity]. unfold e.
  rewrite (emp_row_reorder d d' d d' (q k) k 0 emp_cop q P); [reflexivity|apply Hq; exact Hk|rewrite N1; exact Hk|exact N2|intros j; apply H; exact Hk|exact N1|intros; apply H; assumption].
Qed.

Lemma pobs_fail_reorder (x : mat R) ties q e : pseudo_obs Rleb x ties = Err e -> pseudo_obs Rleb (reorder q x) ties = Err e.
Proof. unfold pseudo_obs, rank_data2. destruct (parse_ties ties); cbn [bind rmap]; [discriminate|]. intros H. congruence. Qed.
(** The whole test, statistic and p-value, for the same samples. *)
Theorem C123_goodness_of_fit : forall fit sample data reps ties fit_ties q, orderless_fit fit -> lower ties <> "ordinal"%string -> lower fit_ties <> "ordinal"%string ->
  row_permutation (nr data) q ->
  gof_copula fit sample (reorder q data) reps ties fit_ties = gof_copula fit sample data reps ties fit_ties.
Proof.
  intros fit sample data reps ties fit_ties q Hf H1 H2 P. unfold gof_copula. rewrite (duplicated_reorder q data P), (has_ties_reorder q data P).
  destruct (duplicated_ranks data) as [dup|]; [|reflexivity]. cbn [bind].
  assert (T : bind (gof_pobs (reorder q data) ties fit_ties) (fun p => bind (fit (snd p)) (fun cdf => gof_t_stat cdf (fst p))) = bind (gof_pobs data ties fit_ties) (fun p => bind (fit (snd p)) (fun cdf => gof_t_stat cdf (fst p))));
    [|rewrite T; reflexivity].
  assert (K : forall a b c d : mat R, nr a = nr data -> nr c = nr data -> reordered q a b -> reordered q c d -> (forall i j, (i < nr c)%nat -> get d i j = get c (q i) j) ->
    bind (fit b) (fun cdf => gof_t_stat cdf d) = bind (fit a) (fun cdf => gof_t_stat cdf c)).
  { intros a b c d Na Nc Hab Hcd G. pose proof (Hf q a b ltac:(rewrite Na; exact P) Hab) as F. destruct (fit a) as [f|e], (fit b) as [g|e']; try contradiction; cbn [bind]; [|congruence].
    destruct Hcd as [D1 [D2 D3]]. apply (t_stat_reorder f g c d q); [rewrite Nc; exact P|exact D1|exact D2|exact G|].
    intros k Hk. apply F; [rewrite Nc; exact P|split; [exact D1|split; [exact D2|exact D3]]|exact Hk]. }
  assert (RR : forall u v : mat Q, nr v = nr u -> nc v = nc u -> nr u = nr data -> (forall i j, (i < nr data)%nat -> get v i j = get u (q i) j) ->
     reordered q (real_mat u) (real_mat v) /\ forall i j, (i < nr (real_mat u))%nat -> get (real_mat v) i j = get (real_mat u) (q i) j).
  { intros u v A1 A2 A3 G. split; [split; [exact A1|split; [exact A2|]]|]; intros i j Hi; intros; cbn [real_mat get nr] in *; rewrite G by (rewrite <- A3; exact Hi); reflexivity. }
  unfold gof_pobs. rewrite (has_ties_reorder q data P).
  destruct (pseudo_obs Rleb data ties) as [u|e] eqn:Eu; [|rewrite (pobs_fail_reorder data ties q e Eu); reflexivity].
  destruct (pobs_reorder data ties u q H1 P Eu) as [v [Ev [A1 [A2 [A3 [A4 G]]]]]]. rewrite Ev. cbn [bind]. destruct (RR u v A1 A2 A3 G) as [R1 R2].
  destruct (has_ties data && negb (String.eqb ties fit_ties)).
  - destruct (pseudo_obs Rleb data fit_ties) as [u0|e] eqn:Eu0; [|rewrite (pobs_fail_reorder data fit_ties q e Eu0); reflexivity].
    destruct (pobs_reorder data fit_ties u0 q H2 P Eu0) as [v0 [Ev0 [B1 [B2 [B3 [B4 G0]]]]]]. rewrite Ev0. cbn [rmap bind fst snd]. destruct (RR u0 v0 B1 B2 B3 G0) as [R3 _].
    apply K; assumption.
  - cbn [bind fst snd]. apply K; assumption.
Qed.
Print Assumptions C123_goodness_of_fit.

(** ** Correlation tables *)
Definition fval (v : ext) : R := match v with Fin r => r | _ => 0 end.
Definition is_fin (v : ext) : bool := match v with Fin _ => true | _ => false end.
Lemma all_finite_eq l : all_finite l = if forallb is_fin l then Some (map fval l) else None.
Proof. induction l as [|v l IH]; [reflexivity|]. cbn [all_finite forallb map]. destruct v; cbn [finite_value is_fin andb fval]; try reflexivity. rewrite IH. destruct (forallb is_fin l); reflexivity. Qed.
Lemma forallb_perm {A} (f : A -> bool) l l' : Permutation l l' -> forallb f l = forallb f l'.
Proof. induction 1; cbn; [reflexivity|congruence|destruct (f x), (f y); reflexivity|congruence]. Qed.
Lemma filter_perm {A} (f : A -> bool) l l' : Permutation l l' -> Permutation (filter f l) (filter f l').
Proof.
  induction 1; cbn; [constructor| |destruct (f x), (f y); try reflexivity; constructor|etransitivity; eassumption].
  destruct (f x); [constructor|]; assumption.
Qed.
Lemma combine_map2 {A B C} (f : A -> B) (g : A -> C) l : combine (map f l) (map g l) = map (fun r => (f r, g r)) l.
Proof. induction l; cbn; [|f_equal]; auto. Qed.
Lemma compute_reorder {A} scipy m (f g : A -> ext) l l' : orderless scipy -> Permutation l l' ->
  compute_corr scipy m (map f l) (map g l) = compute_corr scipy m (map f l') (map g l').
Proof.
  intros Ho P. unfold compute_corr. rewrite !all_finite_eq.
  rewrite (forallb_perm is_fin (map f l) (map f l') (Permutation_map f P)), (forallb_perm is_fin (map g l) (map g l') (Permutation_map g P)).
  destruct (forallb is_fin (map f l')); [|reflexivity]. destruct (forallb is_fin (map g l')); [|reflexivity].
  apply Ho; [rewrite !map_length; reflexivity..|]. rewrite !map_map, !combine_map2. apply Permutation_map. exact P.
Qed.
(** The matrix of correlations of a table, for each method and each treatment of missing values. *)
Theorem C123_correlation : forall scipy cols rows rows' method use, orderless scipy -> Permutation rows rows' ->
  corr scipy cols rows method use = corr scipy cols rows' method use.
Proof.
  intros scipy cols rows rows' method use Ho P. unfold corr. destruct (validate_use use) as [u|]; [|reflexivity]. destruct (corr_method method) as [m|]; [|reflexivity]. cbn [bind].
  generalize (identity cols). induction (M_Corr.pairs cols) as [|[i j] l IH]; intros c; [reflexivity|]. cbn [fill].
  destruct u; cbn [pair_vectors]; unfold M_Corr.column.
  - rewrite (compute_reorder scipy m _ _ rows rows' Ho P). destruct (compute_corr _ _ _ _); [apply IH|reflexivity].
  - rewrite (compute_reorder scipy m _ _ _ _ Ho (filter_perm (fun r => negb (isnan (nth i r Nan)) && negb (isnan (nth j r Nan))) rows rows' P)). unfold drop_pair. destruct (compute_corr _ _ _ _); [apply IH|reflexivity].
  - rewrite (compute_reorder scipy m _ _ _ _ Ho (filter_perm (fun r => forallb (fun v => negb (isnan v)) r) rows rows' P)). unfold drop_rows. destruct (compute_corr _ _ _ _); [apply IH|reflexivity].
Qed.
Print Assumptions C123_correlation.
Lemma fst_combine {A B} (x : list A) (y : list B) : length x = length y -> map fst (combine x y) = x /\ map snd (combine x y) = y.
Proof. revert y. induction x as [|a x IH]; intros [|b y] L; try discriminate; [split; reflexivity|]. cbn. destruct (IH y ltac:(injection L; auto)) as [-> ->]. split; reflexivity. Qed.
(** The correlation of two vectors. *)
Theorem C123_correlation_vectors : forall scipy x y x' y' method use, orderless scipy -> length x = length y -> length x' = length y' ->
  Permutation (combine x y) (combine x' y') -> corr2 scipy x y method use = corr2 scipy x' y' method use.
Proof.
  intros scipy x y x' y' method use Ho L L' P. unfold corr2. destruct (validate_use use) as [u|]; [|reflexivity]. destruct (corr_method method) as [m|]; [|reflexivity]. cbn [bind].
  unfold form_xy. rewrite L, L', !Nat.eqb_refl. cbn [negb].
  destruct (fst_combine x y L) as [E1 E2]. destruct (fst_combine x' y' L') as [E3 E4].
  destruct u; cbn [bind fst snd].
  - pose proof (compute_reorder scipy m fst snd _ _ Ho P) as H. rewrite E1, E2, E3, E4 in H. rewrite H. reflexivity.
  - rewrite (compute_reorder scipy m fst snd _ _ Ho (filter_perm _ _ _ P)). reflexivity.
  - rewrite (compute_reorder scipy m fst snd _ _ Ho (filter_perm _ _ _ P)). reflexivity.
Qed.
Print Assumptions C123_correlation_vectors.

(** ** Cases *)
Lemma reverse_permutation : row_permutation 5 (fun i => (4 - i)%nat).
Proof. exists (fun i => (4 - i)%nat). intros i Hi. repeat split; lia. Qed.
(** a correlation of pairs that depends on their set only: the sum of the products *)
Example C123_orderless_case : orderless (fun _ a b => Ok (Fin (lsum (map (fun p => fst p * snd p) (combine a b))))).
Proof. intros m a b a' b' _ _ P. do 2 f_equal. apply lsum_perm. apply Permutation_map. exact P. Qed.
Lemma rsum_const_perm n p : row_permutation n p -> forall i, (i < n)%nat -> (p i < n)%nat.
Proof. intros [r Hr] i Hi. apply Hr. exact Hi. Qed.
(** the independence copula, evaluated row by row *)
Definition independence (u : mat R) (i : nat) : R := fold_right Rmult 1 (map (get u i) (seq 0 (nc u))).
Example C123_fit_case : orderless_fit (fun u => if Nat.eqb (nr u) 0 then Err ValueError else Ok independence).
Proof.
  intros p a b P [H1 [H2 H3]]. rewrite H1. destruct (Nat.eqb (nr a) 0); [reflexivity|]. intros q c d k Q [D1 [D2 D3]] Hk. unfold independence. rewrite D2. f_equal.
  apply map_ext_in. intros j Hj. apply in_seq in Hj. apply D3; lia.
Qed.
