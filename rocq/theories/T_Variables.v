(** Theorems: the order of the variables carries no meaning. *)
From Coq Require Import Reals Permutation QArith Qreals FunctionalExtensionality.
From Verif Require Import Base RSumLib CountLib Ext S_Matrix S_Linalg S_Rank M_Rank P_Rank M_Special M_Stats M_Empirical P_Empirical M_Gof S_Gof P_Gof M_Gmc S_Gmc P_Gmc P_GmcEm P_Sgd S_Variables.
Local Close Scope Q_scope. Local Close Scope Z_scope. Open Scope R_scope. Open Scope list_scope.

Lemma prod_vars n q (F F' : nat -> R) : row_permutation n q -> (forall j, (j < n)%nat -> F' j = F (q j)) -> lprod (map F' (seq 0 n)) = lprod (map F (seq 0 n)).
Proof.
  intros P H. transitivity (lprod (map F (map q (seq 0 n)))); [|apply lprod_perm, Permutation_map, row_perm_Permutation, P].
  rewrite map_map. apply lprod_map_ext. intros j Hj. apply in_seq in Hj. apply H. lia.
Qed.
Lemma sum_vars n q (F F' : nat -> ext) : row_permutation n q -> (forall j, (j < n)%nat -> F' j = F (q j)) -> esum (map F' (seq 0 n)) = esum (map F (seq 0 n)).
Proof.
  intros P H. transitivity (esum (map F (map q (seq 0 n)))); [|apply esum_perm, Permutation_map, row_perm_Permutation, P].
  f_equal. rewrite map_map. apply map_ext_in. intros j Hj. apply in_seq in Hj. apply H. lia.
Qed.
Lemma existsb_vars n q (F F' : nat -> bool) : row_permutation n q -> (forall j, (j < n)%nat -> F' j = F (q j)) -> existsb F' (seq 0 n) = existsb F (seq 0 n).
Proof.
  intros [r P] H. apply Bool.eq_iff_eq_true. rewrite !existsb_exists. split; intros [j [Hj E]]; apply in_seq in Hj; assert (Hj' : (j < n)%nat) by lia; destruct (P j Hj') as [P1 [P2 [P3 P4]]].
  - exists (q j). split; [apply in_seq; lia|]. rewrite <- H by exact Hj'. exact E.
  - exists (r j). split; [apply in_seq; lia|]. rewrite H by exact P2. rewrite P4. exact E.
Qed.
(** ** Ranks *)
Lemma rank_vars (x : mat R) ties q : rank_data2 Rleb (variables q x) 1 ties = rmap (variables q) (rank_data2 Rleb x 1 ties).
Proof. unfold rank_data2. destruct (parse_ties ties); reflexivity. Qed.
Lemma pobs_vars (x : mat R) ties q : pseudo_obs Rleb (variables q x) ties = rmap (variables q) (pseudo_obs Rleb x ties).
Proof. unfold pseudo_obs. rewrite rank_vars. destruct (rank_data2 Rleb x 1 ties); reflexivity. Qed.
Lemma pobs_shape (x : mat R) ties u : pseudo_obs Rleb x ties = Ok u -> nr u = nr x /\ nc u = nc x.
Proof. intros H. destruct (pseudo_obs_Ok Rleb _ _ _ H) as [t [_ [N1 [N2 _]]]]. split; assumption. Qed.

(** ** Empirical copulas *)
Lemma emp_row_vars (X Y : mat R) q k offset f : row_permutation (nc X) q -> (k < nr X)%nat ->
  emp_dist_row (ravelF (variables q X)) (ravelF (variables q Y)) (nr X) (nr Y) (nc X) k offset f = emp_dist_row (ravelF X) (ravelF Y) (nr X) (nr Y) (nc X) k offset f.
Proof.
  intros P Hk. unfold emp_dist_row. rewrite !(fold_sum (fun i => fold_left _ _ 1)), !Rplus_0_l, <- !rsum_lsum. f_equal. apply rsum_ext. intros i Hi.
  rewrite !(fold_prod (fun j => f _ _ _)), !Rmult_1_l. apply (prod_vars (nc X) q); [exact P|]. intros j Hj.
  change (nr X) with (nr (variables q X)) at 1. change (nr Y) with (nr (variables q Y)) at 1. rewrite !ravelF_get by assumption. reflexivity.
Qed.
Lemma emp_dist_vars btdtr (X Y : mat R) s offset q : row_permutation (nc X) q ->
  emp_dist_func btdtr (variables q X) (variables q Y) s offset = emp_dist_func btdtr X Y s offset.
Proof.
  intros P. unfold emp_dist_func. destruct (map_smoothing s) as [typ|]; [|reflexivity]. cbn [bind variables nc]. destruct (negb _); [reflexivity|]. f_equal.
  unfold emp_copula_dist. cbn [variables nr nc]. apply map_ext_in. intros k Hk. apply in_seq in Hk. destruct typ as [|[|[|typ]]]; try reflexivity; apply emp_row_vars; try exact P; lia.
Qed.
Lemma any_entry_vars p (u : mat R) q : row_permutation (nc u) q -> any_entry p (variables q u) = any_entry p u.
Proof.
  intros P. unfold any_entry. cbn [variables nr nc get]. generalize (seq 0 (nr u)). induction l as [|i l IH]; [reflexivity|]. cbn [existsb]. rewrite IH.
  rewrite (existsb_vars (nc u) q (fun j => p (get u i j)) (fun j => p (get u i (q j))) P); [reflexivity|]. reflexivity.
Qed.
(** The distribution function of the reordered data at reordered points. *)
Theorem C126_empirical_copula : forall btdtr e u log q, row_permutation (nc u) q ->
  emp_cdf btdtr (mkEmp (variables q (e_data e)) (e_smoothing e) (e_ties e) (e_offset e)) (variables q u) log = emp_cdf btdtr e u log.
Proof.
  intros btdtr e u log q P. unfold emp_cdf. cbn [e_data e_smoothing e_ties e_offset]. rewrite !any_entry_vars by exact P. destruct (_ || _); [reflexivity|].
  rewrite pobs_vars. destruct (pseudo_obs Rleb (e_data e) (e_ties e)) as [v|x]; [|reflexivity]. cbn [rmap bind].
  rewrite <- (emp_dist_vars btdtr u (mkMat (nr v) (nc v) (fun i j => Q2R (get v i j))) (Some (e_smoothing e)) (e_offset e) q P). reflexivity.
Qed.
Print Assumptions C126_empirical_copula.
(** The density of the empirical beta copula. *)
Theorem C126_empirical_density : forall beta_pdf beta_logpdf e u log q, row_permutation (nc (e_data e)) q ->
  emp_pdf beta_pdf beta_logpdf (mkEmp (variables q (e_data e)) (e_smoothing e) (e_ties e) (e_offset e)) (variables q u) log = emp_pdf beta_pdf beta_logpdf e u log.
Proof.
  intros beta_pdf beta_logpdf e u log q P. unfold emp_pdf. cbn [e_data e_smoothing e_ties e_offset]. destruct (negb _); [reflexivity|].
  rewrite rank_vars. destruct (rank_data2 Rleb (e_data e) 1 (e_ties e)) as [rk|x]; [|reflexivity]. cbn [rmap bind variables nr nc get]. destruct log.
  - f_equal. apply functional_extensionality. intros k. do 2 f_equal. apply map_ext. intros i.
    apply (sum_vars (nc (e_data e)) q (fun j => beta_logpdf (Q2R (get rk i j)) (INR (nr (e_data e)) + 1 - Q2R (get rk i j)) (get u k j))); [exact P|reflexivity].
  - f_equal. apply map_ext. intros k. do 2 f_equal. apply map_ext. intros i.
    apply (prod_vars (nc (e_data e)) q (fun j => beta_pdf (Q2R (get rk i j)) (INR (nr (e_data e)) + 1 - Q2R (get rk i j)) (get u k j))); [exact P|reflexivity].
Qed.
Print Assumptions C126_empirical_density.

(** ** Radial symmetry *)
Lemma rad_vars (u : mat R) q : row_permutation (nc u) q -> rad_sym_test_stat (ravelF (variables q u)) (nr u) (nc u) = rad_sym_test_stat (ravelF u) (nr u) (nc u).
Proof.
  intros P. change (rad_sym_test_stat (ravelF (variables q u)) (nr (variables q u)) (nc (variables q u)) = rad_sym_test_stat (ravelF u) (nr u) (nc u)). rewrite !rad_stat_rows. change (nr (variables q u)) with (nr u). change (nc (variables q u)) with (nc u).
  apply rsum_ext. intros k Hk. assert (E : rows_below (nr u) (nc u) (get (variables q u)) k = rows_below (nr u) (nc u) (get u) k); [|rewrite E; reflexivity].
  unfold rows_below. apply rsum_ext. intros i Hi. f_equal; apply (prod_vars (nc u) q); try exact P; reflexivity.
Qed.
Lemma has_ties_vars (x : mat R) q : row_permutation (nc x) q -> has_ties (variables q x) = has_ties x.
Proof.
  intros P. unfold has_ties. cbn [variables nc].
  assert (D : forall (f : nat -> bool) l, negb (forallb f l) = existsb (fun j => negb (f j)) l) by (intros f; induction l as [|a l IH]; [reflexivity|]; cbn; rewrite <- IH; destruct (f a); reflexivity).
  rewrite !D. apply (existsb_vars (nc x) q (fun j => negb (distinct (column x j)))); [exact P|reflexivity].
Qed.
(** The statistic; without ties also the p-value, for the same bits. *)
Theorem C126_radial_symmetry : forall argsort x N ties bits s p q, argsorts argsort -> row_permutation (nc x) q ->
  rad_sym_test argsort x N ties bits = Ok (s, p) ->
  exists p', rad_sym_test argsort (variables q x) N ties bits = Ok (s, p') /\ (has_ties x = false -> p' = p).
Proof.
  intros argsort x N ties bits s p q Ha P H. destruct (rad_test_inv _ _ _ _ _ _ _ Ha H) as [HN [u [ir [s0 [Hu [_ [Hs _]]]]]]].
  destruct (pobs_shape x ties u Hu) as [N3 N4].
  assert (Hv : pseudo_obs Rleb (variables q x) ties = Ok (variables q u)) by (rewrite pobs_vars, Hu; reflexivity).
  assert (P' : row_permutation (nc (real_mat u)) q) by (cbn; rewrite N4; exact P).
  assert (S0 : rad_sym_test_stat (ravelF (real_mat (variables q u))) (nr x) (nc x) = s).
  { rewrite Hs. change (real_mat (variables q u)) with (variables q (real_mat u)). rewrite <- N3, <- N4. apply (rad_vars (real_mat u) q P'). }
  destruct (has_ties x) eqn:T.
  - assert (Ok' : exists s' p', rad_sym_test argsort (variables q x) N ties bits = Ok (s', p')).
    { unfold rad_sym_test. rewrite (proj2 (Nat.eqb_neq N 0)) by lia. rewrite Hv. cbn [bind]. destruct (tie_indices_Ok (real_mat (variables q u))) as [ir' [E _]]. rewrite E. cbn [bind].
      destruct (mapM_all (fun k => rad_sym_replicate argsort (real_mat (variables q u)) ir' (nr (variables q x)) (nc (variables q x)) (has_ties (variables q x)) (bits k)) (fun s => 0 <= s) (seq 0 N)) as [s1 [E1 _]]; [|rewrite E1; cbn [bind]; eauto].
      intros k _. apply rad_replicate_Ok; assumption. }
    destruct Ok' as [s' [p' E]]. exists p'. rewrite E. destruct (rad_test_inv _ _ _ _ _ _ _ Ha E) as [_ [v' [_ [_ [Hv' [_ [Hs' _]]]]]]].
    assert (v' = variables q u) by congruence. subst v'. split; [|discriminate]. do 2 f_equal. rewrite Hs'. exact S0.
  - exists p. split; [|reflexivity]. rewrite <- H. unfold rad_sym_test. destruct (Nat.eqb N 0); [reflexivity|]. rewrite Hv, Hu. cbn [bind].
    destruct (tie_indices_Ok (real_mat (variables q u))) as [ir1 [E1 _]]. destruct (tie_indices_Ok (real_mat u)) as [ir2 [E2 _]]. rewrite E1, E2. cbn [bind variables nr nc].
    change (mkMat (nr u) (nc u) (fun i j => get u i (q j))) with (variables q u). rewrite S0, <- Hs. rewrite has_ties_vars, T by exact P.
    assert (G : forall b, rad_sym_replicate argsort (real_mat (variables q u)) ir1 (nr x) (nc x) false b = rad_sym_replicate argsort (real_mat u) ir2 (nr x) (nc x) false b).
    { intros b. unfold rad_sym_replicate. cbn [bind real_mat nr nc get variables].
      set (w := mkMat (nr u) (nc u) (fun i j => if b i then 1 - Q2R (get u i j) else Q2R (get u i j))).
      change (mkMat (nr u) (nc u) (fun i j => if b i then 1 - Q2R (get u i (q j)) else Q2R (get u i (q j)))) with (variables q w).
      rewrite pobs_vars. destruct (pseudo_obs Rleb w "average") as [z|e] eqn:Ez; [|reflexivity]. cbn [rmap bind]. f_equal.
      destruct (pobs_shape w _ z Ez) as [Z1 Z2]. change (nr w) with (nr u) in Z1. change (nc w) with (nc u) in Z2. rewrite <- N3, <- N4, <- Z1, <- Z2.
      apply (rad_vars (real_mat z) q). cbn. rewrite Z2, N4. exact P. }
    rewrite (functional_extensionality (fun k => rad_sym_replicate argsort (real_mat (variables q u)) ir1 (nr x) (nc x) false (bits k)) (fun k => rad_sym_replicate argsort (real_mat u) ir2 (nr x) (nc x) false (bits k)) (fun k => G (bits k))). reflexivity.
Qed.
Print Assumptions C126_radial_symmetry.

(** ** Goodness of fit *)
Lemma t_stat_vars f g (c : mat R) q : row_permutation (nc c) q -> (forall k, (k < nr c)%nat -> g (variables q c) k = f c k) -> gof_t_stat g (variables q c) = gof_t_stat f c.
Proof.
  intros P H. unfold gof_t_stat. rewrite (emp_dist_vars (fun _ _ _ => 0) c c (Some "none"%string) 0 q P). destruct (emp_dist_func _ c c _ 0) as [emp|]; [|reflexivity]. cbn [bind]. f_equal.
  cbn [variables nr]. rewrite !(fold_sum (fun k => _ ^ 2)). f_equal. apply f_equal. apply map_ext_in. intros k Hk. apply in_seq in Hk. f_equal. f_equal.
  change (mkMat (nr c) (nc c) (fun i j => get c i (q j))) with (variables q c). apply H. lia.
Qed.
Lemma gof_stat_vars fit (d : mat R) ties fit_ties q : row_permutation (nc d) q -> fair_fit fit q ->
  bind (gof_pobs (variables q d) ties fit_ties) (fun p => bind (fit (snd p)) (fun cdf => gof_t_stat cdf (fst p))) = bind (gof_pobs d ties fit_ties) (fun p => bind (fit (snd p)) (fun cdf => gof_t_stat cdf (fst p))).
Proof.
  intros P Hf.
  assert (K : forall a c : mat R, nc a = nc d -> nc c = nc d -> bind (fit (variables q a)) (fun cdf => gof_t_stat cdf (variables q c)) = bind (fit a) (fun cdf => gof_t_stat cdf c)).
  { intros a c Na Nc. pose proof (Hf a ltac:(rewrite Na; exact P)) as F. destruct (fit a) as [f|e], (fit (variables q a)) as [g|e']; try contradiction; cbn [bind]; [|congruence].
    apply t_stat_vars; [rewrite Nc; exact P|]. intros k Hk. apply F; [congruence|exact Hk]. }
  unfold gof_pobs. rewrite !pobs_vars, has_ties_vars by exact P.
  destruct (pseudo_obs Rleb d ties) as [u|e] eqn:Eu; [|reflexivity]. destruct (pobs_shape d ties u Eu) as [_ U2]. cbn [rmap bind].
  destruct (has_ties d && negb (String.eqb ties fit_ties)).
  - destruct (pseudo_obs Rleb d fit_ties) as [v|e] eqn:Ev; [|reflexivity]. destruct (pobs_shape d fit_ties v Ev) as [_ V2]. cbn [rmap bind fst snd]. apply (K (real_mat v) (real_mat u)); assumption.
  - cbn [bind fst snd]. apply (K (real_mat u) (real_mat u)); assumption.
Qed.
(** Without ties the whole test, for samples with the variables in that order. *)
Theorem C126_goodness_of_fit : forall fit sample data reps ties fit_ties q, fair_fit fit q -> row_permutation (nc data) q ->
  has_ties data = false -> (forall k, nc (sample k) = nc data) ->
  gof_copula fit (fun k => variables q (sample k)) (variables q data) reps ties fit_ties = gof_copula fit sample data reps ties fit_ties.
Proof.
  intros fit sample data reps ties fit_ties q Hf P T Hs. unfold gof_copula. rewrite has_ties_vars, T by exact P.
  unfold duplicated_ranks. rewrite rank_vars. destruct (rank_data2 Rleb data 1 "average") as [r|e]; [|reflexivity]. cbn [rmap bind].
  rewrite (gof_stat_vars fit data ties fit_ties q P Hf). destruct (bind (gof_pobs data ties fit_ties) _) as [t|e]; [|reflexivity]. cbn [bind].
  rewrite (functional_extensionality (fun k => bind (gof_pobs (variables q (sample k)) ties fit_ties) (fun p => bind (fit (snd p)) (fun cdf => gof_t_stat cdf (fst p))))
    (fun k => bind (gof_pobs (sample k) ties fit_ties) (fun p => bind (fit (snd p)) (fun cdf => gof_t_stat cdf (fst p))))); [reflexivity|].
  intros k. apply gof_stat_vars; [rewrite Hs; exact P|exact Hf].
Qed.
Print Assumptions C126_goodness_of_fit.
(** With ties the statistic. *)
Theorem C126_goodness_of_fit_statistic : forall fit sample sample' data reps ties fit_ties q t p t' p', fair_fit fit q -> row_permutation (nc data) q ->
  gof_copula fit sample data reps ties fit_ties = Ok (t, p) -> gof_copula fit sample' (variables q data) reps ties fit_ties = Ok (t', p') -> t' = t.
Proof.
  intros fit sample sample' data reps ties fit_ties q t p t' p' Hf P. unfold gof_copula. rewrite (gof_stat_vars fit data ties fit_ties q P Hf).
  destruct (duplicated_ranks data); [|discriminate]. destruct (duplicated_ranks (variables q data)); [|discriminate]. cbn [bind].
  destruct (bind (gof_pobs data ties fit_ties) _) as [t0|e]; [|discriminate]. cbn [bind].
  destruct (mapM _ (seq 0 reps)); [|discriminate]. cbn [bind]. intros E. injection E as E1 _. destruct (mapM _ (seq 0 reps)); [|discriminate]. cbn [bind]. intros E. injection E as E2 _. congruence.
Qed.
Print Assumptions C126_goodness_of_fit_statistic.

(** ** Mixtures *)
Section Turn.
  Variables (q : nat -> nat) (p p' : gmc).
  Hypotheses (V : valid p) (V' : valid p') (P : row_permutation (n_dim p) q) (E : turned q p p').
  Lemma vars_lt j : (j < n_dim p)%nat -> (q j < n_dim p)%nat.
  Proof. destruct P as [r Hr]. apply Hr. Qed.
  Lemma spread_square_v (p0 : gmc) k : valid p0 -> (k < n_clusters p0)%nat -> square (n_dim p0) (spread_of p0 k).
  Proof. intros [_ [_ [_ [_ [V5 V6]]]]] Hk. rewrite Forall_forall in V6. apply V6. apply nth_In. lia. Qed.
  Lemma turn_density f x k : fair_density f (n_dim p) q -> (k < n_clusters p)%nat -> f (centre p' k) (spread_of p' k) (fun j => x (q j)) = f (centre p k) (spread_of p k) x.
  Proof.
    intros Hf Hk. destruct E as [E1 [E2 E3]]. destruct (E3 k Hk) as [_ [M S]]. apply Hf; [apply spread_square_v; assumption|rewrite <- E2; apply spread_square_v; [exact V'|lia]| |exact S].
    intros j Hj. split; [apply M; exact Hj|reflexivity].
  Qed.
  Lemma turn_mixture (f : (nat -> R) -> mat R -> (nat -> R) -> ext) x : (forall k, (k < n_clusters p)%nat -> f (centre p' k) (spread_of p' k) (fun j => x (q j)) = f (centre p k) (spread_of p k) x) -> mixture f p' (fun j => x (q j)) = mixture f p x.
  Proof.
    intros Hf. unfold mixture, component. rewrite (proj1 E). apply fold_left_ext_in. intros a k Hk. apply in_seq in Hk. assert (Hk' : (k < n_clusters p)%nat) by lia.
    fold (weight p' k) (weight p k) (centre p' k) (centre p k) (spread_of p' k) (spread_of p k). rewrite (Hf k Hk'). destruct E as [_ [_ E3]]. rewrite (proj1 (E3 k Hk')). reflexivity.
  Qed.
  Lemma turn_marginal j x : (j < n_dim p)%nat -> marginal_cdf p' j x = marginal_cdf p (q j) x.
  Proof.
    intros Hj. unfold marginal_cdf. rewrite (proj1 E). f_equal. apply map_ext_in. intros k Hk. apply in_seq in Hk. assert (Hk' : (k < n_clusters p)%nat) by lia. unfold component.
    fold (weight p' k) (weight p k) (spread_of p' k) (spread_of p k). change (get (means p') k j) with (centre p' k j). change (get (means p) k (q j)) with (centre p k (q j)).
    destruct E as [_ [_ E3]]. destruct (E3 k Hk') as [W [M S]]. rewrite W, M, S by assumption. reflexivity.
  Qed.
End Turn.
Lemma elogs_ext (f g : nat -> ext) l : (forall i, f i = g i) -> map (fun i => elog (f i)) l = map (fun i => elog (g i)) l.
Proof. intros H. apply map_ext. intros i. rewrite H. reflexivity. Qed.
(** Densities, distribution functions and likelihoods at points with reordered coordinates. *)
Theorem C126_mixture_values : forall pdf cdf norm_pdf q p p', valid p -> valid p' -> row_permutation (n_dim p) q -> turned q p p' -> fair_density pdf (n_dim p) q -> fair_density cdf (n_dim p) q ->
  (forall x log, gmc_pdf pdf (Some p') (variables q x) log = gmc_pdf pdf (Some p) x log) /\
  (forall x log, gmc_cdf cdf (Some p') (variables q x) log = gmc_cdf cdf (Some p) x log) /\
  (forall x, n_dim p = nc x -> gmcm_log_likelihood pdf norm_pdf (variables q x) p' = gmcm_log_likelihood pdf norm_pdf x p).
Proof.
  intros pdf cdf norm_pdf q p p' V V' P E H1 H2.
  assert (A : forall f x, fair_density f (n_dim p) q -> mixture (plain f) p' (fun j => x (q j)) = mixture (plain f) p x).
  { intros f x Hf. apply turn_mixture; [assumption..|]. intros k Hk. unfold plain. rewrite (turn_density q p p' V V' E f x k Hf Hk). reflexivity. }
  assert (B : forall f x, fair_density f (n_dim p) q -> mixture (logged f) p' (fun j => x (q j)) = mixture (logged f) p x).
  { intros f x Hf. apply turn_mixture; [assumption..|]. intros k Hk. unfold logged. rewrite (turn_density q p p' V V' E f x k Hf Hk). reflexivity. }
  split; [|split].
  - intros x log. unfold gmc_pdf. f_equal. cbn [variables nr]. apply map_ext. intros i. destruct log; [apply (B pdf (get x i) H1)|apply (A pdf (get x i) H1)].
  - intros x log. unfold gmc_cdf. f_equal. cbn [variables nr]. apply map_ext. intros i. destruct log; [apply (B cdf (get x i) H2)|apply (A cdf (get x i) H2)].
  - intros x Hd. unfold gmcm_log_likelihood. f_equal.
    + unfold gmm_log_likelihood. f_equal. cbn [variables nr]. apply elogs_ext. intros i. apply (A pdf (get x i) H1).
    + unfold gmm_log_likelihood_marginals. cbn [variables nr nc get]. rewrite <- Hd.
      apply (sum_vars (n_dim p) q (fun j => esum (map (fun i => elog (fold_left (fun out k => let '(w, mu, c) := component p k in eadd out (escal w (Fin (norm_pdf (get x i j) (mu j) (get c j j))))) (seq 0 (n_clusters p)) (Fin 0))) (seq 0 (nr x))))); [exact P|].
      intros j Hj. cbv beta. f_equal. apply elogs_ext. intros i. rewrite (proj1 E). apply fold_left_ext_in. intros a k Hk. apply in_seq in Hk. assert (Hk' : (k < n_clusters p)%nat) by lia. unfold component.
      fold (weight p' k) (weight p k) (spread_of p' k) (spread_of p k). change (get (means p') k j) with (centre p' k j). change (get (means p) k (q j)) with (centre p k (q j)).
      destruct E as [_ [_ E3]]. destruct (E3 k Hk') as [W [M S]]. rewrite W, M, S by assumption. reflexivity.
Qed.
Print Assumptions C126_mixture_values.
Theorem C126_mixture_margins : forall q p p' j, row_permutation (n_dim p) q -> turned q p p' -> (j < n_dim p)%nat ->
  (forall x, marginal_cdf p' j x = marginal_cdf p (q j) x) /\
  (forall round resolution spread v, marginal_ppf round p' resolution spread j v = marginal_ppf round p resolution spread (q j) v).
Proof.
  intros q p p' j P E Hj. assert (M : forall x, marginal_cdf p' j x = marginal_cdf p (q j) x) by (intros x; apply (turn_marginal q p p'); assumption). split; [exact M|].
  intros round resolution spread v. unfold marginal_ppf.
  assert (G : ppf_grid round p' resolution spread j = ppf_grid round p resolution spread (q j)).
  { unfold ppf_grid. rewrite (proj1 E). rewrite !flat_map_concat_map. f_equal. apply map_ext_in. intros k Hk. apply in_seq in Hk. assert (Hk' : (k < n_clusters p)%nat) by lia. unfold component.
    fold (weight p' k) (weight p k) (spread_of p' k) (spread_of p k). change (get (means p') k j) with (centre p' k j). change (get (means p) k (q j)) with (centre p k (q j)).
    destruct E as [_ [_ E3]]. destruct (E3 k Hk') as [W [Mu S]]. rewrite W, Mu, S by assumption. reflexivity. }
  rewrite G. f_equal. apply map_ext. exact M.
Qed.
Print Assumptions C126_mixture_margins.

Section EmTurn.
  Variables (eig : mat R -> list R) (cn : mat R -> mat R) (pdf : (nat -> R) -> mat R -> (nat -> R) -> R) (q : nat -> nat) (d : nat).
  Hypotheses (L : libraries eig cn) (Hp : forall mu c x, 0 <= pdf mu c x) (P : row_permutation d q) (Hf : fair_density pdf d q).

  Lemma posterior_turn x p p' i k : valid p -> valid p' -> n_dim p = d -> turned q p p' -> (k < n_clusters p)%nat -> posterior pdf (variables q x) p' i k = posterior pdf x p i k.
  Proof.
    intros V V' Hd E Hk. unfold posterior. rewrite <- Hd in Hf, P.
    assert (T : forall k, (k < n_clusters p)%nat -> weight p' k * pdf (centre p' k) (spread_of p' k) (get (variables q x) i) = weight p k * pdf (centre p k) (spread_of p k) (get x i)).
    { intros a Ha. f_equal; [destruct E as [_ [_ E3]]; apply E3; exact Ha|]. apply (turn_density q p p' V V' E pdf (get x i) a Hf Ha). }
    rewrite (proj1 E), (rsum_ext (n_clusters p) _ (fun k => weight p k * pdf (centre p k) (spread_of p k) (get x i)) T), (T k Hk). reflexivity.
  Qed.
  Lemma step_turn x p p' : valid p -> valid p' -> n_dim p = d -> nc x = d -> turned q p p' ->
    existsb (fun i => Reqb (col_sum (e_step pdf (variables q x) p') i) 0) (seq 0 (nc (e_step pdf (variables q x) p'))) = existsb (fun i => Reqb (col_sum (e_step pdf x p) i) 0) (seq 0 (nc (e_step pdf x p))) /\
    (existsb (fun i => Reqb (col_sum (e_step pdf x p) i) 0) (seq 0 (nc (e_step pdf x p))) = false ->
     exists p1 p1', m_step eig cn x (e_step pdf x p) = Ok p1 /\ m_step eig cn (variables q x) (e_step pdf (variables q x) p') = Ok p1' /\ valid p1 /\ valid p1' /\ n_dim p1 = nc x /\ turned q p1 p1').
  Proof.
    intros V V' Hd Hx E.
    assert (C : forall k, (k < n_clusters p)%nat -> rsum (nr x) (fun i => posterior pdf (variables q x) p' i k) = rsum (nr x) (fun i => posterior pdf x p i k)).
    { intros k Hk. apply rsum_ext. intros i _. apply posterior_turn; assumption. }
    assert (X : existsb (fun i => Reqb (col_sum (e_step pdf (variables q x) p') i) 0) (seq 0 (nc (e_step pdf (variables q x) p'))) = existsb (fun i => Reqb (col_sum (e_step pdf x p) i) 0) (seq 0 (nc (e_step pdf x p)))).
    { cbn [e_step nc]. rewrite (proj1 E).
      assert (G : forall l, (forall k, In k l -> (k < n_clusters p)%nat) -> existsb (fun i => Reqb (col_sum (e_step pdf (variables q x) p') i) 0) l = existsb (fun i => Reqb (col_sum (e_step pdf x p) i) 0) l).
      { induction l as [|a l IH]; intros H; [reflexivity|]. cbn [existsb]. rewrite !col_sum_posterior. change (nr (variables q x)) with (nr x). rewrite C by (apply H; left; reflexivity). rewrite IH; [reflexivity|]. intros; apply H; right; assumption. }
      apply G. intros k Hk. apply in_seq in Hk. lia. }
    split; [exact X|]. intros N. assert (N0 := N). rewrite <- X in N0.
    destruct (em_step eig cn pdf L Hp x p V) as [[N' _]|[_ [p1 [M1 [V1 [_ [_ [A1 [A2 [A3 [A4 A5]]]]]]]]]]]; [congruence|].
    destruct (em_step eig cn pdf L Hp (variables q x) p' V') as [[N' _]|[_ [p1' [M2 [V2 [_ [_ [B1 [B2 [B3 [B4 B5]]]]]]]]]]]; [congruence|].
    exists p1, p1'. split; [exact M1|]. split; [exact M2|]. split; [exact V1|]. split; [exact V2|]. split; [exact A2|].
    rewrite (proj1 E) in *. cbn [variables nr nc] in *. change (mkMat (nr x) (nc x) (fun i j => get x i (q j))) with (variables q x) in *.
    split; [congruence|]. split; [congruence|]. rewrite A1, A2. intros k Hk. destruct (A5 k Hk) as [_ [W [M S]]]. destruct (B5 k Hk) as [_ [W' [M' S']]].
    assert (Q : forall j, (j < nc x)%nat -> (q j < nc x)%nat) by (rewrite Hx; destruct P as [r Hr]; apply Hr).
    assert (Cn : forall j, (j < nc x)%nat -> centre p1' k j = centre p1 k (q j)).
    { intros j Hj. rewrite (M' j Hj), (M (q j) (Q j Hj)), (C k Hk). f_equal. apply rsum_ext. intros i _. rewrite (posterior_turn x p p' i k) by assumption. reflexivity. }
    split; [|split; [exact Cn|]].
    - rewrite W', W, (C k Hk). f_equal. apply rsum_ext. intros a Ha. apply C. exact Ha.
    - intros a b Ha Hb. rewrite S' by lia. rewrite S by (apply Q; lia). rewrite (C k Hk). f_equal. apply rsum_ext. intros i _.
      rewrite (posterior_turn x p p' i k), (Cn a), (Cn b) by assumption. reflexivity.
  Qed.

  Variables (ppf : mat R -> gmc -> result (mat R)) (gmm_ll gmcm_ll : mat R -> gmc -> R) (u : mat R).
  Hypotheses (Hu : nc u = d) (H1 : fair_table q ppf) (H2 : fair_number q gmm_ll) (H3 : fair_number q gmcm_ll) (H4 : forall p x, ppf u p = Ok x -> nc x = nc u).
  Definition turned_logs (l l' : log_lik) : Prop := l_gmm l' = l_gmm l /\ l_gmcm l' = l_gmcm l /\ Forall2 (turned q) (l_params l) (l_params l').
  Lemma log_set_turn l l' x p p' : valid p -> valid p' -> n_dim p = d -> nc x = d -> turned q p p' -> turned_logs l l' ->
    turned_logs (log_set gmm_ll gmcm_ll l x u p) (log_set gmm_ll gmcm_ll l' (variables q x) (variables q u) p').
  Proof.
    intros V V' Hd Hx E [S1 [S2 S3]]. unfold log_set. split; [|split]; cbn [l_gmm l_gmcm l_params].
    - rewrite S1, (H2 x p p'); [reflexivity|assumption|assumption|congruence|assumption].
    - rewrite S2, (H3 u p p'); [reflexivity|assumption|assumption|congruence|assumption].
    - apply Forall2_app; [exact S3|]. constructor; [exact E|constructor].
  Qed.
  Lemma converged_turn c eps l l' : turned_logs l l' -> has_converged c eps l' = has_converged c eps l.
  Proof. intros [S1 [S2 _]]. unfold has_converged. rewrite S1, S2. reflexivity. Qed.
  Lemma loop_turn fuel c eps : forall x p p' l l', valid p -> valid p' -> n_dim p = d -> nc x = d -> turned q p p' -> turned_logs l l' ->
    match em_loop eig cn pdf ppf gmm_ll gmcm_ll fuel c eps u x p l with
    | Ok r => exists r', em_loop eig cn pdf ppf gmm_ll gmcm_ll fuel c eps (variables q u) (variables q x) p' l' = Ok r' /\ turned_logs r r'
    | Err e => em_loop eig cn pdf ppf gmm_ll gmcm_ll fuel c eps (variables q u) (variables q x) p' l' = Err e
    end.
  Proof.
    induction fuel as [|fuel IH]; intros x p p' l l' V V' Hd Hx E S; cbn [em_loop]; [exists l'; split; [reflexivity|exact S]|].
    destruct (step_turn x p p' V V' Hd Hx E) as [X Y]. rewrite X. destruct (existsb _ (seq 0 (nc (e_step pdf x p)))); [reflexivity|].
    destruct (Y eq_refl) as [p1 [p1' [M1 [M2 [V1 [V2 [N2 E1]]]]]]]. rewrite M1, M2. cbn [bind].
    assert (Dm : n_dim p1 = nc u) by congruence. rewrite (H1 u p1 p1' V1 V2 Dm E1). destruct (ppf u p1) as [x1|e] eqn:Eq; [|reflexivity]. cbn [rmap bind].
    assert (S1 : turned_logs (log_set gmm_ll gmcm_ll l x u p1) (log_set gmm_ll gmcm_ll l' (variables q x) (variables q u) p1')) by (apply log_set_turn; try assumption; congruence).
    rewrite (converged_turn c eps _ _ S1). destruct (has_converged c eps (log_set gmm_ll gmcm_ll l x u p1)) as [[|]|e]; cbn [bind]; [eexists; split; [reflexivity|exact S1]| |reflexivity].
    assert (Hx1 : nc x1 = d) by (rewrite (H4 p1 x1 Eq); exact Hu). apply IH; try assumption; congruence.
  Qed.
End EmTurn.
Lemma Forall2_rev_v {A} (R0 : A -> A -> Prop) l l' : Forall2 R0 l l' -> Forall2 R0 (rev l) (rev l').
Proof. induction 1; cbn; [constructor|]. apply Forall2_app; [assumption|]. constructor; [assumption|constructor]. Qed.
Lemma Forall2_error_v {A} (R0 : A -> A -> Prop) l l' k : Forall2 R0 l l' -> match nth_error l k, nth_error l' k with Some a, Some b => R0 a b | None, None => True | _, _ => False end.
Proof. intros F. revert k. induction F as [|x y l l' H F IH]; intros [|k]; cbn; auto. apply IH. Qed.
(** A whole run on reordered variables: the same error, or the same mixture with reordered coordinates, the same flag and log-likelihood. *)
Theorem C126_expectation_maximisation : forall eig cn pdf ppf gmm_ll gmcm_ll u q p p' max_iter criteria eps, libraries eig cn -> (forall mu c x, 0 <= pdf mu c x) -> fair_density pdf (nc u) q ->
  row_permutation (nc u) q -> fair_table q ppf -> fair_number q gmm_ll -> fair_number q gmcm_ll -> (forall p x, ppf u p = Ok x -> nc x = nc u) ->
  valid p -> valid p' -> n_dim p = nc u -> turned q p p' ->
  match expectation_maximization eig cn pdf ppf gmm_ll gmcm_ll u p max_iter criteria eps with
  | Ok (best, converged, ll) => exists best', expectation_maximization eig cn pdf ppf gmm_ll gmcm_ll (variables q u) p' max_iter criteria eps = Ok (best', converged, ll) /\ turned q best best'
  | Err e => expectation_maximization eig cn pdf ppf gmm_ll gmcm_ll (variables q u) p' max_iter criteria eps = Err e
  end.
Proof.
  intros eig cn pdf ppf gmm_ll gmcm_ll u q p p' max_iter criteria eps L Hp Hf P H1 H2 H3 H4 V V' Hd E. unfold expectation_maximization.
  rewrite (H1 u p p' V V' Hd E). destruct (ppf u p) as [x|e] eqn:Eq; [|reflexivity]. cbn [rmap bind]. destruct (check_criteria criteria) as [c|e]; [|reflexivity]. cbn [bind].
  assert (Hx : nc x = nc u) by exact (H4 p x Eq).
  assert (S0 : turned_logs q (log_set gmm_ll gmcm_ll (mkLog [] [] []) x u p) (log_set gmm_ll gmcm_ll (mkLog [] [] []) (variables q x) (variables q u) p')).
  { apply (log_set_turn q (nc u)); try assumption; [reflexivity|]. split; [reflexivity|]. split; [reflexivity|constructor]. }
  pose proof (loop_turn eig cn pdf q (nc u) L Hp P Hf ppf gmm_ll gmcm_ll u eq_refl H1 H2 H3 H4 max_iter c eps x p p' _ _ V V' Hd Hx E S0) as K.
  destruct (em_loop eig cn pdf ppf gmm_ll gmcm_ll max_iter c eps u x p _) as [l|e]; [|rewrite K; reflexivity]. destruct K as [l' [-> S]]. cbn [bind].
  rewrite (converged_turn q c eps _ _ S). destruct S as [S1 [S2 S3]].
  assert (B : match best_param c l with Ok b => exists b', best_param c l' = Ok b' /\ turned q b b' | Err e => best_param c l' = Err e end).
  { unfold best_param. destruct (String.eqb c "gmm").
    - unfold from_end. pose proof (Forall2_error_v _ _ _ (1 - 1) (Forall2_rev_v _ _ _ S3)) as F. destruct (nth_error (rev (l_params l)) (1 - 1)), (nth_error (rev (l_params l')) (1 - 1)); try contradiction; [eauto|reflexivity].
    - rewrite S2. pose proof (Forall2_error_v _ _ _ (argmax (l_gmcm l)) S3) as F. destruct (nth_error (l_params l) _), (nth_error (l_params l') _); try contradiction; [eauto|reflexivity]. }
  destruct (best_param c l) as [b|e]; [|rewrite B; reflexivity]. destruct B as [b' [-> Hb]]. cbn [bind].
  destruct (has_converged c eps l) as [cv|e]; [|reflexivity]. cbn [bind]. unfold best_log_lik. rewrite S2. destruct (from_end (l_gmcm l) 1); [|reflexivity]. cbn [bind]. exists b'. split; [reflexivity|exact Hb].
Qed.
Print Assumptions C126_expectation_maximisation.

(** ** Cases *)
Definition flip (i : nat) : nat := (1 - i)%nat.
Example C126_flip_case : row_permutation 2 flip.
Proof. exists flip. unfold flip. intros i Hi. repeat split; lia. Qed.
(** a mixture of one component with unequal coordinates, and the same with the coordinates exchanged *)
Definition lopsided : gmc := mkGmc 1 2 [1] (mkMat 1 2 (fun _ j => INR j)) [mkMat 2 2 (fun i j => if Nat.eqb i j then 1 + INR i else 1 / 2)].
Definition turned_lopsided : gmc := mkGmc 1 2 [1] (mkMat 1 2 (fun _ j => INR (flip j))) [mkMat 2 2 (fun i j => if Nat.eqb i j then 1 + INR (flip i) else 1 / 2)].
Example C126_case : turned flip lopsided turned_lopsided /\ centre lopsided 0 0 <> centre turned_lopsided 0 0 /\ get (spread_of lopsided 0) 0 0 <> get (spread_of turned_lopsided 0) 0 0.
Proof.
  split; [|split; cbn; lra]. split; [reflexivity|]. split; [reflexivity|]. intros k Hk. cbn in Hk. assert (k = 0%nat) by lia. subst k. split; [reflexivity|]. split; [reflexivity|].
  intros [|[|a]] [|[|b]] Ha Hb; cbn in Ha, Hb; try lia; reflexivity.
Qed.
Example C126_valid_case : valid lopsided /\ valid turned_lopsided.
Proof.
  assert (W : weights [1]) by (split; [repeat constructor; lra|cbn; replace (1 + 0 - 1) with 0 by lra; rewrite Rabs_R0; lra]).
  assert (K : forall c, square 2 c -> 1 <= get c 0%nat 0%nat -> 1 <= get c 1%nat 1%nat -> get c 0%nat 1%nat = 1 / 2 -> get c 1%nat 0%nat = 1 / 2 -> covariance 2 c).
  { intros c Sq Ha Hb E1 E2. split; [exact Sq|]. destruct Sq as [S1 S2]. split.
    - intros [|[|i]] [|[|j]] Hi Hj; rewrite ?S1, ?S2 in *; try lia; congruence.
    - intros x. unfold quad. cbn [rsum]. rewrite E1, E2. assert (0 <= (x O + x 1%nat) * (x O + x 1%nat)) by apply Rle_0_sqr.
      assert (0 <= x O * x O) by apply Rle_0_sqr. assert (0 <= x 1%nat * x 1%nat) by apply Rle_0_sqr. nra. }
  split; (split; [reflexivity|]; split; [exact W|]; split; [reflexivity|]; split; [reflexivity|]; split; [reflexivity|]; constructor; [|constructor]; apply covariance_almost, K; [split; reflexivity|cbn; lra..]).
Qed.
(** a density by distances and the diagonal of the covariance *)
Example C126_density_case : forall d q, row_permutation d q ->
  fair_density (fun mu c x => exp (- rsum (nr c) (fun j => (x j - mu j) * (x j - mu j) * get c j j))) d q.
Proof.
  intros d q P mu mu' c c' x x' [S1 _] [S2 _] Hx Hc. rewrite S1, S2. do 2 f_equal. rewrite <- (rsum_perm d q (fun j => (x j - mu j) * (x j - mu j) * get c j j) P).
  apply rsum_ext. intros j Hj. destruct (Hx j Hj) as [-> ->]. rewrite Hc by assumption. reflexivity.
Qed.
(** the independence copula as fit *)
Example C126_fit_case : forall q, fair_fit (fun u => if Nat.eqb (nr u) 0 then Err ValueError else Ok (fun c i => lprod (map (get c i) (seq 0 (nc c))))) q.
Proof.
  intros q d P. cbn [variables nr]. destruct (Nat.eqb (nr d) 0); [reflexivity|]. intros c k Hc Hk. apply (prod_vars (nc c) q); [rewrite Hc; exact P|]. reflexivity.
Qed.
