(** Theorems: the labels of the components of a mixture carry no meaning. *)
From Coq Require Import Reals Permutation FunctionalExtensionality.
From Verif Require Import Base RSumLib Ext S_Matrix S_Linalg S_Rank P_Rank M_Special M_Gmc S_Gmc P_GmcEm P_Gof S_Sgd S_GmcAscent T_GmcAscent T_Gmc S_Relabel.
Local Close Scope Z_scope. Open Scope R_scope. Open Scope list_scope.

Lemma perm_lt n s : row_permutation n s -> forall k, (k < n)%nat -> (s k < n)%nat.
Proof. intros [r H] k Hk. apply H. exact Hk. Qed.
Lemma spread_square p k : valid p -> (k < n_clusters p)%nat -> square (n_dim p) (spread_of p k).
Proof. intros [_ [_ [_ [_ [V5 V6]]]]] Hk. rewrite Forall_forall in V6. apply V6. apply nth_In. lia. Qed.
Section Relabel.
  Variables (s : nat -> nat) (p p' : gmc).
  Hypotheses (V : valid p) (P : row_permutation (n_clusters p) s) (E : relabelled s p p').

  Lemma sum_e (F' F : nat -> ext) : (forall k, (k < n_clusters p)%nat -> F' k = F (s k)) -> esum (map F' (seq 0 (n_clusters p'))) = esum (map F (seq 0 (n_clusters p))).
  Proof.
    intros H. rewrite (proj1 E). transitivity (esum (map F (map s (seq 0 (n_clusters p))))).
    - f_equal. rewrite map_map. apply map_ext_in. intros k Hk. apply in_seq in Hk. apply H. lia.
    - apply esum_perm, Permutation_map, row_perm_Permutation, P.
  Qed.
  Lemma sum_r (F' F : nat -> R) : (forall k, (k < n_clusters p)%nat -> F' k = F (s k)) -> rsum (n_clusters p') F' = rsum (n_clusters p) F.
  Proof. intros H. rewrite (proj1 E). rewrite <- (rsum_perm (n_clusters p) s F P). apply rsum_ext. exact H. Qed.
  Lemma fold_eadd {A} (f : A -> ext) l a : fold_left (fun o k => eadd o (f k)) l a = eadd a (esum (map f l)).
  Proof. revert a. induction l as [|x l IH]; intros a; cbn [fold_left map]; [destruct a; cbn; try reflexivity; f_equal; ring|]. rewrite IH. cbn [esum fold_right]. rewrite eadd_assoc. reflexivity. Qed.
  Lemma density_eq (f : (nat -> R) -> mat R -> (nat -> R) -> R) x k : entries_only f -> (k < n_clusters p)%nat -> f (centre p' k) (spread_of p' k) x = f (centre p (s k)) (spread_of p (s k)) x.
  Proof.
    intros Hf Hk. destruct E as [_ [_ E3]]. destruct (E3 k Hk) as [_ [E4 E5]]. apply Hf; [exact E5|]. intros j Hj. apply E4.
    destruct (spread_square p (s k) V (perm_lt _ _ P k Hk)) as [Q _]. destruct E5 as [Q1 _]. lia.
  Qed.
  Lemma mixture_eq f x : (forall k, (k < n_clusters p)%nat -> f (centre p' k) (spread_of p' k) x = f (centre p (s k)) (spread_of p (s k)) x) -> mixture f p' x = mixture f p x.
  Proof.
    intros Hf. unfold mixture, component. rewrite (fold_eadd (fun k => escal (nth k (prob p') 0) (f (get (means p') k) (nth k (covs p') (mkMat 0 0 (fun _ _ => 0))) x))).
    rewrite (fold_eadd (fun k => escal (nth k (prob p) 0) (f (get (means p) k) (nth k (covs p) (mkMat 0 0 (fun _ _ => 0))) x))). f_equal. apply sum_e.
    intros k Hk. fold (weight p' k) (weight p (s k)) (centre p' k) (centre p (s k)) (spread_of p' k) (spread_of p (s k)). rewrite (Hf k Hk). f_equal. apply E. exact Hk.
  Qed.
  Lemma plain_eq f x : entries_only f -> mixture (plain f) p' x = mixture (plain f) p x.
  Proof. intros Hf. apply mixture_eq. intros k Hk. unfold plain. rewrite (density_eq f x k Hf Hk). reflexivity. Qed.
  Lemma logged_eq f x : entries_only f -> mixture (logged f) p' x = mixture (logged f) p x.
  Proof. intros Hf. apply mixture_eq. intros k Hk. unfold logged. rewrite (density_eq f x k Hf Hk). reflexivity. Qed.
  Lemma marginals_eq norm_pdf x : n_dim p = nc x -> gmm_log_likelihood_marginals norm_pdf x p' = gmm_log_likelihood_marginals norm_pdf x p.
  Proof.
    intros Hd. unfold gmm_log_likelihood_marginals. apply map_ext_in. intros j Hj. apply in_seq in Hj. f_equal. apply map_ext. intros i. f_equal. unfold component.
    rewrite (fold_eadd (fun k => escal (nth k (prob p') 0) (Fin (norm_pdf (get x i j) (get (means p') k j) (get (nth k (covs p') (mkMat 0 0 (fun _ _ => 0))) j j))))).
    rewrite (fold_eadd (fun k => escal (nth k (prob p) 0) (Fin (norm_pdf (get x i j) (get (means p) k j) (get (nth k (covs p) (mkMat 0 0 (fun _ _ => 0))) j j))))). f_equal. apply sum_e.
    intros k Hk. fold (weight p' k) (weight p (s k)) (spread_of p' k) (spread_of p (s k)). change (get (means p') k j) with (centre p' k j). change (get (means p) (s k) j) with (centre p (s k) j).
    destruct E as [_ [_ E3]]. destruct (E3 k Hk) as [E0 [E4 [Q1 [Q2 Q3]]]]. destruct (spread_square p (s k) V (perm_lt _ _ P k Hk)) as [S1 S2].
    rewrite E0, E4, Q3 by lia. reflexivity.
  Qed.
  Lemma marginal_eq j x : (j < n_dim p)%nat -> marginal_cdf p' j x = marginal_cdf p j x.
  Proof.
    intros Hj. unfold marginal_cdf. rewrite <- !rsum_lsum. unfold component. apply sum_r.
    intros k Hk. fold (weight p' k) (weight p (s k)) (spread_of p' k) (spread_of p (s k)). change (get (means p') k j) with (centre p' k j). change (get (means p) (s k) j) with (centre p (s k) j).
    destruct E as [_ [_ E3]]. destruct (E3 k Hk) as [E0 [E4 [Q1 [Q2 Q3]]]]. destruct (spread_square p (s k) V (perm_lt _ _ P k Hk)) as [S1 S2].
    rewrite E0, E4, Q3 by lia. reflexivity.
  Qed.
  Lemma flat_map_map {A B C} (f : B -> list C) (g : A -> B) l : flat_map f (map g l) = flat_map (fun x => f (g x)) l.
  Proof. induction l; cbn; congruence. Qed.
  Lemma flat_map_ext_in {A B} (f g : A -> list B) l : (forall x, In x l -> f x = g x) -> flat_map f l = flat_map g l.
  Proof. induction l as [|a l IH]; intros H; cbn; [reflexivity|]. rewrite (H a) by (left; reflexivity). rewrite IH; [reflexivity|]. intros. apply H. right. assumption. Qed.
  Lemma grid_perm round resolution spread j : (j < n_dim p)%nat -> Permutation (ppf_grid round p' resolution spread j) (ppf_grid round p resolution spread j).
  Proof.
    intros Hj. unfold ppf_grid, component. rewrite (proj1 E).
    set (g := fun k => linspace (centre p k j - spread * sqrt (get (spread_of p k) j j)) (centre p k j + spread * sqrt (get (spread_of p k) j j)) (n_samples round resolution (weight p k))).
    transitivity (flat_map g (map s (seq 0 (n_clusters p)))).
    - rewrite flat_map_map. erewrite flat_map_ext_in; [reflexivity|]. intros k Hk. apply in_seq in Hk. cbn beta. assert (Hk' : (k < n_clusters p)%nat) by lia. unfold g.
      fold (weight p' k) (spread_of p' k). change (get (means p') k j) with (centre p' k j).
      destruct E as [_ [_ E3]]. destruct (E3 k Hk') as [E0 [E4 [Q1 [Q2 Q3]]]]. destruct (spread_square p (s k) V (perm_lt _ _ P k Hk')) as [S1 S2].
      rewrite E0, E4, Q3 by lia. reflexivity.
    - apply Permutation_flat_map. apply row_perm_Permutation, P.
  Qed.
End Relabel.

Lemma insert_swap a b l : (fst a = fst b -> a = b) -> insert_pair a (insert_pair b l) = insert_pair b (insert_pair a l).
Proof.
  intros H. destruct (Req_dec (fst a) (fst b)) as [Q|Q]; [rewrite (H Q); reflexivity|]. clear H.
  induction l as [|c l IH]; cbn [insert_pair].
  - destruct (Rleb (fst a) (fst b)) eqn:E1, (Rleb (fst b) (fst a)) eqn:E2; try reflexivity; rewrite ?Rleb_true, ?Rleb_false in *; lra.
  - destruct (Rleb (fst a) (fst c)) eqn:E3, (Rleb (fst b) (fst c)) eqn:E4; cbn [insert_pair]; rewrite ?E3, ?E4;
    destruct (Rleb (fst a) (fst b)) eqn:E1, (Rleb (fst b) (fst a)) eqn:E2; cbn [insert_pair]; rewrite ?E3, ?E4; try reflexivity;
    try (rewrite ?Rleb_true, ?Rleb_false in *; lra); rewrite IH; reflexivity.
Qed.
Lemma sort_pairs_perm (h : R -> R * R) g g' : (forall x y, fst (h x) = fst (h y) -> h x = h y) -> Permutation g g' -> sort_pairs (map h g) = sort_pairs (map h g').
Proof.
  intros H. unfold sort_pairs. induction 1; cbn [map fold_right]; [reflexivity|rewrite IHPermutation; reflexivity|apply insert_swap, H|congruence].
Qed.
Lemma combine_fst (F : R -> R) g : combine (map F g) g = map (fun x => (F x, x)) g.
Proof. induction g; cbn; congruence. Qed.

(** Densities, distribution functions and likelihoods. *)
Theorem C124_values : forall pdf cdf norm_pdf s p p', entries_only pdf -> entries_only cdf -> valid p -> row_permutation (n_clusters p) s -> relabelled s p p' ->
  (forall x log, gmc_pdf pdf (Some p') x log = gmc_pdf pdf (Some p) x log) /\
  (forall x log, gmc_cdf cdf (Some p') x log = gmc_cdf cdf (Some p) x log) /\
  (forall x, gmm_log_likelihood pdf x p' = gmm_log_likelihood pdf x p) /\
  (forall x, n_dim p = nc x -> gmcm_log_likelihood pdf norm_pdf x p' = gmcm_log_likelihood pdf norm_pdf x p).
Proof.
  intros pdf cdf norm_pdf s p p' H1 H2 V P E.
  assert (L : forall x, gmm_log_likelihood pdf x p' = gmm_log_likelihood pdf x p).
  { intros x. unfold gmm_log_likelihood. f_equal. apply map_ext. intros i. rewrite (plain_eq s p p' V P E pdf (get x i) H1). reflexivity. }
  split; [|split; [|split; [exact L|]]].
  - intros x log. unfold gmc_pdf. f_equal. apply map_ext. intros i. destruct log; [apply (logged_eq s)|apply (plain_eq s)]; assumption.
  - intros x log. unfold gmc_cdf. f_equal. apply map_ext. intros i. destruct log; [apply (logged_eq s)|apply (plain_eq s)]; assumption.
  - intros x Hd. unfold gmcm_log_likelihood. rewrite L, (marginals_eq s p p' V P E norm_pdf x Hd). reflexivity.
Qed.
Print Assumptions C124_values.
(** Marginal distribution functions and quantiles. *)
Theorem C124_marginals : forall s p p' j, valid p -> row_permutation (n_clusters p) s -> relabelled s p p' -> (j < n_dim p)%nat ->
  (forall x, marginal_cdf p' j x = marginal_cdf p j x) /\
  ((forall k, (k < n_clusters p)%nat -> 0 < get (spread_of p k) j j) ->
   forall round resolution spread q, marginal_ppf round p' resolution spread j q = marginal_ppf round p resolution spread j q).
Proof.
  intros s p p' j V P E Hj. split; [intros x; apply (marginal_eq s); assumption|]. intros Hv round resolution spread q. unfold marginal_ppf, interp1d.
  rewrite !combine_fst. rewrite (map_ext (fun x => (marginal_cdf p' j x, x)) (fun x => (marginal_cdf p j x, x))) by (intros x; rewrite (marginal_eq s p p' V P E j x Hj); reflexivity).
  rewrite (sort_pairs_perm (fun x => (marginal_cdf p j x, x)) (ppf_grid round p' resolution spread j) (ppf_grid round p resolution spread j)); [reflexivity| |apply (grid_perm s); assumption].
  intros x y H. cbn [fst] in H. destruct (C66_cdf p j V Hv) as [_ [I _]]. destruct (Rtotal_order x y) as [L|[->|L]]; [specialize (I x y L); lra|reflexivity|specialize (I y x L); lra].
Qed.
Print Assumptions C124_marginals.

(** ** The expectation maximisation *)
Lemma existsb_perm {A} (f : A -> bool) l l' : Permutation l l' -> existsb f l = existsb f l'.
Proof. induction 1; cbn; [reflexivity|congruence|destruct (f x), (f y); reflexivity|congruence]. Qed.
Section EmRelabel.
  Variables (eig : mat R -> list R) (cn : mat R -> mat R) (pdf : (nat -> R) -> mat R -> (nat -> R) -> R) (s : nat -> nat).
  Hypotheses (L : libraries eig cn) (Hp : forall mu c x, 0 <= pdf mu c x) (He : entries_only pdf).

  Lemma posterior_relabel q p p' i k : valid p -> row_permutation (n_clusters p) s -> relabelled s p p' -> (k < n_clusters p)%nat -> posterior pdf q p' i k = posterior pdf q p i (s k).
  Proof.
    intros V P E Hk. unfold posterior.
    assert (T : forall k, (k < n_clusters p)%nat -> weight p' k * pdf (centre p' k) (spread_of p' k) (get q i) = weight p (s k) * pdf (centre p (s k)) (spread_of p (s k)) (get q i)).
    { intros k0 H0. rewrite (density_eq s p p' V P E pdf (get q i) k0 He H0). f_equal. apply E. exact H0. }
    rewrite (sum_r s p p' P E _ (fun k => weight p k * pdf (centre p k) (spread_of p k) (get q i)) T). rewrite (T k Hk). reflexivity.
  Qed.
  Lemma step_relabel q p p' : valid p -> valid p' -> row_permutation (n_clusters p) s -> relabelled s p p' ->
    existsb (fun i => Reqb (col_sum (e_step pdf q p') i) 0) (seq 0 (nc (e_step pdf q p'))) = existsb (fun i => Reqb (col_sum (e_step pdf q p) i) 0) (seq 0 (nc (e_step pdf q p))) /\
    (existsb (fun i => Reqb (col_sum (e_step pdf q p) i) 0) (seq 0 (nc (e_step pdf q p))) = false ->
     exists p1 p1', m_step eig cn q (e_step pdf q p) = Ok p1 /\ m_step eig cn q (e_step pdf q p') = Ok p1' /\ valid p1 /\ valid p1' /\ n_clusters p1 = n_clusters p /\ n_dim p1 = nc q /\ relabelled s p1 p1').
  Proof.
    intros V V' P E.
    assert (C : forall k, (k < n_clusters p)%nat -> rsum (nr q) (fun i => posterior pdf q p' i k) = rsum (nr q) (fun i => posterior pdf q p i (s k))).
    { intros k Hk. apply rsum_ext. intros i _. apply (posterior_relabel q p p' i k V P E Hk). }
    assert (X : existsb (fun i => Reqb (col_sum (e_step pdf q p') i) 0) (seq 0 (nc (e_step pdf q p'))) = existsb (fun i => Reqb (col_sum (e_step pdf q p) i) 0) (seq 0 (nc (e_step pdf q p)))).
    { cbn [e_step nc]. rewrite (proj1 E).
      assert (G : forall l, (forall k, In k l -> (k < n_clusters p)%nat) -> existsb (fun i => Reqb (col_sum (e_step pdf q p') i) 0) l = existsb (fun i => Reqb (col_sum (e_step pdf q p) i) 0) (map s l)).
      { induction l as [|a l IH]; intros H; [reflexivity|]. cbn [existsb map]. rewrite !col_sum_posterior, C by (apply H; left; reflexivity). rewrite IH; [reflexivity|]. intros; apply H; right; assumption. }
      rewrite G by (intros k Hk; apply in_seq in Hk; lia). apply existsb_perm, row_perm_Permutation, P. }
    split; [exact X|]. intros N. assert (N0 := N). rewrite <- X in N0.
    destruct (em_step eig cn pdf L Hp q p V) as [[N' _]|[_ [p1 [M1 [V1 [_ [_ [A1 [A2 [A3 [A4 A5]]]]]]]]]]]; [congruence|].
    destruct (em_step eig cn pdf L Hp q p' V') as [[N' _]|[_ [p1' [M2 [V2 [_ [_ [B1 [B2 [B3 [B4 B5]]]]]]]]]]]; [congruence|].
    exists p1, p1'. split; [exact M1|]. split; [exact M2|]. split; [exact V1|]. split; [exact V2|]. split; [exact A1|]. split; [exact A2|].
    rewrite (proj1 E) in *. split; [congruence|]. split; [congruence|]. rewrite A1, A2. intros k Hk.
    pose proof (perm_lt _ _ P k Hk) as Hs. destruct (A5 (s k) Hs) as [_ [W [M S]]]. destruct (B5 k Hk) as [_ [W' [M' S']]].
    assert (Cn : forall j, (j < nc q)%nat -> centre p1' k j = centre p1 (s k) j).
    { intros j Hj. rewrite (M' j Hj), (M j Hj), (C k Hk). f_equal. apply rsum_ext. intros i _. rewrite (posterior_relabel q p p' i k V P E Hk). reflexivity. }
    split; [|split; [exact Cn|]].
    - rewrite W', W, (C k Hk). f_equal. rewrite <- (rsum_perm (n_clusters p) s (fun k => rsum (nr q) (fun i => posterior pdf q p i k)) P). apply rsum_ext. intros a Ha. apply C. exact Ha.
    - destruct (spread_square p1' k V2 ltac:(lia)) as [Q1 Q2]. destruct (spread_square p1 (s k) V1 ltac:(lia)) as [Q3 Q4].
      split; [lia|]. split; [lia|]. intros a b Ha Hb. rewrite S' by lia. rewrite S by lia. rewrite (C k Hk). f_equal. apply rsum_ext. intros i _.
      rewrite (posterior_relabel q p p' i k V P E Hk), (Cn a), (Cn b) by lia. reflexivity.
  Qed.

  Variables (ppf : mat R -> gmc -> result (mat R)) (gmm_ll gmcm_ll : mat R -> gmc -> R) (u : mat R).
  Hypotheses (H1 : unlabelled ppf) (H2 : unlabelled gmm_ll) (H3 : unlabelled gmcm_ll) (H4 : forall p q, ppf u p = Ok q -> nc q = nc u).
  Definition same_logs (l l' : log_lik) : Prop := l_gmm l' = l_gmm l /\ l_gmcm l' = l_gmcm l /\ Forall2 (relabelled s) (l_params l) (l_params l').
  Lemma log_set_relabel l l' q p p' : valid p -> valid p' -> n_dim p = nc u -> nc q = nc u -> row_permutation (n_clusters p) s -> relabelled s p p' -> same_logs l l' ->
    same_logs (log_set gmm_ll gmcm_ll l q u p) (log_set gmm_ll gmcm_ll l' q u p').
  Proof.
    intros V V' Hd Hq P E [S1 [S2 S3]]. unfold log_set. split; [|split]; cbn [l_gmm l_gmcm l_params].
    - rewrite S1, (H2 s q p p'); [reflexivity|assumption|assumption|congruence|assumption|assumption].
    - rewrite S2, (H3 s u p p'); [reflexivity|assumption..].
    - apply Forall2_app; [exact S3|]. constructor; [exact E|constructor].
  Qed.
  Lemma converged_relabel c eps l l' : same_logs l l' -> has_converged c eps l' = has_converged c eps l.
  Proof. intros [S1 [S2 _]]. unfold has_converged. rewrite S1, S2. reflexivity. Qed.
  Lemma loop_relabel m fuel c eps : forall q p p' l l', valid p -> valid p' -> n_clusters p = m -> n_dim p = nc u -> nc q = nc u -> row_permutation m s -> relabelled s p p' -> same_logs l l' ->
    match em_loop eig cn pdf ppf gmm_ll gmcm_ll fuel c eps u q p l with
    | Ok r => exists r', em_loop eig cn pdf ppf gmm_ll gmcm_ll fuel c eps u q p' l' = Ok r' /\ same_logs r r'
    | Err e => em_loop eig cn pdf ppf gmm_ll gmcm_ll fuel c eps u q p' l' = Err e
    end.
  Proof.
    induction fuel as [|fuel IH]; intros q p p' l l' V V' Hm Hd Hq P E S; cbn [em_loop]; [exists l'; split; [reflexivity|exact S]|]. rewrite <- Hm in P.
    destruct (step_relabel q p p' V V' P E) as [X Y]. rewrite X. destruct (existsb _ (seq 0 (nc (e_step pdf q p)))); [reflexivity|].
    destruct (Y eq_refl) as [p1 [p1' [M1 [M2 [V1 [V2 [N1 [N2 E1]]]]]]]]. rewrite M1, M2. cbn [bind]. rewrite <- N1 in P.
    rewrite (H1 s u p1 p1' V1 V2 ltac:(congruence) P E1). destruct (ppf u p1) as [q1|e] eqn:Eq; [|reflexivity]. cbn [bind].
    assert (S1 : same_logs (log_set gmm_ll gmcm_ll l q u p1) (log_set gmm_ll gmcm_ll l' q u p1')) by (apply log_set_relabel; try assumption; congruence).
    rewrite (converged_relabel c eps _ _ S1). destruct (has_converged c eps (log_set gmm_ll gmcm_ll l q u p1)) as [[|]|e]; cbn [bind]; [eexists; split; [reflexivity|exact S1]| |reflexivity].
    apply IH; try assumption; try congruence; first [exact (H4 p1 q1 Eq)|rewrite <- Hm, <- N1; exact P].
  Qed.
End EmRelabel.
Lemma Forall2_rev {A} (R0 : A -> A -> Prop) l l' : Forall2 R0 l l' -> Forall2 R0 (rev l) (rev l').
Proof. induction 1; cbn; [constructor|]. apply Forall2_app; [assumption|]. constructor; [assumption|constructor]. Qed.
Lemma Forall2_error {A} (R0 : A -> A -> Prop) l l' k : Forall2 R0 l l' -> match nth_error l k, nth_error l' k with Some a, Some b => R0 a b | None, None => True | _, _ => False end.
Proof. intros F. revert k. induction F as [|x y l l' H F IH]; intros [|k]; cbn; auto. apply IH. Qed.
(** A whole run, started from the same components in another order: it fails with the same error, or returns the same components in
    that order, the same flag and the same log-likelihood. *)
Theorem C124_expectation_maximisation : forall eig cn pdf ppf gmm_ll gmcm_ll u s p p' max_iter criteria eps, libraries eig cn -> (forall mu c x, 0 <= pdf mu c x) -> entries_only pdf ->
  unlabelled ppf -> unlabelled gmm_ll -> unlabelled gmcm_ll -> (forall p q, ppf u p = Ok q -> nc q = nc u) ->
  valid p -> valid p' -> n_dim p = nc u -> row_permutation (n_clusters p) s -> relabelled s p p' ->
  match expectation_maximization eig cn pdf ppf gmm_ll gmcm_ll u p max_iter criteria eps with
  | Ok (best, converged, ll) => exists best', expectation_maximization eig cn pdf ppf gmm_ll gmcm_ll u p' max_iter criteria eps = Ok (best', converged, ll) /\ relabelled s best best'
  | Err e => expectation_maximization eig cn pdf ppf gmm_ll gmcm_ll u p' max_iter criteria eps = Err e
  end.
Proof.
  intros eig cn pdf ppf gmm_ll gmcm_ll u s p p' max_iter criteria eps L Hp He H1 H2 H3 H4 V V' Hd P E. unfold expectation_maximization.
  rewrite (H1 s u p p' V V' Hd P E). destruct (ppf u p) as [q|e] eqn:Eq; [|reflexivity]. cbn [bind]. destruct (check_criteria criteria) as [c|e]; [|reflexivity]. cbn [bind].
  assert (S0 : same_logs s (log_set gmm_ll gmcm_ll (mkLog [] [] []) q u p) (log_set gmm_ll gmcm_ll (mkLog [] [] []) q u p')).
  { apply log_set_relabel; try assumption; [exact (H4 p q Eq)|]. split; [reflexivity|]. split; [reflexivity|constructor]. }
  pose proof (loop_relabel eig cn pdf s L Hp He ppf gmm_ll gmcm_ll u H1 H2 H3 H4 (n_clusters p) max_iter c eps q p p' _ _ V V' eq_refl Hd (H4 p q Eq) P E S0) as K.
  destruct (em_loop eig cn pdf ppf gmm_ll gmcm_ll max_iter c eps u q p _) as [l|e]; [|rewrite K; reflexivity]. destruct K as [l' [-> S]]. cbn [bind].
  rewrite (converged_relabel s c eps _ _ S). destruct S as [S1 [S2 S3]].
  assert (B : match best_param c l with Ok b => exists b', best_param c l' = Ok b' /\ relabelled s b b' | Err e => best_param c l' = Err e end).
  { unfold best_param. destruct (String.eqb c "gmm").
    - unfold from_end. pose proof (Forall2_error _ _ _ (1 - 1) (Forall2_rev _ _ _ S3)) as F. destruct (nth_error (rev (l_params l)) (1 - 1)), (nth_error (rev (l_params l')) (1 - 1)); try contradiction; [eauto|reflexivity].
    - rewrite S2. pose proof (Forall2_error _ _ _ (argmax (l_gmcm l)) S3) as F. destruct (nth_error (l_params l) _), (nth_error (l_params l') _); try contradiction; [eauto|reflexivity]. }
  destruct (best_param c l) as [b|e]; [|rewrite B; reflexivity]. destruct B as [b' [-> Hb]]. cbn [bind].
  destruct (has_converged c eps l) as [cv|e]; [|reflexivity]. cbn [bind]. unfold best_log_lik. rewrite S2. destruct (from_end (l_gmcm l) 1); [|reflexivity]. cbn [bind]. exists b'. split; [reflexivity|exact Hb].
Qed.
Print Assumptions C124_expectation_maximisation.

(** The mixture of C122_case with its two components exchanged; the quantities of the code meet the hypotheses of the run. *)
Definition pair20 : gmc := mkGmc 2 1 [1 / 2; 1 / 2] (mkMat 2 1 (fun k _ => if Nat.eqb k 0 then 2 else 0)) [unit1; unit1].
Definition swap (k : nat) : nat := (1 - k)%nat.
Example C124_case : row_permutation (n_clusters pair01) swap /\ relabelled swap pair01 pair20 /\ centre pair01 0 0 <> centre pair20 0 0.
Proof.
  split; [|split].
  - exists swap. change (n_clusters pair01) with 2%nat. unfold swap. intros i Hi. repeat split; lia.
  - split; [reflexivity|]. split; [reflexivity|]. intros [|[|k]] Hk; cbn in Hk; [| |lia]; (split; [reflexivity|]; split; [intros; reflexivity|]; split; [reflexivity|]; split; [reflexivity|intros; reflexivity]).
  - cbn. lra.
Qed.
(** a density that reads entries only, and the log-likelihood of the code with it *)
Example C124_unlabelled_case : exists pdf, entries_only pdf /\ (forall mu c x, 0 <= pdf mu c x) /\ unlabelled (fun q p => M_Gmc.number_of (gmm_log_likelihood pdf q p)).
Proof.
  assert (G : entries_only (fun mu c x => exp (- rsum (nr c) (fun j => (x j - mu j) * (x j - mu j))))).
  { intros mu mu' c c' x [H _] Hm. rewrite <- H. do 2 f_equal. apply rsum_ext. intros j Hj. rewrite (Hm j Hj). reflexivity. }
  exists (fun mu c x => exp (- rsum (nr c) (fun j => (x j - mu j) * (x j - mu j)))). split; [exact G|]. split; [intros; left; apply exp_pos|].
  intros s u p p' V _ _ P E. destruct (C124_values _ (fun mu c x => exp (- rsum (nr c) (fun j => (x j - mu j) * (x j - mu j)))) (fun _ _ _ => 0) s p p' G G V P E) as [_ [_ [H _]]]. rewrite H. reflexivity.
Qed.
(** the quantiles of the code, for mixtures with positive variances; without them they are 0 here *)
Example C124_quantiles_case : forall round resolution spread, unlabelled (fun u p =>
  if forallb (fun k => forallb (fun j => Rltb 0 (get (spread_of p k) j j)) (seq 0 (n_dim p))) (seq 0 (n_clusters p))
  then mapM (fun i => mapM (fun j => marginal_ppf round p resolution spread j (get u i j)) (seq 0 (n_dim p))) (seq 0 (nr u)) else Ok []).
Proof.
  intros round resolution spread s u p p' V V' Hd P E.
  assert (B : forall p, forallb (fun k => forallb (fun j => Rltb 0 (get (spread_of p k) j j)) (seq 0 (n_dim p))) (seq 0 (n_clusters p)) = true <-> forall k j, (k < n_clusters p)%nat -> (j < n_dim p)%nat -> 0 < get (spread_of p k) j j).
  { intros p0. rewrite forallb_forall. split.
    - intros H k j Hk Hj. specialize (H k ltac:(apply in_seq; lia)). rewrite forallb_forall in H. apply Rltb_true. apply H. apply in_seq. lia.
    - intros H k Hk. apply in_seq in Hk. apply forallb_forall. intros j Hj. apply in_seq in Hj. apply Rltb_true. apply H; lia. }
  assert (T : forallb (fun k => forallb (fun j => Rltb 0 (get (spread_of p' k) j j)) (seq 0 (n_dim p'))) (seq 0 (n_clusters p')) = forallb (fun k => forallb (fun j => Rltb 0 (get (spread_of p k) j j)) (seq 0 (n_dim p))) (seq 0 (n_clusters p))).
  { apply Bool.eq_iff_eq_true. rewrite !B. destruct E as [E1 [E2 E3]]. rewrite E1, E2. split; intros H k j Hk Hj.
    - destruct P as [r Hr]. destruct (Hr k Hk) as [R1 [R2 [R3 R4]]]. specialize (H (r k) j R2 Hj). destruct (E3 (r k) R2) as [_ [_ [Q1 [Q2 Q3]]]]. rewrite R4 in *.
      destruct (spread_square p k V Hk) as [S1 S2]. rewrite Q3 in H by lia. exact H.
    - destruct (E3 k Hk) as [_ [_ [Q1 [Q2 Q3]]]]. pose proof (perm_lt _ _ P k Hk) as Hs. destruct (spread_square p (s k) V Hs) as [S1 S2]. rewrite Q3 by lia. apply H; assumption. }
  rewrite T. destruct (forallb _ (seq 0 (n_clusters p))) eqn:F; [|reflexivity]. rewrite B in F. f_equal. apply functional_extensionality. intros i. rewrite (proj1 (proj2 E)).
  assert (G : forall l, (forall j, In j l -> (j < n_dim p)%nat) -> mapM (fun j => marginal_ppf round p' resolution spread j (get u i j)) l = mapM (fun j => marginal_ppf round p resolution spread j (get u i j)) l).
  { induction l as [|j l IH]; intros H; [reflexivity|]. cbn [mapM]. rewrite IH by (intros; apply H; right; assumption).
    assert (Hj : (j < n_dim p)%nat) by (apply H; left; reflexivity). destruct (C124_marginals s p p' j V P E Hj) as [_ M]. rewrite M by (intros k Hk; apply F; assumption). reflexivity. }
  apply G. intros j Hj. apply in_seq in Hj. lia.
Qed.
