(** Theorems about Gaussian mixture copulas: parameters, densities, marginals, fitting. *)
From Verif Require Import Base RSumLib CountLib Ext S_Matrix S_Linalg M_Special M_Stats M_Linalg P_Linalg P_Rayleigh M_Gmc S_Gmc P_Gmc P_GmcVec P_GmcMarg P_GmcDens P_GmcEm P_GmcFit.
Local Close Scope Z_scope. Open Scope R_scope. Open Scope list_scope.

(** The hypothesis about numpy's eigvalsh and statsmodels' cov_nearest can be met. *)
Example gmc_libraries_case : exists eig cn, libraries eig cn.
Proof. exact libraries_exist. Qed.
Ltac fall := repeat match goal with |- Forall _ (_ :: _) => apply Forall_cons | |- Forall _ [] => apply Forall_nil end.
(** a mixture of two standard normal distributions around (0, 0) and (3, 4) *)
Definition id2 : mat R := mkMat 2 2 (fun i j => if Nat.eqb i j then 1 else 0).
Definition two (a b : R) : gmc := mkGmc 2 2 [a; b] (mkMat 2 2 (fun k j => if Nat.eqb k 0 then 0 else if Nat.eqb j 0 then 3 else 4)) [id2; id2].
Lemma id2_covariance : covariance 2 id2.
Proof. split; [split; reflexivity|]. split; [intros i j _ _; cbn; rewrite (Nat.eqb_sym j i); reflexivity|]. intros x. unfold quad. cbn. nra. Qed.
Lemma two_covs a b : Forall (covariance 2) (covs (two a b)).
Proof. cbn [covs two]. constructor; [|constructor; [|constructor]]; apply id2_covariance. Qed.
Lemma two_weights a b : 0 <= a -> 0 <= b -> a + b = 1 -> weights [a; b].
Proof. intros. apply weights_exact; [fall; assumption|cbn; lra]. Qed.
Lemma two_valid a b : weights [a; b] -> valid (two a b).
Proof.
  intros W. unfold valid. cbn. split; [reflexivity|]. split; [exact W|]. split; [reflexivity|]. split; [reflexivity|]. split; [reflexivity|].
  constructor; [|constructor; [|constructor]]; apply covariance_almost, id2_covariance.
Qed.

(** ** C62 *)
Theorem C62_history : forall eig cn m d pr mu cv p l, libraries eig cn ->
  (new_gmc eig cn m d pr mu cv = Ok p \/ from_dict eig cn pr mu cv = Ok p \/ exists v, from_vector eig cn v m d = Ok p) ->
  valid p /\ valid (history eig cn p l) /\ n_clusters (history eig cn p l) = n_clusters p /\ n_dim (history eig cn p l) = n_dim p.
Proof.
  intros eig cn m d pr mu cv p l L H. assert (V : valid p).
  { destruct H as [H|[H|[v H]]]; [apply (new_gmc_ok _ _ _ _ _ _ _ _ L) in H; apply H|apply (new_gmc_ok _ _ _ _ _ _ _ _ L) in H; apply H|apply (from_vector_valid _ _ _ _ _ _ L) in H; apply H]. }
  split; [exact V|]. apply history_valid; assumption.
Qed.
Print Assumptions C62_history.
Theorem C62_failed_assignment : forall eig cn p a p' e, perform eig cn p a = (p', Err e) -> p' = p /\ (e = GMCParamError \/ e = NonSymmetricMatrixError).
Proof.
  intros eig cn p a p' e. destruct a as [v|v|v|]; cbn [perform]; [unfold set_prob|unfold set_means|unfold set_covs|discriminate]; unfold assign.
  - destruct (check_prob _ v) eqn:E; [discriminate|]. intros H. injection H as <- <-. split; [reflexivity|]. left. eapply check_prob_err, E.
  - destruct (check_means _ _ v) eqn:E; [discriminate|]. intros H. injection H as <- <-. split; [reflexivity|]. left. eapply check_means_err, E.
  - destruct (check_covs _ _ _ _ v) eqn:E; [discriminate|]. intros H. injection H as <- <-. split; [reflexivity|]. eapply check_covs_err, E.
Qed.
Print Assumptions C62_failed_assignment.
(** which assignments are accepted, and that they store what was given *)
Theorem C62_accepted : forall eig cn p, libraries eig cn ->
  (forall v p', set_prob p v = (p', Ok tt) <-> exists l, v = map Fin l /\ length l = n_clusters p /\ weights l /\ p' = mkGmc (n_clusters p) (n_dim p) l (means p) (covs p))
  /\ (forall v p', set_means p v = (p', Ok tt) <-> nr v = n_clusters p /\ nc v = n_dim p /\ p' = mkGmc (n_clusters p) (n_dim p) (prob p) v (covs p))
  /\ (forall v, length v = n_clusters p -> Forall (covariance (n_dim p)) v -> set_covs eig cn p v = (mkGmc (n_clusters p) (n_dim p) (prob p) (means p) v, Ok tt))
  /\ (forall v p', set_covs eig cn p v = (p', Ok tt) -> length v = n_clusters p /\ Forall (square (n_dim p)) v /\ prob p' = prob p /\ means p' = means p).
Proof.
  intros eig cn p L. split; [|split; [|split]].
  - intros v p'. unfold set_prob, assign. split.
    + destruct (check_prob _ v) as [l|] eqn:E; [|discriminate]. intros H. injection H as <-. apply check_prob_ok in E. exists l. intuition.
    + intros [l [-> [Hl [W ->]]]]. rewrite (proj2 (check_prob_ok (n_clusters p) (map Fin l) l)) by auto. reflexivity.
  - intros v p'. unfold set_means, assign. split.
    + destruct (check_means _ _ v) as [w|] eqn:E; [|discriminate]. intros H. injection H as <-. apply check_means_ok in E. destruct E as [-> [E1 E2]]. auto.
    + intros [H1 [H2 ->]]. rewrite (proj2 (check_means_ok (n_clusters p) (n_dim p) v v)) by auto. reflexivity.
  - intros v Hl F. unfold set_covs, assign. rewrite check_covs_same by assumption. reflexivity.
  - intros v p'. unfold set_covs, assign. destruct (check_covs _ _ _ _ v) as [w|] eqn:E; [|discriminate]. intros H. injection H as <-. apply (check_covs_ok _ _ _ _ _ _ L) in E. cbn. intuition.
Qed.
Print Assumptions C62_accepted.
(** a dictionary gives the parameter of the sizes of its means *)
Theorem C62_dictionary : forall eig cn pr mu cv, libraries eig cn ->
  (forall p, from_dict eig cn pr mu cv = Ok p -> n_clusters p = nr mu /\ n_dim p = nc mu /\ means p = mu /\ pr = map Fin (prob p)) /\
  (forall l, pr = map Fin l -> length l = nr mu -> weights l -> length cv = nr mu -> Forall (covariance (nc mu)) cv -> from_dict eig cn pr mu cv = Ok (mkGmc (nr mu) (nc mu) l mu cv)).
Proof.
  intros eig cn pr mu cv L. split.
  - intros p H. apply (new_gmc_ok _ _ _ _ _ _ _ _ L) in H. destruct H as [_ [H1 [H2 [H3 H4]]]]. auto.
  - intros l -> Hl W Hc F. apply new_gmc_fwd; auto.
Qed.
Print Assumptions C62_dictionary.
(** weights that miss 1 by a millionth are accepted, and no sample can be drawn *)
Theorem C62_sum_refuted : forall eig cn, libraries eig cn -> exists p,
  new_gmc eig cn 2 2 [Fin (/ 2); Fin (/ 2 + / 1000000)] (means p) (covs p) = Ok p /\ lsum (prob p) <> 1
  /\ forall n labels draw, random_gmcm n p labels draw = Err ValueError.
Proof.
  intros eig cn L. set (p := two (/ 2) (/ 2 + / 1000000)). exists p.
  assert (W : weights [/ 2; / 2 + / 1000000]).
  { split; [fall; lra|]. cbn. rewrite Rabs_pos_eq; lra. }
  split; [|split].
  - apply (new_gmc_fwd eig cn 2 2 [/ 2; / 2 + / 1000000]); try assumption; try reflexivity. apply two_covs.
  - cbn. lra.
  - intros n labels draw. unfold random_gmcm. replace (existsb _ _ || _) with true; [reflexivity|]. symmetry. apply orb_true_iff. right. apply Rltb_true. cbn. rewrite Rabs_pos_eq; lra.
Qed.
Print Assumptions C62_sum_refuted.
(** the sizes are attributes without a check *)
Theorem C62_sizes_refuted : forall p, valid p -> exists p', set_sizes p (S (n_clusters p)) (n_dim p) = (p', Ok tt) /\ ~ valid p'.
Proof. intros p [V1 _]. eexists. split; [reflexivity|]. intros [V _]. cbn in V. lia. Qed.
Print Assumptions C62_sizes_refuted.
Example C62_case : forall eig cn, libraries eig cn ->
  new_gmc eig cn 2 2 [Fin (/ 4); Fin (3 / 4)] (means (two 0 1)) [id2; id2] = Ok (two (/ 4) (3 / 4))
  /\ fst (perform eig cn (two (/ 4) (3 / 4)) (AProb [Fin 1; Fin 1])) = two (/ 4) (3 / 4) /\ snd (perform eig cn (two (/ 4) (3 / 4)) (AProb [Fin 1; Fin 1])) = Err GMCParamError
  /\ history eig cn (two (/ 4) (3 / 4)) [AProb [Fin 1; Nan]; AProb [Fin (/ 2); Fin (/ 2)]] = two (/ 2) (/ 2).
Proof.
  intros eig cn L.
  assert (E : check_prob 2 [Fin 1; Fin 1] = Err GMCParamError).
  { destruct (check_prob 2 [Fin 1; Fin 1]) as [l|e] eqn:E; [|f_equal; eapply check_prob_err, E]. exfalso. apply check_prob_ok in E. destruct E as [E [_ [_ W]]].
    destruct l as [|a [|b [|c l]]]; try discriminate. cbn in E. injection E as <- <-. cbn in W. rewrite Rabs_pos_eq in W; lra. }
  assert (E2 : check_prob 2 [Fin 1; Nan] = Err GMCParamError).
  { destruct (check_prob 2 [Fin 1; Nan]) as [l|e] eqn:E2; [|f_equal; eapply check_prob_err, E2]. exfalso. apply check_prob_ok in E2. destruct E2 as [E2 _]. destruct l as [|a [|b l]]; discriminate. }
  split; [|split; [|split]].
  - apply (new_gmc_fwd eig cn 2 2 [/ 4; 3 / 4]); try reflexivity; [exact L|apply two_weights; lra|apply (two_covs 0 1)].
  - cbn [perform]. unfold set_prob, assign. cbn [n_clusters two]. rewrite E. reflexivity.
  - cbn [perform]. unfold set_prob, assign. cbn [n_clusters two]. rewrite E. reflexivity.
  - cbn [history perform]. unfold set_prob, assign. cbn [n_clusters two]. rewrite E2. cbn [fst n_clusters two].
    rewrite (proj2 (check_prob_ok 2 [Fin (/ 2); Fin (/ 2)] [/ 2; / 2])); [reflexivity|]. split; [reflexivity|]. split; [reflexivity|]. apply two_weights; lra.
Qed.

(** ** C63 *)
Theorem C63_round_trip : forall eig cn p, libraries eig cn -> (1 <= n_dim p)%nat -> (2 <= n_clusters p)%nat -> valid p -> Forall (covariance (n_dim p)) (covs p) ->
  Forall (fun x => 0 < x < 1) (prob p) -> lsum (prob p) = 1 ->
  exists p', from_vector eig cn (fst (to_vector p)) (n_clusters p) (n_dim p) = Ok p' /\ same_gmc p p' /\ snd (to_vector p) = p.
Proof.
  intros eig cn p L Hd Hm V F P S1. destruct (round_trip eig cn p L Hd Hm V F) as [p' [E Sm]]. exists p'. split; [exact E|].
  assert (Ep : snd (to_vector p) = p).
  { cbn. rewrite clip_prob_id, S1 by exact P. rewrite (map_ext _ (fun x => x)) by (intros; field). rewrite map_id. destruct p. reflexivity. }
  rewrite Ep in Sm. split; [exact Sm|exact Ep].
Qed.
Print Assumptions C63_round_trip.
(** without the sum being exactly one, or with zeros, the probabilities come back positive and normalised *)
Theorem C63_normalised : forall eig cn p, libraries eig cn -> (1 <= n_dim p)%nat -> (2 <= n_clusters p)%nat -> valid p -> Forall (covariance (n_dim p)) (covs p) ->
  exists p', from_vector eig cn (fst (to_vector p)) (n_clusters p) (n_dim p) = Ok p' /\ mat_eq (means p) (means p') /\ Forall2 mat_eq (covs p) (covs p')
    /\ lsum (prob p') = 1 /\ Forall (fun x => 0 < x) (prob p')
    /\ (Forall (fun x => 0 < x < 1) (prob p) -> prob p' = map (fun x => x / lsum (prob p)) (prob p)).
Proof.
  intros eig cn p L Hd Hm V F. destruct (round_trip eig cn p L Hd Hm V F) as [p' [E [_ [_ [Ep [Em Ec]]]]]]. exists p'. split; [exact E|]. split; [exact Em|]. split; [exact Ec|].
  cbn in Ep. rewrite <- Ep. destruct V as [_ [[W1 W2] _]]. split; [apply clip_prob_weights; split; assumption|]. split; [apply clip_prob_pos, W1|]. intros P. apply clip_prob_id, P.
Qed.
Print Assumptions C63_normalised.
Theorem C63_vector : forall eig cn v m d p, libraries eig cn -> from_vector eig cn v m d = Ok p -> valid p /\ n_clusters p = m /\ n_dim p = d /\ lsum (prob p) = 1.
Proof. intros. eapply from_vector_valid; eassumption. Qed.
Print Assumptions C63_vector.
Theorem C63_length : forall p, valid p -> (length (fst (to_vector p)) = n_clusters p + n_clusters p * n_dim p + n_clusters p * (n_dim p * (n_dim p + 1) / 2))%nat.
Proof. exact to_vector_length. Qed.
Print Assumptions C63_length.
(** a mixture of one component has no way back *)
Theorem C63_single_refuted : forall eig cn p, libraries eig cn -> (1 <= n_dim p)%nat -> n_clusters p = 1%nat -> valid p -> Forall (covariance (n_dim p)) (covs p) ->
  from_vector eig cn (fst (to_vector p)) (n_clusters p) (n_dim p) = Err GMCParamError.
Proof. intros. eapply round_trip_single; eassumption. Qed.
Print Assumptions C63_single_refuted.
(** asking for the vector changes the parameter itself when a weight is 0 *)
Theorem C63_mutation_refuted : forall p, valid p -> In 0 (prob p) -> prob (snd (to_vector p)) <> prob p.
Proof.
  intros p [_ [[W _] _]] H E. cbn in E. pose proof (clip_prob_pos _ W) as P. rewrite E in P. rewrite Forall_forall in P. specialize (P 0 H). lra.
Qed.
Print Assumptions C63_mutation_refuted.
Example C63_case : forall eig cn, libraries eig cn ->
  exists p', from_vector eig cn (fst (to_vector (two (/ 4) (3 / 4)))) 2 2 = Ok p' /\ same_gmc (two (/ 4) (3 / 4)) p'
  /\ length (fst (to_vector (two (/ 4) (3 / 4)))) = 12%nat.
Proof.
  intros eig cn L. assert (V : valid (two (/ 4) (3 / 4))) by (apply two_valid, two_weights; lra).
  destruct (C63_round_trip eig cn (two (/ 4) (3 / 4)) L) as [p' [E [Sm _]]]; [cbn; lia|cbn; lia|exact V|apply two_covs|cbn; fall; lra|cbn; lra|].
  exists p'. split; [exact E|]. split; [exact Sm|]. rewrite (C63_length _ V). reflexivity.
Qed.

(** ** C64 *)
Theorem C64_mixture : forall pdf cdf p x,
  gmc_pdf pdf (Some p) x false = Ok (map (fun i => Fin (mixed p (fun mu c => pdf mu c (get x i)))) (seq 0 (nr x)))
  /\ gmc_cdf cdf (Some p) x false = Ok (map (fun i => Fin (mixed p (fun mu c => cdf mu c (get x i)))) (seq 0 (nr x)))
  /\ gmc_pdf pdf None x false = Err GMCNotFittedError /\ gmc_cdf cdf None x false = Err GMCNotFittedError.
Proof.
  intros pdf cdf p x. split; [|split; [|split; reflexivity]].
  - cbn. f_equal. apply map_ext. intros i. apply mixture_plain.
  - cbn. f_equal. apply map_ext. intros i. apply mixture_plain.
Qed.
Print Assumptions C64_mixture.
(** the code averages the logarithms: with one component this is the logarithm, otherwise it is at most the logarithm *)
Theorem C64_log_partial : forall f p x, valid p -> lsum (prob p) = 1 -> (forall k, (k < n_clusters p)%nat -> 0 < f (centre p k) (spread_of p k) (get x 0)) -> nr x = 1%nat ->
  exists l v, gmc_pdf f (Some p) x true = Ok [Fin l] /\ gmc_cdf f (Some p) x true = Ok [Fin l] /\ gmc_pdf f (Some p) x false = Ok [Fin v] /\ 0 < v /\ l <= ln v
    /\ (n_clusters p = 1%nat -> l = ln v)
    /\ ((exists k, (k < n_clusters p)%nat /\ 0 < weight p k /\ f (centre p k) (spread_of p k) (get x 0) <> v) -> l < ln v).
Proof.
  intros f p x V S1 Hf Hx. exists (mixed p (fun mu c => ln (f mu c (get x 0)))), (mixed p (fun mu c => f mu c (get x 0))).
  unfold gmc_pdf, gmc_cdf. rewrite Hx. cbn [seq map]. rewrite mixture_logged, mixture_plain by exact Hf.
  split; [reflexivity|]. split; [reflexivity|]. split; [reflexivity|].
  destruct (jensen (n_clusters p) (weight p) (fun k => f (centre p k) (spread_of p k) (get x 0))) as [J1 [J2 J3]];
    [intros; apply weight_nonneg, V|rewrite weight_sum by exact V; exact S1|exact Hf|].
  split; [exact J1|]. split; [exact J2|]. split; [|exact J3]. intros H1. pose proof (weight_sum p V) as Ws. rewrite S1 in Ws. unfold mixed. rewrite H1 in *. cbn in *.
  assert (weight p 0 = 1) by lra. rewrite H. rewrite !Rplus_0_l, !Rmult_1_l. reflexivity.
Qed.
Print Assumptions C64_log_partial.
(** so log=True is not the logarithm as soon as two components differ *)
Theorem C64_log_refuted : exists p x (f : (nat -> R) -> mat R -> (nat -> R) -> R) l v, valid p /\ (forall mu c y, 0 < f mu c y) /\
  gmc_pdf f (Some p) x true = Ok [Fin l] /\ gmc_pdf f (Some p) x false = Ok [Fin v] /\ l < ln v.
Proof.
  set (f := fun (mu : nat -> R) (c : mat R) (y : nat -> R) => / (2 * PI) * exp (- ((y 0%nat - mu 0%nat) ^ 2 + (y 1%nat - mu 1%nat) ^ 2) / 2)).
  set (p := two (/ 2) (/ 2)). set (x := mkMat 1 2 (fun _ _ => 0)). assert (V : valid p) by (apply two_valid, two_weights; lra).
  assert (Pf : forall mu c y, 0 < f mu c y) by (intros; apply Rmult_lt_0_compat; [apply Rinv_0_lt_compat; pose proof PI_RGT_0; lra|apply exp_pos]).
  destruct (C64_log_partial f p x V) as [l [v [H1 [_ [H2 [_ [_ [_ H3]]]]]]]]; [cbn; lra|intros; apply Pf|reflexivity|].
  exists p, x, f, l, v. split; [exact V|]. split; [exact Pf|]. split; [exact H1|]. split; [exact H2|]. apply H3.
  exists 0%nat. split; [cbn; lia|]. split; [cbn; lra|].
  set (f0 := f (centre p 0) (spread_of p 0) (get x 0)). set (f1 := f (centre p 1) (spread_of p 1) (get x 0)).
  assert (Ev : v = / 2 * f0 + / 2 * f1).
  { rewrite (proj1 (C64_mixture f f p x)) in H2. cbn [seq map nr x] in H2. injection H2 as H2. rewrite <- H2. unfold mixed. change (n_clusters p) with 2%nat. cbn [rsum]. fold f0 f1.
    change (weight p 0) with (/ 2). change (weight p 1) with (/ 2).
    unfold f0, f1. change (get x 0) with (fun _ : nat => 0). ring. }
  assert (f1 < f0); [|lra].
  unfold f0, f1, f. apply Rmult_lt_compat_l; [apply Rinv_0_lt_compat; pose proof PI_RGT_0; lra|]. apply exp_increasing. cbn. lra.
Qed.
Print Assumptions C64_log_refuted.
Example C64_case : forall pdf x, gmc_pdf pdf (Some (two (/ 4) (3 / 4))) (mkMat 1 2 (fun _ => x)) false
  = Ok [Fin (/ 4 * pdf (get (means (two 0 1)) 0) id2 x + 3 / 4 * pdf (get (means (two 0 1)) 1) id2 x)].
Proof. intros pdf x. rewrite (proj1 (C64_mixture pdf pdf _ _)). cbn [nr seq map]. unfold mixed. cbn [rsum n_clusters two]. unfold weight, centre, spread_of. cbn. do 3 f_equal. ring. Qed.

(** ** C65 *)
Theorem C65_e_step : forall pdf q p i, (forall mu c x, 0 <= pdf mu c x) -> valid p ->
  (forall k, get (e_step pdf q p) i k = posterior pdf q p i k /\ 0 <= get (e_step pdf q p) i k)
  /\ (0 < mixed p (fun mu c => pdf mu c (get q i)) -> rsum (n_clusters p) (get (e_step pdf q p) i) = 1)
  /\ (mixed p (fun mu c => pdf mu c (get q i)) = 0 -> forall k, get (e_step pdf q p) i k = 0).
Proof.
  intros pdf q p i Hp V. split; [|split].
  - intros k. rewrite e_step_eq. split; [reflexivity|]. apply posterior_nonneg; assumption.
  - intros H. destruct (posterior_sum pdf Hp q p i V) as [[E _]|[E _]]; [|lra]. rewrite <- E. apply rsum_ext. intros k _. apply e_step_eq.
  - intros H k. rewrite e_step_eq. destruct (posterior_sum pdf Hp q p i V) as [[_ E]|[_ E]]; [lra|apply E].
Qed.
Print Assumptions C65_e_step.
Theorem C65_m_step : forall eig cn q kappa, libraries eig cn -> (0 < nc kappa)%nat -> nr kappa = nr q -> (forall i k, 0 <= get kappa i k) -> (forall k, (k < nc kappa)%nat -> col_sum kappa k <> 0) ->
  exists p, m_step eig cn q kappa = Ok p /\ valid p /\ lsum (prob p) = 1 /\ n_clusters p = nc kappa /\ n_dim p = nc q /\ Forall (covariance (n_dim p)) (covs p) /\
    forall k, (k < nc kappa)%nat -> let n_k := rsum (nr q) (fun i => get kappa i k) in
      weight p k = n_k / rsum (nc kappa) (fun k' => rsum (nr q) (fun i => get kappa i k'))
      /\ (forall j, centre p k j = rsum (nr q) (fun i => get kappa i k * get q i j) / n_k)
      /\ (forall a b, get (spread_of p k) a b = rsum (nr q) (fun i => get kappa i k * (get q i a - centre p k a) * (get q i b - centre p k b)) / n_k).
Proof.
  intros eig cn q kappa L H1 H2 H3 H4. destruct (m_step_ok eig cn L q kappa H1 H2 H3 H4) as [p [E [V [C [S1 [N1 [N2 H]]]]]]]. exists p.
  split; [exact E|]. split; [exact V|]. split; [exact S1|]. split; [exact N1|]. split; [exact N2|]. split; [exact C|]. intros k Hk. cbv zeta. destruct (H k Hk) as [_ Hr]. unfold col_sum in Hr. rewrite H2 in Hr. exact Hr.
Qed.
Print Assumptions C65_m_step.
Theorem C65_run : forall eig cn pdf ppf gmm_ll gmcm_ll u p max_iter criteria eps best conv ll,
  libraries eig cn -> (forall mu c x, 0 <= pdf mu c x) -> valid p ->
  expectation_maximization eig cn pdf ppf gmm_ll gmcm_ll u p max_iter criteria eps = Ok (best, conv, ll) ->
  exists ps, trajectory pdf ppf u p ps /\ (0 < length ps <= max_iter)%nat
    /\ Forall (fun p' => valid p' /\ lsum (prob p') = 1 /\ Forall (covariance (n_dim p')) (covs p')) ps
    /\ In best (p :: ps) /\ valid best
    /\ (lower criteria = "gmm"%string -> best = last ps p)
    /\ (lower criteria <> "gmm"%string -> forall p', In p' (p :: ps) -> gmcm_ll u p' <= gmcm_ll u best)
    /\ ll = gmcm_ll u (last ps p)
    /\ (conv = true \/ length ps = max_iter)
    /\ (lower criteria = "gmcm"%string ->
         (exists a b ps0, p :: ps = ps0 ++ [a; b] /\ (conv = true <-> Rabs (gmcm_ll u b - gmcm_ll u a) < eps))
         /\ forall i a b, (S i < length ps)%nat -> nth_error (p :: ps) i = Some a -> nth_error ps i = Some b -> eps <= Rabs (gmcm_ll u b - gmcm_ll u a)).
Proof.
  intros eig cn pdf ppf gmm_ll gmcm_ll u p max_iter criteria eps best conv ll L Hp V H. unfold expectation_maximization in H.
  destruct (ppf u p) as [q|] eqn:Eq; cbn [bind] in H; [|discriminate].
  unfold check_criteria in H. destruct (existsb _ _) eqn:Ec; cbn [bind] in H; [|discriminate].
  set (l0 := log_set gmm_ll gmcm_ll (mkLog [] [] []) q u p) in *.
  destruct (em_loop eig cn pdf ppf gmm_ll gmcm_ll max_iter (lower criteria) eps u q p l0) as [l|] eqn:El; cbn [bind] in H; [|discriminate].
  assert (G0 : good gmcm_ll u l0) by (split; reflexivity).
  destruct (em_loop_ok eig cn pdf L Hp ppf gmm_ll gmcm_ll (lower criteria) eps u max_iter p q l0 l V Eq G0) as [ps [T [Le [[G1 G2] [Pl [Vs [St Gc]]]]]]]; [discriminate|reflexivity|exact El|].
  assert (P0 : l_params l = p :: ps) by exact Pl.
  destruct (best_param (lower criteria) l) as [b|] eqn:Eb; cbn [bind] in H; [|discriminate].
  destruct (has_converged (lower criteria) eps l) as [cv|] eqn:Eh; cbn [bind] in H; [|discriminate].
  destruct (best_log_lik l) as [bl|] eqn:Ebl; cbn [bind] in H; [|discriminate]. injection H as -> -> ->.
  assert (Ne : ps <> []).
  { intros ->. unfold has_converged in Eh. rewrite G2, P0 in Eh. destruct (l_gmm l) as [|g [|g' gl]] eqn:Eg; rewrite P0 in G1; try discriminate.
    destruct (lower criteria =? "gmcm")%string, (lower criteria =? "gmm")%string; cbn in Eh; discriminate. }
  destruct (exists_last Ne) as [ps0 [b Eps]].
  assert (Lst : last ps p = b) by (rewrite Eps; apply last_last).
  assert (Ell : ll = gmcm_ll u (last ps p)).
  { unfold best_log_lik in Ebl. rewrite G2, P0, Lst in *. rewrite Eps in Ebl. cbn [map] in Ebl. rewrite map_app in Ebl. cbn [map] in Ebl. rewrite app_comm_cons, from_end_last in Ebl. congruence. }
  assert (Ib : In best (p :: ps)).
  { rewrite <- P0. unfold best_param in Eb. destruct (_ =? _)%string; [|destruct (nth_error _ _) eqn:En; [|discriminate]; injection Eb as <-; eapply nth_error_In, En].
    unfold from_end in Eb. destruct (nth_error _ _) eqn:En; [|discriminate]. injection Eb as <-. apply in_rev. eapply nth_error_In, En. }
  exists ps. split; [exact T|]. split; [destruct ps; [contradiction|cbn in *; lia]|]. split; [exact Vs|]. split; [exact Ib|].
  split; [destruct Ib as [<-|Ib]; [exact V|rewrite Forall_forall in Vs; apply (Vs best Ib)]|].
  split.
  { intros Em. unfold best_param in Eb. rewrite Em, P0, Eps in Eb. cbn [String.eqb Ascii.eqb Bool.eqb] in Eb. rewrite app_comm_cons, from_end_last in Eb. congruence. }
  split.
  { intros Em p' Hp'. unfold best_param in Eb. rewrite (proj2 (String.eqb_neq _ _) Em) in Eb. rewrite G2 in Eb. destruct (nth_error (l_params l) _) as [x|] eqn:En; [|discriminate]. injection Eb as <-.
    destruct (argmax_spec (map (gmcm_ll u) (l_params l))) as [A1 [A2 _]]; [rewrite P0; discriminate|]. rewrite <- P0 in Hp'.
    specialize (A2 (gmcm_ll u p') (in_map _ _ _ Hp')). rewrite (nth_error_nth _ _ _ (map_nth_error (gmcm_ll u) _ _ En)) in A2. exact A2. }
  split; [exact Ell|]. split; [destruct St as [St|[_ St]]; [right; exact St|left; congruence]|].
  intros Em. split; [|intros i a b' Hi; apply (Gc Em i a b' Hi)].
  assert (exists a ps1, p :: ps = ps1 ++ [a; b]) as [a [ps1 E1]].
  { rewrite Eps. destruct (exists_last (l := p :: ps0)) as [r [a Ea]]; [discriminate|]. exists a, r. rewrite app_comm_cons, Ea, <- app_assoc. reflexivity. }
  exists a, b, ps1. split; [exact E1|]. unfold has_converged in Eh. rewrite Em in Eh. cbn [String.eqb Ascii.eqb Bool.eqb] in Eh. rewrite G2, P0, E1, map_app in Eh. cbn [map] in Eh.
  change [gmcm_ll u a; gmcm_ll u b] with ([gmcm_ll u a] ++ [gmcm_ll u b]) in Eh. rewrite from_end_two in Eh. rewrite app_assoc, from_end_last in Eh. cbn [bind] in Eh. injection Eh as <-. apply Rltb_true.
Qed.
Print Assumptions C65_run.
(** the errors a run can end with *)
Theorem C65_errors : forall eig cn pdf ppf gmm_ll gmcm_ll u p max_iter criteria eps e, libraries eig cn -> (forall mu c x, 0 <= pdf mu c x) -> valid p ->
  expectation_maximization eig cn pdf ppf gmm_ll gmcm_ll u p max_iter criteria eps = Err e ->
  e = FitException \/ (exists p', valid p' /\ ppf u p' = Err e) \/ (e = InvalidStoppingCriteria /\ ~ In (lower criteria) ["gmcm"; "gmm"; "li"]%string) \/ (e = IndexError /\ max_iter = 0%nat).
Proof.
  intros eig cn pdf ppf gmm_ll gmcm_ll u p max_iter criteria eps e L Hp V H. unfold expectation_maximization in H.
  destruct (ppf u p) as [q|] eqn:Eq; cbn [bind] in H; [|injection H as <-; right; left; exists p; auto].
  unfold check_criteria in H. destruct (existsb _ _) eqn:Ec; cbn [bind] in H.
  2:{ injection H as <-. right; right; left. split; [reflexivity|]. intros I0. apply not_true_iff_false in Ec. apply Ec. apply existsb_exists. exists (lower criteria). split; [exact I0|apply String.eqb_refl]. }
  set (l0 := log_set gmm_ll gmcm_ll (mkLog [] [] []) q u p) in *. assert (G0 : good gmcm_ll u l0) by (split; reflexivity).
  destruct (em_loop eig cn pdf ppf gmm_ll gmcm_ll max_iter (lower criteria) eps u q p l0) as [l|] eqn:El; cbn [bind] in H.
  2:{ injection H as ->. destruct (em_loop_err eig cn pdf L Hp ppf gmm_ll gmcm_ll (lower criteria) eps u max_iter p q l0 e V G0) as [->|X]; [discriminate|exact El|left; reflexivity|right; left; exact X]. }
  destruct (em_loop_ok eig cn pdf L Hp ppf gmm_ll gmcm_ll (lower criteria) eps u max_iter p q l0 l V Eq G0) as [ps [T [Le [[G1 G2] [Pl [Vs [St Gc]]]]]]]; [discriminate|reflexivity|exact El|].
  assert (P0 : l_params l = p :: ps) by exact Pl.
  assert (exists b, best_param (lower criteria) l = Ok b) as [b Eb].
  { unfold best_param. destruct (_ =? _)%string.
    - rewrite P0. destruct (exists_last (l := p :: ps)) as [r [a Ea]]; [discriminate|]. rewrite Ea, from_end_last. eexists. reflexivity.
    - rewrite G2. destruct (argmax_spec (map (gmcm_ll u) (l_params l))) as [A1 _]; [rewrite P0; discriminate|]. rewrite map_length in A1.
      destruct (nth_error (l_params l) _) eqn:En; [eexists; reflexivity|]. apply nth_error_None in En. lia. }
  rewrite Eb in H. cbn [bind] in H.
  assert (Lb : exists x, best_log_lik l = Ok x).
  { unfold best_log_lik. rewrite G2, P0. destruct (exists_last (l := map (gmcm_ll u) (p :: ps))) as [r [a Ea]]; [discriminate|]. rewrite Ea, from_end_last. eexists. reflexivity. }
  destruct Lb as [x Ex].
  destruct max_iter as [|k].
  - right; right; right. split; [|reflexivity]. destruct ps; [|cbn in Le; lia]. unfold has_converged in H. rewrite G2, P0 in H. destruct (l_gmm l) as [|g [|g' gl]] eqn:Eg; rewrite P0 in G1; try discriminate.
    destruct (lower criteria =? "gmcm")%string, (lower criteria =? "gmm")%string; cbn in H; congruence.
  - exfalso. assert (Ne : ps <> []) by (destruct St as [St|[St _]]; [destruct ps; [discriminate|discriminate]|exact St]).
    destruct (has_converged_total (lower criteria) eps l) as [cv Ecv]; [rewrite G1, P0; destruct ps; [contradiction|cbn; lia]|rewrite G2, map_length, G1; reflexivity|].
    rewrite Ecv in H. cbn [bind] in H. rewrite Ex in H. discriminate.
Qed.
Print Assumptions C65_errors.
(** no iteration allowed: no result *)
Theorem C65_max_iter_refuted : forall eig cn pdf ppf gmm_ll gmcm_ll u p q criteria eps, In (lower criteria) ["gmcm"; "gmm"; "li"]%string -> ppf u p = Ok q ->
  expectation_maximization eig cn pdf ppf gmm_ll gmcm_ll u p 0 criteria eps = Err IndexError.
Proof.
  intros eig cn pdf ppf gmm_ll gmcm_ll u p q criteria eps Hc Eq. unfold expectation_maximization. rewrite Eq. cbn [bind]. unfold check_criteria.
  destruct Hc as [<-|[<-|[<-|[]]]]; reflexivity.
Qed.
Print Assumptions C65_max_iter_refuted.
(** the log-likelihood reported is that of the last parameter, also when another one is returned *)
Definition one (a : R) : gmc := mkGmc 1 1 [1] (mkMat 1 1 (fun _ _ => a)) [mkMat 1 1 (fun _ _ => 0)].
Theorem C65_log_lik_refuted : forall eig cn, libraries eig cn -> exists ppf pdf gmcm_ll u best conv ll,
  (forall mu c x, 0 < pdf mu c x) /\
  expectation_maximization eig cn pdf ppf (fun _ _ => 0) gmcm_ll u (one 5) 1 "GMCM" (/ 2) = Ok (best, conv, ll) /\ ll < gmcm_ll u best.
Proof.
  intros eig cn L. set (u := mkMat 2 1 (fun i _ => if Nat.eqb i 0 then -1 else 1)). set (ll := fun (_ : mat R) (p : gmc) => - Rabs (get (means p) 0 0 - 5)).
  set (p1 := mkGmc 1 1 [1] (mkMat 1 1 (fun _ _ => 0)) [mkMat 1 1 (fun _ _ => 1)]).
  assert (V : valid (one 5)).
  { unfold valid. cbn. split; [reflexivity|]. split; [apply weights_exact; [fall; lra|cbn; lra]|]. repeat (split; [reflexivity|]). constructor; [|constructor].
    apply covariance_almost. split; [split; reflexivity|]. split; [intros i j _ _; reflexivity|]. intros x. unfold quad. cbn. lra. }
  destruct (em_step eig cn (fun _ _ _ => 1) L ltac:(intros; lra) u (one 5) V) as [[E [k [Hk H]]]|[E [p' [Em [V' [S' [C' U']]]]]]].
  { exfalso. cbn in Hk. assert (k = 0)%nat by lia. subst k. specialize (H 0%nat ltac:(cbn; lia)). unfold posterior in H. cbn in H.
    destruct (Reqb (0 + 1 * 1) 0) eqn:F; [apply Reqb_true in F; lra|]. assert (1 * 1 / (0 + 1 * 1) = 1) by field. lra. }
  exists (fun _ _ => Ok u), (fun _ _ _ => 1), ll, u, (one 5), false, (ll u p').
  split; [intros; lra|].
  assert (M : get (means p') 0 0 = 0).
  { destruct U' as [_ [_ [_ [_ U']]]]. destruct (U' 0%nat ltac:(cbn; lia)) as [_ [_ [Um _]]]. unfold centre in Um. rewrite Um by (cbn; lia).
    unfold posterior, weight. cbn. destruct (Reqb (0 + 1 * 1) 0) eqn:F; [apply Reqb_true in F; lra|]. field. }
  split.
  - unfold expectation_maximization. cbn [bind]. change (check_criteria "GMCM") with (@Ok string "gmcm"%string). cbn [bind em_loop].
    rewrite E, Em. cbn [bind].
    change (log_set _ ll (log_set _ ll _ u u (one 5)) u u p') with (mkLog [0; 0] [ll u (one 5); ll u p'] [one 5; p']).
    assert (Hc : has_converged "gmcm" (/ 2) (mkLog [0; 0] [ll u (one 5); ll u p'] [one 5; p']) = Ok (Rltb (Rabs (ll u p' - ll u (one 5))) (/ 2))) by reflexivity.
    assert (F : Rltb (Rabs (ll u p' - ll u (one 5))) (/ 2) = false).
    { apply Rltb_false. unfold ll. rewrite M. cbn. replace (0 - 5) with (-5) by ring. replace (5 - 5) with 0 by ring. rewrite Rabs_R0, (Rabs_left (-5)) by lra. rewrite Rabs_left; lra. }
    rewrite Hc, F. cbn [bind]. rewrite Hc, F. cbn [bind].
    assert (F2 : Rltb (ll u (one 5)) (ll u p') = false).
    { apply Rltb_false. unfold ll. rewrite M. cbn. replace (0 - 5) with (-5) by ring. replace (5 - 5) with 0 by ring. rewrite Rabs_R0, (Rabs_left (-5)) by lra. lra. }
    assert (Hb : best_param "gmcm" (mkLog [0; 0] [ll u (one 5); ll u p'] [one 5; p']) = match nth_error [one 5; p'] (if Rltb (ll u (one 5)) (ll u p') then 1 else 0) with Some p => Ok p | None => Err IndexError end) by reflexivity.
    rewrite Hb, F2. reflexivity.
  - unfold ll. rewrite M. cbn. replace (0 - 5) with (-5) by ring. replace (5 - 5) with 0 by ring. rewrite Rabs_R0, (Rabs_left (-5)) by lra. lra.
Qed.
Print Assumptions C65_log_lik_refuted.
Example C65_case : forall eig cn, libraries eig cn -> exists p', m_step eig cn (mkMat 2 1 (fun i _ => if Nat.eqb i 0 then -1 else 1)) (mkMat 2 1 (fun _ _ => 1)) = Ok p' /\ valid p'.
Proof.
  intros eig cn L. destruct (C65_m_step eig cn (mkMat 2 1 (fun i _ => if Nat.eqb i 0 then -1 else 1)) (mkMat 2 1 (fun _ _ => 1)) L) as [p' [E [V _]]];
    [cbn; lia|reflexivity|intros; cbn; lra|intros k _; unfold col_sum; cbn; lra|]. exists p'. auto.
Qed.

(** ** C66 *)
Theorem C66_cdf : forall p j, valid p -> (forall k, (k < n_clusters p)%nat -> 0 < get (spread_of p k) j j) ->
  (forall x, 0 < marginal_cdf p j x < lsum (prob p))
  /\ (forall x y, x < y -> marginal_cdf p j x < marginal_cdf p j y)
  /\ (forall eps, 0 < eps -> exists X, forall x, X <= x -> (1 - eps) * lsum (prob p) < marginal_cdf p j x)
  /\ (forall eps, 0 < eps -> exists X, forall x, x <= X -> marginal_cdf p j x < eps * lsum (prob p)).
Proof.
  intros p j V P. split; [intros; apply marginal_range; assumption|]. split; [intros; apply marginal_incr; assumption|].
  split; [intros; apply marginal_high; assumption|intros; apply marginal_low; assumption].
Qed.
Print Assumptions C66_cdf.
(** random numbers lie in the unit cube, and two rows of one component are ordered as the normal draws *)
Theorem C66_random : forall n p labels draw u, valid p -> lsum (prob p) = 1 -> (forall j k, (j < n_dim p)%nat -> (k < n_clusters p)%nat -> 0 < get (spread_of p k) j j) ->
  random_gmcm n p labels draw = Ok u -> nr u = n /\ nc u = n_dim p /\
  forall i j, (j < n_dim p)%nat -> 0 < get u i j < 1 /\
    forall i', let nth_of a := count (fun b => Nat.eqb (labels b) (labels a)) (seq 0 a) in
      (get u i j < get u i' j <-> draw (labels i) (nth_of i) j < draw (labels i') (nth_of i') j).
Proof.
  intros n p labels draw u V S P H. unfold random_gmcm in H. destruct (_ || _); [discriminate|]. destruct (_ && _); [discriminate|]. injection H as <-. split; [reflexivity|]. split; [reflexivity|]. intros i j Hj. cbn [get].
  destruct (C66_cdf p j V (fun k Hk => P j k Hj Hk)) as [B [I _]]. split; [rewrite <- S; apply B|]. intros i'.
  set (a := draw (labels i) _ j). set (b := draw (labels i') _ j). split; [|apply I]. intros L. destruct (Rtotal_order a b) as [O|[O|O]]; [exact O|rewrite O in L; lra|]. apply I in O. lra.
Qed.
Print Assumptions C66_random.
(** in two or more dimensions sampling succeeds *)
Theorem C66_random_total : forall n p labels draw, valid p -> lsum (prob p) = 1 -> (2 <= n_dim p)%nat -> exists u, random_gmcm n p labels draw = Ok u.
Proof.
  intros n p labels draw V S D. unfold random_gmcm. rewrite S. rewrite (proj2 (Rltb_false _ _)) by (rewrite Rminus_diag_eq by reflexivity; rewrite Rabs_R0; lra).
  assert (E : existsb (fun w => Rltb w 0) (prob p) = false).
  { apply not_true_iff_false. intros H. apply existsb_exists in H. destruct H as [w [H1 H2]]. apply Rltb_true in H2. destruct V as (_ & [F _] & _). rewrite Forall_forall in F. apply F in H1. lra. }
  rewrite E. destruct (Nat.eqb_spec (n_dim p) 1) as [H|_]; [lia|]. cbn [orb andb]. eexists; reflexivity.
Qed.
Print Assumptions C66_random_total.
(** in one dimension it fails unless every component is drawn exactly once *)
Theorem C66_random_one_dimension_refuted : forall n p labels draw, n_dim p = 1%nat -> n <> n_clusters p -> (1 <= n_clusters p)%nat -> (forall i, labels i < n_clusters p)%nat ->
  random_gmcm n p labels draw = Err ValueError.
Proof.
  intros n p labels draw D N M L. unfold random_gmcm. destruct (_ || _); [reflexivity|]. rewrite D, Nat.eqb_refl. cbn [andb].
  destruct (existsb _ _) eqn:E; [reflexivity|]. exfalso. apply N. clear draw D M.
  assert (A : forall k, (k < n_clusters p)%nat -> count (fun i => Nat.eqb (labels i) k) (seq 0 n) = 1%nat).
  { intros k Hk. destruct (Nat.eqb_spec (count (fun i => Nat.eqb (labels i) k) (seq 0 n)) 1) as [H|H]; [exact H|]. assert (T : existsb (fun k => negb (Nat.eqb (count (fun i => Nat.eqb (labels i) k) (seq 0 n)) 1)) (seq 0 (n_clusters p)) = true).
    { apply existsb_exists. exists k. split; [apply in_seq; lia|]. apply negb_true_iff, Nat.eqb_neq, H. } congruence. }
  clear E N. assert (T : forall m l, list_sum (map (fun k => count (fun i => Nat.eqb (labels i) k) l) (seq 0 m)) = count (fun i => Nat.ltb (labels i) m) l).
  { intros m l. induction m as [|m IH]; [cbn; unfold count; induction l; cbn; auto|]. rewrite seq_S, map_app, list_sum_app, IH. cbn [map list_sum fold_right]. rewrite Nat.add_0_l, Nat.add_0_r.
    clear IH. unfold count. induction l as [|a l IH]; [reflexivity|]. cbn [filter]. destruct (Nat.ltb_spec (labels a) m), (Nat.eqb_spec (labels a) m), (Nat.ltb_spec (labels a) (S m)); try lia; cbn [length]; lia. }
  specialize (T (n_clusters p) (seq 0 n)). rewrite (map_ext_in _ (fun _ => 1%nat)) in T by (intros k Hk; apply A; apply in_seq in Hk; lia).
  assert (C1 : forall l, list_sum (map (fun _ : nat => 1%nat) l) = length l) by (induction l as [|? l IH]; [reflexivity|cbn [map length]; rewrite <- IH; reflexivity]). rewrite C1, seq_length in T. rewrite T.
  assert (C2 : forall l, count (fun i => Nat.ltb (labels i) (n_clusters p)) l = length l).
  { unfold count. induction l as [|a l IH]; [reflexivity|]. cbn [filter]. rewrite (proj2 (Nat.ltb_lt _ _) (L a)). cbn [length]. congruence. }
  rewrite C2, seq_length. reflexivity.
Qed.
Print Assumptions C66_random_one_dimension_refuted.
Theorem C66_symmetric : forall p j h, n_clusters p = 1%nat -> prob p = [1] -> 0 < get (spread_of p 0) j j ->
  marginal_cdf p j (centre p 0 j - h) + marginal_cdf p j (centre p 0 j + h) = 1 /\ marginal_cdf p j (centre p 0 j) = / 2.
Proof.
  intros p j h H1 Hp Hs. rewrite !marginal_cdf_eq, H1. cbn [rsum]. unfold weight. rewrite Hp. cbn [nth].
  assert (0 < deviation p 0 j * sqrt2) by (apply Rmult_lt_0_compat; [apply sqrt_lt_R0, Hs|apply sqrt2_pos]).
  set (s := deviation p 0 j * sqrt2) in *. clearbody s. pose proof (phi_sym (h / s)) as E. split.
  - replace ((centre p 0 j - h - centre p 0 j) / s) with (- (h / s)) by (field; lra).
    replace ((centre p 0 j + h - centre p 0 j) / s) with (h / s) by (field; lra). lra.
  - replace ((centre p 0 j - centre p 0 j) / s) with 0 by (field; lra). rewrite phi_0. lra.
Qed.
Print Assumptions C66_symmetric.
(** accepted weights may sum to more than one; then so does the distribution function *)
Theorem C66_range_refuted : exists p j x, valid p /\ (forall k, (k < n_clusters p)%nat -> 0 < get (spread_of p k) j j) /\ 1 < marginal_cdf p j x.
Proof.
  set (p := two (/ 2) (/ 2 + / 1000000)).
  assert (V : valid p) by (apply two_valid; split; [fall; lra|cbn; rewrite Rabs_pos_eq; lra]).
  assert (P : forall k, (k < n_clusters p)%nat -> 0 < get (spread_of p k) 0 0) by (intros [|[|k]] H; [cbn; lra|cbn; lra|cbn in H; lia]).
  destruct (marginal_high p 0 V P (/ 10000000) ltac:(lra)) as [X HX]. exists p, 0%nat, X. split; [exact V|]. split; [exact P|]. specialize (HX X (Rle_refl X)). cbn [prob lsum p two] in HX. lra.
Qed.
Print Assumptions C66_range_refuted.
(** the grid reaches five standard deviations to both sides of every component and contains nothing else *)
Theorem C66_grid : forall p j round resolution spread, valid p -> 0 <= spread ->
  (forall k, (k < n_clusters p)%nat ->
     In (centre p k j - spread * deviation p k j) (ppf_grid round p resolution spread j) /\ In (centre p k j + spread * deviation p k j) (ppf_grid round p resolution spread j))
  /\ (forall x, In x (ppf_grid round p resolution spread j) -> exists k, (k < n_clusters p)%nat /\ centre p k j - spread * deviation p k j <= x <= centre p k j + spread * deviation p k j)
  /\ length (ppf_grid round p resolution spread j) = fold_right (fun w n => (Z.to_nat (Z.max (round (w * resolution)%R) 2) + n)%nat) 0%nat (prob p).
Proof.
  intros p j round resolution spread V Hs. split; [|split].
  - intros k Hk. split; apply (grid_fwd p j round resolution spread k _ Hk); apply linspace_ends, n_samples_ge.
  - intros x Hx. destruct (grid_in _ _ _ _ _ _ Hx) as [k [Hk H]]. exists k. split; [exact Hk|]. apply linspace_in in H; [exact H| |apply n_samples_ge].
    assert (0 <= deviation p k j) by apply sqrt_pos. nra.
  - unfold ppf_grid. destruct V as [V1 _]. rewrite <- V1.
    assert (G : forall (f : nat -> list R) (g : nat -> nat) s, (forall k, In k s -> length (f k) = g k) -> length (flat_map f s) = fold_right (fun k n => (g k + n)%nat) 0%nat s).
    { intros f g s. induction s as [|k s IH]; intros H; [reflexivity|]. cbn. rewrite app_length, IH, H; [reflexivity|left; reflexivity|intros; apply H; right; assumption]. }
    rewrite (G _ (fun k => n_samples round resolution (nth k (prob p) 0%R))) by (intros k _; cbn; apply linspace_length).
    generalize (prob p). intros l.
    assert (K : forall l pre, fold_right (fun k n => (n_samples round resolution (nth k (pre ++ l) 0%R) + n)%nat) 0%nat (seq (length pre) (length l)) = fold_right (fun w n => (Z.to_nat (Z.max (round (w * resolution)%R) 2) + n)%nat) 0%nat l).
    { clear. induction l as [|w l IH]; intros pre; [reflexivity|]. cbn [length seq fold_right]. rewrite app_nth2, Nat.sub_diag by lia. cbn [nth]. f_equal.
      specialize (IH (pre ++ [w])). rewrite <- app_assoc in IH. cbn [app] in IH. rewrite app_length in IH. cbn [length] in IH. rewrite Nat.add_1_r in IH. exact IH. }
    exact (K l []).
Qed.
Print Assumptions C66_grid.
(** the inverse: defined between the ends of the grid, exact on the grid, monotone, and off by at most one grid step *)
Theorem C66_inverse : forall p j round resolution spread, valid p -> (forall k, (k < n_clusters p)%nat -> 0 < get (spread_of p k) j j) ->
  let grid := ppf_grid round p resolution spread j in let F := marginal_cdf p j in let Q := marginal_ppf round p resolution spread j in
  (forall q, (exists a b, In a grid /\ In b grid /\ F a <= q <= F b) <-> exists y, Q q = Ok y)
  /\ (forall q e, Q q = Err e -> e = ValueError)
  /\ (forall x, In x grid -> Q (F x) = Ok x)
  /\ (forall q q' y y', q <= q' -> Q q = Ok y -> Q q' = Ok y' -> y <= y')
  /\ (forall q y, Q q = Ok y -> exists a b, In a grid /\ In b grid /\ a <= y <= b /\ (forall c, In c grid -> c <= a \/ b <= c) /\ Rabs (F y - q) <= F b - F a).
Proof.
  intros p j round resolution spread V P grid F Q. split; [intros q; apply marginal_ppf_ok; assumption|]. split.
  { intros q e. unfold Q, marginal_ppf, interp1d. destruct (sort_pairs _) as [|[x0 y0] l]; [congruence|]. destruct (_ || _); congruence. }
  split; [intros x Hx; apply marginal_ppf_grid; assumption|]. split; [intros; eapply marginal_ppf_mono; eassumption|].
  intros q y H. destruct (marginal_ppf_between p j round resolution spread V P q y H) as [a [b [Ia [Ib [Hq [Hy [Hn _]]]]]]]. exists a, b. split; [exact Ia|]. split; [exact Ib|]. split; [exact Hy|]. split; [exact Hn|].
  pose proof (marginal_mono p j V P a y ltac:(lra)). pose proof (marginal_mono p j V P y b ltac:(lra)). unfold F. apply Rabs_le. lra.
Qed.
Print Assumptions C66_inverse.
(** it is not defined on all of (0, 1): close to the ends it raises *)
Theorem C66_inverse_refuted : forall p j round resolution spread, valid p -> (forall k, (k < n_clusters p)%nat -> 0 < get (spread_of p k) j j) ->
  exists q, 0 < q < 1 /\ marginal_ppf round p resolution spread j q = Err ValueError.
Proof.
  intros p j round resolution spread V P. set (grid := ppf_grid round p resolution spread j).
  assert (exists e, 0 < e /\ forall x, In x grid -> e <= marginal_cdf p j x) as [e [He Hm]].
  { induction grid as [|x l [e [He IH]]]; [exists 1; split; [lra|]; intros x []|]. exists (Rmin e (marginal_cdf p j x)). pose proof (marginal_range p j V x).
    split; [apply Rmin_glb_lt; lra|]. intros y [<-|Hy]; [apply Rmin_r|eapply Rle_trans; [apply Rmin_l|apply IH, Hy]]. }
  pose proof (Rmin_l (e / 2) (/ 2)). pose proof (Rmin_r (e / 2) (/ 2)).
  exists (Rmin (e / 2) (/ 2)). assert (0 < Rmin (e / 2) (/ 2)) by (apply Rmin_glb_lt; lra). split; [lra|].
  destruct (C66_inverse p j round resolution spread V P) as [Dom [Er _]]. destruct (marginal_ppf round p resolution spread j (Rmin (e / 2) (/ 2))) as [y|er] eqn:E; [|f_equal; eapply Er, E].
  exfalso. destruct (proj2 (Dom _) (ex_intro _ y E)) as [a [b [Ia [_ [Hq _]]]]]. specialize (Hm a Ia). lra.
Qed.
Print Assumptions C66_inverse_refuted.
Example C66_case : let p := two (/ 4) (3 / 4) in valid p /\ (forall k, (k < n_clusters p)%nat -> 0 < get (spread_of p k) 0 0).
Proof. cbv zeta. split; [apply two_valid, two_weights; lra|]. intros [|[|k]] H; [cbn; lra|cbn; lra|cbn in H; lia]. Qed.

(** ** C76: the cdf is that of the mixture in the plane, not that of a copula *)
Theorem C76_never_a_copula_refuted : forall cdf p x, valid p -> (forall mu c y, 0 < cdf mu c y < 1) -> nr x = 1%nat ->
  exists v, gmc_cdf cdf (Some p) x false = Ok [Fin v] /\ 0 < v < lsum (prob p).
Proof.
  intros cdf p x V H Hx. exists (mixed p (fun mu c => cdf mu c (get x 0))). rewrite (proj1 (proj2 (C64_mixture cdf cdf p x))), Hx. split; [reflexivity|].
  unfold mixed. rewrite <- (weight_sum p V). split.
  - rewrite <- (rsum_zero (n_clusters p) (fun k => weight p k * 0)) by (intros; ring). apply wsum_lt; [intros; apply weight_nonneg, V|apply some_weight, V|intros; apply H].
  - rewrite (rsum_ext _ (weight p) (fun k => weight p k * 1)) by (intros; ring). apply wsum_lt; [intros; apply weight_nonneg, V|apply some_weight, V|intros; apply H].
Qed.
Print Assumptions C76_never_a_copula_refuted.
(** at a point with a zero coordinate it is positive, at (1, 1) it is below 1 *)
Example C76_case : forall cdf, (forall mu c y, 0 < cdf mu c y < 1) -> exists a b,
  gmc_cdf cdf (Some (two (/ 4) (3 / 4))) (mkMat 1 2 (fun _ j => if Nat.eqb j 0 then 0 else / 2)) false = Ok [Fin a] /\ 0 < a
  /\ gmc_cdf cdf (Some (two (/ 4) (3 / 4))) (mkMat 1 2 (fun _ _ => 1)) false = Ok [Fin b] /\ b < 1.
Proof.
  intros cdf H. assert (V : valid (two (/ 4) (3 / 4))) by (apply two_valid, two_weights; lra).
  destruct (C76_never_a_copula_refuted cdf _ (mkMat 1 2 (fun _ j => if Nat.eqb j 0 then 0 else / 2)) V H eq_refl) as [a [Ea Ha]].
  destruct (C76_never_a_copula_refuted cdf _ (mkMat 1 2 (fun _ _ => 1)) V H eq_refl) as [b [Eb Hb]]. exists a, b. cbn in Hb. split; [exact Ea|]. split; [lra|]. split; [exact Eb|lra].
Qed.

(** ** C77: the log-likelihood is that of the copula density *)
Theorem C77_likelihood : forall pdf npdf q p,
  (forall i, (i < nr q)%nat -> 0 < mixed p (fun mu c => pdf mu c (get q i))) ->
  (forall i j, (i < nr q)%nat -> (j < nc q)%nat -> 0 < mixed p (fun mu c => npdf (get q i j) (mu j) (get c j j))) ->
  exists l, gmcm_log_likelihood pdf npdf q p = Fin l /\
    exp l = lprod (map (fun i => mixed p (fun mu c => pdf mu c (get q i)) / lprod (map (fun j => mixed p (fun mu c => npdf (get q i j) (mu j) (get c j j))) (seq 0 (nc q)))) (seq 0 (nr q))).
Proof. exact gmcm_ll. Qed.
Print Assumptions C77_likelihood.
(** components whose density is the product of its marginal densities: one component has likelihood 1 *)
Theorem C77_independent : forall pdf npdf q p, valid p -> n_clusters p = 1%nat -> lsum (prob p) = 1 -> (forall x m s, 0 < npdf x m s) ->
  (forall mu c x, pdf mu c x = lprod (map (fun j => npdf (x j) (mu j) (get c j j)) (seq 0 (nc q)))) ->
  gmcm_log_likelihood pdf npdf q p = Fin 0.
Proof.
  intros pdf npdf q p V H1 S1 Hn Hp. pose proof (weight_sum p V) as Ws. rewrite S1, H1 in Ws. cbn in Ws. assert (W0 : weight p 0 = 1) by lra.
  assert (M : forall f, mixed p f = f (centre p 0%nat) (spread_of p 0%nat)) by (intros f; unfold mixed; rewrite H1; cbn; rewrite W0; ring).
  destruct (C77_likelihood pdf npdf q p) as [l [E El]].
  - intros i _. rewrite M, Hp. apply lprod_pos. intros; apply Hn.
  - intros i j _ _. rewrite M. apply Hn.
  - rewrite E. f_equal. rewrite (map_ext _ (fun _ => 1)) in El.
    + assert (O : forall (s : list nat), lprod (map (fun _ => 1) s) = 1) by (induction s as [|x s IH]; cbn; [reflexivity|rewrite IH; ring]). rewrite O in El. rewrite <- (ln_exp l), El. apply ln_1.
    + intros i. rewrite M, Hp. rewrite (map_ext (fun j => mixed p (fun mu c => npdf (get q i j) (mu j) (get c j j))) (fun j => npdf (get q i j) (centre p 0 j) (get (spread_of p 0) j j))) by (intros; apply M).
      apply Rinv_r. assert (0 < lprod (map (fun j => npdf (get q i j) (centre p 0 j) (get (spread_of p 0) j j)) (seq 0 (nc q)))) by (apply lprod_pos; intros; apply Hn). lra.
Qed.
Print Assumptions C77_independent.
Example C77_case : gmcm_log_likelihood (fun mu c x => exp (- (x 0%nat - mu 0%nat) ^ 2) * (exp (- (x 1%nat - mu 1%nat) ^ 2) * 1)) (fun x m _ => exp (- (x - m) ^ 2)) (mkMat 3 2 (fun i j => INR (i + j)))
  (mkGmc 1 2 [1] (mkMat 1 2 (fun _ _ => 0)) [id2]) = Fin 0.
Proof.
  apply C77_independent; try reflexivity.
  - unfold valid. cbn. split; [reflexivity|]. split; [apply weights_exact; [fall; lra|cbn; lra]|]. repeat (split; [reflexivity|]). constructor; [apply covariance_almost, id2_covariance|constructor].
  - cbn. lra.
  - intros. apply exp_pos.
Qed.

(** ** C78: the copula object *)
Theorem C78_fit : forall eig cn c x0 method km pem sgd c', fit eig cn c x0 method km pem sgd = (c', Ok tt) ->
  exists p, c_param c' = Some p /\ n_clusters p = c_clusters c /\ n_dim p = c_dim c /\ c_clusters c' = c_clusters c /\ c_dim c' = c_dim c /\ c_method c' = Some (lower method)
    /\ ((lower method = "kmeans"%string /\ km = Ok p) \/ (lower method = "pem"%string /\ exists p0, pem p0 = Ok p) \/ (lower method = "sgd"%string /\ exists p0, sgd p0 = Ok p)).
Proof.
  intros eig cn c x0 method km pem sgd c' H. unfold fit in H.
  destruct (match x0 with PNone => bind km (fun p => set_params eig cn c (PParam p)) | PParam p => set_params eig cn c (PParam p)
            | PVector v => bind (from_vector eig cn v (c_clusters c) (c_dim c)) (fun p => set_params eig cn c (PParam p)) | _ => Err IndexError end) as [c1|] eqn:E1; [|discriminate].
  assert (Q : forall c p c2, set_params eig cn c (PParam p) = Ok c2 -> c2 = with_param c (Some p) /\ n_dim p = c_dim c /\ n_clusters p = c_clusters c).
  { intros c2 p c3. cbn. destruct (Nat.eqb_spec (n_dim p) (c_dim c2)), (Nat.eqb_spec (n_clusters p) (c_clusters c2)); cbn; intros F; try discriminate. injection F as <-. auto. }
  assert (C1 : exists p, c1 = with_param c (Some p) /\ (x0 = PNone -> km = Ok p)).
  { destruct x0 as [| | p |v|]; try discriminate.
    - destruct km as [p|]; cbn [bind] in E1; [|discriminate]. apply Q in E1. exists p. split; [apply E1|reflexivity].
    - apply Q in E1. exists p. split; [apply E1|discriminate].
    - destruct (from_vector eig cn v (c_clusters c) (c_dim c)) as [p|]; cbn [bind] in E1; [|discriminate]. apply Q in E1. exists p. split; [apply E1|discriminate]. }
  destruct C1 as [p0 [-> Hk]]. cbn [with_param c_param] in H.
  destruct (bind _ _) as [c2|] eqn:E2; [|discriminate]. injection H as <-.
  destruct (if (lower method =? "pem")%string then pem p0 else if (lower method =? "sgd")%string then sgd p0 else if (lower method =? "kmeans")%string then match x0 with PNone => Ok p0 | _ => km end else Err GMCFitMethodError) as [p|] eqn:Ep; cbn [bind] in E2; [|discriminate].
  apply Q in E2. destruct E2 as [-> [Q1 Q2]]. exists p. cbn. split; [reflexivity|]. split; [exact Q2|]. split; [exact Q1|]. split; [reflexivity|]. split; [reflexivity|]. split; [reflexivity|].
  destruct (String.eqb_spec (lower method) "pem"); [right; left; split; [assumption|exists p0; exact Ep]|].
  destruct (String.eqb_spec (lower method) "sgd"); [right; right; split; [assumption|exists p0; exact Ep]|].
  destruct (String.eqb_spec (lower method) "kmeans"); [|discriminate]. left. split; [assumption|]. destruct x0; try exact Ep. injection Ep as <-. apply Hk. reflexivity.
Qed.
Print Assumptions C78_fit.
(** parameters of other sizes are refused and the object keeps its own, unless they come as a dictionary *)
Theorem C78_params : forall eig cn c, libraries eig cn ->
  (forall p, (n_clusters p <> c_clusters c \/ n_dim p <> c_dim c) -> set_params eig cn c (PParam p) = Err GMCParamMismatchError)
  /\ (forall v c', (forall pr mu cv, v <> PDict pr mu cv) -> set_params eig cn c v = Ok c' -> forall p, c_param c' = Some p -> n_clusters p = c_clusters c /\ n_dim p = c_dim c).
Proof.
  intros eig cn c L. split.
  - intros p H. cbn. destruct (Nat.eqb_spec (n_dim p) (c_dim c)), (Nat.eqb_spec (n_clusters p) (c_clusters c)); cbn; try reflexivity. destruct H; contradiction.
  - intros v c' Hv H p Ep. destruct v as [|pr mu cv|p'|v|]; cbn in H.
    + injection H as <-. discriminate.
    + exfalso. eapply Hv. reflexivity.
    + destruct (Nat.eqb_spec (n_dim p') (c_dim c)), (Nat.eqb_spec (n_clusters p') (c_clusters c)); cbn in H; try discriminate. injection H as <-. cbn in Ep. injection Ep as <-. auto.
    + destruct (from_vector eig cn v _ _) as [p'|] eqn:E; cbn in H; [|discriminate]. injection H as <-. cbn in Ep. injection Ep as <-. apply (from_vector_valid _ _ _ _ _ _ L) in E. intuition.
    + discriminate.
Qed.
Print Assumptions C78_params.
(** a dictionary of any size is accepted *)
Theorem C78_dictionary_refuted : forall eig cn c, libraries eig cn -> c_clusters c <> 2%nat -> exists v c' p,
  set_params eig cn c v = Ok c' /\ c_param c' = Some p /\ n_clusters p <> c_clusters c' /\ c_clusters c' = c_clusters c.
Proof.
  intros eig cn c L H. exists (PDict [Fin (/ 4); Fin (3 / 4)] (means (two 0 1)) [id2; id2]). exists (with_param c (Some (two (/ 4) (3 / 4)))), (two (/ 4) (3 / 4)).
  split; [|split; [reflexivity|split; [cbn; auto|reflexivity]]]. cbn [set_params]. unfold from_dict. cbn [nr nc means two].
  change (mkMat 2 2 _) with (means (two 0 1)). rewrite (proj1 (C62_case eig cn L)). reflexivity.
Qed.
Print Assumptions C78_dictionary_refuted.
(** an unknown method is reported after the parameters have been replaced *)
Theorem C78_unknown_method_refuted : forall eig cn c method km p pem sgd, km = Ok p -> n_clusters p = c_clusters c -> n_dim p = c_dim c ->
  ~ In (lower method) ["pem"; "sgd"; "kmeans"]%string -> c_param c <> Some p ->
  exists c', fit eig cn c PNone method km pem sgd = (c', Err GMCFitMethodError) /\ c_param c' = Some p /\ c_param c' <> c_param c.
Proof.
  intros eig cn c method km p pem sgd -> H1 H2 Hm Hn. unfold fit. cbn [bind set_params]. rewrite H1, H2, !Nat.eqb_refl. cbn [andb with_param c_param].
  destruct (String.eqb_spec (lower method) "pem"); [exfalso; apply Hm; left; congruence|]. destruct (String.eqb_spec (lower method) "sgd"); [exfalso; apply Hm; right; left; congruence|].
  destruct (String.eqb_spec (lower method) "kmeans"); [exfalso; apply Hm; right; right; left; congruence|]. cbn [bind]. eexists. split; [reflexivity|]. cbn. split; [reflexivity|congruence].
Qed.
Print Assumptions C78_unknown_method_refuted.
Example C78_case : forall eig cn, libraries eig cn -> fit eig cn (mkCop 2 2 None None) PNone "KMeans" (Ok (two (/ 4) (3 / 4))) (fun _ => Err FitException) (fun _ => Err ValueError)
  = (mkCop 2 2 (Some (two (/ 4) (3 / 4))) (Some "kmeans"%string), Ok tt).
Proof. reflexivity. Qed.

(** ** C79: the start by k-means *)
Theorem C79_k_means : forall eig cn data m d labels, libraries eig cn ->
  let rows g := filter (fun i => Nat.eqb (labels i) g) (seq 0 (nr data)) in let size g := INR (length (rows g)) in
  (forall i, (i < nr data)%nat -> (labels i < m)%nat) -> (0 < nr data)%nat -> nc data = d -> d <> 1%nat -> (forall g, (g < m)%nat -> (2 <= length (rows g))%nat) ->
  exists p, k_means eig cn data m d labels = Ok p /\ valid p /\ Forall (covariance d) (covs p) /\ lsum (prob p) = 1 /\ n_clusters p = m /\ n_dim p = d /\
    forall g, (g < m)%nat -> weight p g = size g / INR (nr data)
      /\ (forall j, centre p g j = lsum (map (fun i => get data i j) (rows g)) / size g)
      /\ (forall a b, get (spread_of p g) a b = lsum (map (fun i => (get data i a - centre p g a) * (get data i b - centre p g b)) (rows g)) / (size g - 1)).
Proof. intros eig cn data m d labels L rows size Hl Hn Hc Hd Hr. apply k_means_ok; assumption. Qed.
Print Assumptions C79_k_means.
(** a label that does not occur, or occurs once, makes the start fail *)
Theorem C79_clusters_refuted : forall eig cn data m d labels g,
  let rows g := filter (fun i => Nat.eqb (labels i) g) (seq 0 (nr data)) in
  (forall i, (i < nr data)%nat -> (labels i < m)%nat) -> (0 < nr data)%nat -> nc data = d -> d <> 1%nat -> (g < m)%nat ->
  (rows g = [] -> k_means eig cn data m d labels = Err GMCParamError)
  /\ ((forall g, (g < m)%nat -> rows g <> []) -> length (rows g) = 1%nat -> k_means eig cn data m d labels = Err NonSymmetricMatrixError).
Proof.
  intros eig cn data m d labels g rows Hl Hn Hc Hd Hg. split.
  - intros E. apply (k_means_empty eig cn data m d labels g Hg). intros i Hi El. assert (I0 : In i (rows g)) by (apply filter_In; split; [apply in_seq; lia|apply Nat.eqb_eq, El]). rewrite E in I0. destruct I0.
  - intros H E. apply (k_means_single eig cn data m d labels Hl g Hn Hc Hd); try assumption. intros g' Hg'. specialize (H g' Hg'). unfold rows in H. destruct (filter _ _); [contradiction|cbn; lia].
Qed.
Print Assumptions C79_clusters_refuted.
Example C79_case : forall eig cn, libraries eig cn -> exists p, k_means eig cn (mkMat 4 2 (fun i j => INR (i * i + j))) 2 2 (fun i => (i / 2)%nat) = Ok p /\ prob p = [/ 2; / 2].
Proof.
  intros eig cn L. destruct (C79_k_means eig cn (mkMat 4 2 (fun i j => INR (i * i + j))) 2 2 (fun i => (i / 2)%nat) L) as [p [E [V [_ [_ [N1 [_ H]]]]]]]; try (cbn; lia).
  - intros i Hi. cbn [nr] in Hi. apply Nat.div_lt_upper_bound; lia.
  - intros [|[|g]] Hg; [cbn; lia|cbn; lia|lia].
  - exists p. split; [exact E|]. destruct (H 0%nat ltac:(lia)) as [W0 _]. destruct (H 1%nat ltac:(lia)) as [W1 _]. destruct V as [V1 _]. rewrite N1 in V1. unfold weight in *.
    destruct (prob p) as [|a [|b [|c l]]]; try discriminate. cbn in W0, W1. rewrite W0, W1. f_equal; [field|f_equal; field].
Qed.
