(** Theorems: which names share the parameters of Gaussian mixtures. *)
From Verif Require Import Base RSumLib Ext S_Linalg M_Linalg M_Elliptical M_Gmc S_Gmc P_Gmc P_GmcVec M_GmcShare S_GmcShare.
Local Close Scope Z_scope. Open Scope R_scope.

Lemma upd_same {A} (f : nat -> A) i v : upd f i v i = v.
Proof. unfold upd. rewrite Nat.eqb_refl. reflexivity. Qed.
Lemma upd_other {A} (f : nat -> A) i j v : j <> i -> upd f i v j = f j.
Proof. intros H. unfold upd. destruct (Nat.eqb_spec j i); [contradiction|reflexivity]. Qed.
Lemma number_of_fin l : map number_of (map Fin l) = l.
Proof. rewrite map_map. apply map_id. Qed.
Lemma check_prob_val m l v : check_prob m (map Fin l) = Ok v -> v = l.
Proof. unfold check_prob. destruct (negb _); [discriminate|]. destruct (_ || _); [discriminate|]. rewrite number_of_fin. congruence. Qed.
Lemma check_means_val m d x v : check_means m d x = Ok v -> v = x.
Proof. unfold check_means. destruct (_ && _); congruence. Qed.

(** Seen through its own name, an object behaves as the value of M_Gmc. *)
Theorem C127_setters : forall eig cn s o,
  (forall a, let '(s', r) := step eig cn s (SetProb o a) in (shown s' o, r) = set_prob (shown s o) (map Fin (vecs s a))) /\
  (forall a, let '(s', r) := step eig cn s (SetMeans o a) in (shown s' o, r) = set_means (shown s o) (tabs s a)) /\
  (forall v, let '(s', r) := step eig cn s (SetCovs o v) in (shown s' o, r) = set_covs eig cn (shown s o) v) /\
  (valid (shown s o) -> let '(s', r) := step eig cn s (ToVector o) in shown s' o = snd (to_vector (shown s o)) /\ r = Ok tt).
Proof.
  intros eig cn s o. split; [|split; [|split]].
  - intros a. cbn [step]. unfold set_prob, assign, shown. cbn [n_clusters n_dim means covs prob]. destruct (check_prob _ _) as [v|e] eqn:E; cbn; [|reflexivity]. rewrite upd_same, (check_prob_val _ _ _ E). reflexivity.
  - intros a. cbn [step]. unfold set_means, assign, shown. cbn [n_clusters n_dim means covs prob]. destruct (check_means _ _ _) as [v|e] eqn:E; cbn; [|reflexivity]. rewrite upd_same, (check_means_val _ _ _ _ E). reflexivity.
  - intros v. cbn [step]. unfold set_covs, assign, shown. cbn [n_clusters n_dim means covs prob]. destruct (check_covs _ _ _ _ v) as [w|e]; cbn; [rewrite upd_same|]; reflexivity.
  - intros V. cbn [step vecs set_vec]. rewrite upd_same. destruct V as [V1 [V2 _]]. cbn in V1, V2.
    destruct (clip_prob_weights _ V2) as [W _].
    assert (L : length (clip_prob (vecs s (q_prob (objs s o)))) = q_clusters (objs s o)) by (unfold clip_prob; rewrite !map_length; exact V1).
    rewrite (proj2 (check_prob_ok _ _ _) (conj eq_refl (conj L W))). split; [|reflexivity]. unfold shown. cbn. rewrite upd_same. reflexivity.
Qed.
Print Assumptions C127_setters.
Lemma new_gmc_val eig cn m d l mu cv p : new_gmc eig cn m d (map Fin l) mu cv = Ok p -> n_clusters p = m /\ n_dim p = d /\ prob p = l /\ means p = mu.
Proof.
  unfold new_gmc. destruct (check_prob m (map Fin l)) as [v|] eqn:E1; [|discriminate]. cbn [bind]. destruct (check_means m d mu) as [w|] eqn:E2; [|discriminate]. cbn [bind].
  destruct (check_covs _ _ _ _ cv); [|discriminate]. cbn [bind]. intros H. injection H as <-. cbn. rewrite (check_prob_val _ _ _ E1), (check_means_val _ _ _ _ E2). auto.
Qed.
(** Assigning parameters to a copula gives the copula of M_Gmc, or its error and no change. *)
Theorem C127_assignments : forall eig cn s x c v method, given s x = Some (c, v) ->
  let '(s', r) := step eig cn s x in
  match set_params eig cn (as_value s c method) v with
  | Ok k => as_value s' c method = k /\ r = Ok tt
  | Err e => s' = s /\ r = Err e
  end.
Proof.
  intros eig cn s x c v method H. destruct x; try discriminate; injection H as <- <-; cbn [step set_params as_value c_clusters c_dim].
  - unfold mismatch. destruct (_ && _); cbn [negb]; [|split; reflexivity]. split; [|reflexivity]. unfold as_value, shown_copula, with_param. cbn. rewrite upd_same. reflexivity.
  - unfold from_dict. destruct (new_gmc _ _ _ _ _ _ _) as [p|e] eqn:E; cbn [rmap bind]; [|split; reflexivity]. split; [|reflexivity].
    destruct (new_gmc_val _ _ _ _ _ _ _ _ E) as [N1 [N2 [N3 N4]]]. unfold as_value, shown_copula, with_param, shown. cbn. rewrite upd_same. cbn. rewrite upd_same. cbn. destruct p. cbn in *. subst. reflexivity.
  - destruct (from_vector _ _ _ _ _) as [p|e]; cbn [rmap bind]; [|split; reflexivity]. split; [|reflexivity].
    unfold as_value, shown_copula, with_param, shown. cbn. repeat (rewrite upd_same; cbn). destruct p. reflexivity.
  - unfold mismatch. destruct (_ && _); cbn [negb]; [|split; reflexivity]. split; [|reflexivity].
    unfold as_value, shown_copula, with_param, shown. cbn. repeat (rewrite upd_same; cbn). destruct p. reflexivity.
Qed.
Print Assumptions C127_assignments.
(** Names stay in use. *)
Lemma step_in_use eig cn s x : in_use s -> known s x -> in_use (fst (step eig cn s x)) /\ (next_array s <= next_array (fst (step eig cn s x)))%nat /\ (next_obj s <= next_obj (fst (step eig cn s x)))%nat.
Proof.
  intros [U1 U2] K.
  assert (Id : in_use s /\ (next_array s <= next_array s)%nat /\ (next_obj s <= next_obj s)%nat) by (repeat split; auto; apply U1; assumption).
  assert (Co : forall s1 c o, in_use s1 -> (o < next_obj s1)%nat -> in_use (set_cop s1 c (Some o))).
  { intros s1 c o [A1 A2] Ho. split; [exact A1|]. cbn. intros c' o' H. unfold upd in H. destruct (Nat.eqb_spec c' c); [cbn in H; injection H as <-; exact Ho|apply (A2 c'); exact H]. }
  assert (Fr : forall p, in_use (fresh_obj s p)).
  { intros p. split; cbn.
    - intros o Ho. unfold upd. destruct (Nat.eqb_spec o (next_obj s)); cbn; [lia|]. destruct (U1 o ltac:(lia)). lia.
    - intros c o H. specialize (U2 c o H). lia. }
  destruct x; cbn [step known] in *.
  - destruct (Nat.ltb _ _); [|exact Id]. exact Id.
  - destruct (_ && _); exact Id.
  - destruct (check_prob _ _); [|exact Id]. cbn. split; [|lia]. split; [|exact U2]. cbn. intros o' Ho'. unfold upd. destruct (Nat.eqb_spec o' o); cbn; [subst; split; [lia|apply U1; lia]|apply U1; exact Ho'].
  - destruct (check_means _ _ _); [|exact Id]. cbn. split; [|lia]. split; [|exact U2]. cbn. intros o' Ho'. unfold upd. destruct (Nat.eqb_spec o' o); cbn; [subst; split; [apply U1; lia|lia]|apply U1; exact Ho'].
  - destruct (check_covs _ _ _ _ _); [|exact Id]. cbn. split; [|lia]. split; [|exact U2]. cbn. intros o' Ho'. unfold upd. destruct (Nat.eqb_spec o' o); cbn; [subst; apply U1; lia|apply U1; exact Ho'].
  - destruct (check_prob _ _); exact Id.
  - destruct (mismatch _ _ _); [exact Id|]. cbn [fst set_cop next_array next_obj]. split; [|lia]. apply Co; [split; assumption|exact K].
  - destruct (new_gmc _ _ _ _ _ _ _); [|exact Id]. cbn [fst]. split; [|cbn; lia]. apply Co; [|cbn; lia]. split; cbn.
    + intros o Ho. unfold upd. destruct (Nat.eqb_spec o (next_obj s)); cbn; [lia|]. apply U1. lia.
    + intros c' o H. specialize (U2 c' o H). lia.
  - destruct (from_vector _ _ _ _ _); [|exact Id]. cbn [fst]. split; [|cbn; lia]. apply Co; [apply Fr|cbn; lia].
  - destruct (mismatch _ _ _); [exact Id|]. cbn [fst]. split; [|cbn; lia]. apply Co; [apply Fr|cbn; lia].
Qed.
(** One step that names neither a copula nor what it owns. *)
Lemma step_private eig cn s x c o : in_use s -> known s x -> owns s c o -> ~ names c o (q_prob (objs s o)) (q_means (objs s o)) x ->
  owns (fst (step eig cn s x)) c o /\ objs (fst (step eig cn s x)) o = objs s o /\ shown (fst (step eig cn s x)) o = shown s o.
Proof.
  intros [U1 U2] K O N. assert (O0 := O). destruct O as [O1 [O2 O3]]. assert (Ho := U2 _ _ O1). destruct (U1 o Ho) as [A1 A2].
  destruct x; cbn [step known names] in *.
  - destruct (Nat.ltb _ _); [|auto]. cbn [fst set_vec objs]. split; [exact O0|]. split; [reflexivity|]. unfold shown. cbn. rewrite upd_other by congruence. reflexivity.
  - destruct (_ && _); [|auto]. cbn [fst set_tab objs]. split; [exact O0|]. split; [reflexivity|]. unfold shown. cbn. rewrite upd_other by congruence. reflexivity.
  - destruct (check_prob _ _); [|auto]. assert (o <> o0) by (intros ->; tauto). cbn [fst set_obj objs]. rewrite upd_other by assumption. split; [|split; [reflexivity|unfold shown; cbn; rewrite upd_other by assumption; reflexivity]].
    split; [exact O1|]. split; [exact O2|]. cbn. intros o' Ho' Ne. rewrite (upd_other _ _ o) by assumption. unfold upd. destruct (Nat.eqb_spec o' o0); cbn; [subst; split; [intros Q; apply N; right; exact Q|apply O3; assumption]|apply O3; assumption].
  - destruct (check_means _ _ _); [|auto]. assert (o <> o0) by (intros ->; tauto). cbn [fst set_obj objs]. rewrite upd_other by assumption. split; [|split; [reflexivity|unfold shown; cbn; rewrite upd_other by assumption; reflexivity]].
    split; [exact O1|]. split; [exact O2|]. cbn. intros o' Ho' Ne. rewrite (upd_other _ _ o) by assumption. unfold upd. destruct (Nat.eqb_spec o' o0); cbn; [subst; split; [apply O3; assumption|intros Q; apply N; right; exact Q]|apply O3; assumption].
  - destruct (check_covs _ _ _ _ _); [|auto]. assert (o <> o0) by (intros ->; tauto). cbn [fst set_obj objs]. rewrite upd_other by assumption. split; [|split; [reflexivity|unfold shown; cbn; rewrite upd_other by assumption; reflexivity]].
    split; [exact O1|]. split; [exact O2|]. cbn. intros o' Ho' Ne. rewrite (upd_other _ _ o) by assumption. unfold upd. destruct (Nat.eqb_spec o' o0); cbn; [subst; apply O3; assumption|apply O3; assumption].
  - assert (Ne : o0 <> o) by (intros ->; tauto). destruct (O3 o0 K Ne) as [Q _].
    assert (G : owns (set_vec s (q_prob (objs s o0)) (clip_prob (vecs s (q_prob (objs s o0))))) c o /\ objs (set_vec s (q_prob (objs s o0)) (clip_prob (vecs s (q_prob (objs s o0))))) o = objs s o /\ shown (set_vec s (q_prob (objs s o0)) (clip_prob (vecs s (q_prob (objs s o0))))) o = shown s o).
    { split; [exact O0|]. split; [reflexivity|]. unfold shown. cbn. rewrite upd_other by congruence. reflexivity. }
    destruct (check_prob _ _); exact G.
  - destruct (mismatch _ _ _); [auto|]. cbn [fst]. split; [|split; reflexivity]. split; [cbn; rewrite upd_other by (intros ->; tauto); exact O1|]. split; [|exact O3].
    intros c' Hc'. cbn. unfold upd. destruct (Nat.eqb_spec c' c0); cbn; [intros Q; injection Q as Q; tauto|apply O2; exact Hc'].
  - destruct (new_gmc _ _ _ _ _ _ _) as [p|]; [|auto]. cbn [fst]. assert (o <> next_obj s) by lia. split; [|split; [cbn; rewrite upd_other by assumption; reflexivity|unfold shown; cbn; rewrite upd_other by assumption; reflexivity]].
    split; [cbn; rewrite upd_other by (intros ->; tauto); exact O1|]. split.
    + intros c' Hc'. cbn. unfold upd. destruct (Nat.eqb_spec c' c0); cbn; [intros Q; injection Q as Q; lia|apply O2; exact Hc'].
    + cbn. intros o' Ho' Ne. rewrite (upd_other _ _ o) by assumption. unfold upd. destruct (Nat.eqb_spec o' (next_obj s)); cbn; [split; intros Q; tauto|apply O3; [lia|assumption]].
  - destruct (from_vector _ _ _ _ _) as [p|]; [|auto]. cbn [fst]. assert (o <> next_obj s) by lia. split; [|split; [cbn; rewrite upd_other by assumption; reflexivity|unfold shown; cbn; rewrite (upd_other _ _ o) by assumption; rewrite !upd_other by lia; reflexivity]].
    split; [cbn; rewrite upd_other by (intros ->; tauto); exact O1|]. split.
    + intros c' Hc'. cbn. unfold upd. destruct (Nat.eqb_spec c' c0); cbn; [intros Q; injection Q as Q; lia|apply O2; exact Hc'].
    + cbn. intros o' Ho' Ne. rewrite (upd_other _ _ o) by assumption. unfold upd. destruct (Nat.eqb_spec o' (next_obj s)); cbn; [lia|apply O3; [lia|assumption]].
  - destruct (mismatch _ _ _); [auto|]. cbn [fst]. assert (o <> next_obj s) by lia. split; [|split; [cbn; rewrite upd_other by assumption; reflexivity|unfold shown; cbn; rewrite (upd_other _ _ o) by assumption; rewrite !upd_other by lia; reflexivity]].
    split; [cbn; rewrite upd_other by (intros ->; tauto); exact O1|]. split.
    + intros c' Hc'. cbn. unfold upd. destruct (Nat.eqb_spec c' c0); cbn; [intros Q; injection Q as Q; lia|apply O2; exact Hc'].
    + cbn. intros o' Ho' Ne. rewrite (upd_other _ _ o) by assumption. unfold upd. destruct (Nat.eqb_spec o' (next_obj s)); cbn; [lia|apply O3; [lia|assumption]].
Qed.
(** A copula that owns its parameters keeps them through every history that names neither it nor them. *)
Theorem C127_owned : forall eig cn l s c o, in_use s -> owns s c o -> apart eig cn s c o (q_prob (objs s o)) (q_means (objs s o)) l ->
  shown_copula (steps eig cn s l) c = shown_copula s c /\ owns (steps eig cn s l) c o.
Proof.
  intros eig cn l. induction l as [|x l IH]; intros s c o U O A; [split; [reflexivity|exact O]|]. destruct A as [K [N A]].
  destruct (step_private eig cn s x c o U K O N) as [O' [E1 E2]]. destruct (step_in_use eig cn s x U K) as [U' _].
  change (steps eig cn s (x :: l)) with (steps eig cn (fst (step eig cn s x)) l). rewrite <- E1 in A. destruct (IH _ c o U' O' A) as [H1 H2]. split; [|exact H2].
  rewrite H1. unfold shown_copula. rewrite (proj1 O'), (proj1 O). cbn. rewrite E2. reflexivity.
Qed.
Print Assumptions C127_owned.
(** Parameters from a vector or from an estimator belong to the copula alone. *)
Theorem C127_fresh : forall eig cn s c x s', in_use s -> (exists v, x = SetVector c v) \/ (exists p, x = SetBest c p) -> step eig cn s x = (s', Ok tt) -> owns s' c (next_obj s) /\ in_use s'.
Proof.
  intros eig cn s c x s' U X H.
  assert (K : known s x) by (destruct X as [[v ->]|[p ->]]; exact I). destruct (step_in_use eig cn s x U K) as [U' _]. rewrite H in U'. split; [|exact U'].
  assert (G : exists p, s' = set_cop (fresh_obj s p) c (Some (next_obj s))).
  { destruct X as [[v ->]|[p ->]]; cbn [step] in H; [destruct (from_vector _ _ _ _ _) as [p|]; [exists p|discriminate]|exists p; destruct (mismatch _ _ _); [discriminate|]]; injection H as <-; reflexivity. }
  destruct G as [p ->]. destruct U as [U1 U2]. split; [cbn; rewrite upd_same; reflexivity|]. split.
  - intros c' Hc'. cbn. rewrite upd_other by assumption. intros Q. specialize (U2 _ _ Q). lia.
  - cbn. intros o' Ho' Ne. rewrite upd_same, upd_other by assumption. cbn. destruct (U1 o' ltac:(lia)). lia.
Qed.
Print Assumptions C127_fresh.
Lemma shown_clip s o : shown (set_vec s (q_prob (objs s o)) (clip_prob (vecs s (q_prob (objs s o))))) o = snd (to_vector (shown s o)).
Proof. unfold shown. cbn. rewrite upd_same. reflexivity. Qed.
Lemma shown_fresh s p c x o : (o < next_obj s)%nat -> (q_prob (objs s o) < next_array s)%nat -> (q_means (objs s o) < next_array s)%nat -> shown (set_cop (fresh_obj s p) c x) o = shown s o.
Proof. intros H1 H2 H3. unfold shown. cbn. rewrite (upd_other _ _ o) by lia. rewrite !upd_other by lia. reflexivity. Qed.
Lemma clip_changes l : Forall (fun x => 0 <= x <= 1) l -> In 0 l -> clip_prob l <> l.
Proof. intros W H E. pose proof (clip_prob_pos _ W) as P. rewrite E, Forall_forall in P. specialize (P 0 H). lra. Qed.
(** Refuted: fitting one copula from the parameters of another changes the other's weights (a weight was 0 and is positive afterwards). *)
Theorem C127_fit_refuted : forall eig cn s c1 c2 o best, in_use s -> c1 <> c2 -> k_param (cops s c1) = Some o -> valid (shown s o) -> In 0 (prob (shown s o)) ->
  n_dim (shown s o) = k_dim (cops s c2) -> n_clusters (shown s o) = k_clusters (cops s c2) -> n_dim best = k_dim (cops s c2) -> n_clusters best = k_clusters (cops s c2) ->
  shown_copula s c1 = Some (shown s o) /\
  exists p, shown_copula (steps eig cn s (fit_from c2 o best)) c1 = Some p /\ Forall (fun x => 0 < x) (prob p) /\ p <> shown s o /\ shown_copula (steps eig cn s (fit_from c2 o best)) c2 = Some best.
Proof.
  intros eig cn s c1 c2 o best [U1 U2] Hc K V Z D1 D2 B1 B2. split; [unfold shown_copula; rewrite K; reflexivity|]. exists (snd (to_vector (shown s o))).
  assert (Ho := U2 _ _ K). destruct (U1 o Ho) as [A1 A2]. destruct V as [V1 [[W1 W2] _]].
  set (s1 := set_cop s c2 (Some o)). set (s2 := set_vec s1 (q_prob (objs s1 o)) (clip_prob (vecs s1 (q_prob (objs s1 o))))).
  assert (E1 : fst (step eig cn s (SetParam c2 o)) = s1) by (cbn [step]; unfold mismatch; rewrite D1, D2, !Nat.eqb_refl; reflexivity).
  assert (E2 : fst (step eig cn s1 (ToVector o)) = s2) by (cbn [step]; fold s2; destruct (check_prob _ _); reflexivity).
  assert (Q : k_clusters (cops s2 c2) = k_clusters (cops s c2) /\ k_dim (cops s2 c2) = k_dim (cops s c2)) by (cbn; rewrite upd_same; split; reflexivity).
  assert (E3 : fst (step eig cn s2 (SetBest c2 best)) = set_cop (fresh_obj s2 best) c2 (Some (next_obj s2))).
  { cbn [step]. unfold mismatch. destruct Q as [-> ->]. rewrite B1, B2, !Nat.eqb_refl. reflexivity. }
  assert (E : steps eig cn s (fit_from c2 o best) = set_cop (fresh_obj s2 best) c2 (Some (next_obj s2))).
  { unfold steps, fit_from. cbn [fold_left]. rewrite E1, E2, E3. reflexivity. }
  rewrite E. split; [|split; [|split]].
  - unfold shown_copula. cbn [set_cop cops fresh_obj]. rewrite upd_other by exact Hc. cbn [s2 set_vec cops s1 set_cop]. rewrite upd_other by exact Hc. rewrite K. cbn [option_map]. f_equal.
    transitivity (shown s2 o); [apply shown_fresh; [exact Ho|exact A1|exact A2]|]. rewrite <- shown_clip. reflexivity.
  - cbn. apply clip_prob_pos. exact W1.
  - intros Eq. apply (clip_changes _ W1 Z). change (prob (snd (to_vector (shown s o))) = prob (shown s o)). rewrite Eq. reflexivity.
  - unfold shown_copula, shown. cbn. repeat (rewrite upd_same; cbn). destruct best. reflexivity.
Qed.
Print Assumptions C127_fit_refuted.
(** Refuted: the array given as weights is overwritten. *)
Theorem C127_array_refuted : forall eig cn s o a, weights (vecs s a) -> length (vecs s a) = q_clusters (objs s o) -> In 0 (vecs s a) ->
  vecs (steps eig cn s [SetProb o a; ToVector o]) a <> vecs s a.
Proof.
  intros eig cn s o a W L Z. unfold steps. cbn [fold_left step]. rewrite (proj2 (check_prob_ok _ _ _) (conj eq_refl (conj L W))). cbn [fst set_obj objs vecs]. rewrite upd_same. cbn [q_prob q_clusters].
  assert (E : forall (r : result (list R)) x, fst (match r with Ok _ => (x, Ok tt) | Err e => (x, Err e) end : store * result unit) = x) by (intros [|] ?; reflexivity). rewrite E. cbn. rewrite upd_same. apply clip_changes; [apply W|exact Z].
Qed.
Print Assumptions C127_array_refuted.
(** Refuted: weights given in a dictionary stay the caller's array; a later store into it is not checked and spoils the copula. *)
Theorem C127_dictionary_refuted : forall eig cn s c a b v s1, step eig cn s (SetDict c a b v) = (s1, Ok tt) ->
  exists s2 p, step eig cn s1 (WriteVec a 0 2) = (s2, Ok tt) /\ shown_copula s2 c = Some p /\ ~ weights (prob p) /\ check_prob (n_clusters p) (map Fin (prob p)) = Err GMCParamError.
Proof.
  intros eig cn s c a b v s1 H. cbn [step] in H. destruct (new_gmc _ _ _ _ _ _ _) as [p|] eqn:E; [|discriminate]. injection H as <-.
  assert (W : weights (vecs s a) /\ length (vecs s a) = nr (tabs s b)).
  { unfold new_gmc in E. destruct (check_prob _ _) as [w|] eqn:Ew; [|discriminate]. apply check_prob_ok in Ew. destruct Ew as [Em [El Ew]].
    assert (w = vecs s a) by (rewrite <- (number_of_fin w), <- Em, number_of_fin; reflexivity). subst w. split; assumption. }
  destruct W as [W L]. pose proof (weights_nonempty _ W) as N.
  set (l := vecs s a) in *. destruct l as [|x l0] eqn:El; [congruence|]. eexists _, _. split; [cbn [step set_cop new_obj vecs]; fold l; rewrite El; cbn [length Nat.ltb Nat.leb]; reflexivity|].
  split; [unfold shown_copula; cbn; rewrite upd_same; cbn; reflexivity|]. unfold shown. cbn. rewrite upd_same. cbn. rewrite upd_same.
  assert (Nw : ~ weights (2 :: l0)) by (intros [F _]; inversion F; subst; lra). split; [exact Nw|].
  destruct (check_prob _ _) as [w|e] eqn:Ew.
  - exfalso. apply Nw. apply check_prob_ok in Ew. destruct Ew as [Em [_ Ew]]. assert (w = 2 :: l0) by (rewrite <- (number_of_fin w), <- Em; cbn; rewrite number_of_fin; reflexivity). subst w. exact Ew.
  - f_equal. eapply check_prob_err, Ew.
Qed.
Print Assumptions C127_dictionary_refuted.

(** ** Cases: two copulas around one parameter object with the weights 0 and 1 *)
Definition unit2 : mat R := mkMat 2 2 (fun i j => if Nat.eqb i j then 1 else 0).
Definition shared : store :=
  mkStore (fun _ => [0; 1]) (fun _ => mkMat 2 2 (fun i j => INR i + INR j)) (fun _ => mkPobj 2 2 0 0 [unit2; unit2])
    (fun _ => mkCobj 2 2 (Some O)) 1 1.
Lemma unit2_covariance : covariance 2 unit2.
Proof.
  split; [split; reflexivity|]. split; [intros [|[|i]] [|[|j]] Hi Hj; cbn in Hi, Hj; try lia; reflexivity|].
  intros x. unfold quad. cbn. assert (0 <= x O * x O) by apply Rle_0_sqr. assert (0 <= x 1%nat * x 1%nat) by apply Rle_0_sqr. lra.
Qed.
Example C127_case : in_use shared /\ valid (shown shared 0) /\ In 0 (prob (shown shared 0)) /\ k_param (cops shared 0) = Some O /\
  n_dim (shown shared 0) = k_dim (cops shared 1) /\ n_clusters (shown shared 0) = k_clusters (cops shared 1).
Proof.
  split; [|split; [|split; [left; reflexivity|auto]]].
  - split; [intros o _; cbn; lia|]. intros c o H. cbn in *. injection H as <-. lia.
  - split; [reflexivity|]. split; [split; [repeat constructor; lra|cbn; replace (0 + (1 + 0) - 1) with 0 by lra; rewrite Rabs_R0; lra]|]. split; [reflexivity|]. split; [reflexivity|]. split; [reflexivity|].
    constructor; [|constructor; [|constructor]]; apply covariance_almost, unit2_covariance.
Qed.
(** copula 1 gets parameters of its own; afterwards the shared object can be asked for its vector without effect on copula 1 *)
Example C127_owned_case : forall eig cn best, n_dim best = 2%nat -> n_clusters best = 2%nat ->
  exists s, step eig cn shared (SetBest 1 best) = (s, Ok tt) /\ owns s 1 1 /\ in_use s /\
    apart eig cn s 1 1 (q_prob (objs s 1)) (q_means (objs s 1)) [ToVector 0; WriteVec 0 1 (/ 2); SetParam 0 0].
Proof.
  intros eig cn best D C. eexists. split; [cbn [step]; unfold mismatch; rewrite D, C; reflexivity|].
  assert (S1 : step eig cn shared (SetBest 1 best) = (set_cop (fresh_obj shared best) 1 (Some (next_obj shared)), Ok tt)) by (cbn [step]; unfold mismatch; rewrite D, C; reflexivity).
  destruct (C127_fresh eig cn shared 1 (SetBest 1 best) _ (proj1 C127_case) (or_intror (ex_intro _ best eq_refl)) S1) as [O U]. split; [exact O|]. split; [exact U|].
  assert (N : forall s x, (next_array s <= next_array (fst (step eig cn s x)))%nat /\ (next_obj s <= next_obj (fst (step eig cn s x)))%nat).
  { intros s x. destruct x; cbn [step]; repeat match goal with |- context [match ?e with _ => _ end] => destruct e end; cbn; lia. }
  set (s := set_cop _ _ _). cbn [apart known names].
  assert (P : q_prob (objs s 1) = 1%nat /\ q_means (objs s 1) = 1%nat) by (split; reflexivity). destruct P as [-> _].
  set (s1 := fst (step eig cn s (ToVector 0))). set (s2 := fst (step eig cn s1 (WriteVec 0 1 (/ 2)))).
  pose proof (N s (ToVector 0)) as N1. pose proof (N s1 (WriteVec 0 1 (/ 2))) as N2. fold s1 in N1. fold s2 in N2.
  change (next_array s) with 2%nat in *. change (next_obj s) with 2%nat in *. repeat split; try lia.
Qed.
