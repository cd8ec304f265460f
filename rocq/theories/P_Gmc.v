(** Lemmas about Gaussian mixture copulas. *)
From Verif Require Import Base RSumLib CountLib Ext S_Matrix S_Linalg M_Special M_Stats M_Linalg P_Linalg M_Gmc S_Gmc.
Local Close Scope Z_scope. Open Scope R_scope.

(** ** Results over lists *)
Lemma mapM_inv {A B} (f : A -> result B) l r : mapM f l = Ok r -> Forall2 (fun x y => f x = Ok y) l r.
Proof.
  revert r. induction l as [|x l IH]; intros r H; cbn in H; [injection H as <-; constructor|].
  destruct (f x) as [y|] eqn:E; cbn in H; [|discriminate]. destruct (mapM f l) as [ys|]; cbn in H; [|discriminate].
  injection H as <-. constructor; [exact E|]. apply IH. reflexivity.
Qed.
Lemma mapM_fwd {A B} (f : A -> result B) l r : Forall2 (fun x y => f x = Ok y) l r -> mapM f l = Ok r.
Proof. induction 1 as [|x y l r E F IH]; [reflexivity|]. cbn. rewrite E. cbn. rewrite IH. reflexivity. Qed.
Lemma mapM_err {A B} (f : A -> result B) (P : exn -> Prop) l e : (forall x e, f x = Err e -> P e) -> mapM f l = Err e -> P e.
Proof.
  intros Hf. induction l as [|x l IH]; cbn; [discriminate|]. destruct (f x) eqn:E; cbn.
  - destruct (mapM f l); cbn; [discriminate|]. intros H. injection H as <-. apply IH. reflexivity.
  - intros H. injection H as <-. eapply Hf, E.
Qed.
Lemma Forall2_len {A B} (P : A -> B -> Prop) l l' : Forall2 P l l' -> length l = length l'.
Proof. induction 1; cbn; congruence. Qed.

(** ** The setters *)
Lemma esum_is_fin v s : esum v = Fin s -> exists l, v = map Fin l /\ s = lsum l.
Proof.
  revert s. induction v as [|x v IH]; intros s H.
  - exists []. split; [reflexivity|]. cbn in *. congruence.
  - cbn [esum fold_right] in H. fold (esum v) in H. destruct x as [x| | |], (esum v) as [y| | |]; cbn in H; try discriminate.
    destruct (IH y eq_refl) as [l [-> ->]]. exists (x :: l). cbn. split; congruence.
Qed.
Lemma isclose1_iff a : isclose1 a = true <-> exists s, a = Fin s /\ Rabs (s - 1) <= / 100000000 + / 100000.
Proof.
  unfold isclose1, close. split.
  - destruct a as [s| | |]; try discriminate. rewrite Rleb_true, Rabs_R1. intros H. exists s. split; [reflexivity|lra].
  - intros [s [-> H]]. rewrite Rleb_true, Rabs_R1. lra.
Qed.
Lemma check_prob_ok m v l : check_prob m v = Ok l <-> v = map Fin l /\ length l = m /\ weights l.
Proof.
  unfold check_prob. split.
  - destruct (Nat.eqb_spec (length v) m) as [Hm|]; cbn [negb]; [|discriminate].
    destruct (existsb (fun x => eltb x 0) v) eqn:E0; cbn [orb]; [discriminate|].
    destruct (existsb (fun x => egtb x 1) v) eqn:E1; cbn [orb]; [discriminate|].
    destruct (isclose1 (esum v)) eqn:E; cbn [negb]; [|discriminate]. intros H. injection H as <-.
    apply isclose1_iff in E. destruct E as [s [Es Hs]]. apply esum_is_fin in Es. destruct Es as [l [-> ->]].
    assert (El : map number_of (map Fin l) = l) by (rewrite map_map; apply map_id). rewrite El. rewrite map_length in Hm.
    split; [reflexivity|]. split; [exact Hm|]. split; [|exact Hs]. apply Forall_forall. intros x Hx. split.
    + destruct (Rltb x 0) eqn:F; [|apply Rltb_false; exact F].
      assert (existsb (fun x => eltb x 0) (map Fin l) = true); [|congruence].
      apply existsb_exists. exists (Fin x). split; [apply in_map; exact Hx|exact F].
    + destruct (Rltb 1 x) eqn:F; [|apply Rltb_false; exact F].
      assert (existsb (fun x => egtb x 1) (map Fin l) = true); [|congruence].
      apply existsb_exists. exists (Fin x). split; [apply in_map; exact Hx|exact F].
  - intros [-> [Hm [F Hs]]]. rewrite map_length, Hm, Nat.eqb_refl. cbn [negb].
    assert (E0 : existsb (fun x => eltb x 0) (map Fin l) = false).
    { apply not_true_is_false. rewrite existsb_exists. intros [y [Hy E]]. apply in_map_iff in Hy. destruct Hy as [x [<- Hx]].
      cbn in E. apply Rltb_true in E. rewrite Forall_forall in F. specialize (F x Hx). lra. }
    assert (E1 : existsb (fun x => egtb x 1) (map Fin l) = false).
    { apply not_true_is_false. rewrite existsb_exists. intros [y [Hy E]]. apply in_map_iff in Hy. destruct Hy as [x [<- Hx]].
      cbn in E. apply Rltb_true in E. rewrite Forall_forall in F. specialize (F x Hx). lra. }
    rewrite E0, E1. cbn [orb]. rewrite (proj2 (isclose1_iff (esum (map Fin l)))); [|exists (lsum l); split; [apply esum_fin|exact Hs]].
    cbn [negb]. rewrite map_map. f_equal. apply map_id.
Qed.
Lemma check_prob_err m v e : check_prob m v = Err e -> e = GMCParamError.
Proof. unfold check_prob. destruct (negb _); [congruence|]. destruct (_ || _); congruence. Qed.
Lemma check_means_ok m d v w : check_means m d v = Ok w <-> w = v /\ nr v = m /\ nc v = d.
Proof.
  unfold check_means. destruct (Nat.eqb_spec (nr v) m), (Nat.eqb_spec (nc v) d); cbn [andb]; split; intros H;
    try (destruct H as [? [? ?]]; congruence); try discriminate. injection H as <-. auto.
Qed.
Lemma check_means_err m d v e : check_means m d v = Err e -> e = GMCParamError.
Proof. unfold check_means. destruct (_ && _); congruence. Qed.

Lemma covariance_almost d c : covariance d c -> almost_psd d c.
Proof.
  intros [[S1 S2] [Sy Ps]]. split; [split; assumption|]. split.
  - intros i j Hi Hj. rewrite (Sy i j) by lia. replace (get c j i - get c j i) with 0 by ring. rewrite Rabs_R0. pose proof (Rabs_pos (get c j i)). lra.
  - intros x. rewrite (quad_ext _ _ (get c)) by (intros; apply lower_sym_symmetric; [assumption|lia|lia]).
    pose proof (Ps x). pose proof (norm2_nonneg d x). nra.
Qed.
Section Lib.
  Variables (eig : mat R -> list R) (cn : mat R -> mat R).

  Lemma near_psd_out d c c' : libraries eig cn -> square d c -> near_psd eig cn (AMat c) = Ok c' -> almost_psd d c'.
  Proof.
    intros [L1 L2] Sq. unfold near_psd. destruct (is_symmetric symmetric_tol (AMat c)); cbn [negb]; [|discriminate].
    destruct (is_psd eig false psd_tol (AMat c)) eqn:E; intros H; injection H as <-.
    - apply (is_psd_sound eig psd_tol c (L1 d c Sq)) in E. destruct E as [E1 E2]. destruct Sq as [S1 S2].
      split; [split; assumption|]. apply is_symmetric_spec in E1. destruct E1 as [_ E1]. unfold psd_tol in *. rewrite S1 in *. split; [exact E1|exact E2].
    - apply covariance_almost, (L2 d c Sq).
  Qed.
  Lemma near_psd_same d c : libraries eig cn -> covariance d c -> near_psd eig cn (AMat c) = Ok c.
  Proof.
    intros [L1 L2] [[S1 S2] [Sy Ps]]. apply near_psd_identity; [apply (L1 d); split; assumption|congruence|exact Sy|rewrite S1; exact Ps].
  Qed.
  Lemma near_psd_err a e : near_psd eig cn a = Err e -> e = NonSymmetricMatrixError.
  Proof. unfold near_psd. destruct a; try congruence. destruct (negb _); [congruence|]. destruct (is_psd _ _ _ _); discriminate. Qed.

  Lemma check_covs_ok m d v w : libraries eig cn -> check_covs eig cn m d v = Ok w ->
    length w = m /\ length v = m /\ Forall (square d) v /\ Forall (almost_psd d) w.
  Proof.
    intros L. unfold check_covs. destruct (Nat.eqb_spec (length v) m) as [Hm|]; cbn [andb]; [|discriminate].
    destruct (forallb _ v) eqn:E; [|discriminate]. rewrite forallb_forall in E. intros H. apply mapM_inv in H.
    assert (Sq : Forall (square d) v).
    { apply Forall_forall. intros c Hc. specialize (E c Hc). apply andb_true_iff in E. rewrite !Nat.eqb_eq in E. exact E. }
    split; [rewrite <- (Forall2_len _ _ _ H); exact Hm|]. split; [exact Hm|]. split; [exact Sq|].
    clear Hm E. induction H as [|c c' v w Hc H IH]; [constructor|]. inversion Sq; subst. constructor; [|apply IH; assumption].
    apply (near_psd_out d c); assumption.
  Qed.
  Lemma check_covs_same m d v : libraries eig cn -> length v = m -> Forall (covariance d) v -> check_covs eig cn m d v = Ok v.
  Proof.
    intros L Hm F. unfold check_covs. rewrite Hm, Nat.eqb_refl. cbn [andb].
    replace (forallb _ v) with true.
    - apply mapM_fwd. clear Hm. induction F as [|c v Hc F IH]; constructor; [apply (near_psd_same d); assumption|exact IH].
    - symmetry. apply forallb_forall. intros c Hc. rewrite Forall_forall in F. destruct (F c Hc) as [[-> ->] _]. rewrite Nat.eqb_refl. reflexivity.
  Qed.
  Lemma check_covs_err m d v e : check_covs eig cn m d v = Err e -> e = GMCParamError \/ e = NonSymmetricMatrixError.
  Proof.
    unfold check_covs. destruct (_ && _); [|intros H; injection H as <-; left; reflexivity].
    intros H. right. revert H. apply (mapM_err _ (fun e => e = NonSymmetricMatrixError)). intros x e0. apply near_psd_err.
  Qed.
  Lemma new_gmc_ok m d pr mu cv p : libraries eig cn -> new_gmc eig cn m d pr mu cv = Ok p ->
    valid p /\ n_clusters p = m /\ n_dim p = d /\ pr = map Fin (prob p) /\ means p = mu.
  Proof.
    intros L. unfold new_gmc. destruct (check_prob m pr) as [pr'|] eqn:E1; cbn [bind]; [|discriminate].
    destruct (check_means m d mu) as [mu'|] eqn:E2; cbn [bind]; [|discriminate].
    destruct (check_covs eig cn m d cv) as [cv'|] eqn:E3; cbn [bind]; [|discriminate]. intros H. injection H as <-.
    apply check_prob_ok in E1. apply check_means_ok in E2. apply (check_covs_ok _ _ _ _ L) in E3.
    destruct E1 as [-> [E1 W]], E2 as [-> [E2 E2']], E3 as [E3 [_ [_ E3']]]. unfold valid. cbn. auto 10.
  Qed.
  Lemma new_gmc_fwd m d l mu cv : libraries eig cn -> length l = m -> weights l -> nr mu = m -> nc mu = d -> length cv = m -> Forall (covariance d) cv ->
    new_gmc eig cn m d (map Fin l) mu cv = Ok (mkGmc m d l mu cv).
  Proof.
    intros L H1 W H2 H3 H4 F. unfold new_gmc. rewrite (proj2 (check_prob_ok m (map Fin l) l)) by auto. cbn [bind].
    rewrite (proj2 (check_means_ok m d mu mu)) by auto. cbn [bind]. rewrite check_covs_same by assumption. reflexivity.
  Qed.
End Lib.

(** ** to_vector's probabilities *)
Lemma lsum_div l s : lsum (map (fun x => x / s) l) = lsum l / s.
Proof. induction l as [|x l IH]; cbn; [unfold Rdiv; ring|]. rewrite IH. unfold Rdiv. ring. Qed.
Lemma lsum_pos l : l <> [] -> Forall (fun x => 0 < x) l -> 0 < lsum l.
Proof.
  intros N F. destruct l as [|x l]; [contradiction|]. inversion F as [|? ? Hx Fl]; subst. cbn.
  assert (0 <= lsum l) by (apply lsum_nonneg; rewrite Forall_forall in Fl; intros y Hy; specialize (Fl y Hy); lra). lra.
Qed.
Lemma lsum_ge l x : Forall (fun x => 0 <= x) l -> In x l -> x <= lsum l.
Proof.
  induction l as [|y l IH]; intros F Hx; [destruct Hx|]. inversion F as [|? ? Hy Fl]; subst. cbn.
  assert (0 <= lsum l) by (apply lsum_nonneg; rewrite Forall_forall in Fl; exact Fl).
  destruct Hx as [->|Hx]; [lra|]. specialize (IH Fl Hx). lra.
Qed.
Lemma weights_nonempty l : weights l -> l <> [].
Proof. intros [_ H] ->. cbn in H. rewrite Rminus_0_l, Rabs_Ropp, Rabs_R1 in H. lra. Qed.
Lemma weights_exact l : Forall (fun x => 0 <= x) l -> lsum l = 1 -> weights l.
Proof.
  intros F H. split; [|rewrite H; replace (1 - 1) with 0 by ring; rewrite Rabs_R0; lra].
  apply Forall_forall. intros x Hx. split; [rewrite Forall_forall in F; apply F, Hx|]. rewrite <- H. apply lsum_ge; assumption.
Qed.
Definition nudge (x : R) : R := let y := if Reqb x 0 then x + / 100000 else x in if Reqb y 1 then y - / 100000 else y.
Lemma clip_prob_eq l : clip_prob l = map (fun x => nudge x / lsum (map nudge l)) l.
Proof. unfold clip_prob. rewrite !map_map. cbn. reflexivity. Qed.
Lemma nudge_pos x : 0 <= x <= 1 -> 0 < nudge x < 1.
Proof.
  intros H. unfold nudge. cbv zeta. destruct (Reqb x 0) eqn:E; [apply Reqb_true in E|apply Reqb_false in E];
    destruct (Reqb _ 1) eqn:E2; [apply Reqb_true in E2|apply Reqb_false in E2|apply Reqb_true in E2|apply Reqb_false in E2]; lra.
Qed.
Lemma nudge_id x : 0 < x < 1 -> nudge x = x.
Proof. intros H. unfold nudge. rewrite (proj2 (Reqb_false x 0)) by lra. rewrite (proj2 (Reqb_false x 1)) by lra. reflexivity. Qed.
Lemma nudges_pos l : Forall (fun x => 0 <= x <= 1) l -> Forall (fun x => 0 < x) (map nudge l).
Proof. intros F. apply Forall_map. eapply Forall_impl; [|exact F]. intros x Hx. apply (nudge_pos x Hx). Qed.
Lemma clip_prob_sum l : Forall (fun x => 0 <= x <= 1) l -> l <> [] -> lsum (clip_prob l) = 1.
Proof.
  intros F N. rewrite clip_prob_eq. rewrite <- (map_map nudge (fun y => y / lsum (map nudge l))), lsum_div.
  assert (0 < lsum (map nudge l)) by (apply lsum_pos; [destruct l; [contradiction|discriminate]|apply nudges_pos; exact F]). field. lra.
Qed.
Lemma clip_prob_pos l : Forall (fun x => 0 <= x <= 1) l -> Forall (fun x => 0 < x) (clip_prob l).
Proof.
  intros F. destruct l as [|x0 l]; [constructor|]. set (l' := x0 :: l) in *. rewrite clip_prob_eq. apply Forall_map.
  assert (0 < lsum (map nudge l')) by (apply lsum_pos; [discriminate|apply nudges_pos; exact F]).
  eapply Forall_impl; [|exact F]. intros x Hx. cbn beta. apply Rdiv_lt_0_compat; [apply (nudge_pos x Hx)|assumption].
Qed.
Lemma clip_prob_weights l : weights l -> weights (clip_prob l) /\ lsum (clip_prob l) = 1.
Proof.
  intros [F H]. pose proof (weights_nonempty l (conj F H)) as N.
  assert (S1 := clip_prob_sum l F N). split; [|exact S1]. apply weights_exact; [|exact S1].
  eapply Forall_impl; [|apply clip_prob_pos; exact F]. intros x Hx. cbn in Hx. lra.
Qed.
Lemma clip_prob_id l : Forall (fun x => 0 < x < 1) l -> clip_prob l = map (fun x => x / lsum l) l.
Proof.
  intros F. rewrite clip_prob_eq. assert (E : map nudge l = l).
  { rewrite <- (map_id l) at 2. apply map_ext_in. intros x Hx. apply nudge_id. rewrite Forall_forall in F. apply F, Hx. }
  rewrite E. apply map_ext_in. intros x Hx. rewrite nudge_id; [reflexivity|]. rewrite Forall_forall in F. apply F, Hx.
Qed.
(** with two or more positive numbers each is below the sum *)
Lemma below_sum l x : (2 <= length l)%nat -> Forall (fun x => 0 < x) l -> In x l -> x < lsum l.
Proof.
  intros Hl F Hx. apply in_split in Hx. destruct Hx as [l1 [l2 ->]]. rewrite lsum_app. cbn [lsum].
  apply Forall_app in F. destruct F as [F1 F2]. inversion F2 as [|? ? Hx F3]; subst.
  assert (P1 : 0 <= lsum l1) by (apply lsum_nonneg; rewrite Forall_forall in F1; intros y Hy; specialize (F1 y Hy); lra).
  assert (P2 : 0 <= lsum l2) by (apply lsum_nonneg; rewrite Forall_forall in F3; intros y Hy; specialize (F3 y Hy); lra).
  destruct l1 as [|y l1].
  - destruct l2 as [|y l2]; [cbn in Hl; lia|]. assert (0 < lsum (y :: l2)) by (apply lsum_pos; [discriminate|exact F3]). lra.
  - assert (0 < lsum (y :: l1)) by (apply lsum_pos; [discriminate|exact F1]). lra.
Qed.

Lemma to_vector_valid p : valid p -> valid (snd (to_vector p)) /\ lsum (prob (snd (to_vector p))) = 1.
Proof.
  intros [V1 [V2 [V3 [V4 [V5 V6]]]]]. destruct (clip_prob_weights (prob p) V2) as [W S1]. split; [|exact S1].
  unfold valid. cbn. rewrite clip_prob_eq, map_length, <- clip_prob_eq. auto 10.
Qed.

Lemma history_valid eig cn l : libraries eig cn -> forall p, valid p ->
  valid (history eig cn p l) /\ n_clusters (history eig cn p l) = n_clusters p /\ n_dim (history eig cn p l) = n_dim p.
Proof.
  intros L. induction l as [|a l IH]; intros p V; [auto|]. cbn [history].
  assert (S1 : valid (fst (perform eig cn p a)) /\ n_clusters (fst (perform eig cn p a)) = n_clusters p /\ n_dim (fst (perform eig cn p a)) = n_dim p).
  { destruct V as [V1 [V2 [V3 [V4 [V5 V6]]]]]. destruct a as [v|v|v|]; cbn [perform].
    - unfold set_prob, assign. destruct (check_prob _ v) eqn:E; cbn; [|unfold valid; auto 10]. apply check_prob_ok in E. destruct E as [_ [E W]]. unfold valid. cbn. auto 10.
    - unfold set_means, assign. destruct (check_means _ _ v) eqn:E; cbn; [|unfold valid; auto 10]. apply check_means_ok in E. destruct E as [-> [E W]]. unfold valid. cbn. auto 10.
    - unfold set_covs, assign. destruct (check_covs _ _ _ _ v) eqn:E; cbn; [|unfold valid; auto 10]. apply (check_covs_ok _ _ _ _ _ _ L) in E. destruct E as [E [_ [_ W]]]. unfold valid. cbn. auto 10.
    - cbn [fst]. split; [apply to_vector_valid; unfold valid; auto 10|]. split; reflexivity. }
  destruct S1 as [S1 [S2 S3]]. destruct (IH _ S1) as [I1 [I2 I3]]. split; [exact I1|]. split; congruence.
Qed.
