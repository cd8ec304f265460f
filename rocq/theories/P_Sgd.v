(** Lemmas about M_Sgd.v. *)
From Verif Require Import Base RSumLib CountLib Ext S_Matrix S_Linalg M_Special M_Stats M_Linalg P_Linalg P_Rayleigh M_Gmc S_Gmc P_Gmc P_GmcVec P_GmcMarg P_GmcDens M_Sgd S_Sgd.
Local Close Scope Z_scope. Open Scope R_scope. Open Scope list_scope.

Lemma mapM_ext_in {A B} (f g : A -> result B) l : (forall x, In x l -> f x = g x) -> mapM f l = mapM g l.
Proof. induction l as [|a l IH]; intros H; [reflexivity|]. cbn. rewrite (H a) by (left; reflexivity). rewrite IH by (intros; apply H; right; assumption). reflexivity. Qed.
Lemma fold_left_ext_in {A B} (f g : A -> B -> A) l : forall a, (forall a x, In x l -> f a x = g a x) -> fold_left f l a = fold_left g l a.
Proof. induction l as [|b l IH]; intros a H; [reflexivity|]. cbn. rewrite H by (left; reflexivity). apply IH. intros; apply H; right; assumption. Qed.
Lemma flat_map_ext_in {A B} (f g : A -> list B) l : (forall x, In x l -> f x = g x) -> flat_map f l = flat_map g l.
Proof. induction l as [|a l IH]; intros H; [reflexivity|]. cbn. rewrite (H a) by (left; reflexivity). rewrite IH by (intros; apply H; right; assumption). reflexivity. Qed.

Section Same.
  Variables (mvn_pdf : (nat -> R) -> mat R -> (nat -> R) -> R) (norm_pdf : R -> R -> R -> R) (round : R -> Z).
  Hypothesis EO : entries_only mvn_pdf.
  Variables p p' : gmc.
  Hypothesis V : valid p.
  Hypothesis E : same_gmc p p'.

  Lemma same_prob k : nth k (prob p) 0 = nth k (prob p') 0.
  Proof. destruct E as [_ [_ [-> _]]]. reflexivity. Qed.
  Lemma same_mean k j : (k < n_clusters p)%nat -> (j < n_dim p)%nat -> get (means p) k j = get (means p') k j.
  Proof. intros Hk Hj. destruct E as [_ [_ [_ [[_ [_ M]] _]]]]. destruct V as [_ [_ [V1 [V2 _]]]]. apply M; lia. Qed.
  Lemma same_cov k : (k < n_clusters p)%nat ->
    mat_eq (nth k (covs p) (mkMat 0 0 (fun _ _ => 0))) (nth k (covs p') (mkMat 0 0 (fun _ _ => 0))) /\ square (n_dim p) (nth k (covs p) (mkMat 0 0 (fun _ _ => 0))).
  Proof.
    intros Hk. destruct E as [_ [_ [_ [_ F]]]]. destruct V as [_ [_ [_ [_ [V1 V2]]]]]. split.
    - assert (H : (k < length (covs p))%nat) by lia. revert H. clear -F. revert k. induction F as [|a b l l' H F IH]; intros k Hk; [cbn in Hk; lia|]. destruct k; [exact H|]. cbn. apply IH. cbn in Hk. lia.
    - rewrite Forall_forall in V2. apply (V2 (nth k (covs p) _)). apply nth_In. lia.
  Qed.
  Lemma same_diag k j : (k < n_clusters p)%nat -> (j < n_dim p)%nat ->
    get (nth k (covs p) (mkMat 0 0 (fun _ _ => 0))) j j = get (nth k (covs p') (mkMat 0 0 (fun _ _ => 0))) j j.
  Proof. intros Hk Hj. destruct (same_cov k Hk) as [[_ [_ M]] [S1 S2]]. apply M; lia. Qed.

  Lemma same_marginal_cdf j x : (j < n_dim p)%nat -> marginal_cdf p j x = marginal_cdf p' j x.
  Proof.
    intros Hj. unfold marginal_cdf, component. rewrite <- (proj1 E). f_equal. apply map_ext_in. intros k Hk. apply in_seq in Hk.
    rewrite (same_mean k j), (same_diag k j), same_prob by lia. reflexivity.
  Qed.
  Lemma same_grid j : (j < n_dim p)%nat -> ppf_grid round p 2000 5 j = ppf_grid round p' 2000 5 j.
  Proof.
    intros Hj. unfold ppf_grid, component. rewrite <- (proj1 E). apply flat_map_ext_in. intros k Hk. apply in_seq in Hk.
    rewrite (same_mean k j), (same_diag k j), same_prob by lia. reflexivity.
  Qed.
  Lemma same_ppf u : gmm_marginal_ppf round u p = gmm_marginal_ppf round u p'.
  Proof.
    unfold gmm_marginal_ppf. rewrite <- (proj1 (proj2 E)). f_equal. apply mapM_ext_in. intros j Hj. apply in_seq in Hj. apply mapM_ext_in. intros i _.
    unfold marginal_ppf. rewrite <- same_grid by lia. rewrite (map_ext (marginal_cdf p j) (marginal_cdf p' j)) by (intros; apply same_marginal_cdf; lia). reflexivity.
  Qed.
  Lemma same_ll q : nc q = n_dim p -> gmcm_log_likelihood mvn_pdf norm_pdf q p = gmcm_log_likelihood mvn_pdf norm_pdf q p'.
  Proof.
    intros Hq. unfold gmcm_log_likelihood. f_equal.
    - unfold gmm_log_likelihood, mixture, component, plain. rewrite <- (proj1 E). f_equal. apply map_ext. intros i. f_equal. apply fold_left_ext_in. intros a k Hk. apply in_seq in Hk.
      rewrite same_prob. destruct (same_cov k ltac:(lia)) as [M [S1 S2]]. rewrite (EO _ (get (means p') k) _ _ (get q i) M); [reflexivity|]. intros j Hj. apply same_mean; lia.
    - unfold gmm_log_likelihood_marginals, component. rewrite <- (proj1 E). f_equal. apply map_ext_in. intros j Hj. apply in_seq in Hj. f_equal. apply map_ext. intros i. f_equal. apply fold_left_ext_in.
      intros a k Hk. apply in_seq in Hk. rewrite same_prob, (same_mean k j), (same_diag k j) by lia. reflexivity.
  Qed.
  Lemma same_loglik u : nc u = n_dim p -> log_likelihood mvn_pdf norm_pdf round u p = log_likelihood mvn_pdf norm_pdf round u p'.
  Proof.
    intros Hu. unfold log_likelihood. rewrite <- same_ppf. unfold gmm_marginal_ppf. destruct (mapM _ (seq 0 (n_dim p))) as [cols|e]; [|reflexivity].
    cbn [rmap]. rewrite same_ll by exact Hu. reflexivity.
  Qed.
End Same.

(** dividing by a sum that is 1 changes nothing *)
Lemma renormalised p : valid p -> lsum (prob p) = 1 ->
  set_prob p (map (fun x => edivide x (Fin (lsum (prob p)))) (prob p)) = (p, Ok tt).
Proof.
  intros [V1 [V2 _]] S1. rewrite S1. rewrite (map_ext _ Fin).
  - unfold set_prob, assign. rewrite (proj2 (check_prob_ok (n_clusters p) (map Fin (prob p)) (prob p))); [destruct p; reflexivity|]. auto.
  - intros x. unfold edivide. cbn. rewrite (proj2 (Reqb_false 1 0)) by lra. f_equal. field.
Qed.

Section Objective.
  Variables (eig : mat R -> list R) (cn : mat R -> mat R).
  Variables (mvn_pdf : (nat -> R) -> mat R -> (nat -> R) -> R) (norm_pdf : R -> R -> R -> R) (round : R -> Z).
  Hypothesis L : libraries eig cn.
  Notation obj := (objective eig cn mvn_pdf norm_pdf round).
  Notation ll := (log_likelihood mvn_pdf norm_pdf round).

  Lemma objective_value u m d v : obj u m d v = bind (from_vector eig cn v m d) (fun p => rmap eopp (ll u p)).
  Proof.
    unfold objective. destruct (from_vector eig cn v m d) as [p|e] eqn:F; [|reflexivity]. cbn [bind].
    destruct (from_vector_valid _ _ _ _ _ _ L F) as [V [_ [_ S1]]]. rewrite renormalised by assumption. reflexivity.
  Qed.
End Objective.
