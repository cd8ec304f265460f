(** Theorems: the expectation maximisation does not depend on the order of the observations. *)
From Coq Require Import Reals Permutation.
From Verif Require Import Base RSumLib Ext S_Matrix S_Linalg S_Rank P_Rank M_Gmc S_Gmc P_GmcEm P_Gof S_GmcAscent S_Reorder T_GmcAscent.
Local Close Scope Z_scope. Open Scope R_scope. Open Scope list_scope.

Lemma Forall2_nth_intro {A} (R0 : A -> A -> Prop) (l l' : list A) d : length l = length l' -> (forall k, (k < length l)%nat -> R0 (nth k l d) (nth k l' d)) -> Forall2 R0 l l'.
Proof.
  revert l'. induction l as [|x l IH]; intros [|y l'] H K; try discriminate; constructor; [apply (K 0%nat); cbn; lia|]. apply IH; [injection H; auto|]. intros k Hk. apply (K (S k)). cbn. lia.
Qed.
Lemma posterior_reorder pdf q p s i k : posterior pdf (reorder s q) p i k = posterior pdf q p (s i) k.
Proof. reflexivity. Qed.
(** The log-likelihoods of the mixture and of its margins. *)
Theorem C123_log_likelihood : forall pdf norm_pdf q p s, row_permutation (nr q) s ->
  gmm_log_likelihood pdf (reorder s q) p = gmm_log_likelihood pdf q p /\
  gmm_log_likelihood_marginals norm_pdf (reorder s q) p = gmm_log_likelihood_marginals norm_pdf q p /\
  gmcm_log_likelihood pdf norm_pdf (reorder s q) p = gmcm_log_likelihood pdf norm_pdf q p.
Proof.
  intros pdf norm_pdf q p s P.
  assert (K : forall f : nat -> ext, esum (map (fun i => f (s i)) (seq 0 (nr q))) = esum (map f (seq 0 (nr q)))).
  { intros f. apply esum_perm. rewrite <- (map_map s f). apply Permutation_map, row_perm_Permutation, P. }
  assert (A : gmm_log_likelihood pdf (reorder s q) p = gmm_log_likelihood pdf q p) by (unfold gmm_log_likelihood; cbn [reorder nr get]; apply (K (fun i => elog (mixture (plain pdf) p (get q i))))).
  assert (B : gmm_log_likelihood_marginals norm_pdf (reorder s q) p = gmm_log_likelihood_marginals norm_pdf q p).
  { unfold gmm_log_likelihood_marginals. cbn [reorder nr nc get]. apply map_ext. intros j.
    apply (K (fun i => elog (fold_left (fun out k => let '(w, mu, c) := component p k in eadd out (escal w (Fin (norm_pdf (get q i j) (mu j) (get c j j))))) (seq 0 (n_clusters p)) (Fin 0)))). }
  split; [exact A|]. split; [exact B|]. unfold gmcm_log_likelihood. rewrite A, B. reflexivity.
Qed.
Print Assumptions C123_log_likelihood.

(** An EM step fails for both orders or yields the same parameter. *)
Theorem C123_expectation_maximisation : forall eig cn pdf q p s, libraries eig cn -> (forall mu c x, 0 <= pdf mu c x) -> valid p -> row_permutation (nr q) s ->
  existsb (fun i => Reqb (col_sum (e_step pdf (reorder s q) p) i) 0) (seq 0 (n_clusters p)) = existsb (fun i => Reqb (col_sum (e_step pdf q p) i) 0) (seq 0 (n_clusters p)) /\
  (existsb (fun i => Reqb (col_sum (e_step pdf q p) i) 0) (seq 0 (n_clusters p)) = false ->
   exists p1 p2, m_step eig cn q (e_step pdf q p) = Ok p1 /\ m_step eig cn (reorder s q) (e_step pdf (reorder s q) p) = Ok p2 /\ same_gmc p1 p2).
Proof.
  intros eig cn pdf q p s L Hp V P.
  assert (C : forall k, col_sum (e_step pdf (reorder s q) p) k = col_sum (e_step pdf q p) k).
  { intros k. rewrite !col_sum_posterior. cbn [reorder nr]. apply (rsum_perm (nr q) s (fun i => posterior pdf q p i k) P). }
  assert (E : existsb (fun i => Reqb (col_sum (e_step pdf (reorder s q) p) i) 0) (seq 0 (n_clusters p)) = existsb (fun i => Reqb (col_sum (e_step pdf q p) i) 0) (seq 0 (n_clusters p))).
  { generalize (seq 0 (n_clusters p)). intros l. induction l as [|a l IH]; [reflexivity|]. cbn [existsb]. rewrite C, IH. reflexivity. }
  split; [exact E|]. intros N.
  destruct (em_step eig cn pdf L Hp q p V) as [[N' _]|[_ [p1 [M1 [V1 [_ [_ [A1 [A2 [A3 [A4 A5]]]]]]]]]]]; [cbn [e_step nc] in N'; congruence|].
  destruct (em_step eig cn pdf L Hp (reorder s q) p V) as [[N' _]|[_ [p2 [M2 [V2 [_ [_ [B1 [B2 [B3 [B4 B5]]]]]]]]]]]; [cbn [e_step nc] in N'; congruence|].
  exists p1, p2. split; [exact M1|]. split; [exact M2|]. cbn [reorder nr nc] in *.
  assert (T : forall F : nat -> R, rsum (nr q) (fun i => F (s i)) = rsum (nr q) F) by (intros F; apply (rsum_perm (nr q) s F P)).
  assert (U : forall k, rsum (nr q) (fun i => posterior pdf (reorder s q) p i k) = rsum (nr q) (fun i => posterior pdf q p i k)) by (intros k; apply (T (fun i => posterior pdf q p i k))).
  assert (Cn : forall k j, (k < n_clusters p)%nat -> (j < nc q)%nat -> centre p1 k j = centre p2 k j).
  { intros k j Hk Hj. destruct (A5 k Hk) as [_ [_ [X _]]]. destruct (B5 k Hk) as [_ [_ [Y _]]]. rewrite (X j Hj). rewrite (Y j Hj). cbn [reorder nr]. rewrite U. f_equal. symmetry. apply (T (fun i => posterior pdf q p i k * get q i j)). }
  split; [congruence|]. split; [congruence|].
  destruct V1 as [V11 [_ [V13 [V14 [V15 V16]]]]]. destruct V2 as [V21 [_ [V23 [V24 [V25 V26]]]]].
  split; [|split].
  - apply (nth_ext _ _ 0 0); [rewrite A3, B3; reflexivity|]. intros k Hk. rewrite A3 in Hk. destruct (A5 k Hk) as [_ [X _]]. destruct (B5 k Hk) as [_ [Y _]]. cbn [reorder nr] in Y.
    change (weight p1 k = weight p2 k). rewrite X, Y, U. f_equal. apply rsum_ext. intros i _. symmetry. apply U.
  - split; [lia|]. split; [lia|]. intros k j Hk Hj. apply Cn; lia.
  - apply (Forall2_nth_intro _ _ _ (mkMat 0 0 (fun _ _ => 0))); [rewrite A4, B4; reflexivity|]. intros k Hk. rewrite A4 in Hk. change (mat_eq (spread_of p1 k) (spread_of p2 k)).
    assert (S1 : square (n_dim p1) (spread_of p1 k)) by (rewrite Forall_forall in V16; apply V16; apply nth_In; lia).
    assert (S2 : square (n_dim p2) (spread_of p2 k)) by (rewrite Forall_forall in V26; apply V26; apply nth_In; lia).
    destruct S1 as [Q1 Q2]. destruct S2 as [Q3 Q4]. split; [lia|]. split; [lia|]. intros a b Ha Hb.
    destruct (A5 k Hk) as [_ [_ [_ X]]]. destruct (B5 k Hk) as [_ [_ [_ Y]]]. cbn [reorder nr nc get] in Y. rewrite X by lia. rewrite Y by lia. rewrite U. f_equal.
    rewrite <- (T (fun i => posterior pdf q p i k * (get q i a - centre p1 k a) * (get q i b - centre p1 k b))). apply rsum_ext. intros i _. rewrite (Cn k a), (Cn k b) by lia. reflexivity.
Qed.
Print Assumptions C123_expectation_maximisation.
(** the mixture and the points of C122_case, read backwards *)
Example C123_mixture_case : forall eig cn pdf, libraries eig cn -> documented_normal pdf -> valid pair01 /\ row_permutation (nr points02) (fun i => (1 - i)%nat) /\
  existsb (fun i => Reqb (col_sum (e_step pdf points02 pair01) i) 0) (seq 0 (n_clusters pair01)) = false /\ get (reorder (fun i => (1 - i)%nat) points02) 0 0 = 2.
Proof.
  intros eig cn pdf L Hn. destruct (C122_case eig cn pdf L Hn) as [p' [V [_ [_ [E _]]]]]. split; [exact V|]. split; [exists (fun i => (1 - i)%nat); change (nr points02) with 2%nat; intros i Hi; repeat split; lia|].
  split; [exact E|reflexivity].
Qed.
