(** Theorems about the log-likelihood along the expectation maximisation. *)
From Coq Require Import Reals Classical.
From Verif Require Import Base RSumLib Ext S_Matrix S_Linalg M_Gmc S_Gmc P_GmcDens P_GmcEm P_GmcFit T_Gmc S_GmcAscent P_GmcAscent.
Local Close Scope Z_scope. Open Scope R_scope. Open Scope list_scope.

Lemma lsum_prob p : length (prob p) = n_clusters p -> lsum (prob p) = rsum (n_clusters p) (weight p).
Proof.
  intros H. rewrite rsum_lsum, <- H. f_equal. clear H. unfold weight. generalize (prob p). intros l.
  induction l as [|x l IH]; [reflexivity|]. cbn [length seq map nth]. f_equal. rewrite <- seq_shift, map_map. cbn. exact IH.
Qed.
Lemma weight_nonneg p k : valid p -> (k < n_clusters p)%nat -> 0 <= weight p k.
Proof. intros [V1 [[V2 _] _]] Hk. rewrite Forall_forall in V2. apply V2. apply nth_In. lia. Qed.
Lemma mixed_pos pdf p x : documented_normal pdf -> valid p -> (forall k, (k < n_clusters p)%nat -> positive_definite (n_dim p) (spread_of p k)) ->
  0 < mixed p (fun mu c => pdf mu c x).
Proof.
  intros Hn V P. unfold mixed. apply rsum_pos.
  - intros k Hk. apply Rmult_le_pos; [apply weight_nonneg; assumption|]. left. apply (normal_pos pdf (n_dim p)); [exact Hn|apply P; exact Hk].
  - destruct (classic (exists k, (k < n_clusters p)%nat /\ 0 < weight p k)) as [[k [Hk Pk]]|N].
    + exists k. split; [exact Hk|]. apply Rmult_lt_0_compat; [exact Pk|]. apply (normal_pos pdf (n_dim p)); [exact Hn|apply P; exact Hk].
    + exfalso. destruct V as [V1 [V2 V3]]. pose proof (proj2 V2) as S1. rewrite lsum_prob in S1 by exact V1. rewrite rsum_zero in S1.
      * rewrite Rminus_0_l, Rabs_Ropp, Rabs_R1 in S1. lra.
      * intros k Hk. pose proof (weight_nonneg p k (conj V1 (conj V2 V3)) Hk) as W. destruct (Rle_lt_or_eq_dec _ _ W) as [C|C]; [|lra]. exfalso. apply N. exists k. split; assumption.
Qed.
Lemma update_ascent pdf q p p' : documented_normal pdf -> valid p -> n_dim p = nc q -> em_update pdf q p p' ->
  (forall k, (k < n_clusters p)%nat -> positive_definite (nc q) (spread_of p k)) ->
  (forall k, (k < n_clusters p)%nat -> positive_definite (nc q) (spread_of p' k)) ->
  (forall i, (i < nr q)%nat -> 0 < mixed p' (fun mu c => pdf mu c (get q i))) /\
  log_likelihood pdf q p + INR (nr q) * (1 - lsum (prob p)) <= log_likelihood pdf q p'.
Proof.
  intros Hn V Hd U P P'. destruct U as [U1 [U2 [U3 [U4 U]]]].
  assert (HD : forall i, (i < nr q)%nat -> 0 < rsum (n_clusters p) (fun k => weight p k * pdf (centre p k) (spread_of p k) (get q i))).
  { intros i _. apply (mixed_pos pdf p (get q i) Hn V). rewrite Hd. exact P. }
  assert (Hk : forall i k, (i < nr q)%nat -> (k < n_clusters p)%nat -> posterior pdf q p i k = weight p k * pdf (centre p k) (spread_of p k) (get q i) / rsum (n_clusters p) (fun k => weight p k * pdf (centre p k) (spread_of p k) (get q i))).
  { intros i k Hi _. unfold posterior. specialize (HD i Hi). destruct (Reqb _ 0) eqn:E; [apply Reqb_true in E; lra|reflexivity]. }
  destruct (mixture_ascent (nr q) (n_clusters p) (weight p) (weight p') (fun i k => pdf (centre p k) (spread_of p k) (get q i))
    (fun i k => pdf (centre p' k) (spread_of p' k) (get q i)) (posterior pdf q p)) as [A B].
  - intros k Hk'. apply weight_nonneg; assumption.
  - intros i k _ Hk'. apply (normal_pos pdf (nc q)); [exact Hn|apply P; exact Hk'].
  - intros i k _ Hk'. apply (normal_pos pdf (nc q)); [exact Hn|apply P'; exact Hk'].
  - exact HD.
  - exact Hk.
  - intros k Hk'. apply (U k Hk').
  - intros k Hk'. apply (U k Hk').
  - intros k Hk'. destruct (U k Hk') as [N [_ [M C]]].
    assert (PN : 0 < rsum (nr q) (fun i => posterior pdf q p i k)).
    { pose proof (rsum_nonneg (nr q) (fun i => posterior pdf q p i k) (fun i _ => posterior_nonneg pdf (proj1 Hn) q p i k V)). lra. }
    exact (comp_ascent pdf (nc q) (nr q) (fun i => posterior pdf q p i k) (get q) (centre p k) (spread_of p k) (centre p' k) (spread_of p' k) Hn (P k Hk') (P' k Hk') PN M C).
  - exact (valid_clusters p V).
  - split.
    + intros i Hi. unfold mixed. rewrite U1. apply A, Hi.
    + unfold log_likelihood, mixed. rewrite U1. rewrite lsum_prob by apply V. exact B.
Qed.
Lemma ll_fin pdf q p : (forall i, (i < nr q)%nat -> 0 < mixed p (fun mu c => pdf mu c (get q i))) -> gmm_log_likelihood pdf q p = Fin (log_likelihood pdf q p).
Proof.
  intros H. rewrite gmm_ll_fin by exact H. f_equal. unfold log_likelihood. rewrite rsum_lsum. apply ln_lprod. intros i Hi. apply in_seq in Hi. apply H. lia.
Qed.

(** One step at quantiles q: unless a component has no posterior mass (then the code raises), the M-step succeeds, and the
    log-likelihood that the code computes at q does not fall, but for what the old weights exceed 1. *)
Theorem C122_ascent : forall eig cn pdf q p p', libraries eig cn -> documented_normal pdf -> valid p -> n_dim p = nc q ->
  (forall k, (k < n_clusters p)%nat -> positive_definite (nc q) (spread_of p k)) ->
  existsb (fun i => Reqb (col_sum (e_step pdf q p) i) 0) (seq 0 (nc (e_step pdf q p))) = false ->
  m_step eig cn q (e_step pdf q p) = Ok p' ->
  (forall k, (k < n_clusters p)%nat -> positive_definite (nc q) (spread_of p' k)) ->
  exists a a', gmm_log_likelihood pdf q p = Fin a /\ gmm_log_likelihood pdf q p' = Fin a'
    /\ a = rsum (nr q) (fun i => ln (mixed p (fun mu c => pdf mu c (get q i)))) /\ a' = rsum (nr q) (fun i => ln (mixed p' (fun mu c => pdf mu c (get q i))))
    /\ a + INR (nr q) * (1 - lsum (prob p)) <= a' /\ (lsum (prob p) <= 1 -> a <= a').
Proof.
  intros eig cn pdf q p p' L Hn V Hd P E M P'. destruct (em_step eig cn pdf L (proj1 Hn) q p V) as [[E' _]|[_ [p0 [M0 [_ [_ [_ U]]]]]]]; [congruence|].
  assert (p0 = p') by congruence. subst p0. destruct (update_ascent pdf q p p' Hn V Hd U P P') as [A B].
  exists (log_likelihood pdf q p), (log_likelihood pdf q p'). split; [apply ll_fin; intros i _; apply mixed_pos; [exact Hn|exact V|rewrite Hd; exact P]|].
  split; [apply ll_fin; exact A|]. split; [reflexivity|]. split; [reflexivity|]. split; [exact B|]. intros Hs. pose proof (pos_INR (nr q)). nra.
Qed.
Print Assumptions C122_ascent.
(** The whole run: with quantiles of the shape of the data, each parameter is at least as likely as its predecessor at the
    predecessor's quantiles; the parameters after the first have weights that add up to 1 exactly. *)
Theorem C122_run : forall eig cn pdf ppf gmm_ll gmcm_ll u p max_iter criteria eps best conv ll,
  libraries eig cn -> documented_normal pdf -> valid p -> n_dim p = nc u -> (forall p q, ppf u p = Ok q -> nc q = nc u) ->
  expectation_maximization eig cn pdf ppf gmm_ll gmcm_ll u p max_iter criteria eps = Ok (best, conv, ll) ->
  exists ps, In best (p :: ps) /\ (0 < length ps <= max_iter)%nat /\
    forall i a b, nth_error (p :: ps) i = Some a -> nth_error ps i = Some b ->
      (forall k, (k < n_clusters p)%nat -> positive_definite (nc u) (spread_of a k)) ->
      (forall k, (k < n_clusters p)%nat -> positive_definite (nc u) (spread_of b k)) ->
      exists q, ppf u a = Ok q
        /\ log_likelihood pdf q a + INR (nr q) * (1 - lsum (prob a)) <= log_likelihood pdf q b
        /\ ((0 < i)%nat -> log_likelihood pdf q a <= log_likelihood pdf q b).
Proof.
  intros eig cn pdf ppf gmm_ll gmcm_ll u p max_iter criteria eps best conv ll L Hn V Hd Hq H.
  destruct (C65_run eig cn pdf ppf gmm_ll gmcm_ll u p max_iter criteria eps best conv ll L (proj1 Hn) V H) as [ps [T [Le [Fv [I _]]]]].
  exists ps. split; [exact I|]. split; [exact Le|]. clear I Le H.
  assert (G : forall p0, valid p0 -> n_dim p0 = nc u -> n_clusters p0 = n_clusters p -> trajectory pdf ppf u p0 ps ->
    forall i a b, nth_error (p0 :: ps) i = Some a -> nth_error ps i = Some b ->
      (forall k, (k < n_clusters p)%nat -> positive_definite (nc u) (spread_of a k)) ->
      (forall k, (k < n_clusters p)%nat -> positive_definite (nc u) (spread_of b k)) ->
      exists q, ppf u a = Ok q
        /\ log_likelihood pdf q a + INR (nr q) * (1 - lsum (prob a)) <= log_likelihood pdf q b
        /\ ((0 < i)%nat -> log_likelihood pdf q a <= log_likelihood pdf q b)).
  { clear T. induction ps as [|p1 ps IH]; intros p0 V0 D0 N0 T [|i] a b Ea Eb Pa Pb; cbn [nth_error] in Ea, Eb; try discriminate.
    - injection Ea as <-. injection Eb as <-. destruct T as [[q [Eq U]] _]. exists q. split; [exact Eq|]. rewrite <- (Hq _ _ Eq) in Pa, Pb, D0. rewrite <- N0 in Pa, Pb.
      split; [apply (update_ascent pdf q p0 p1 Hn V0 D0 U Pa Pb)|lia].
    - inversion Fv as [|? ? [V1 [S1 C1]] Fv']; subst. destruct T as [[q [Eq U]] T].
      assert (D1 : n_dim p1 = nc u) by (rewrite <- (Hq _ _ Eq); apply U). assert (N1 : n_clusters p1 = n_clusters p) by (rewrite <- N0; apply U).
      destruct (IH Fv' p1 V1 D1 N1 T i a b Ea Eb Pa Pb) as [q' [Eq' [A B]]]. exists q'. split; [exact Eq'|]. split; [exact A|].
      intros _. destruct i as [|i]; [|apply B; lia]. cbn [nth_error] in Ea. injection Ea as <-. rewrite S1 in A. lra. }
  exact (G p V Hd eq_refl T).
Qed.
Print Assumptions C122_run.

(** The density exists.  Two normal components around 0 and 2 and the points 0 and 2 meet the hypotheses. *)
Example C122_normal_case : exists pdf, documented_normal pdf.
Proof. exact documented_normal_exists. Qed.
Definition unit1 : mat R := mkMat 1 1 (fun _ _ => 1).
Definition pair01 : gmc := mkGmc 2 1 [1 / 2; 1 / 2] (mkMat 2 1 (fun k _ => if Nat.eqb k 0 then 0 else 2)) [unit1; unit1].
Definition points02 : mat R := mkMat 2 1 (fun i _ => if Nat.eqb i 0 then 0 else 2).
Lemma pd1 c : square 1 c -> 0 < get c O O -> positive_definite 1 c.
Proof.
  intros Sq H. split; [exact Sq|]. split.
  - destruct Sq as [S1 _]. intros i j Hi Hj. rewrite S1 in *. replace i with O by lia. replace j with O by lia. reflexivity.
  - intros x [i [Hi N]]. replace i with O in N by lia. unfold quad. cbn [rsum]. assert (0 < x O * x O) by nra. nra.
Qed.
Example C122_case : forall eig cn pdf, libraries eig cn -> documented_normal pdf -> exists p',
  valid pair01 /\ n_dim pair01 = nc points02 /\ (forall k, (k < n_clusters pair01)%nat -> positive_definite (nc points02) (spread_of pair01 k)) /\
  existsb (fun i => Reqb (col_sum (e_step pdf points02 pair01) i) 0) (seq 0 (nc (e_step pdf points02 pair01))) = false /\
  m_step eig cn points02 (e_step pdf points02 pair01) = Ok p' /\ (forall k, (k < n_clusters pair01)%nat -> positive_definite (nc points02) (spread_of p' k)).
Proof.
  intros eig cn pdf L Hn. assert (P1 : positive_definite 1 unit1) by (apply pd1; [split; reflexivity|cbn; lra]).
  assert (PP : forall k, (k < n_clusters pair01)%nat -> positive_definite (nc points02) (spread_of pair01 k)).
  { intros [|[|k]] Hk; cbn in Hk |- *; try exact P1. lia. }
  assert (V : valid pair01).
  { split; [reflexivity|]. split; [split; [cbn [prob pair01]; fall; lra|cbn; replace (1 / 2 + (1 / 2 + 0) - 1) with 0 by field; rewrite Rabs_R0; lra]|].
    split; [reflexivity|]. split; [reflexivity|]. split; [reflexivity|].
    assert (A1 : almost_psd 1 unit1).
    { split; [split; reflexivity|]. split; [intros i j _ _; cbn; rewrite Rminus_diag_eq, Rabs_R0, Rabs_R1 by reflexivity; lra|].
      intros x. unfold norm2, quad, lower_sym. cbn. pose proof (Rle_0_sqr (x O)) as Q. unfold Rsqr in Q. nra. }
    cbn [covs n_dim pair01]; fall; exact A1. }
  assert (K : forall i k, (k < 2)%nat -> 0 < posterior pdf points02 pair01 i k).
  { intros i k Hk. unfold posterior. pose proof (mixed_pos pdf pair01 (get points02 i) Hn V PP) as M. unfold mixed in M.
    destruct (Reqb _ 0) eqn:E; [apply Reqb_true in E; lra|]. apply Rdiv_lt_0_compat; [|exact M].
    apply Rmult_lt_0_compat; [destruct k as [|[|k]]; cbn; lra || lia|]. apply (normal_pos pdf 1); [exact Hn|]. destruct k as [|[|k]]; cbn; try exact P1. lia. }
  destruct (em_step eig cn pdf L (proj1 Hn) points02 pair01 V) as [[_ [k [Hk Z]]]|[E [p' [M [V' [_ [C U]]]]]]].
  - exfalso. cbn in Hk. specialize (K O k Hk). rewrite (Z O) in K by (cbn; lia). lra.
  - exists p'. split; [exact V|]. split; [reflexivity|]. split; [exact PP|]. split; [exact E|]. split; [exact M|].
    intros k Hk. destruct U as [U1 [U2 [U3 [U4 U]]]]. destruct (U k Hk) as [N [_ [Hm Hc]]].
    apply pd1.
    + rewrite Forall_forall in C. rewrite <- (U2 : n_dim p' = 1%nat). apply C. apply nth_In. rewrite U4. exact Hk.
    + rewrite (Hc O O) by (cbn; lia). cbn in Hk. pose proof (K O k Hk) as K0. pose proof (K 1%nat k Hk) as K1. cbn [rsum nr points02 get] in *. cbn [Nat.eqb].
      set (m := centre p' k O). apply Rdiv_lt_0_compat; [|lra]. rewrite Rplus_0_l.
      set (a := posterior pdf points02 pair01 0 k) in *. set (b := posterior pdf points02 pair01 1 k) in *.
      match goal with |- 0 < ?e => replace e with (a * (m * m) + b * ((2 - m) * (2 - m))) by ring end.
      pose proof (Rle_0_sqr m) as Q1. pose proof (Rle_0_sqr (2 - m)) as Q2. unfold Rsqr in Q1, Q2.
      destruct (Req_dec m 0) as [Z|Nm]; [rewrite Z; lra|]. pose proof (Rmult_lt_0_compat _ _ K0 (Rlt_0_sqr m Nm)) as Q. unfold Rsqr in Q.
      pose proof (Rmult_le_pos b _ (Rlt_le _ _ K1) Q2). lra.
Qed.
