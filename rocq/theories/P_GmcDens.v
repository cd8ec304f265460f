(** Lemmas about mixtures of densities. *)
From Verif Require Import Base RSumLib CountLib Ext S_Matrix S_Linalg M_Special M_Stats M_Linalg P_Linalg M_Gmc S_Gmc P_Gmc P_GmcMarg.
Local Close Scope Z_scope. Open Scope R_scope.

Lemma fold_mix (g : nat -> R) (h : ext -> nat -> ext) l : (forall o k, In k l -> h o k = eadd o (Fin (g k))) -> forall a, fold_left h l (Fin a) = Fin (a + lsum (map g l)).
Proof.
  induction l as [|k l IH]; intros H a; cbn; [f_equal; ring|]. rewrite (H (Fin a) k (or_introl eq_refl)). cbn [eadd]. rewrite IH by (intros o i Hi; apply H; right; exact Hi). f_equal. ring.
Qed.
Lemma mixture_plain f p x : mixture (plain f) p x = Fin (mixed p (fun mu c => f mu c x)).
Proof.
  unfold mixture, mixed. rewrite rsum_lsum. rewrite (fold_mix (fun k => weight p k * f (centre p k) (spread_of p k) x)); [f_equal; ring|]. intros o k _. reflexivity.
Qed.
Lemma mixture_logged f p x : (forall k, (k < n_clusters p)%nat -> 0 < f (centre p k) (spread_of p k) x) ->
  mixture (logged f) p x = Fin (mixed p (fun mu c => ln (f mu c x))).
Proof.
  intros H. unfold mixture, mixed. rewrite rsum_lsum. rewrite (fold_mix (fun k => weight p k * ln (f (centre p k) (spread_of p k) x))); [f_equal; ring|].
  intros o k Hk. apply in_seq in Hk. cbn [component]. unfold logged. fold (centre p k) (spread_of p k). rewrite elog_pos by (apply H; lia). reflexivity.
Qed.

(** ** Jensen's inequality for the logarithm *)
Lemma ln_below y : 0 < y -> ln y <= y - 1 /\ (y <> 1 -> ln y < y - 1).
Proof.
  intros H. destruct (Req_dec y 1) as [->|N]; [rewrite ln_1; split; [lra|intros; contradiction]|].
  assert (ln y < y - 1); [|split; [lra|auto]]. assert (L : ln y <> 0) by (intros E; apply N; apply ln_inv; [exact H|lra|rewrite ln_1; exact E]).
  pose proof (exp_ineq1 (ln y) L) as E. rewrite exp_ln in E by exact H. lra.
Qed.
Lemma jensen n (w f : nat -> R) : (forall k, (k < n)%nat -> 0 <= w k) -> rsum n w = 1 -> (forall k, (k < n)%nat -> 0 < f k) ->
  let m := rsum n (fun k => w k * f k) in
  0 < m /\ rsum n (fun k => w k * ln (f k)) <= ln m /\ ((exists k, (k < n)%nat /\ 0 < w k /\ f k <> m) -> rsum n (fun k => w k * ln (f k)) < ln m).
Proof.
  intros Hw S1 Hf m.
  assert (P : exists k, (k < n)%nat /\ 0 < w k).
  { assert (G : forall i, (forall k, (k < i)%nat -> 0 <= w k) -> 0 < rsum i w -> exists k, (k < i)%nat /\ 0 < w k).
    { induction i as [|i IH]; cbn [rsum]; intros A B; [lra|]. destruct (Rlt_dec 0 (w i)) as [Q|Q]; [exists i; auto|].
      pose proof (A i ltac:(lia)). destruct IH as [k [Hk Pk]]; [intros; apply A; lia|lra|]. exists k. auto. }
    apply G; [exact Hw|lra]. }
  assert (Pm : 0 < m).
  { unfold m. rewrite <- (rsum_zero n (fun k => w k * 0)) by (intros; ring). apply wsum_lt; assumption. }
  assert (E : ln m = rsum n (fun k => w k * ln m)) by (rewrite rsum_scal_r, S1; ring).
  assert (Z : rsum n (fun k => w k * (f k / m - 1)) = 0).
  { rewrite (rsum_ext n _ (fun k => / m * (w k * f k) - w k)) by (intros; unfold Rdiv; ring). rewrite rsum_minus, rsum_scal, S1. fold m. field. lra. }
  assert (Q : forall k, (k < n)%nat -> ln (f k) - ln m = ln (f k / m)) by (intros k Hk; unfold Rdiv; rewrite ln_mult, ln_Rinv; [ring|lra|apply Hf, Hk|apply Rinv_0_lt_compat; lra]).
  assert (L : forall k, (k < n)%nat -> w k * (ln (f k) - ln m) <= w k * (f k / m - 1)).
  { intros k Hk. apply Rmult_le_compat_l; [apply Hw, Hk|]. rewrite Q by exact Hk. apply ln_below. apply Rdiv_lt_0_compat; [apply Hf, Hk|exact Pm]. }
  split; [exact Pm|].
  assert (D : rsum n (fun k => w k * ln (f k)) - ln m = rsum n (fun k => w k * (ln (f k) - ln m))) by (rewrite E at 1; rewrite <- rsum_minus; apply rsum_ext; intros; ring).
  split.
  - assert (rsum n (fun k => w k * (ln (f k) - ln m)) <= 0) by (rewrite <- Z; apply rsum_le; exact L). lra.
  - intros [k0 [Hk0 [P0 N0]]].
    assert (0 < rsum n (fun k => w k * (f k / m - 1) - w k * (ln (f k) - ln m))).
    { apply rsum_pos; [intros k Hk; specialize (L k Hk); lra|]. exists k0. split; [exact Hk0|]. rewrite Q by exact Hk0.
      assert (f k0 / m <> 1) by (intros F; apply N0; apply (Rmult_eq_reg_r (/ m)); [rewrite Rinv_r by lra; exact F|apply Rinv_neq_0_compat; lra]).
      assert (ln (f k0 / m) < f k0 / m - 1) by (apply ln_below; [apply Rdiv_lt_0_compat; [apply Hf, Hk0|exact Pm]|assumption]). nra. }
    rewrite rsum_minus, Z in H. lra.
Qed.

(** ** Log-likelihoods *)
Lemma ln_lprod {A} (f : A -> R) l : (forall x, In x l -> 0 < f x) -> 0 < lprod (map f l) /\ ln (lprod (map f l)) = lsum (map (fun x => ln (f x)) l).
Proof.
  induction l as [|x l IH]; intros H; cbn; [split; [lra|apply ln_1]|]. destruct IH as [P E]; [intros y Hy; apply H; right; exact Hy|].
  pose proof (H x (or_introl eq_refl)). split; [apply Rmult_lt_0_compat; assumption|]. rewrite ln_mult by assumption. rewrite E. reflexivity.
Qed.
Lemma gmm_ll_fin pdf q p : (forall i, (i < nr q)%nat -> 0 < mixed p (fun mu c => pdf mu c (get q i))) ->
  gmm_log_likelihood pdf q p = Fin (ln (lprod (map (fun i => mixed p (fun mu c => pdf mu c (get q i))) (seq 0 (nr q))))).
Proof.
  intros H. unfold gmm_log_likelihood.
  rewrite (map_ext_in _ (fun i => Fin (ln (mixed p (fun mu c => pdf mu c (get q i)))))).
  - rewrite <- (map_map (fun i => ln (mixed p (fun mu c => pdf mu c (get q i)))) Fin), esum_fin. f_equal.
    symmetry. apply ln_lprod. intros i Hi. apply in_seq in Hi. apply H. lia.
  - intros i Hi. apply in_seq in Hi. rewrite mixture_plain, elog_pos by (apply H; lia). reflexivity.
Qed.
Lemma gmm_ll_marg_fin npdf q p : (forall i j, (i < nr q)%nat -> (j < nc q)%nat -> 0 < mixed p (fun mu c => npdf (get q i j) (mu j) (get c j j))) ->
  gmm_log_likelihood_marginals npdf q p = map (fun j => Fin (ln (lprod (map (fun i => mixed p (fun mu c => npdf (get q i j) (mu j) (get c j j))) (seq 0 (nr q)))))) (seq 0 (nc q)).
Proof.
  intros H. unfold gmm_log_likelihood_marginals. apply map_ext_in. intros j Hj. apply in_seq in Hj.
  rewrite (map_ext_in _ (fun i => Fin (ln (mixed p (fun mu c => npdf (get q i j) (mu j) (get c j j)))))).
  - rewrite <- (map_map (fun i => ln (mixed p (fun mu c => npdf (get q i j) (mu j) (get c j j)))) Fin), esum_fin. f_equal.
    symmetry. apply ln_lprod. intros i Hi. apply in_seq in Hi. apply H; lia.
  - intros i Hi. apply in_seq in Hi.
    rewrite (fold_mix (fun k => weight p k * npdf (get q i j) (centre p k j) (get (spread_of p k) j j))) by (intros o k _; reflexivity).
    rewrite Rplus_0_l, <- rsum_lsum. specialize (H i j ltac:(lia) ltac:(lia)). unfold mixed in H. rewrite elog_pos by exact H. reflexivity.
Qed.
Lemma lprod_pos {A} (f : A -> R) l : (forall x, In x l -> 0 < f x) -> 0 < lprod (map f l).
Proof. intros H. apply (ln_lprod f l H). Qed.
Lemma lprod_div {A} (f g : A -> R) l : (forall x, In x l -> 0 < g x) -> lprod (map (fun x => f x / g x) l) = lprod (map f l) / lprod (map g l).
Proof.
  induction l as [|x l IH]; intros H; cbn; [field|]. rewrite IH by (intros y Hy; apply H; right; exact Hy).
  pose proof (H x (or_introl eq_refl)). pose proof (lprod_pos g l (fun y Hy => H y (or_intror Hy))). field. lra.
Qed.
Lemma lprod_swap {A B} (f : A -> B -> R) l l' : lprod (map (fun x => lprod (map (f x) l')) l) = lprod (map (fun y => lprod (map (fun x => f x y) l)) l').
Proof.
  induction l as [|x l IH]; cbn.
  - induction l' as [|y l' IH]; cbn; [reflexivity|]. rewrite <- IH. ring.
  - rewrite IH. clear IH. induction l' as [|y l' IH]; cbn; [ring|]. rewrite <- IH. ring.
Qed.
Lemma gmcm_ll pdf npdf q p : (forall i, (i < nr q)%nat -> 0 < mixed p (fun mu c => pdf mu c (get q i))) ->
  (forall i j, (i < nr q)%nat -> (j < nc q)%nat -> 0 < mixed p (fun mu c => npdf (get q i j) (mu j) (get c j j))) ->
  exists l, gmcm_log_likelihood pdf npdf q p = Fin l /\
    exp l = lprod (map (fun i => mixed p (fun mu c => pdf mu c (get q i)) / lprod (map (fun j => mixed p (fun mu c => npdf (get q i j) (mu j) (get c j j))) (seq 0 (nc q)))) (seq 0 (nr q))).
Proof.
  intros H1 H2. unfold gmcm_log_likelihood. rewrite gmm_ll_fin by exact H1. rewrite gmm_ll_marg_fin by exact H2.
  rewrite <- (map_map (fun j => ln (lprod (map (fun i => mixed p (fun mu c => npdf (get q i j) (mu j) (get c j j))) (seq 0 (nr q))))) Fin), esum_fin.
  cbn [esub eopp eadd]. eexists. split; [reflexivity|].
  assert (P1 : 0 < lprod (map (fun i => mixed p (fun mu c => pdf mu c (get q i))) (seq 0 (nr q)))) by (apply lprod_pos; intros i Hi; apply in_seq in Hi; apply H1; lia).
  assert (P2 : forall j, In j (seq 0 (nc q)) -> 0 < lprod (map (fun i => mixed p (fun mu c => npdf (get q i j) (mu j) (get c j j))) (seq 0 (nr q)))).
  { intros j Hj. apply in_seq in Hj. apply lprod_pos. intros i Hi. apply in_seq in Hi. apply H2; lia. }
  destruct (ln_lprod _ _ P2) as [P3 E3]. rewrite <- E3. rewrite exp_plus, exp_Ropp, !exp_ln by assumption.
  rewrite lprod_div.
  - rewrite (lprod_swap (fun i j => mixed p (fun mu c => npdf (get q i j) (mu j) (get c j j)))). reflexivity.
  - intros i Hi. apply in_seq in Hi. apply lprod_pos. intros j Hj. apply in_seq in Hj. apply H2; lia.
Qed.
