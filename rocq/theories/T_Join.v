(** Theorems: two samples taken together. *)
From Coq Require Import Reals Lra Lia.
From Verif Require Import Base RSumLib Ext S_Matrix S_Linalg M_Special M_Empirical P_Empirical M_Gmc S_Gmc P_Gmc P_GmcEm P_GmcDens S_Sgd T_Relabel T_Repeat S_Join.
Local Close Scope Z_scope. Open Scope R_scope. Open Scope list_scope.

Lemma upper {A} (m m' : mat A) i : (i < nr m)%nat -> get (joined m m') i = (fun j => get m i j).
Proof. intros H. cbn [joined get]. rewrite (proj2 (Nat.ltb_lt _ _) H). reflexivity. Qed.
Lemma lower_ {A} (m m' : mat A) i : get (joined m m') (nr m + i)%nat = (fun j => get m' i j).
Proof. cbn [joined get]. rewrite (proj2 (Nat.ltb_ge _ _)) by lia. replace (nr m + i - nr m)%nat with i by lia. reflexivity. Qed.
Lemma rsum_joined {A} (m m' : mat A) (F : (nat -> A) -> R) : rsum (nr (joined m m')) (fun i => F (get (joined m m') i)) = rsum (nr m) (fun i => F (get m i)) + rsum (nr m') (fun i => F (get m' i)).
Proof.
  change (nr (joined m m')) with (nr m + nr m')%nat. rewrite rsum_join. f_equal; apply rsum_ext; intros i Hi; [rewrite upper by exact Hi|rewrite lower_]; reflexivity.
Qed.

(** The empirical distribution function without smoothing is the weighted average of those of the samples. *)
Theorem C138_empirical : forall btdtr (x y y' : mat R) s l l', nc y' = nc y -> (0 < nr y)%nat -> (0 < nr y')%nat -> map_smoothing s = Ok 0%nat ->
  emp_dist_func btdtr x y s 0 = Ok l -> emp_dist_func btdtr x y' s 0 = Ok l' ->
  exists l'', emp_dist_func btdtr x (joined y y') s 0 = Ok l'' /\
    forall k, (k < nr x)%nat -> exists a b, nth k l Nan = Fin a /\ nth k l' Nan = Fin b /\ nth k l'' Nan = Fin ((INR (nr y) * a + INR (nr y') * b) / INR (nr y + nr y')).
Proof.
  intros btdtr x y y' s l l' E2 Hy Hy' Hs H H'. unfold emp_dist_func in *. rewrite Hs in *. cbn [bind] in *. rewrite E2 in H'. change (nc (joined y y')) with (nc y).
  destruct (Nat.eqb_spec (nc x) (nc y)) as [Ec|]; [|discriminate]. cbn [negb] in *. injection H as <-. injection H' as <-. eexists. split; [reflexivity|]. intros k Hk. unfold emp_copula_dist.
  assert (P : 0 < INR (nr y)) by (apply lt_0_INR, Hy). assert (P' : 0 < INR (nr y')) by (apply lt_0_INR, Hy').
  set (term := fun (r : nat -> R) => lprod (map (fun j => emp_cop (r j) (get x k j) 0) (seq 0 (nc x)))).
  assert (V : forall z, (0 < nr z)%nat -> nth k (map (fun i => emp_dist_row (ravelF x) (ravelF z) (nr x) (nr z) (nc x) i 0 emp_cop) (seq 0 (nr x))) Nan = Fin (rsum (nr z) (fun i => term (get z i)) / INR (nr z))).
  { intros z Hz. apply lt_0_INR in Hz. set (g := fun i => emp_dist_row (ravelF x) (ravelF z) (nr x) (nr z) (nc x) i 0 emp_cop). rewrite (nth_indep _ Nan (g 0%nat)) by (rewrite map_length, seq_length; exact Hk).
    rewrite map_nth, seq_nth by exact Hk. cbn [Nat.add]. unfold g. rewrite emp_dist_row_eq by (lra || exact Hk). rewrite Rplus_0_r. reflexivity. }
  rewrite (V y Hy), (V y' Hy'), (V (joined y y') ltac:(cbn; lia)). eexists. eexists. split; [reflexivity|]. split; [reflexivity|]. rewrite (rsum_joined y y' term). change (nr (joined y y')) with (nr y + nr y')%nat. rewrite plus_INR. f_equal. field. repeat split; lra.
Qed.
Print Assumptions C138_empirical.

(** The log-likelihoods of a mixture are added. *)
Theorem C138_log_likelihood : forall pdf q q' p a b, gmm_log_likelihood pdf q p = Fin a -> gmm_log_likelihood pdf q' p = Fin b -> gmm_log_likelihood pdf (joined q q') p = Fin (a + b).
Proof.
  intros pdf q q' p a b H H'. unfold gmm_log_likelihood in *. change (nr (joined q q')) with (nr q + nr q')%nat. rewrite seq_app, map_app. apply esum_join.
  - rewrite <- H. f_equal. apply map_ext_in. intros i Hi. apply in_seq in Hi. rewrite upper by lia. reflexivity.
  - rewrite <- H'. f_equal. rewrite Nat.add_0_l, seq_shift_map, map_map. apply map_ext. intros i. rewrite lower_. reflexivity.
Qed.
Print Assumptions C138_log_likelihood.

Lemma about_other_point n (r x y : nat -> R) mx my s t : rsum n r * mx = rsum n (fun i => r i * x i) -> rsum n r * my = rsum n (fun i => r i * y i) ->
  rsum n (fun i => r i * (x i - s) * (y i - t)) = rsum n (fun i => r i * (x i - mx) * (y i - my)) + rsum n r * (mx - s) * (my - t).
Proof.
  intros Hx Hy.
  rewrite (rsum_ext n _ (fun i => r i * (x i - mx) * (y i - my) + ((my - t) * (r i * x i) + ((mx - s) * (r i * y i) + ((mx - s) * (my - t) - mx * (my - t) - my * (mx - s)) * r i)))) by (intros i _; ring).
  rewrite !rsum_plus, !rsum_scal, <- Hx, <- Hy. ring.
Qed.

(** A step of the expectation maximisation: the sums of the responsibilities say how much each sample contributes to the weights and means; the covariances are put together
    from those of the samples and the distances of the means. *)
Theorem C138_step : forall p pdf eig cn q q' p1 p2, libraries eig cn -> (forall mu c x, 0 <= pdf mu c x) -> valid p -> nc q' = nc q ->
  let n k := col_sum (e_step pdf q p) k in let n' k := col_sum (e_step pdf q' p) k in
  (forall k, (k < n_clusters p)%nat -> n k <> 0 /\ n' k <> 0) ->
  m_step eig cn q (e_step pdf q p) = Ok p1 -> m_step eig cn q' (e_step pdf q' p) = Ok p2 ->
  exists p3, m_step eig cn (joined q q') (e_step pdf (joined q q') p) = Ok p3 /\ n_clusters p3 = n_clusters p /\ n_dim p3 = nc q /\
    forall k, (k < n_clusters p)%nat ->
      (rsum (n_clusters p) n + rsum (n_clusters p) n') * weight p3 k = rsum (n_clusters p) n * weight p1 k + rsum (n_clusters p) n' * weight p2 k /\
      (forall j, (j < nc q)%nat -> (n k + n' k) * centre p3 k j = n k * centre p1 k j + n' k * centre p2 k j) /\
      (forall a b, (a < nc q)%nat -> (b < nc q)%nat -> (n k + n' k) * get (spread_of p3 k) a b =
         n k * (get (spread_of p1 k) a b + (centre p1 k a - centre p3 k a) * (centre p1 k b - centre p3 k b)) +
         n' k * (get (spread_of p2 k) a b + (centre p2 k a - centre p3 k a) * (centre p2 k b - centre p3 k b))).
Proof.
  intros p pdf eig cn q q' p1 p2 Lb Np V Ec n n' Hn M1 M2. set (J := joined q q').
  assert (Pn : forall z k, 0 <= rsum (nr z) (fun i => posterior pdf z p i k)) by (intros z k; apply rsum_nonneg; intros i _; apply posterior_nonneg; assumption).
  assert (Q : forall (z : mat R) k, col_sum (e_step pdf z p) k = rsum (nr z) (fun i => posterior pdf z p i k)) by (intros; apply col_sum_posterior).
  set (post := fun (r : nat -> R) k => let f k := weight p k * pdf (centre p k) (spread_of p k) r in if Reqb (rsum (n_clusters p) f) 0 then 0 else f k / rsum (n_clusters p) f).
  assert (N : forall k, rsum (nr J) (fun i => posterior pdf J p i k) = n k + n' k).
  { intros k. unfold n, n'. rewrite !Q. exact (rsum_joined q q' (fun r => post r k)). }
  assert (Ns : forall z, (forall k, (k < n_clusters p)%nat -> col_sum (e_step pdf z p) k <> 0) -> existsb (fun i => Reqb (col_sum (e_step pdf z p) i) 0) (seq 0 (nc (e_step pdf z p))) = true -> False).
  { intros z Hz X. apply existsb_exists in X. destruct X as [k [Ik Z]]. apply in_seq in Ik. cbn [e_step nc] in Ik. apply Reqb_true in Z. apply (Hz k); [lia|exact Z]. }
  destruct (em_step eig cn pdf Lb Np q p V) as [[X _]|[_ [r1 [R1 [_ [_ [_ U1]]]]]]]; [exfalso; apply (Ns q); [intros k Hk; apply Hn, Hk|exact X]|].
  destruct (em_step eig cn pdf Lb Np q' p V) as [[X _]|[_ [r2 [R2 [_ [_ [_ U2]]]]]]]; [exfalso; apply (Ns q'); [intros k Hk; apply Hn, Hk|exact X]|].
  assert (E1 : r1 = p1) by congruence. assert (E2 : r2 = p2) by congruence. subst r1 r2.
  assert (Ps : forall k, (k < n_clusters p)%nat -> 0 < n k /\ 0 < n' k).
  { intros k Hk. destruct (Hn k Hk) as [Z1 Z2]. unfold n, n' in *. pose proof (Pn q k). pose proof (Pn q' k). rewrite !Q in *. lra. }
  destruct (em_step eig cn pdf Lb Np J p V) as [[X _]|[_ [p3 [M3 [_ [_ [_ U3]]]]]]].
  { exfalso. apply (Ns J); [|exact X]. intros k Hk. rewrite Q, N. destruct (Ps k Hk). lra. }
  exists p3. split; [exact M3|]. destruct U1 as [_ [_ [_ [_ A]]]]. destruct U2 as [_ [_ [_ [_ B]]]]. destruct U3 as [C1 [C2 [_ [_ C]]]]. split; [exact C1|]. split; [exact C2|]. change (nc J) with (nc q) in C. rewrite Ec in B.
  intros k Hk. destruct (Ps k Hk) as [P1 P2]. destruct (A k Hk) as [_ [Aw [Ac As]]]. destruct (B k Hk) as [_ [Bw [Bc Bs]]]. destruct (C k Hk) as [_ [Cw [Cc Cs]]]. rewrite N in Cw, Cc, Cs.
  assert (Na : rsum (nr q) (fun i => posterior pdf q p i k) = n k) by (symmetry; apply Q). assert (Nb : rsum (nr q') (fun i => posterior pdf q' p i k) = n' k) by (symmetry; apply Q). rewrite Na in Aw, Ac, As. rewrite Nb in Bw, Bc, Bs.
  assert (Ta : rsum (n_clusters p) (fun k => rsum (nr q) (fun i => posterior pdf q p i k)) = rsum (n_clusters p) n) by (apply rsum_ext; intros c _; symmetry; apply Q).
  assert (Tb : rsum (n_clusters p) (fun k => rsum (nr q') (fun i => posterior pdf q' p i k)) = rsum (n_clusters p) n') by (apply rsum_ext; intros c _; symmetry; apply Q).
  assert (Tc : rsum (n_clusters p) (fun k => rsum (nr J) (fun i => posterior pdf J p i k)) = rsum (n_clusters p) n + rsum (n_clusters p) n') by (rewrite <- rsum_plus; apply rsum_ext; intros c _; apply N).
  rewrite Ta in Aw. rewrite Tb in Bw. rewrite Tc in Cw.
  assert (0 < rsum (n_clusters p) n) by (apply rsum_pos; [intros c Hc; left; apply Ps, Hc|exists k; auto]).
  assert (0 < rsum (n_clusters p) n') by (apply rsum_pos; [intros c Hc; left; apply Ps, Hc|exists k; auto]).
  split; [rewrite Aw, Bw, Cw; field; repeat split; lra|].
  assert (Sa : forall j, (j < nc q)%nat -> n k * centre p1 k j = rsum (nr q) (fun i => posterior pdf q p i k * get q i j)) by (intros j Hj; rewrite (Ac j Hj); field; lra).
  assert (Sb : forall j, (j < nc q)%nat -> n' k * centre p2 k j = rsum (nr q') (fun i => posterior pdf q' p i k * get q' i j)) by (intros j Hj; rewrite (Bc j Hj); field; lra).
  split.
  - intros j Hj. rewrite (Sa j Hj), (Sb j Hj), (Cc j Hj). transitivity (rsum (nr J) (fun i => posterior pdf J p i k * get J i j)); [field; lra|]. exact (rsum_joined q q' (fun r => post r k * r j)).
  - intros a b Ha Hb. rewrite (Cs a b Ha Hb), (As a b Ha Hb), (Bs a b Ha Hb).
    transitivity (rsum (nr J) (fun i => posterior pdf J p i k * (get J i a - centre p3 k a) * (get J i b - centre p3 k b))); [field; lra|].
    transitivity (rsum (nr q) (fun i => posterior pdf q p i k * (get q i a - centre p3 k a) * (get q i b - centre p3 k b)) + rsum (nr q') (fun i => posterior pdf q' p i k * (get q' i a - centre p3 k a) * (get q' i b - centre p3 k b))).
    { exact (rsum_joined q q' (fun r => post r k * (r a - centre p3 k a) * (r b - centre p3 k b))). }
    rewrite (about_other_point (nr q) (fun i => posterior pdf q p i k) (fun i => get q i a) (fun i => get q i b) (centre p1 k a) (centre p1 k b)) by (rewrite Na; apply Sa; assumption).
    rewrite (about_other_point (nr q') (fun i => posterior pdf q' p i k) (fun i => get q' i a) (fun i => get q' i b) (centre p2 k a) (centre p2 k b)) by (rewrite Nb; apply Sb; assumption).
    rewrite Na, Nb. field. lra.
Qed.
Print Assumptions C138_step.
(** The observations 0 and 2, one component: the samples have means 0 and 2 and no spread, together they have mean 1 and variance 1. *)
Example C138_case : forall eig cn, libraries eig cn -> let p := mkGmc 1 1 [1] (mkMat 1 1 (fun _ _ => 5)) [mkMat 1 1 (fun _ _ => 1)] in
  let pdf := fun (_ : nat -> R) (_ : mat R) (_ : nat -> R) => 1 in let q := mkMat 1 1 (fun _ _ => 0) in let q' := mkMat 1 1 (fun _ _ => 2) in
  exists p1 p2 p3, m_step eig cn q (e_step pdf q p) = Ok p1 /\ m_step eig cn q' (e_step pdf q' p) = Ok p2 /\
    m_step eig cn (joined q q') (e_step pdf (joined q q') p) = Ok p3 /\ centre p1 0 0 = 0 /\ centre p2 0 0 = 2 /\ centre p3 0 0 = 1 /\ get (spread_of p3 0) 0 0 = 1.
Proof.
  intros eig cn Lb p pdf q q'.
  assert (V : valid p).
  { assert (S1 : almost_psd 1 (mkMat 1 1 (fun _ _ => 1))).
    { apply covariance_almost. split; [split; reflexivity|]. split; [intros i j _ _; reflexivity|]. intros x. unfold quad. cbn. nra. }
    unfold valid. cbn. split; [reflexivity|]. split; [apply weights_exact; [repeat constructor; lra|cbn; lra]|]. repeat (split; [reflexivity|]). repeat (apply Forall_cons; [exact S1|]); apply Forall_nil. }
  assert (Np : forall mu c x, 0 <= pdf mu c x) by (intros; unfold pdf; lra).
  assert (Po : forall z i, posterior pdf z p i 0 = 1).
  { intros z i. unfold posterior, pdf, weight. cbn. rewrite (proj2 (Reqb_false _ 0)) by lra. field. }
  assert (St : forall z, nr z = 1%nat -> nc z = 1%nat -> exists r, m_step eig cn z (e_step pdf z p) = Ok r /\ centre r 0 0 = get z 0 0 /\ get (spread_of r 0) 0 0 = 0).
  { intros z H1 H2. destruct (em_step eig cn pdf Lb Np z p V) as [[_ [k [Hk X]]]|[_ [r [M [_ [_ [_ [_ [_ [_ [_ U]]]]]]]]]]].
    - cbn in Hk. replace k with 0%nat in X by lia. specialize (X 0%nat ltac:(lia)). rewrite Po in X. lra.
    - exists r. split; [exact M|]. destruct (U 0%nat ltac:(cbn; lia)) as [_ [_ [Uc Us]]]. specialize (Uc 0%nat ltac:(lia)). specialize (Us 0%nat 0%nat ltac:(lia) ltac:(lia)). rewrite H1 in Uc, Us. cbn [rsum] in Uc, Us. rewrite Po in Uc, Us.
      assert (E : centre r 0 0 = get z 0 0) by (rewrite Uc; field). split; [exact E|]. rewrite Us, E. field. }
  destruct (St q eq_refl eq_refl) as [p1 [M1 [C1 S1]]]. destruct (St q' eq_refl eq_refl) as [p2 [M2 [C2 S2]]].
  assert (Nq : forall z, nr z = 1%nat -> col_sum (e_step pdf z p) 0 = 1) by (intros z H1; rewrite col_sum_posterior, H1; cbn [rsum]; rewrite Po; ring).
  destruct (C138_step p pdf eig cn q q' p1 p2 Lb Np V eq_refl) as [p3 [M3 [_ [_ T]]]]; [|exact M1|exact M2|].
  { intros k Hk. cbn in Hk. replace k with 0%nat by lia. rewrite !Nq by reflexivity. split; lra. }
  destruct (T 0%nat ltac:(cbn; lia)) as [_ [Tc Ts]]. specialize (Tc 0%nat ltac:(cbn; lia)). specialize (Ts 0%nat 0%nat ltac:(cbn; lia) ltac:(cbn; lia)). rewrite !Nq in Tc, Ts by reflexivity. rewrite C1, C2 in Tc, Ts. rewrite S1, S2 in Ts. cbn [get q q'] in *.
  assert (C3 : centre p3 0 0 = 1) by lra. exists p1, p2, p3. repeat (split; [assumption|]). rewrite C3 in Ts. lra.
Qed.
