From Verif Require Import Base RSumLib CountLib M_Matrix S_Matrix M_Linalg S_Linalg.
Open Scope R_scope.

Lemma cov2corr_corr2cov corr std : nr corr = nc corr ->
  unit_diagonal 1 corr -> (forall i, (i < nr corr)%nat -> 0 < std i) ->
  mat_eq (fst (cov2corr (corr2cov corr std))) corr /\
  (forall i, (i < nr corr)%nat -> snd (cov2corr (corr2cov corr std)) i = std i).
Proof.
  intros Hsq Hu Hs.
  assert (Hstd : forall i, (i < nr corr)%nat -> sqrt (get (corr2cov corr std) i i) = std i).
  { intros i Hi. cbn. rewrite (Hu i Hi), Rmult_1_l. apply sqrt_square. specialize (Hs i Hi); lra. }
  split; [|exact Hstd]. split; [reflexivity|]. split; [reflexivity|]. intros i j Hi Hj. cbn [cov2corr fst get nr nc].
  rewrite !Hstd by (cbn in *; lia). cbn. cbn in Hi, Hj.
  assert (0 < std i) by (apply Hs; lia). assert (0 < std j) by (apply Hs; lia). field. lra.
Qed.

Lemma corr2cov_cov2corr cov : nr cov = nc cov -> (forall i, (i < nr cov)%nat -> 0 < get cov i i) ->
  mat_eq (corr2cov (fst (cov2corr cov)) (snd (cov2corr cov))) cov.
Proof.
  intros Hsq Hd. split; [reflexivity|]. split; [reflexivity|]. intros i j Hi Hj. cbn in *.
  assert (0 < sqrt (get cov i i)) by (apply sqrt_lt_R0, Hd; lia).
  assert (0 < sqrt (get cov j j)) by (apply sqrt_lt_R0, Hd; lia). field. lra.
Qed.

Lemma cov2corr_corr_shape cov d : square d cov -> symmetric cov -> (forall i, (i < d)%nat -> 0 < get cov i i) ->
  corr_shape 1 d (fst (cov2corr cov)).
Proof.
  intros [S1 S2] Sy Hd. split; [split; assumption|]. cbn. split.
  - intros i j Hi Hj. cbn in *. rewrite (Sy i j Hi Hj). rewrite (Rmult_comm (sqrt (get cov i i))). reflexivity.
  - intros i Hi. cbn in *. rewrite sqrt_sqrt by (specialize (Hd i ltac:(lia)); lra).
    field. specialize (Hd i ltac:(lia)); lra.
Qed.

(** correlation entries of a psd covariance lie in [-1,1] (2x2 minors) *)
Lemma quad_two n (m : nat -> nat -> R) i j a b : (i < n)%nat -> (j < n)%nat -> i <> j ->
  quad n m (fun k => if Nat.eqb k i then a else if Nat.eqb k j then b else 0)
  = a * m i i * a + a * m i j * b + b * m j i * a + b * m j j * b.
Proof.
  intros Hi Hj Hne.
  set (x := fun k => if Nat.eqb k i then a else if Nat.eqb k j then b else 0). unfold quad.
  assert (Hin : forall (g : nat -> R), rsum n (fun k => g k * x k) = g i * a + g j * b).
  { intros g. rewrite (rsum_ext n _ (fun k => (if Nat.eqb k i then g k * a else 0) + (if Nat.eqb k j then g k * b else 0))).
    - rewrite rsum_plus, (rsum_delta n i (fun k => g k * a) Hi), (rsum_delta n j (fun k => g k * b) Hj). reflexivity.
    - intros k Hk. unfold x. destruct (Nat.eqb_spec k i); destruct (Nat.eqb_spec k j); subst; try (exfalso; lia); ring. }
  rewrite (rsum_ext n _ (fun k => (m k i * a + m k j * b) * x k)).
  - rewrite (Hin (fun k => m k i * a + m k j * b)). ring.
  - intros k Hk. rewrite (Hin (fun q => x k * m k q)). ring.
Qed.

Lemma cov2corr_range cov d : square d cov -> symmetric cov -> (forall i, (i < d)%nat -> 0 < get cov i i) ->
  pos_semidef d (get cov) ->
  forall i j, (i < d)%nat -> (j < d)%nat -> -1 <= get (fst (cov2corr cov)) i j <= 1.
Proof.
  intros [S1 S2] Sy Hd Hp i j Hi Hj. cbn.
  set (si := sqrt (get cov i i)). set (sj := sqrt (get cov j j)).
  assert (Hsi : 0 < si) by (apply sqrt_lt_R0, Hd; exact Hi).
  assert (Hsj : 0 < sj) by (apply sqrt_lt_R0, Hd; exact Hj).
  assert (Esi : get cov i i = si * si) by (symmetry; apply sqrt_sqrt; specialize (Hd i Hi); lra).
  assert (Esj : get cov j j = sj * sj) by (symmetry; apply sqrt_sqrt; specialize (Hd j Hj); lra).
  assert (Hss : 0 < si * sj) by (apply Rmult_lt_0_compat; assumption).
  enough (- (si * sj) <= get cov i j <= si * sj) as [B1 B2].
  { split.
    - apply Rmult_le_reg_r with (si * sj); [exact Hss|]. unfold Rdiv. rewrite Rmult_assoc, Rinv_l by lra. lra.
    - apply Rmult_le_reg_r with (si * sj); [exact Hss|]. unfold Rdiv. rewrite Rmult_assoc, Rinv_l by lra. lra. }
  destruct (Nat.eq_dec i j) as [->|Hne].
  { fold sj in Esi. assert (si = sj) by reflexivity. rewrite Esj. nra. }
  assert (Q1 := Hp (fun k => if Nat.eqb k i then sj else if Nat.eqb k j then - si else 0)).
  assert (Q2 := Hp (fun k => if Nat.eqb k i then sj else if Nat.eqb k j then si else 0)).
  rewrite (quad_two d (get cov) i j) in Q1, Q2 by assumption.
  rewrite (Sy j i) in Q1, Q2 by lia. rewrite Esi, Esj in Q1, Q2.
  split; nra.
Qed.

(** ---- symmetry and definiteness tests ---- *)
Lemma close_refl tol a : 0 <= tol -> close tol a a = true.
Proof.
  intros H. apply Rleb_true. replace (a - a) with 0 by ring. rewrite Rabs_R0.
  pose proof (Rabs_pos a). lra.
Qed.
Lemma is_symmetric_spec tol m : is_symmetric tol (AMat m) = true <->
  nr m = nc m /\ forall i j, (i < nr m)%nat -> (j < nr m)%nat ->
    Rabs (get m i j - get m j i) <= tol + / 100000 * Rabs (get m j i).
Proof.
  unfold is_symmetric. rewrite andb_true_iff, Nat.eqb_eq, forallb_forall.
  split; intros [H1 H2]; (split; [exact H1|]).
  - intros i j Hi Hj. specialize (H2 i (proj2 (seq_in _ _) Hi)). rewrite forallb_forall in H2.
    apply Rleb_true. apply H2. apply seq_in; exact Hj.
  - intros i Hi. apply forallb_forall. intros j Hj. apply seq_in in Hi. apply seq_in in Hj.
    apply Rleb_true. apply H2; assumption.
Qed.
Lemma is_symmetric_exact tol m : 0 <= tol -> nr m = nc m -> symmetric m -> is_symmetric tol (AMat m) = true.
Proof.
  intros Ht Hsq Hs. apply is_symmetric_spec. split; [exact Hsq|]. intros i j Hi Hj.
  rewrite (Hs i j Hi Hj). replace (get m j i - get m j i) with 0 by ring. rewrite Rabs_R0.
  pose proof (Rabs_pos (get m j i)). lra.
Qed.
Definition transpose {A} (m : mat A) : mat A := mkMat (nc m) (nr m) (fun i j => get m j i).
Lemma is_symmetric_transpose tol m : is_symmetric tol (AMat (transpose m)) = is_symmetric tol (AMat m).
Proof.
  apply eq_true_iff_eq. rewrite !is_symmetric_spec. cbn [transpose nr nc get].
  split; intros [H1 H2]; (split; [congruence|]); intros i j Hi Hj.
  - apply (H2 j i); lia.
  - apply (H2 j i); lia.
Qed.

Lemma forallb_Rleb c l : forallb (fun e => Rleb c e) l = true <-> (forall e, In e l -> c <= e).
Proof. rewrite forallb_forall. split; intros H e He; apply Rleb_true; apply H; exact He. Qed.
Lemma forallb_Rltb c l : forallb (fun e => Rltb c e) l = true <-> (forall e, In e l -> c < e).
Proof. rewrite forallb_forall. split; intros H e He; apply Rltb_true; apply H; exact He. Qed.

Lemma lower_sym_symmetric m i j : symmetric m -> (i < nr m)%nat -> (j < nr m)%nat -> lower_sym m i j = get m i j.
Proof. intros Hs Hi Hj. unfold lower_sym. destruct (i <? j)%nat; [symmetry; apply Hs; assumption|reflexivity]. Qed.
Lemma quad_ext n m m' x : (forall i j, (i < n)%nat -> (j < n)%nat -> m i j = m' i j) -> quad n m x = quad n m' x.
Proof. intros H. unfold quad. apply rsum_ext. intros i Hi. apply rsum_ext. intros j Hj. rewrite (H i j Hi Hj). reflexivity. Qed.

Section Psd.
  Variable eig : mat R -> list R.

  Lemma is_psd_sound tol m : rayleigh (eig m) m -> is_psd eig false tol (AMat m) = true ->
    is_symmetric tol (AMat m) = true /\
    forall x, - tol * norm2 (nr m) x <= quad (nr m) (lower_sym m) x.
  Proof.
    intros Hray. unfold is_psd. destruct (is_symmetric tol (AMat m)) eqn:E; cbn [negb]; [|discriminate].
    intros H. split; [reflexivity|]. apply is_symmetric_spec in E. destruct E as [Hsq _].
    apply (proj1 (Hray (- tol))). apply forallb_Rleb; exact H.
  Qed.
  Lemma norm2_nonneg n x : 0 <= norm2 n x.
  Proof. apply rsum_nonneg. intros i _. nra. Qed.
  Lemma is_psd_complete tol m : rayleigh (eig m) m -> 0 <= tol -> nr m = nc m -> symmetric m -> pos_semidef (nr m) (get m) ->
    is_psd eig false tol (AMat m) = true.
  Proof.
    intros Hray Ht Hsq Hs Hp. unfold is_psd. rewrite (is_symmetric_exact tol m Ht Hsq Hs). cbn [negb].
    apply forallb_Rleb. apply (proj1 (Hray (- tol))). intros x.
    rewrite (quad_ext _ _ (get m)) by (intros; apply lower_sym_symmetric; assumption).
    pose proof (Hp x). pose proof (norm2_nonneg (nr m) x). nra.
  Qed.
  (** strict acceptance is only > -tol, not > 0 *)
  Lemma is_psd_strict_accepts_singular tol : rayleigh (eig (mkMat 1 1 (fun _ _ => 0))) (mkMat 1 1 (fun _ _ => 0)) -> 0 < tol -> is_psd eig true tol (AMat (mkMat 1 1 (fun _ _ => 0))) = true.
  Proof.
    intros Hray Ht. unfold is_psd. rewrite is_symmetric_exact; [|lra|reflexivity|intros i j _ _; reflexivity]. cbn [negb].
    apply forallb_Rltb. apply (proj2 (Hray (- tol))). cbn [nr].
    intros x [i [Hi Hx]]. assert (i = 0)%nat by lia. subst i. unfold norm2, quad, lower_sym. cbn.
    assert (0 < x 0%nat * x 0%nat) by nra. nra.
  Qed.
  Lemma is_psd_strict_sound tol m : rayleigh (eig m) m -> is_psd eig true tol (AMat m) = true ->
    is_symmetric tol (AMat m) = true /\
    forall x, (exists i, (i < nr m)%nat /\ x i <> 0) -> - tol * norm2 (nr m) x < quad (nr m) (lower_sym m) x.
  Proof.
    intros Hray. unfold is_psd. destruct (is_symmetric tol (AMat m)) eqn:E; cbn [negb]; [|discriminate].
    intros H. split; [reflexivity|]. apply is_symmetric_spec in E. destruct E as [Hsq _].
    apply (proj2 (Hray (- tol))). apply forallb_Rltb; exact H.
  Qed.
  Lemma is_psd_strict_complete tol m : rayleigh (eig m) m -> 0 <= tol -> nr m = nc m -> symmetric m -> pos_def (nr m) (get m) ->
    is_psd eig true tol (AMat m) = true.
  Proof.
    intros Hray Ht Hsq Hs Hp. unfold is_psd. rewrite (is_symmetric_exact tol m Ht Hsq Hs). cbn [negb].
    apply forallb_Rltb. apply (proj2 (Hray (- tol))). intros x Hx.
    rewrite (quad_ext _ _ (get m)) by (intros; apply lower_sym_symmetric; assumption).
    pose proof (Hp x Hx). pose proof (norm2_nonneg (nr m) x). nra.
  Qed.

  Lemma near_psd_identity nearest m : rayleigh (eig m) m -> nr m = nc m -> symmetric m -> pos_semidef (nr m) (get m) ->
    near_psd eig nearest (AMat m) = Ok m.
  Proof.
    intros Hray Hsq Hs Hp. unfold near_psd, symmetric_tol, psd_tol.
    rewrite is_symmetric_exact; try assumption; [|lra]. cbn [negb].
    rewrite is_psd_complete; try assumption; [reflexivity|lra].
  Qed.
  Lemma near_psd_rejects nearest m i j : (i < nr m)%nat -> (j < nr m)%nat ->
    / 100000000 + / 100000 * Rabs (get m j i) < Rabs (get m i j - get m j i) ->
    near_psd eig nearest (AMat m) = Err NonSymmetricMatrixError.
  Proof.
    intros Hi Hj H. unfold near_psd, symmetric_tol.
    destruct (is_symmetric (/ 100000000) (AMat m)) eqn:E; [|reflexivity].
    apply is_symmetric_spec in E. destruct E as [_ E]. specialize (E i j Hi Hj). lra.
  Qed.
End Psd.

(** the 2x2 correlation matrix has eigenvalues 1-r, 1+r *)
Definition corr2 (r : R) : mat R := mkMat 2 2 (fun i j => if Nat.eqb i j then 1 else r).
Lemma rayleigh_corr2 r : rayleigh [1 - r; 1 + r] (corr2 r).
Proof.
  intros c.
  assert (Q : forall x, quad 2 (lower_sym (corr2 r)) x = x 0%nat * x 0%nat + x 1%nat * x 1%nat + 2 * r * (x 0%nat * x 1%nat)).
  { intros x. unfold quad, lower_sym, corr2. cbn. ring. }
  assert (N : forall x, norm2 2 x = x 0%nat * x 0%nat + x 1%nat * x 1%nat) by (intros x; unfold norm2; cbn; ring).
  assert (E : forall x, quad 2 (lower_sym (corr2 r)) x - c * norm2 2 x
     = (1 - r - c) / 2 * ((x 0%nat - x 1%nat)*(x 0%nat - x 1%nat)) + (1 + r - c) / 2 * ((x 0%nat + x 1%nat)*(x 0%nat + x 1%nat))).
  { intros x. rewrite Q, N. field. }
  change (nr (corr2 r)) with 2%nat. split; split.
  - intros H x. assert (c <= 1 - r) by (apply H; left; reflexivity). assert (c <= 1 + r) by (apply H; right; left; reflexivity).
    enough (0 <= quad 2 (lower_sym (corr2 r)) x - c * norm2 2 x) by lra. rewrite E.
    pose proof (Rle_0_sqr (x 0%nat - x 1%nat)). pose proof (Rle_0_sqr (x 0%nat + x 1%nat)). unfold Rsqr in *.
    apply Rplus_le_le_0_compat; apply Rmult_le_pos; lra.
  - intros H e [<-|[<-|[]]].
    + specialize (H (fun i => if Nat.eqb i 0 then 1 else -1)). rewrite Q, N in H. cbn in H. lra.
    + specialize (H (fun i => 1)). rewrite Q, N in H. cbn in H. lra.
  - intros H x [i [Hi Hx]]. assert (c < 1 - r) by (apply H; left; reflexivity). assert (c < 1 + r) by (apply H; right; left; reflexivity).
    enough (0 < quad 2 (lower_sym (corr2 r)) x - c * norm2 2 x) by lra. rewrite E.
    pose proof (Rle_0_sqr (x 0%nat - x 1%nat)) as S1. pose proof (Rle_0_sqr (x 0%nat + x 1%nat)) as S2. unfold Rsqr in *.
    destruct (Req_dec (x 0%nat - x 1%nat) 0) as [Z|Z].
    + assert (x 0%nat + x 1%nat <> 0).
      { intros C. destruct i as [|[|i]]; [| |lia]; apply Hx; lra. }
      pose proof (Rlt_0_sqr (x 0%nat + x 1%nat) H2) as S3. unfold Rsqr in S3.
      apply Rplus_le_lt_0_compat; [apply Rmult_le_pos; lra|apply Rmult_lt_0_compat; lra].
    + pose proof (Rlt_0_sqr _ Z) as S3. unfold Rsqr in S3.
      apply Rplus_lt_le_0_compat; [apply Rmult_lt_0_compat; lra|apply Rmult_le_pos; lra].
  - intros H e [<-|[<-|[]]].
    + specialize (H (fun i => if Nat.eqb i 0 then 1 else -1)). rewrite Q, N in H. cbn in H.
      assert (c * (1 * 1 + -1 * -1) < 1 * 1 + -1 * -1 + 2 * r * (1 * -1)) by (apply H; exists 0%nat; split; [lia|cbn; lra]). lra.
    + specialize (H (fun i => 1)). rewrite Q, N in H. cbn in H.
      assert (c * (1 * 1 + 1 * 1) < 1 * 1 + 1 * 1 + 2 * r * (1 * 1)) by (apply H; exists 0%nat; split; [lia|lra]). lra.
Qed.

Lemma rayleigh_zero1 : rayleigh [0] (mkMat 1 1 (fun _ _ => 0)).
Proof.
  intros c. unfold norm2, quad, lower_sym. cbn [nr get rsum]. cbn. split; split.
  - intros H x. assert (c <= 0) by (apply H; left; reflexivity). nra.
  - intros H e [<-|[]]. specialize (H (fun _ => 1)). lra.
  - intros H x [i [Hi Hx]]. assert (c < 0) by (apply H; left; reflexivity).
    assert (i = 0)%nat by lia. subst i. assert (0 < x 0%nat * x 0%nat) by nra. nra.
  - intros H e [<-|[]]. specialize (H (fun _ => 1)). cbn in H.
    assert (c * (0 + 1 * 1) < 0 + (0 + 1 * 0 * 1)) by (apply H; exists 0%nat; split; [lia|lra]). lra.
Qed.
