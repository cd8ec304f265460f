(** Horner evaluation, log-sum-exp and the polylogarithms of non-positive order. *)
From Coquelicot Require Import Coquelicot.
From Verif Require Import Base RSumLib Ext M_Special S_Special P_Stirling P_Int64 P_Partitions P_Eulerian.
Open Scope R_scope.

Lemma poly_sum_cons c l x : poly_sum (c :: l) x = c + x * poly_sum l x.
Proof.
  unfold poly_sum. cbn [length]. rewrite rsum_Sl. cbn [nth pow]. rewrite <- rsum_scal.
  rewrite (rsum_ext _ (fun i => nth i l 0 * (x * x ^ i)) (fun i => x * (nth i l 0 * x ^ i))) by (intros; ring). ring.
Qed.
Lemma horner_fold l c x : fold_left (fun r j => j + r * x) (rev l) c = poly_sum (l ++ [c]) x.
Proof.
  induction l as [|a l IH].
  - cbn [rev fold_left app]. rewrite poly_sum_cons. unfold poly_sum. cbn. ring.
  - cbn [rev app]. rewrite fold_left_app, IH, poly_sum_cons. cbn [fold_left]. ring.
Qed.
Lemma horner_ok coef x : coef <> [] -> horner coef x = Ok (poly_sum coef x).
Proof.
  intros H. destruct coef as [|a [|b l]]; [congruence| |].
  - cbn [horner]. rewrite poly_sum_cons. unfold poly_sum. cbn. f_equal. ring.
  - cbn [horner]. f_equal. destruct (@exists_last _ (a :: b :: l)) as [m [c E]]; [discriminate|].
    rewrite E, rev_app_distr. cbn [rev app hd tl]. apply horner_fold.
Qed.
Lemma poly_sum_map_seq (f : nat -> R) n x : poly_sum (map f (seq 0 n)) x = rsum n (fun k => f k * x ^ k).
Proof.
  unfold poly_sum. rewrite map_length, seq_length. apply rsum_ext. intros i Hi. rewrite nth_map_seq by exact Hi. reflexivity.
Qed.

(** ** derivatives of finite sums *)
Lemma is_derive_rsum n (f : nat -> R -> R) (df : nat -> R) x : (forall k, (k < n)%nat -> is_derive (f k) x (df k)) ->
  is_derive (fun y => rsum n (fun k => f k y)) x (rsum n df).
Proof.
  induction n as [|n IH]; intros H; cbn [rsum]; [apply (@is_derive_const R_AbsRing R_NormedModule)|].
  apply (@is_derive_plus R_AbsRing R_NormedModule); [apply IH; auto|apply H; lia].
Qed.
Definition oddsr (z : R) : R := z / (1 - z).
Lemma oddsr_derive z : z < 1 -> is_derive oddsr z (1 / (1 - z) ^ 2).
Proof. intros H. unfold oddsr. auto_derive; [lra|]. field. lra. Qed.
Lemma is_derive_pow_S (f : R -> R) x df k : is_derive f x df -> is_derive (fun y => f y ^ S k) x (INR (S k) * f x ^ k * df).
Proof.
  intros H. evar_last; [apply (is_derive_pow f (S k) x df H)|]. replace (Init.Nat.pred (S k)) with k by reflexivity. ring.
Qed.

(** ** Stirling form *)
Definition FS (n : nat) (z : R) : R := rsum (S n) (fun k => IZR (zfact k * s2 (S n) (S k)) * oddsr z ^ S k).
Lemma FS_0 z : FS 0 z = oddsr z.
Proof. unfold FS. cbn. ring. Qed.
Lemma FS_step n z : z < 1 -> is_derive (FS n) z (rsum (S n) (fun k => IZR (zfact k * s2 (S n) (S k)) * (INR (S k) * oddsr z ^ k * (1 / (1 - z) ^ 2)))).
Proof.
  intros H. unfold FS. apply (is_derive_rsum (S n) (fun k z => IZR (zfact k * s2 (S n) (S k)) * oddsr z ^ S k)).
  intros k Hk. apply is_derive_scal. apply is_derive_pow_S. apply oddsr_derive. exact H.
Qed.
Lemma FS_eq n z : z < 1 ->
  z * rsum (S n) (fun k => IZR (zfact k * s2 (S n) (S k)) * (INR (S k) * oddsr z ^ k * (1 / (1 - z) ^ 2))) = FS (S n) z.
Proof.
  intros H. set (r := oddsr z). assert (Hr : z * (1 / (1 - z) ^ 2) = r * (1 + r)).
  { unfold r, oddsr. field. lra. }
  rewrite <- rsum_scal.
  rewrite (rsum_ext _ _ (fun k => INR (S k) * IZR (zfact k * s2 (S n) (S k)) * r ^ S k + IZR (zfact (S k) * s2 (S n) (S k)) * r ^ S (S k))).
  2:{ intros k Hk. replace (z * (IZR (zfact k * s2 (S n) (S k)) * (INR (S k) * r ^ k * (1 / (1 - z) ^ 2))))
        with (IZR (zfact k * s2 (S n) (S k)) * INR (S k) * r ^ k * (z * (1 / (1 - z) ^ 2))) by ring. rewrite Hr.
      cbn [zfact]. rewrite !mult_IZR, <- INR_IZR_INZ. cbn [pow]. ring. }
  rewrite rsum_plus. unfold FS.
  rewrite (rsum_ext (S (S n)) (fun k => IZR (zfact k * s2 (S (S n)) (S k)) * oddsr z ^ S k)
    (fun k => INR (S k) * IZR (zfact k * s2 (S n) (S k)) * r ^ S k + IZR (zfact k * s2 (S n) k) * r ^ S k)).
  2:{ intros k Hk. fold r. rewrite s2_SS, Z.mul_add_distr_l, plus_IZR, !mult_IZR, <- INR_IZR_INZ. ring. }
  rewrite rsum_plus. f_equal.
  - cbn [rsum]. rewrite (s2_big (S n) (S (S n))) by lia. rewrite Z.mul_0_r. cbn [IZR]. ring.
  - rewrite (rsum_Sl (S n)). rewrite (s2_n0 (S n)) by lia. rewrite Z.mul_0_r. cbn [IZR]. ring.
Qed.
Lemma FS_theta n : forall z, z < 1 -> z_d_dz n (fun z => z / (1 - z)) z = FS n z.
Proof.
  induction n as [|n IH]; intros z H; [rewrite FS_0; reflexivity|].
  cbn [z_d_dz]. rewrite (Derive_ext_loc _ (FS n)).
  - rewrite (is_derive_unique _ _ _ (FS_step n z H)). apply FS_eq. exact H.
  - exists (mkposreal (1 - z) ltac:(lra)). intros y Hy. apply IH.
    unfold ball in Hy; cbn in Hy; unfold AbsRing_ball, abs, minus, plus, opp in Hy; cbn in Hy. apply Rabs_lt_between in Hy. lra.
Qed.

(** ** Eulerian form *)
Definition GE (n : nat) (z : R) : R := rsum (S n) (fun k => IZR (A n k) * z ^ S k) / (1 - z) ^ S n.
Lemma GE_num_derive n z : is_derive (fun z => rsum (S n) (fun k => IZR (A n k) * z ^ S k)) z (rsum (S n) (fun k => IZR (A n k) * (INR (S k) * z ^ k * 1))).
Proof.
  apply (is_derive_rsum (S n) (fun k z => IZR (A n k) * z ^ S k)). intros k Hk. apply is_derive_scal.
  apply (is_derive_pow_S (fun x => x)). apply (@is_derive_id R_AbsRing).
Qed.
Lemma GE_0 z : GE 0 z = z / (1 - z).
Proof. unfold GE. cbn [rsum A pow]. replace (0 + 1 * (z * 1)) with z by ring. rewrite Rmult_1_r. reflexivity. Qed.
Lemma GE_step n z : z < 1 -> is_derive (GE n) z
  ((rsum (S n) (fun k => IZR (A n k) * (INR (S k) * z ^ k * 1)) * (1 - z) + INR (S n) * rsum (S n) (fun k => IZR (A n k) * z ^ S k)) / (1 - z) ^ S (S n)).
Proof.
  intros H. unfold GE. evar_last.
  - apply is_derive_div.
    + apply GE_num_derive.
    + apply (is_derive_pow_S (fun z => 1 - z) z (-1) n). auto_derive; [exact I|ring].
    + apply pow_nonzero. lra.
  - cbn [pow]. cbv beta.
    assert (N : (1 - z) ^ n <> 0) by (apply pow_nonzero; lra). field. split; [exact N|lra].
Qed.
Lemma GE_eq n z : z < 1 ->
  z * ((rsum (S n) (fun k => IZR (A n k) * (INR (S k) * z ^ k * 1)) * (1 - z) + INR (S n) * rsum (S n) (fun k => IZR (A n k) * z ^ S k)) / (1 - z) ^ S (S n))
  = GE (S n) z.
Proof.
  intros H. unfold GE. assert (N : (1 - z) ^ S (S n) <> 0) by (apply pow_nonzero; lra).
  rewrite <- Rmult_div_assoc || unfold Rdiv. rewrite <- Rmult_assoc. f_equal.
  rewrite Rmult_plus_distr_l, <- Rmult_assoc, <- rsum_scal, <- rsum_scal_r.
  rewrite <- (rsum_scal (S n) (INR (S n))), <- (rsum_scal (S n) z), <- rsum_plus.
  rewrite (rsum_ext (S n) _ (fun k => (INR k + 1) * IZR (A n k) * z ^ S k + (INR n - INR k) * IZR (A n k) * z ^ S (S k))).
  2:{ intros k Hk. rewrite !S_INR. cbn [pow]. ring. }
  rewrite rsum_plus.
  rewrite (rsum_Sl (S n)). rewrite A_S0.
  rewrite (rsum_ext (S n) (fun i => IZR (A (S n) (S i)) * z ^ S (S i))
     (fun i => (INR i + 2) * IZR (A n (S i)) * z ^ S (S i) + (INR n - INR i) * IZR (A n i) * z ^ S (S i))).
  2:{ intros i Hi. rewrite A_SS, plus_IZR, !mult_IZR, plus_IZR, minus_IZR, <- !INR_IZR_INZ. ring. }
  rewrite rsum_plus. rewrite <- Rplus_assoc. f_equal.
  rewrite (rsum_Sl n). rewrite A_S0.
  assert (Z0 : rsum (S n) (fun i => (INR i + 2) * IZR (A n (S i)) * z ^ S (S i)) = rsum n (fun i => (INR (S i) + 1) * IZR (A n (S i)) * z ^ S (S i))).
  { cbn [rsum]. assert (A n (S n) = 0%Z) as -> by (destruct n; [reflexivity|apply A_big; lia]).
    rewrite (rsum_ext n _ (fun i => (INR (S i) + 1) * IZR (A n (S i)) * z ^ S (S i))) by (intros; rewrite S_INR; cbn [pow]; ring). cbn [pow]. ring. }
  rewrite Z0. cbn [INR pow]. ring.
Qed.
Lemma GE_theta n : forall z, z < 1 -> z_d_dz n (fun z => z / (1 - z)) z = GE n z.
Proof.
  induction n as [|n IH]; intros z H; [rewrite GE_0; reflexivity|].
  cbn [z_d_dz]. rewrite (Derive_ext_loc _ (GE n)).
  - rewrite (is_derive_unique _ _ _ (GE_step n z H)). apply GE_eq. exact H.
  - exists (mkposreal (1 - z) ltac:(lra)). intros y Hy. apply IH.
    unfold ball in Hy; cbn in Hy; unfold AbsRing_ball, abs, minus, plus, opp in Hy; cbn in Hy. apply Rabs_lt_between in Hy. lra.
Qed.
(** ** the series *)
Definition pk (n : nat) (k : nat) : R := match k with O => 0 | S _ => INR k ^ n end.
Lemma pk_incr n : forall k, PS_incr_1 (PS_derive (pk n)) k = pk (S n) k.
Proof. intros [|k]; [reflexivity|]. unfold PS_incr_1, PS_derive. cbn [pk pow]. reflexivity. Qed.
Lemma pk_0 k : pk 0 k = PS_incr_1 (fun _ => 1) k.
Proof. destruct k; reflexivity. Qed.
Lemma radius_1 : CV_radius (fun _ => 1) = Finite 1.
Proof.
  rewrite (CV_radius_finite_DAlembert (fun _ => 1) 1); [f_equal; field| | |].
  - intros n. lra.
  - lra.
  - apply is_lim_seq_ext with (fun _ => 1); [intros n; rewrite Rabs_pos_eq; [field|lra]|]. apply is_lim_seq_const.
Qed.
Lemma radius_pk n : CV_radius (pk n) = Finite 1.
Proof.
  induction n as [|n IH].
  - rewrite (CV_radius_ext _ _ pk_0), CV_radius_incr_1. apply radius_1.
  - rewrite <- (CV_radius_ext _ _ (pk_incr n)), CV_radius_incr_1, CV_radius_derive. exact IH.
Qed.
Lemma PSeries_pk n : forall z, Rabs z < 1 -> PSeries (pk n) z = FS n z.
Proof.
  induction n as [|n IH]; intros z H.
  - rewrite (PSeries_ext _ _ z pk_0), PSeries_incr_1, FS_0. unfold oddsr, Rdiv. f_equal.
    unfold PSeries. rewrite (Series_ext _ (fun k => z ^ k)) by (intros; ring). apply Series_geom. exact H.
  - assert (Hz : z < 1) by (apply Rabs_lt_between in H; lra).
    rewrite <- (PSeries_ext _ _ z (pk_incr n)), PSeries_incr_1.
    rewrite <- (is_derive_unique _ _ _ (is_derive_PSeries (pk n) z ltac:(rewrite radius_pk; exact H))).
    rewrite (Derive_ext_loc _ (FS n)).
    + rewrite (is_derive_unique _ _ _ (FS_step n z Hz)). apply FS_eq. exact Hz.
    + exists (mkposreal (1 - Rabs z) ltac:(lra)). intros y Hy. apply IH.
      unfold ball in Hy; cbn in Hy; unfold AbsRing_ball, abs, minus, plus, opp in Hy; cbn in Hy.
      replace y with (z + (y + - z)) by ring. eapply Rle_lt_trans; [apply Rabs_triang|]. lra.
Qed.
Lemma FS_series n z : Rabs z < 1 -> is_polylog_neg n z (FS n z).
Proof.
  intros H. unfold is_polylog_neg.
  assert (X : ex_pseries (pk n) z) by (apply CV_radius_inside; rewrite radius_pk; exact H).
  apply PSeries_correct in X. rewrite PSeries_pk in X by exact H.
  unfold is_pseries in X. apply is_series_ext with (fun k => scal (pow_n z (S k)) (pk n (S k))).
  - intros k. rewrite pow_n_pow. change (z ^ S k * INR (S k) ^ n = INR (S k) ^ n * z ^ S k). apply Rmult_comm.
  - apply (is_series_incr_1 (fun k => scal (pow_n z k) (pk n k))). evar_last; [exact X|].
    change (FS n z = FS n z + 1 * 0). ring.
Qed.

(** ** the code *)
Lemma cumprod64_fact n : forall i acc, acc = wrap64 (zfact i) ->
  cumprod64 acc (map (fun i => Z.of_nat i) (seq (S i) n)) = map (fun m => wrap64 (zfact m)) (seq (S i) n).
Proof.
  induction n as [|n IH]; intros i acc Ha; [reflexivity|]. cbn [seq map cumprod64].
  assert (E : wrap64 (acc * Z.of_nat (S i)) = wrap64 (zfact (S i))).
  { rewrite Ha, wrap64_mul. cbn [zfact]. f_equal. lia. }
  rewrite E. f_equal. apply IH. reflexivity.
Qed.
Lemma fact_list_eq n : fact_list n = map (fun k => wrap64 (zfact k)) (seq 0 (S n)).
Proof.
  unfold fact_list. cbn [cumprod64 seq map]. f_equal. rewrite (cumprod64_fact n 0) by reflexivity. reflexivity.
Qed.
(** the coefficients the Stirling branch uses *)
Definition pl_fits (n : nat) : bool := forallb fits64 (map (fun k => s2 (S n) (S k)) (seq 0 (S n))).
Definition pl_coef (n k : nat) : Z := if pl_fits n then wrap64 (wrap64 (zfact k) * s2 (S n) (S k)) else (wrap64 (zfact k) * s2 (S n) (S k))%Z.
Lemma zfact_pos n : (0 < zfact n)%Z. Proof. induction n as [|n IH]; [reflexivity|]. cbn [zfact]. lia. Qed.
Lemma pl_coef_le n k : (pl_coef n k <= zfact k * s2 (S n) (S k))%Z.
Proof.
  pose proof (zfact_pos k). pose proof (s2_nonneg (S n) (S k)). pose proof (wrap64_le (zfact k) ltac:(lia)).
  unfold pl_coef. destruct (pl_fits n); [rewrite wrap64_mul; apply wrap64_le; nia|nia].
Qed.
Definition tab_ok (n : nat) : bool := forallb (fun k => (zfact k * nth (S k) (r2 (S n)) 0 <? 2 ^ 63)%Z) (seq 0 (S n)).
Lemma tab_18 n : (n < 19)%nat -> tab_ok n = true.
Proof. apply (all_below tab_ok 19). vm_compute. reflexivity. Qed.
Lemma pl_coef_exact n k : (n <= 18)%nat -> (k < S n)%nat -> pl_coef n k = (zfact k * s2 (S n) (S k))%Z.
Proof.
  intros Hn Hk. pose proof (tab_18 n ltac:(lia)) as T. unfold tab_ok in T. pose proof (all_below _ _ T k Hk) as B. cbv beta in B.
  rewrite r2_ok in B. apply Z.ltb_lt in B. pose proof (zfact_pos k). pose proof (s2_pos (S n) (S k) ltac:(lia)).
  assert (F : (zfact k <= zfact k * s2 (S n) (S k))%Z) by nia.
  unfold pl_coef. rewrite wrap64_mul, (wrap64_small (zfact k)), wrap64_small by lia. destruct (pl_fits n); reflexivity.
Qed.
Lemma zfact_21 n : (21 <= n)%nat -> (2 ^ 63 <= zfact n)%Z.
Proof.
  induction n as [|n IH]; [lia|]. intros H. destruct (Nat.eq_dec n 20) as [->|E]; [vm_compute; discriminate|].
  specialize (IH ltac:(lia)). cbn [zfact]. nia.
Qed.
Lemma pl_coef_lt n : (19 <= n)%nat -> exists k, (k < S n)%nat /\ (pl_coef n k < zfact k * s2 (S n) (S k))%Z.
Proof.
  intros H. destruct (le_lt_dec 21 n) as [L|L].
  - exists n. split; [lia|]. pose proof (zfact_21 n L) as Z. unfold pl_coef. rewrite s2_diag, Z.mul_1_r.
    pose proof (wrap64_lt _ Z). pose proof (wrap64_range (zfact n)). destruct (pl_fits n); [rewrite (wrap64_small (wrap64 _))|]; lia.
  - assert (B : forall k, (k < S n)%nat -> (0 <= nth (S k) (r2 (S n)) 0 < 2 ^ 63)%Z -> True) by auto. clear B.
    assert (E : exists k, (k < S n)%nat /\ (2 ^ 63 <= zfact k * nth (S k) (r2 (S n)) 0)%Z /\ (0 <= zfact k < 2 ^ 63)%Z).
    { exists 13%nat. split; [lia|]. assert (C : n = 19%nat \/ n = 20%nat) by lia. destruct C as [-> | ->]; (split; [vm_compute; discriminate|split; vm_compute; congruence]). }
    destruct E as (k & Hk & E & F). exists k. split; [exact Hk|]. rewrite r2_ok in E.
    assert (P : pl_fits n = true).
    { unfold pl_fits. replace (map (fun k => s2 (S n) (S k)) (seq 0 (S n))) with (map (fun k => nth (S k) (r2 (S n)) 0%Z) (seq 0 (S n))).
      - assert (C : n = 19%nat \/ n = 20%nat) by lia. destruct C as [-> | ->]; vm_compute; reflexivity.
      - apply map_ext. intros i. apply r2_ok. }
    unfold pl_coef. rewrite P, wrap64_mul. apply wrap64_lt. exact E.
Qed.
Lemma combine_map_seq {A B} (f : nat -> A) (g : nat -> B) n : combine (map f (seq 0 n)) (map g (seq 0 n)) = map (fun i => (f i, g i)) (seq 0 n).
Proof. generalize 0%nat as a. induction n as [|n IH]; intros a; [reflexivity|]. cbn. f_equal. apply IH. Qed.
Lemma poly_log_stirling gamma dilog z n method log :
  lower method = "default"%string \/ lower method = "neg-stirling"%string ->
  poly_log gamma dilog z (- Z.of_nat n) method log
  = Ok (if log then ln (rsum (S n) (fun k => IZR (pl_coef n k) * oddsr z ^ k)) + ln (oddsr z)
        else oddsr z * rsum (S n) (fun k => IZR (pl_coef n k) * oddsr z ^ k)).
Proof.
  intros Hm. unfold poly_log, parse_polylog_method.
  assert (Hs : forall b, (- Z.of_nat n =? 2)%Z && b = false).
  { intros b. replace (- Z.of_nat n =? 2)%Z with false by (symmetry; apply Z.eqb_neq; lia). reflexivity. }
  assert (Hs1 : (- Z.of_nat n <=? 1)%Z = true) by (apply Z.leb_le; lia).
  assert (Hs2 : (- Z.of_nat n =? 1)%Z = false) by (apply Z.eqb_neq; lia).
  assert (Hn : Z.to_nat (Z.abs (- Z.of_nat n)) = n) by lia.
  assert (M : bind (stirling_second_all (Z.of_nat n + 1)) (fun s2 =>
        let mul a b := if forallb fits64 s2 then wrap64 (a * b) else (a * b)%Z in
        bind (horner (map (fun '(a, b) => IZR (mul a b)) (combine (fact_list n) s2)) (z / (1 - z))) (fun p =>
        Ok (if log then ln p + logistic_ppf z else (z / (1 - z)) * p)))
    = Ok (if log then ln (rsum (S n) (fun k => IZR (pl_coef n k) * oddsr z ^ k)) + ln (oddsr z)
        else oddsr z * rsum (S n) (fun k => IZR (pl_coef n k) * oddsr z ^ k))).
  { replace (Z.of_nat n + 1)%Z with (Z.of_nat (S n)) by lia. rewrite stirling_second_all_ok. cbn [bind].
    cbv zeta. fold (pl_fits n). rewrite fact_list_eq, combine_map_seq, map_map. rewrite horner_ok by (cbn; discriminate). cbn [bind].
    rewrite poly_sum_map_seq. unfold logistic_ppf. fold (oddsr z). reflexivity. }
  destruct Hm as [-> | ->]; cbn [String.eqb Ascii.eqb Bool.eqb bind]; rewrite Hs, Hs1, Hs2, Hn; cbn [negb]; exact M.
Qed.
Lemma poly_log_eulerian gamma dilog z n method log : gamma_on_integers gamma ->
  lower method = "neg-eulerian"%string ->
  poly_log gamma dilog z (- Z.of_nat n) method log
  = Ok (if log then ln (rsum (S n) (fun k => IZR (A n k) * z ^ k)) + ln z - (INR n + 1) * ln (1 + - z)
        else z * rsum (S n) (fun k => IZR (A n k) * z ^ k) / (1 - z) ^ (n + 1)).
Proof.
  intros G Hm. unfold poly_log, parse_polylog_method.
  assert (Hs : forall b, (- Z.of_nat n =? 2)%Z && b = false).
  { intros b. replace (- Z.of_nat n =? 2)%Z with false by (symmetry; apply Z.eqb_neq; lia). reflexivity. }
  assert (Hs1 : (- Z.of_nat n <=? 1)%Z = true) by (apply Z.leb_le; lia).
  assert (Hs2 : (- Z.of_nat n =? 1)%Z = false) by (apply Z.eqb_neq; lia).
  assert (Hn : Z.to_nat (Z.abs (- Z.of_nat n)) = n) by lia.
  rewrite Hm; cbn [String.eqb Ascii.eqb Bool.eqb bind]; rewrite Hs, Hs1, Hs2, Hn; cbn [negb].
  destruct n as [|n].
  - change (eulerian_all gamma (Z.of_nat 0)) with (@Ok scalar_or_list (Scalar 1)). cbn [bind horner rsum A].
    replace (0 + 1 * z ^ 0) with 1 by ring. reflexivity.
  - rewrite (eulerian_all_ok gamma (S n) G) by lia. cbn [bind]. rewrite map_map, horner_ok by (cbn; discriminate). cbn [bind].
    rewrite poly_sum_map_seq.
    replace (rsum (S (S n)) (fun k => IZR (A (S n) k) * z ^ k)) with (rsum (S n) (fun k => IZR (A (S n) k) * z ^ k)).
    + reflexivity.
    + change (rsum (S (S n)) (fun k => IZR (A (S n) k) * z ^ k)) with (rsum (S n) (fun k => IZR (A (S n) k) * z ^ k) + IZR (A (S n) (S n)) * z ^ S n).
      rewrite A_big by lia. ring.
Qed.
Lemma oddsr_pos z : 0 < z < 1 -> 0 < oddsr z.
Proof. intros H. unfold oddsr. apply Rdiv_lt_0_compat; lra. Qed.
Lemma stirling_poly_pos n r : 0 < r -> 0 < rsum (S n) (fun k => IZR (zfact k * s2 (S n) (S k)) * r ^ k).
Proof.
  intros H. apply rsum_pos.
  - intros k Hk. apply Rmult_le_pos; [|apply pow_le; lra]. apply IZR_le. pose proof (zfact_pos k). pose proof (s2_nonneg (S n) (S k)). nia.
  - exists 0%nat. split; [lia|]. cbn [pow zfact]. rewrite Rmult_1_r. apply IZR_lt. pose proof (s2_pos (S n) 1 ltac:(lia)). lia.
Qed.
Lemma euler_poly_pos n r : 0 < r -> 0 < rsum (S n) (fun k => IZR (A n k) * r ^ k).
Proof.
  intros H. apply rsum_pos.
  - intros k Hk. apply Rmult_le_pos; [|apply pow_le; lra]. apply IZR_le, A_nonneg.
  - exists 0%nat. split; [lia|]. rewrite A_S0. cbn [pow]. lra.
Qed.
Lemma FS_factor n z : FS n z = oddsr z * rsum (S n) (fun k => IZR (zfact k * s2 (S n) (S k)) * oddsr z ^ k).
Proof. unfold FS. rewrite <- rsum_scal. apply rsum_ext. intros k _. cbn [pow]. ring. Qed.
Lemma GE_factor n z : GE n z = z * rsum (S n) (fun k => IZR (A n k) * z ^ k) / (1 - z) ^ (n + 1).
Proof. unfold GE. rewrite Nat.add_1_r. f_equal. rewrite <- rsum_scal. apply rsum_ext. intros k _. cbn [pow]. ring. Qed.
Lemma FS_GE n z : z < 1 -> GE n z = FS n z.
Proof. intros H. rewrite <- GE_theta, FS_theta by exact H. reflexivity. Qed.
Lemma FS_pos n z : 0 < z < 1 -> 0 < FS n z.
Proof. intros H. rewrite FS_factor. apply Rmult_lt_0_compat; [apply oddsr_pos; exact H|apply stirling_poly_pos, oddsr_pos; exact H]. Qed.
(** the orders for which the Stirling branch is exact *)
Definition exact_method (n : nat) (method : string) : Prop :=
  ((n <= 18)%nat /\ (lower method = "default" \/ lower method = "neg-stirling")%string) \/ lower method = "neg-eulerian"%string.
Lemma stirling_exact_sum n r : (n <= 18)%nat ->
  rsum (S n) (fun k => IZR (pl_coef n k) * r ^ k) = rsum (S n) (fun k => IZR (zfact k * s2 (S n) (S k)) * r ^ k).
Proof. intros H. apply rsum_ext. intros k Hk. rewrite pl_coef_exact by assumption. reflexivity. Qed.
Lemma stirling_low_sum n r : (19 <= n)%nat -> 0 < r ->
  rsum (S n) (fun k => IZR (pl_coef n k) * r ^ k) < rsum (S n) (fun k => IZR (zfact k * s2 (S n) (S k)) * r ^ k).
Proof.
  intros H Hr. apply Rminus_gt_0_lt. 
  replace (rsum (S n) (fun k => IZR (zfact k * s2 (S n) (S k)) * r ^ k) - rsum (S n) (fun k => IZR (pl_coef n k) * r ^ k))
    with (rsum (S n) (fun k => IZR (zfact k * s2 (S n) (S k) - pl_coef n k) * r ^ k)).
  - apply rsum_pos.
    + intros k Hk. apply Rmult_le_pos; [|apply pow_le; lra]. apply IZR_le. pose proof (pl_coef_le n k). lia.
    + destruct (pl_coef_lt n H) as (k & Hk & L). exists k. split; [exact Hk|]. apply Rmult_lt_0_compat; [|apply pow_lt; lra]. apply IZR_lt. lia.
  - rewrite <- rsum_minus. apply rsum_ext. intros k Hk. rewrite minus_IZR. ring.
Qed.
Lemma poly_log_value gamma dilog z n method : gamma_on_integers gamma -> z < 1 -> exact_method n method ->
  poly_log gamma dilog z (- Z.of_nat n) method false = Ok (FS n z).
Proof.
  intros G H [[Hn E]|E].
  - rewrite poly_log_stirling by exact E. rewrite FS_factor, stirling_exact_sum by exact Hn. reflexivity.
  - rewrite poly_log_eulerian by auto. rewrite <- FS_GE, GE_factor by exact H. reflexivity.
Qed.
Lemma poly_log_low gamma dilog z n method : 0 < z < 1 -> (19 <= n)%nat -> (lower method = "default" \/ lower method = "neg-stirling")%string ->
  exists v, poly_log gamma dilog z (- Z.of_nat n) method false = Ok v /\ v < FS n z.
Proof.
  intros H Hn E. rewrite poly_log_stirling by exact E. eexists. split; [reflexivity|]. rewrite FS_factor.
  pose proof (oddsr_pos z H). apply Rmult_lt_compat_l; [assumption|]. apply stirling_low_sum; assumption.
Qed.
Lemma poly_log_log gamma dilog z n method : gamma_on_integers gamma -> 0 < z < 1 -> exact_method n method ->
  poly_log gamma dilog z (- Z.of_nat n) method true = Ok (ln (FS n z)).
Proof.
  intros G H [[Hn E]|E].
  - rewrite poly_log_stirling by exact E. rewrite stirling_exact_sum by exact Hn.
    rewrite FS_factor, Rmult_comm, ln_mult; [reflexivity|apply stirling_poly_pos, oddsr_pos; exact H|apply oddsr_pos; exact H].
  - rewrite poly_log_eulerian by auto. rewrite <- FS_GE, GE_factor by lra.
    pose proof (euler_poly_pos n z ltac:(lra)) as P.
    rewrite ln_div; [|apply Rmult_lt_0_compat; lra|apply pow_lt; lra]. rewrite (ln_mult z) by lra.
    rewrite ln_pow by lra. replace (INR (n + 1)) with (INR n + 1) by (rewrite plus_INR; reflexivity). replace (1 + - z) with (1 - z) by ring. f_equal. ring.
Qed.
Lemma exact_method_in n method : (lower method = "neg-eulerian" \/ (n <= 18)%nat /\ In (lower method) ["default"; "neg-stirling"])%string -> exact_method n method.
Proof. intros [E|[Hn [E|[E|[]]]]]; unfold exact_method; [right; exact E|left; auto|left; auto]. Qed.
