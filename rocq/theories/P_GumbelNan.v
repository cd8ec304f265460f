(** Negative wrapped factors turn the logarithmic form into nan; the alpha = 1 value of the log method. *)
From Verif Require Import Base RSumLib Ext M_Special S_Special P_Stirling P_Partitions P_Eulerian P_Polylog M_Gumbel S_Gumbel P_Gumbel P_GumbelCode P_Sibuya P_GumbelPoly P_GumbelCases.
Open Scope R_scope.
Lemma elog_neg x : x < 0 -> elog (Fin x) = Nan.
Proof. intros H. cbn [elog]. rewrite (proj2 (Rltb_false 0 x)) by lra. rewrite (proj2 (Reqb_false x 0)) by lra. reflexivity. Qed.
Lemma eadd_nan_r a : eadd a Nan = Nan. Proof. destruct a; reflexivity. Qed.
Lemma esum_nan l : In Nan l -> esum l = Nan.
Proof. induction l as [|a l IH]; intros H; [destruct H|]. change (esum (a :: l)) with (eadd a (esum l)). destruct H as [->|H]; [reflexivity|]. rewrite IH by exact H. apply eadd_nan_r. Qed.
Definition has_negative (d : nat) : bool := existsb (fun i => (wrap64 (falling (Z.of_nat d) (d - S i)) <? 0)%Z) (seq 0 d).
Lemma negative_factors : forallb has_negative (seq 21 45) = true.
Proof. vm_compute. reflexivity. Qed.
Lemma poly_log_nan gamma gammaln d alpha lx log : gamma_function gamma -> log_gamma_function gamma gammaln -> 0 < alpha < 1 -> (21 <= d <= 65)%nat ->
  calculate_gumbel_poly gamma gammaln lx alpha d "log" log = Ok Nan.
Proof.
  intros HG HL Ha Hd. unfold calculate_gumbel_poly. change (lower "log") with "log"%string. cbn [String.eqb Ascii.eqb Bool.eqb orb].
  unfold gumbel_coef. rewrite alpha_check by lra. rewrite (proj2 (Z.leb_le 1 (Z.of_nat d))) by lia. cbn [negb]. rewrite Nat2Z.id. change (lower "log") with "log"%string. cbn [String.eqb Ascii.eqb Bool.eqb].
  unfold gumbel_coef_sibuya. rewrite (dsum_sibuya_ok gamma gammaln HG HL); auto; [|lia| | |].
  2:{ destruct d; [lia|]. discriminate. }
  2:{ intros n I. apply in_seq in I. lia. }
  2:{ intros E. destruct d as [|[|d]]; [lia|lia|]. discriminate. }
  cbn [bind]. rewrite gumbel_ck_ok by lia. rewrite (map_seq_shift _ 1), combine_map2, map_map.
  assert (N : has_negative d = true). { pose proof negative_factors as F. rewrite forallb_forall in F. apply F, in_seq. lia. }
  unfold has_negative in N. apply existsb_exists in N. destruct N as [i [I N]]. apply Z.ltb_lt in N.
  rewrite esum_nan; [destruct log; reflexivity|].
  rewrite <- (seq_shift d 0), combine_map2, map_map. apply in_map_iff. exists i. split; [|exact I].
  rewrite (elog_neg (IZR _)) by (apply IZR_lt; exact N). rewrite eadd_nan_r. reflexivity.
Qed.

(** sum of logarithmic coefficients for any non-negative f *)
Lemma poly_from_logs_gen d f lx : (forall i, (i < d)%nat -> 0 <= f (S i)) ->
  esum (map (fun '(k, a) => eexp (eadd a (Fin (INR k * lx)))) (combine (seq 1 d) (log_coefficients d f))) = Fin (polynomial d f (exp lx)).
Proof.
  intros Hf. unfold log_coefficients. rewrite <- (seq_shift d 0), combine_map2, map_map.
  rewrite (esum_map_fin _ (fun i => f (S i) * exp lx ^ S i)).
  - f_equal. unfold polynomial. symmetry. apply rsum_lsum.
  - intros i I. apply in_seq in I. pose proof (Hf i ltac:(lia)) as N.
    replace (Fin (INR (S i) * lx)) with (elog (Fin (exp lx ^ S i))).
    2:{ rewrite elog_pos by (apply pow_lt, exp_pos). rewrite ln_pow by apply exp_pos. rewrite ln_exp. reflexivity. }
    assert (0 <= exp lx ^ S i) by (apply pow_le; left; apply exp_pos).
    rewrite elog_mul by assumption. apply eexp_elog. apply Rmult_le_pos; assumption.
Qed.
Lemma polynomial_one d x : (0 < d)%nat -> polynomial d (ga 1 d) x = x ^ d.
Proof.
  intros Hd. destruct d as [|d]; [lia|]. unfold polynomial. rewrite rsum_S, ga_diag, pow1, (rsum_zero d); [ring|]. intros i Hi. rewrite ga_alpha1 by lia. ring.
Qed.
Lemma poly_log_one gamma gammaln d lx : (0 < d <= 20)%nat ->
  exists v, calculate_gumbel_poly gamma gammaln lx 1 d "log" false = Ok (Fin v) /\ exp 1 * exp lx ^ d <= v.
Proof.
  intros Hd. unfold calculate_gumbel_poly. change (lower "log") with "log"%string. cbn [String.eqb Ascii.eqb Bool.eqb orb].
  unfold gumbel_coef. rewrite alpha_check by lra. rewrite (proj2 (Z.leb_le 1 (Z.of_nat d))) by lia. cbn [negb]. rewrite Nat2Z.id. change (lower "log") with "log"%string. cbn [String.eqb Ascii.eqb Bool.eqb].
  unfold gumbel_coef_sibuya. rewrite dsum_sibuya_one by lia. cbn [bind]. rewrite gumbel_ck_ok by lia.
  set (f := fun k => (if Nat.eqb d k then exp 1 else 1) * (INR (fact d) / INR (fact k))).
  assert (F0 : forall k, 0 < INR (fact d) / INR (fact k)) by (intros; apply Rdiv_lt_0_compat; apply INR_fact_lt_0).
  assert (F1 : forall k, 0 < f k). { intros k. unfold f. apply Rmult_lt_0_compat; [|apply F0]. destruct (Nat.eqb d k); [apply exp_pos|lra]. }
  assert (L : map (fun '(p, c) => eadd p (elog (Fin (IZR c)))) (combine (map (fun n => Fin (if Nat.eqb d n then 1 else 0)) (seq 1 d)) (map (fun i => wrap64 (falling (Z.of_nat d) (d - S i))) (seq 0 d))) = log_coefficients d f).
  { rewrite (map_seq_shift _ 1), combine_map2, map_map. unfold log_coefficients. apply map_ext_in. intros i I. apply in_seq in I. change (1 + i)%nat with (S i).
    rewrite ck_small, falling_real by lia. rewrite !elog_pos by (try apply F0; apply F1). cbn [eadd]. f_equal. unfold f. rewrite ln_mult; [|destruct (Nat.eqb d (S i)); [apply exp_pos|lra]|apply F0].
    f_equal. destruct (Nat.eqb d (S i)); [rewrite ln_exp; reflexivity|rewrite ln_1; reflexivity]. }
  rewrite L, poly_from_logs_gen by (intros; left; apply F1). eexists. split; [reflexivity|].
  unfold polynomial. destruct d as [|d]; [lia|]. rewrite rsum_S. unfold f at 2. rewrite Nat.eqb_refl.
  assert (0 <= rsum d (fun i => f (S i) * exp lx ^ S i)). { apply rsum_nonneg. intros i _. apply Rmult_le_pos; [left; apply F1|apply pow_le; left; apply exp_pos]. }
  replace (INR (fact (S d)) / INR (fact (S d))) with 1 by (field; apply INR_fact_neq_0). rewrite Rmult_1_r. lra.
Qed.
