(** The beta law: monotone distribution function, and the sum over order statistics. *)
From Coquelicot Require Import Coquelicot.
From Verif Require Import Base RSumLib Ext M_Rank M_Empirical S_Empirical.
Local Close Scope Q_scope. Local Close Scope Z_scope. Open Scope R_scope.

Ltac Req := match goal with |- @eq _ ?a ?b => change (@eq R a b) end.
Lemma pw_pos x p : 0 < x -> pw x p = Rpower x p.
Proof. intros H. unfold pw. rewrite (proj2 (Rleb_false x 0) H). reflexivity. Qed.
Lemma pw_nonneg x p : 0 <= pw x p.
Proof. unfold pw. destruct (Rleb x 0); [destruct (Reqb p 0); lra|]. left. apply exp_pos. Qed.
Lemma pw_nat x k : 0 <= x -> pw x (INR k) = x ^ k.
Proof.
  intros H. unfold pw. destruct (Rleb x 0) eqn:E.
  - apply Rleb_true in E. assert (x = 0) by lra. subst. destruct k as [|k].
    + rewrite (proj2 (Reqb_true (INR 0) 0) eq_refl). reflexivity.
    + rewrite (proj2 (Reqb_false (INR (S k)) 0)) by (apply not_0_INR; discriminate). rewrite pow_i by lia. reflexivity.
  - apply Rleb_false in E. apply Rpower_pow. exact E.
Qed.
Lemma pw_cont p x : 0 <= p -> continuous (fun x => pw x p) x.
Proof.
  intros Hp. destruct (Rlt_dec 0 x) as [Hx|Hx].
  { apply (continuous_ext_loc _ (fun x => Rpower x p)).
    - exists (mkposreal x Hx). intros y Hy. unfold ball in Hy; cbn in Hy; unfold AbsRing_ball, abs, minus, plus, opp in Hy; cbn in Hy.
      symmetry. apply pw_pos. apply Rabs_def2 in Hy. lra.
    - apply (@ex_derive_continuous R_AbsRing R_NormedModule). unfold Rpower. auto_derive. exact Hx. }
  destruct (Req_dec p 0) as [->|Hp0].
  { apply (continuous_ext (fun _ => 1)); [|apply continuous_const]. intros y. unfold pw. destruct (Rleb y 0); [rewrite (proj2 (Reqb_true 0 0) eq_refl); reflexivity|].
    unfold Rpower. rewrite Rmult_0_l, exp_0. reflexivity. }
  assert (Hv : pw x p = 0) by (unfold pw; rewrite (proj2 (Rleb_true x 0)), (proj2 (Reqb_false p 0)) by lra; reflexivity).
  intros P [e He]. rewrite Hv in He. set (d := Rpower e (1 / p)). assert (Hd : 0 < d) by apply exp_pos.
  exists (mkposreal d Hd). intros y Hy. apply He. unfold ball in *; cbn in *; unfold AbsRing_ball, abs, minus, plus, opp in *; cbn in *.
  rewrite Ropp_0, Rplus_0_r. unfold pw. destruct (Rleb y 0) eqn:E.
  - rewrite (proj2 (Reqb_false p 0)) by exact Hp0. rewrite Rabs_R0. apply cond_pos.
  - apply Rleb_false in E. rewrite Rabs_right by (left; apply exp_pos). apply Rabs_def2 in Hy.
    replace (pos e) with (Rpower d p). { apply Rlt_Rpower_l; lra. }
    unfold d. rewrite Rpower_mult. replace (1 / p * p) with 1 by (field; exact Hp0). apply Rpower_1. apply cond_pos.
Qed.
Lemma kernel_cont a b t : 1 <= a -> 1 <= b -> continuous (beta_kernel a b) t.
Proof.
  intros Ha Hb. unfold beta_kernel. apply (@continuous_mult R_UniformSpace R_AbsRing (fun t : R => pw t (a - 1)) (fun t => pw (1 - t) (b - 1))).
  - apply pw_cont. lra.
  - apply (continuous_comp (fun t => 1 - t) (fun x => pw x (b - 1))); [|apply pw_cont; lra].
    apply (@ex_derive_continuous R_AbsRing R_NormedModule). auto_derive. exact Logic.I.
Qed.
Lemma kernel_int a b x y : 1 <= a -> 1 <= b -> ex_RInt (beta_kernel a b) x y.
Proof. intros Ha Hb. apply (@ex_RInt_continuous R_CompleteNormedModule). intros z _. apply kernel_cont; assumption. Qed.
Lemma kernel_nonneg a b t : 0 <= beta_kernel a b t.
Proof. apply Rmult_le_pos; apply pw_nonneg. Qed.
Lemma kernel_pos a b t : 0 < t < 1 -> 0 < beta_kernel a b t.
Proof. intros H. unfold beta_kernel. rewrite !pw_pos by lra. apply Rmult_lt_0_compat; apply exp_pos. Qed.
Lemma beta_function_pos a b : 1 <= a -> 1 <= b -> 0 < beta_function a b.
Proof.
  intros Ha Hb. apply RInt_gt_0; [lra|intros; apply kernel_pos; assumption|]. intros; apply kernel_cont; assumption.
Qed.
Lemma bd_0 a b : beta_distribution a b 0 = 0.
Proof. unfold beta_distribution. rewrite RInt_point. unfold zero; cbn. unfold Rdiv. apply Rmult_0_l. Qed.
Lemma bd_1 a b : 1 <= a -> 1 <= b -> beta_distribution a b 1 = 1.
Proof. intros Ha Hb. unfold beta_distribution, beta_function. apply Rinv_r. pose proof (beta_function_pos a b Ha Hb) as H. unfold beta_function in H. lra. Qed.
Lemma bd_mono a b v v' : 1 <= a -> 1 <= b -> v <= v' -> beta_distribution a b v <= beta_distribution a b v'.
Proof.
  intros Ha Hb Hv. unfold beta_distribution. apply Rmult_le_compat_r; [left; apply Rinv_0_lt_compat, beta_function_pos; assumption|].
  rewrite <- (RInt_Chasles (beta_kernel a b) 0 v v') by (apply kernel_int; assumption). unfold plus; cbn -[RInt].
  assert (0 <= RInt (beta_kernel a b) v v') by (apply RInt_ge_0; [exact Hv|apply kernel_int; assumption|intros; apply kernel_nonneg]). lra.
Qed.
Lemma bd_derive a b v : 1 <= a -> 1 <= b -> is_derive (beta_distribution a b) v (beta_density a b v).
Proof.
  intros Ha Hb. unfold beta_distribution, beta_density, Rdiv.
  apply (is_derive_ext (fun v => scal (/ beta_function a b) (RInt (beta_kernel a b) 0 v))). { intros t. unfold scal; cbn. apply Rmult_comm. }
  replace (beta_kernel a b v * / beta_function a b) with (scal (/ beta_function a b) (beta_kernel a b v)) by (unfold scal; cbn; apply Rmult_comm).
  apply is_derive_scal. apply (@is_derive_RInt R_NormedModule (beta_kernel a b) _ 0 v); [|apply kernel_cont; assumption].
  exists (mkposreal 1 Rlt_0_1). intros y _. apply (@RInt_correct R_CompleteNormedModule). apply kernel_int; assumption.
Qed.

(** * integer parameters: binomial tails *)
Definition bern (n k : nat) (v : R) : R := C n k * v ^ k * (1 - v) ^ (n - k).
Lemma C_left n k : (k <= n)%nat -> C (S n) (S k) * INR (S k) = INR (S n) * C n k.
Proof.
  intros H. unfold C. replace (S n - S k)%nat with (n - k)%nat by lia. cbn [fact]. rewrite !mult_INR.
  pose proof (INR_fact_neq_0 k). pose proof (INR_fact_neq_0 (n - k)). assert (INR (S k) <> 0) by (apply not_0_INR; discriminate). field. auto.
Qed.
Lemma C_right n k : (k <= n)%nat -> C (S n) k * INR (S n - k) = INR (S n) * C n k.
Proof.
  intros H. unfold C. replace (S n - k)%nat with (S (n - k)) by lia. cbn [fact]. rewrite !mult_INR.
  pose proof (INR_fact_neq_0 k). pose proof (INR_fact_neq_0 (n - k)). assert (INR (S (n - k)) <> 0) by (apply not_0_INR; discriminate). field. auto.
Qed.
Lemma bern_derive_top n v : is_derive (bern (S n) (S n)) v (INR (S n) * bern n n v).
Proof.
  unfold bern. replace (S n - S n)%nat with 0%nat by lia. replace (n - n)%nat with 0%nat by lia. rewrite !pow_O.
  unfold C. rewrite !Nat.sub_diag. cbn [fact]. pose proof (INR_fact_neq_0 n) as F. pose proof (INR_fact_neq_0 (S n)) as F'.
  apply (is_derive_ext (fun v => v ^ S n)). { intros t. Req. change (INR 1) with 1. cbn [fact] in F'. field. exact F'. }
  replace (INR (S n) * (INR (fact n) / (INR (fact n) * INR 1) * v ^ n * 1)) with (INR (S n) * 1 * v ^ n) by (change (INR 1) with 1; field; exact F).
  apply (is_derive_pow (fun v => v) (S n) v 1). apply (@is_derive_id R_AbsRing).
Qed.
Lemma bern_derive n k v : (k < n)%nat -> is_derive (bern (S n) (S k)) v (INR (S n) * (bern n k v - bern n (S k) v)).
Proof.
  intros H. unfold bern. replace (S n - S k)%nat with (S (n - S k)) by lia. replace (n - k)%nat with (S (n - S k)) by lia.
  set (m := (n - S k)%nat). pose proof (C_left n k ltac:(lia)) as CL. pose proof (C_right n (S k) ltac:(lia)) as CR. replace (S n - S k)%nat with (S m) in CR by (unfold m; lia).
  assert (D1 : is_derive (fun v : R => v ^ S k) v (INR (S k) * 1 * v ^ k)) by (apply (is_derive_pow (fun v => v) (S k) v 1); apply (@is_derive_id R_AbsRing)).
  assert (D2 : is_derive (fun v : R => (1 - v) ^ S m) v (INR (S m) * (-1) * (1 - v) ^ m)).
  { apply (is_derive_pow (fun v => 1 - v) (S m) v (-1)). auto_derive; [exact Logic.I|ring]. }
  assert (D3 := is_derive_mult (fun v : R => v ^ S k) (fun v : R => (1 - v) ^ S m) v _ _ D1 D2 (fun a b => Rmult_comm a b)).
  apply (is_derive_ext (fun v => scal (C (S n) (S k)) (v ^ S k * (1 - v) ^ S m))). { intros t. unfold scal; cbn. unfold mult; cbn -[pow]. Req. ring. }
  match type of D3 with is_derive _ _ ?x => replace (INR (S n) * (C n k * v ^ k * (1 - v) ^ S m - C n (S k) * v ^ S k * (1 - v) ^ m)) with (scal (C (S n) (S k)) x) end.
  - apply is_derive_scal. exact D3.
  - unfold scal, mult, plus; cbn -[pow INR C]. unfold mult; cbn -[pow INR C].
    replace (INR (S n) * (C n k * v ^ k * (1 - v) ^ S m - C n (S k) * v ^ S k * (1 - v) ^ m)) with ((INR (S n) * C n k) * v ^ k * (1 - v) ^ S m - (INR (S n) * C n (S k)) * v ^ S k * (1 - v) ^ m) by ring.
    rewrite <- CL, <- CR. ring.
Qed.
(** tail r..n+1 of the binomial law with n+1 trials, from r = n+1-m *)
Fixpoint tail (n m : nat) (v : R) : R :=
  match m with O => bern (S n) (S n) v | S m' => bern (S n) (S n - m) v + tail n m' v end.
Lemma tail_derive n m v : (m <= n)%nat -> is_derive (tail n m) v (INR (S n) * bern n (n - m) v).
Proof.
  induction m as [|m IH]; intros H; [rewrite Nat.sub_0_r; apply bern_derive_top|]. cbn [tail].
  replace (S n - S m)%nat with (S (n - S m)) by lia.
  replace (INR (S n) * bern n (n - S m) v) with (plus (INR (S n) * (bern n (n - S m) v - bern n (S (n - S m)) v)) (INR (S n) * bern n (n - m) v)).
  - apply (@is_derive_plus R_AbsRing R_NormedModule (fun v => bern (S n) (S (n - S m)) v) (tail n m)); [apply bern_derive; lia|apply IH; lia].
  - replace (S (n - S m)) with (n - m)%nat by lia. unfold plus; cbn -[INR]. ring.
Qed.
Lemma bern_0 n k : bern n (S k) 0 = 0.
Proof. unfold bern. rewrite pow_i by lia. ring. Qed.
Lemma bern_1 n k : (k < n)%nat -> bern n k 1 = 0.
Proof. intros H. unfold bern. replace (1 - 1) with 0 by ring. rewrite pow_i by lia. ring. Qed.
Lemma tail_0 n m : (m <= n)%nat -> tail n m 0 = 0.
Proof. induction m as [|m IH]; intros H; cbn [tail]; [apply bern_0|]. replace (S n - S m)%nat with (S (n - S m)) by lia. rewrite bern_0, IH by lia. ring. Qed.
Lemma tail_1 n m : (m <= n)%nat -> tail n m 1 = 1.
Proof.
  induction m as [|m IH]; intros H; cbn [tail].
  - unfold bern. rewrite Nat.sub_diag, pow1, pow_O. unfold C. rewrite Nat.sub_diag. cbn [fact]. change (INR 1) with 1. pose proof (INR_fact_neq_0 (S n)) as F. cbn [fact] in F. field. exact F.
  - rewrite bern_1, IH by lia. ring.
Qed.
Lemma bern_cont n k v : continuous (bern n k) v.
Proof. apply (@ex_derive_continuous R_AbsRing R_NormedModule). unfold bern. auto_derive. exact Logic.I. Qed.
(** integral of the kernel with integer parameters r = n+1-m, m+1 *)
Lemma kernel_nat n m v : (m <= n)%nat -> 0 <= v <= 1 ->
  INR (S n) * C n (n - m) * RInt (beta_kernel (INR (S n - m)) (INR (S m))) 0 v = tail n m v.
Proof.
  intros H Hv.
  assert (E : RInt (fun t => INR (S n) * bern n (n - m) t) 0 v = tail n m v).
  { apply is_RInt_unique. replace (tail n m v) with (minus (tail n m v) (tail n m 0)) by (rewrite (tail_0 n m H); unfold minus, plus, opp; cbn -[tail]; ring).
    apply (@is_RInt_derive R_CompleteNormedModule (tail n m) (fun t => INR (S n) * bern n (n - m) t) 0 v).
    - intros; apply tail_derive; exact H.
    - intros x _. apply (@continuous_scal_r R_UniformSpace R_AbsRing R_NormedModule (INR (S n)) (bern n (n - m))). apply bern_cont. }
  rewrite <- E. match goal with |- ?c * ?x = _ => change (c * x) with (scal c x) end. rewrite <- (RInt_scal (beta_kernel (INR (S n - m)) (INR (S m))) 0 v (INR (S n) * C n (n - m))).
  - apply RInt_ext. intros t Ht. rewrite Rmin_left, Rmax_right in Ht by lra. unfold scal; cbn -[INR Nat.sub]. unfold mult; cbn -[INR Nat.sub]. unfold beta_kernel, bern.
    replace (S n - m)%nat with (S (n - m)) by lia. rewrite !S_INR. replace (INR (n - m) + 1 - 1) with (INR (n - m)) by ring. replace (INR m + 1 - 1) with (INR m) by ring.
    rewrite !pw_nat by lra. replace (n - (n - m))%nat with m by lia. Req. ring.
  - apply kernel_int; [apply (le_INR 1); lia|apply (le_INR 1); lia].
Qed.
Lemma bd_nat n m v : (m <= n)%nat -> 0 <= v <= 1 -> beta_distribution (INR (S n - m)) (INR (S m)) v = tail n m v.
Proof.
  intros H Hv. unfold beta_distribution, beta_function. pose proof (kernel_nat n m v H Hv) as E. pose proof (kernel_nat n m 1 H ltac:(lra)) as E1.
  rewrite tail_1 in E1 by exact H. rewrite <- E. set (c := INR (S n) * C n (n - m)) in *.
  assert (B : RInt (beta_kernel (INR (S n - m)) (INR (S m))) 0 1 <> 0) by (intros Z; rewrite Z in E1; lra).
  assert (Ec : c = / RInt (beta_kernel (INR (S n - m)) (INR (S m))) 0 1) by (apply (Rmult_eq_reg_r (RInt (beta_kernel (INR (S n - m)) (INR (S m))) 0 1)); [|exact B]; rewrite Rinv_l; assumption).
  rewrite Ec. unfold Rdiv. ring.
Qed.
Lemma bern_total n v : rsum (S n) (fun m => bern n (n - m) v) = 1.
Proof.
  assert (E : rsum (S n) (fun m => bern n (n - m) v) = sum_f_R0 (fun k => C n k * (1 - v) ^ k * v ^ (n - k)) n).
  { assert (G : forall k, rsum (S k) (fun m => bern n (n - m) v) = sum_f_R0 (fun m => bern n (n - m) v) k).
    { induction k as [|k IH]; [cbn; ring|]. cbn [sum_f_R0]. rewrite <- IH. reflexivity. }
    rewrite G. apply sum_eq. intros k Hk. unfold bern. replace (n - (n - k))%nat with k by lia. rewrite pascal_step1 by lia. replace (n - (n - k))%nat with k by lia. ring. }
  rewrite E, <- binomial. replace (1 - v + v) with 1 by ring. apply pow1.
Qed.
Lemma bd_sum n v : 0 <= v <= 1 ->
  rsum (S n) (fun m => beta_distribution (INR (S n - m)) (INR (S m)) v) = INR (S n) * v.
Proof.
  intros Hv. rewrite (rsum_ext _ _ (fun m => tail n m v)) by (intros m Hm; apply bd_nat; [lia|exact Hv]).
  assert (D : forall k t, (k <= S n)%nat -> is_derive (fun t => rsum k (fun m => tail n m t)) t (INR (S n) * rsum k (fun m => bern n (n - m) t))).
  { induction k as [|k IH]; intros t Hk.
    - cbn. rewrite Rmult_0_r. apply (@is_derive_const R_AbsRing R_NormedModule).
    - cbn [rsum]. rewrite Rmult_plus_distr_l. apply (@is_derive_plus R_AbsRing R_NormedModule (fun t => rsum k (fun m => tail n m t)) (fun t => tail n k t)); [apply IH; lia|apply tail_derive; lia]. }
  destruct (Req_dec v 0) as [->|Hv0].
  { rewrite rsum_zero; [ring|]. intros i Hi. apply tail_0. lia. }
  assert (E : rsum (S n) (fun m => tail n m 0) - INR (S n) * 0 = rsum (S n) (fun m => tail n m v) - INR (S n) * v).
  { apply (@eq_is_derive R_NormedModule (fun t => rsum (S n) (fun m => tail n m t) - INR (S n) * t) 0 v); [|lra]. intros t _.
    replace (@Hierarchy.zero R_NormedModule) with (minus (INR (S n) * rsum (S n) (fun m => bern n (n - m) t)) (INR (S n) * 1)).
    - apply (@is_derive_minus R_AbsRing R_NormedModule (fun t => rsum (S n) (fun m => tail n m t)) (fun t => INR (S n) * t)); [apply D; lia|].
      apply (is_derive_scal (fun t => t)). apply (@is_derive_id R_AbsRing).
    - rewrite bern_total. unfold minus, plus, opp, Hierarchy.zero; cbn -[INR]. ring. }
  rewrite (rsum_zero (S n) (fun m => tail n m 0)) in E by (intros i Hi; apply tail_0; lia). lra.
Qed.
Lemma rsum_rev n f : rsum (S n) (fun i => f (n - i)%nat) = rsum (S n) f.
Proof.
  induction n as [|n IH]; [reflexivity|]. rewrite rsum_Sl. replace (S n - 0)%nat with (S n) by lia.
  transitivity (f (S n) + rsum (S n) (fun i => f (n - i)%nat)); [f_equal; apply rsum_ext; intros; f_equal; lia|]. rewrite IH. cbn [rsum]. ring.
Qed.
Lemma bd_ranks n v : 0 <= v <= 1 -> rsum n (fun r => beta_distribution (INR (S r)) (INR n + 1 - INR (S r)) v) = INR n * v.
Proof.
  intros Hv. destruct n as [|n]; [cbn; ring|]. rewrite <- (bd_sum n v Hv). rewrite <- rsum_rev. apply rsum_ext. intros m Hm.
  f_equal; [f_equal; lia|]. rewrite !S_INR, minus_INR by lia. ring.
Qed.
