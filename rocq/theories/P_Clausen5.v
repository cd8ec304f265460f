(** Accuracy of the Clausen function: the three branches of the code. *)
From Coq Require Import QArith Qreals Qabs.
From Coquelicot Require Import Coquelicot.
From Verif Require Import Base RSumLib M_Specfunc M_DebyeSeries M_Clausen S_Clausen PolyQ PolyZ P_Dilog P_DebyeSeries P_DebyeSeries2 P_Clausen P_Clausen2 P_Clausen3 P_Clausen4 P_Specfunc.
From Coq Require Import Psatz.
Local Close Scope Q_scope. Open Scope R_scope.
Opaque fact.

Lemma weight_0 a b p : peval (weight a b p) 0 = INR b * Q2R (hd 0%Q p).
Proof.
  rewrite weight_eval. destruct p as [|c p]; [cbn; rewrite Q2R_0; ring|]. cbn [length hd]. rewrite rsum_Sl. rewrite (rsum_zero (length p)) by (intros; cbn [pow]; ring). cbn [nth pow]. rewrite Nat.mul_0_r. cbn [Nat.add]. ring.
Qed.
Lemma table_generic t g l P z : (exists t', toZ (10 ^ 24) 1 t = Some t' /\ zbound (zadd t' (zscal (-1) l)) (10 ^ 24) (3 # 10000000000000000000) = true) -> 0 <= z <= 1 ->
  Rabs (1 * peval g (P * z) - zeval l z / 10 ^ 24) <= INR (length g) / 10 ^ 24 -> (length g <= 100)%nat -> Rabs (peval t z - peval g (P * z)) <= 3 / 10 ^ 19 + 1 / 10 ^ 22.
Proof.
  intros [t' [E C]] Hz B L. apply (toZ_eval 1 z) in E. apply (zbound_R _ _ _ z Hz) in C. rewrite zeval_add, zeval_scal, E in C. rewrite !Rmult_1_l in *. change (IZR (10 ^ 24)) with (IZR (10 ^ Z.of_nat 24)) in C. rewrite <- pow_IZR in C.
  replace (Q2R (3 # 10000000000000000000)) with (3 / 10 ^ 19) in C by (unfold Q2R; cbn [Qnum Qden]; lra). assert (T : 0 < 10 ^ 24) by (apply pow_lt; lra). apply le_INR in L. replace (INR 100) with 100 in L by (cbn; ring). assert (B' : Rabs (peval g (P * z) - zeval l z / 10 ^ 24) <= 1 / 10 ^ 22). { eapply Rle_trans; [exact B|]. unfold Rdiv. lra. }
  assert (C' : Rabs (peval t z - zeval l z / 10 ^ 24) <= 3 / 10 ^ 19). { apply Rmult_le_reg_l with (10 ^ 24); [exact T|]. rewrite <- (Rabs_pos_eq (10 ^ 24)) at 1 by lra. rewrite <- Rabs_mult. replace (10 ^ 24 * (peval t z - zeval l z / 10 ^ 24)) with (10 ^ 24 * peval t z + -1 * zeval l z) by (field; lra). exact C. }
  apply Rabs_le_between in B', C'. apply Rabs_le_between. lra.
Qed.
Lemma gpoly_length : length gpoly = 37%nat. Proof. unfold gpoly. cbn [length]. rewrite map_length, seq_length. reflexivity. Qed.
Lemma check_t_inv t : check_t t = true -> exists t', t = Some t' /\ zbound (zadd t' (zscal (-1) gz)) (10 ^ 24) (3 # 10000000000000000000) = true.
Proof. destruct t as [t|]; [|discriminate]. intros H. exists t. split; [reflexivity|exact H]. Qed.
Lemma table_bound z : 0 <= z <= 1 -> Rabs (peval tpoly z - peval gpoly (PI ^ 2 * z)) <= 3 / 10 ^ 19 + 1 / 10 ^ 22.
Proof.
  intros Hz. apply table_generic with gz; [exact (check_t_inv _ check_t_true)|exact Hz| |rewrite gpoly_length; lia].
  apply (chk_R p2lo p2hi (PI ^ 2) z) with (plo := 1%Q) (phi := 1%Q); [rewrite <- Q2R_0; apply Qle_R; reflexivity|apply p2_bounds|exact Hz| | |exact check_g]; replace (Q2R 1) with 1 by (unfold Q2R; cbn; field); lra.
Qed.
Lemma tpoly_eval z : peval tpoly z = cheb_eval clausen_constants (2 * (z - 1 / 2)) (-1) 1.
Proof.
  unfold tpoly. rewrite cheb_poly_eval. unfold clausen_constants. rewrite decimals_R by reflexivity. f_equal. cbn [peval]. rewrite Q2R_m1, Q2R_2. field.
Qed.
Lemma q_0 : peval (weight 2 1 gpoly) 0 = 1.
Proof. rewrite weight_0. unfold gpoly. cbn [hd INR]. replace (Q2R 1) with 1 by (unfold Q2R; cbn; field). ring. Qed.
Lemma cl_gpoly f x : is_clausen f -> 0 < x <= PI -> Rabs (f x + x * ln x - x * peval gpoly (x ^ 2)) <= 7 / 10 ^ 22 * x ^ 2 * x.
Proof. intros F Hx. apply cl_poly; [lra|exact q_0|exact cot_bound|exact F|exact Hx]. Qed.

(** the table *)
Lemma main_generic t g fx x : 0 < x <= PI -> Rabs (t - g) <= 3 / 10 ^ 19 + 1 / 10 ^ 22 -> Rabs (fx + x * ln x - x * g) <= 7 / 10 ^ 22 * x ^ 2 * x -> Rabs (x * (t - ln x) - fx) <= 4 / 10 ^ 19 * x.
Proof.
  intros Hx T B. assert (V : x ^ 2 <= PI ^ 2) by (apply pow_incr; lra). pose proof (proj2 p2_bounds) as P10.
  replace (x * (t - ln x) - fx) with (x * (t - g) - (fx + x * ln x - x * g)) by ring. unfold Rminus at 1. eapply Rle_trans; [apply Rabs_triang|]. rewrite Rabs_Ropp, Rabs_mult, (Rabs_pos_eq x) by lra.
  assert (x * Rabs (t - g) <= x * (3 / 10 ^ 19 + 1 / 10 ^ 22)) by (apply Rmult_le_compat_l; lra). assert (7 / 10 ^ 22 * x ^ 2 * x <= 7 / 10 ^ 22 * 10 * x) by (apply Rmult_le_compat_r; [lra|]; apply Rmult_le_compat_l; lra). lra.
Qed.
Lemma ratio_le x : 0 < x <= PI -> 0 <= x * x / PI ^ 2 <= 1 /\ PI ^ 2 * (x * x / PI ^ 2) = x ^ 2.
Proof.
  intros Hx. assert (V : x ^ 2 <= PI ^ 2) by (apply pow_incr; lra). assert (P2 : 0 < PI ^ 2) by (apply pow_lt; lra). assert (V0 : 0 < x ^ 2) by (apply pow_lt; lra). split; [|field; lra].
  replace (x * x) with (x ^ 2) by ring. split; [apply Rmult_le_pos; [lra|left; apply Rinv_0_lt_compat; lra]|]. apply Rmult_le_reg_r with (PI ^ 2); [lra|]. unfold Rdiv. rewrite Rmult_assoc, Rinv_l by lra. lra.
Qed.
Lemma main_branch f x : is_clausen f -> 0 < x <= PI -> Rabs (x * (cheb_eval clausen_constants (2 * (x * x / PI ^ 2 - 1 / 2)) (-1) 1 - ln x) - f x) <= 4 / 10 ^ 19 * x.
Proof.
  intros F Hx. destruct (ratio_le x Hx) as [Z E]. pose proof (table_bound _ Z) as T. rewrite tpoly_eval, E in T. exact (main_generic _ _ _ _ Hx T (cl_gpoly f x F Hx)).
Qed.
(** very small arguments *)
Definition small_coefs (p : list Q) : bool := forallb (fun a => Qle_bool 0 a && Qle_bool a 1) p.
Lemma small_bound p w : 0 <= w <= 1 -> small_coefs p = true -> 0 <= peval p w <= INR (length p).
Proof.
  intros Hw. induction p as [|a p IH]; intros C; [cbn; lra|]. cbn [small_coefs forallb] in C. apply andb_true_iff in C. destruct C as [C1 C2]. apply andb_true_iff in C1. destruct C1 as [A B]. apply Qle_R in A, B. rewrite Q2R_0 in A. replace (Q2R 1) with 1 in B by (unfold Q2R; cbn; field).
  specialize (IH C2). cbn [peval length]. rewrite S_INR. nra.
Qed.
Lemma check_small : small_coefs (tl gpoly) = true. Proof. vm_compute. reflexivity. Qed.
Lemma gpoly_hd w : peval gpoly w = 1 + w * peval (tl gpoly) w.
Proof. unfold gpoly. cbn [peval tl]. replace (Q2R 1) with 1 by (unfold Q2R; cbn; field). reflexivity. Qed.
Lemma small_branch f x : is_clausen f -> 0 < x < PI * / 2 ^ 52 -> Rabs (x * (1 - ln x) - f x) <= 4 / 10 ^ 19 * x.
Proof.
  intros F Hx. pose proof PI_RGT_0 as P. pose proof PI_lt_4 as P4. assert (X : x < 1 / 10 ^ 15) by lra. pose proof (cl_gpoly f x F ltac:(lra)) as B. assert (V : 0 <= x ^ 2 <= 1 / 10 ^ 30). { split; [apply pow2_ge_0|]. replace (1 / 10 ^ 30) with ((1 / 10 ^ 15) ^ 2) by field. apply pow_incr. lra. }
  rewrite gpoly_hd in B. assert (W : 0 <= x ^ 2 <= 1) by lra. pose proof (small_bound (tl gpoly) (x ^ 2) W check_small) as S. assert (L : length (tl gpoly) = 36%nat) by (pose proof gpoly_length; destruct gpoly; cbn in *; lia). rewrite L in S. replace (INR 36) with 36 in S by (cbn; ring).
  set (g := peval (tl gpoly) (x ^ 2)) in *. clearbody g. replace (x * (1 - ln x) - f x) with (- (f x + x * ln x - x * (1 + x ^ 2 * g)) + - (x * (x ^ 2 * g))) by ring. eapply Rle_trans; [apply Rabs_triang|]. rewrite !Rabs_Ropp, (Rabs_pos_eq (x * _)) by (apply Rmult_le_pos; [lra|apply Rmult_le_pos; lra]).
  assert (x ^ 2 * g <= 1 / 10 ^ 30 * 36) by (apply Rmult_le_compat; lra). assert (x * (x ^ 2 * g) <= x * (1 / 10 ^ 30 * 36)) by (apply Rmult_le_compat_l; lra). assert (7 / 10 ^ 22 * x ^ 2 * x <= 7 / 10 ^ 22 * 1 * x) by (apply Rmult_le_compat_r; [lra|]; apply Rmult_le_compat_l; lra). lra.
Qed.
Lemma log_nan_pos x : 0 < x -> log_nan x = Some (ln x).
Proof. intros H. unfold log_nan. rewrite (proj2 (Rltb_true 0 x) H). reflexivity. Qed.
Lemma core_accurate f x s : is_clausen f -> 0 < x <= PI -> exists v, clausen_core clausen_constants (x, s) = Some (v * s) /\ Rabs (v - f x) <= 4 / 10 ^ 19 * x.
Proof.
  intros F Hx. unfold clausen_core. rewrite (proj2 (Rltb_false PI x)) by lra. rewrite (proj2 (Reqb_false x 0)) by lra. rewrite log_nan_pos by lra.
  destruct (Rltb x (PI * / 2 ^ 52)) eqn:E; eexists; (split; [reflexivity|]); [apply Rltb_true in E; apply small_branch; [exact F|lra]|apply main_branch; assumption].
Qed.
Lemma clausen_fn_accurate f x : is_clausen f -> 0 < x < 2 * PI -> exists v, clausen_fn x = Some v /\ Rabs (v - f x) <= 4 / 10 ^ 19 * Rmin x (2 * PI - x).
Proof.
  intros F Hx. pose proof PI_RGT_0 as P. unfold clausen_fn. rewrite clausen_pos, restrict_small by lra. destruct (Rle_lt_dec x PI) as [L|L].
  - destruct (core_accurate f x 1 F ltac:(lra)) as [v [E B]]. exists (v * 1). split; [exact E|]. rewrite Rmult_1_r, Rmin_left by lra. exact B.
  - rewrite core_reflect by exact L. destruct (core_accurate f (2 * PI - x) (- 1) F ltac:(lra)) as [v [E B]]. exists (v * -1). split; [exact E|]. rewrite Rmin_right by lra. rewrite (clausen_reflect f x F Hx) in B. replace (v * -1 - f x) with (- (v - - f x)) by ring. rewrite Rabs_Ropp. exact B.
Qed.
