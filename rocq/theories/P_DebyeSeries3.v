(** Debye functions above 4: the exponential series and the constants at infinity. *)
From Coq Require Import QArith Qreals Qabs.
From Coquelicot Require Import Coquelicot.
From Verif Require Import Base RSumLib Ext S_Archimedean P_Debye P_Debye2 M_Specfunc M_DebyeSeries PolyQ P_Basel P_Dilog P_Dilog3 P_DebyeSeries P_DebyeSeries2.
From Coq Require Import Psatz.
Local Close Scope Q_scope. Open Scope R_scope.

(** ** the integrals of t/(e^t-1) and t^2/(e^t-1) over [0, x] by exponential series *)
Definition A (n : nat) (x : R) : R := rsum n (fun k => exp (- ((INR k + 1) * x)) * (x / (INR k + 1) + / (INR k + 1) ^ 2)).
Definition B (n : nat) (x : R) : R := rsum n (fun k => exp (- ((INR k + 1) * x)) * (x ^ 2 / (INR k + 1) + 2 * x / (INR k + 1) ^ 2 + 2 / (INR k + 1) ^ 3)).
Definition E (n : nat) (x : R) : R := rsum n (fun k => exp (- ((INR k + 1) * x))).
Definition cb_sum (n : nat) : R := rsum n (fun k => / (INR k + 1) ^ 3).

Lemma A_derive n x : is_derive (A n) x (- (x * E n x)).
Proof.
  unfold E. rewrite <- rsum_scal, <- rsum_opp. apply (is_derive_rsum n (fun k x => exp (- ((INR k + 1) * x)) * (x / (INR k + 1) + / (INR k + 1) ^ 2))).
  intros k _. pose proof (pos_INR k). auto_derive; [exact Logic.I|]. field. lra.
Qed.
Lemma B_derive n x : is_derive (B n) x (- (x ^ 2 * E n x)).
Proof.
  unfold E. rewrite <- rsum_scal, <- rsum_opp. apply (is_derive_rsum n (fun k x => exp (- ((INR k + 1) * x)) * (x ^ 2 / (INR k + 1) + 2 * x / (INR k + 1) ^ 2 + 2 / (INR k + 1) ^ 3))).
  intros k _. pose proof (pos_INR k). auto_derive; [exact Logic.I|]. field. lra.
Qed.
Lemma E_sum n x : E n x * (exp x - 1) = 1 - exp (- (INR n * x)).
Proof.
  unfold E. induction n as [|n IH]; cbn [rsum].
  - cbn [INR]. rewrite !Rmult_0_l, Ropp_0, exp_0. ring.
  - rewrite Rmult_plus_distr_r, IH, S_INR. replace (exp (- (INR n * x))) with (exp x * exp (- ((INR n + 1) * x))) by (rewrite <- exp_plus; f_equal; ring). ring.
Qed.
Lemma k1_rest n x : 0 < x -> 0 <= k1 x - x * E n x <= exp (- (INR n * x)).
Proof.
  intros H. pose proof (expm1_pos x H) as P. pose proof (exp_pos (- (INR n * x))) as Q. rewrite k1_nz by lra.
  replace (x / (exp x - 1) - x * E n x) with (x / (exp x - 1) * exp (- (INR n * x))).
  2:{ pose proof (E_sum n x) as S. replace (exp (- (INR n * x))) with (1 - E n x * (exp x - 1)) by lra. field. lra. }
  assert (0 <= x / (exp x - 1) <= 1).
  { split; [apply Rlt_le, Rdiv_lt_0_compat; lra|]. apply (Rmult_le_reg_r (exp x - 1)); [exact P|]. unfold Rdiv. rewrite Rmult_assoc, Rinv_l, Rmult_1_r by lra. pose proof (exp_ineq1 x ltac:(lra)). lra. }
  split; [apply Rmult_le_pos; lra|]. rewrite <- (Rmult_1_l (exp (- (INR n * x)))) at 2. apply Rmult_le_compat_r; lra.
Qed.
Lemma A_0 n : A n 0 = sq_sum n.
Proof. apply rsum_ext. intros k _. pose proof (pos_INR k). rewrite Rmult_0_r, Ropp_0, exp_0. field. lra. Qed.
Lemma B_0 n : B n 0 = 2 * cb_sum n.
Proof. unfold cb_sum. rewrite <- rsum_scal. apply rsum_ext. intros k _. pose proof (pos_INR k). rewrite Rmult_0_r, Ropp_0, exp_0. field. lra. Qed.
Lemma int1_series n x : (0 < n)%nat -> 0 < x -> sq_sum n <= RInt k1 0 x + A n x <= sq_sum n + / INR n.
Proof.
  intros Hn Hx. assert (Pn : 0 < INR n) by (apply lt_0_INR; lia).
  destruct (MVT_cor2 (fun t => RInt k1 0 t + A n t) (fun t => k1 t + - (t * E n t)) 0 x Hx) as [c [E1 C1]].
  { intros t _. apply is_derive_Reals. apply (is_derive_plus (K := R_AbsRing) (V := R_NormedModule) (fun t => RInt k1 0 t) (A n)); [apply debye_int_derive|apply A_derive]. }
  destruct (MVT_cor2 (fun t => (RInt k1 0 t + A n t) + exp (- (INR n * t)) / INR n) (fun t => (k1 t + - (t * E n t)) + - exp (- (INR n * t))) 0 x Hx) as [d [E2 C2]].
  { intros t _. apply is_derive_Reals. apply (is_derive_plus (K := R_AbsRing) (V := R_NormedModule) (fun t => RInt k1 0 t + A n t) (fun t => exp (- (INR n * t)) / INR n)).
    - apply (is_derive_plus (K := R_AbsRing) (V := R_NormedModule) (fun t => RInt k1 0 t) (A n)); [apply debye_int_derive|apply A_derive].
    - auto_derive; [exact Logic.I|]. field. lra. }
  pose proof (k1_rest n c ltac:(lra)) as [K1 _]. pose proof (k1_rest n d ltac:(lra)) as [_ K2]. rewrite int_0, A_0 in E1. rewrite int_0, A_0, Rmult_0_r, Ropp_0, exp_0 in E2.
  assert (0 < exp (- (INR n * x)) / INR n) by (apply Rdiv_lt_0_compat; [apply exp_pos|exact Pn]). split; [nra|]. unfold Rdiv in *. nra.
Qed.
Lemma int2_series n x : (0 < n)%nat -> 0 < x -> 2 * cb_sum n <= RInt k2 0 x + B n x <= 2 * cb_sum n + / INR n ^ 2.
Proof.
  intros Hn Hx. assert (Pn : 0 < INR n) by (apply lt_0_INR; lia).
  destruct (MVT_cor2 (fun t => RInt k2 0 t + B n t) (fun t => k2 t + - (t ^ 2 * E n t)) 0 x Hx) as [c [E1 C1]].
  { intros t _. apply is_derive_Reals. apply (is_derive_plus (K := R_AbsRing) (V := R_NormedModule) (fun t => RInt k2 0 t) (B n)); [apply int2_derive|apply B_derive]. }
  destruct (MVT_cor2 (fun t => (RInt k2 0 t + B n t) + exp (- (INR n * t)) * (t / INR n + / INR n ^ 2)) (fun t => (k2 t + - (t ^ 2 * E n t)) + - (t * exp (- (INR n * t)))) 0 x Hx) as [d [E2 C2]].
  { intros t _. apply is_derive_Reals. apply (is_derive_plus (K := R_AbsRing) (V := R_NormedModule) (fun t => RInt k2 0 t + B n t) (fun t => exp (- (INR n * t)) * (t / INR n + / INR n ^ 2))).
    - apply (is_derive_plus (K := R_AbsRing) (V := R_NormedModule) (fun t => RInt k2 0 t) (B n)); [apply int2_derive|apply B_derive].
    - auto_derive; [exact Logic.I|]. field. lra. }
  pose proof (k1_rest n c ltac:(lra)) as [K1 _]. pose proof (k1_rest n d ltac:(lra)) as [_ K2]. rewrite k2_k1 in E1, E2. rewrite int_0, B_0 in E1. rewrite int_0, B_0, Rmult_0_r, Ropp_0, exp_0 in E2.
  assert (0 < exp (- (INR n * x)) * (x / INR n + / INR n ^ 2)).
  { apply Rmult_lt_0_compat; [apply exp_pos|]. apply Rplus_lt_0_compat; [apply Rdiv_lt_0_compat; lra|apply Rinv_0_lt_compat, pow_lt, Pn]. }
  assert (0 <= (c * k1 c + - (c ^ 2 * E n c)) * (x - 0)) by (replace (c * k1 c + - (c ^ 2 * E n c)) with (c * (k1 c - c * E n c)) by ring; apply Rmult_le_pos; [apply Rmult_le_pos|]; lra).
  assert ((d * k1 d + - (d ^ 2 * E n d) + - (d * exp (- (INR n * d)))) * (x - 0) <= 0).
  { replace ((d * k1 d + - (d ^ 2 * E n d) + - (d * exp (- (INR n * d)))) * (x - 0)) with (- (d * (exp (- (INR n * d)) - (k1 d - d * E n d)) * x)) by ring. assert (0 <= d * (exp (- (INR n * d)) - (k1 d - d * E n d)) * x) by (apply Rmult_le_pos; [apply Rmult_le_pos|]; lra). lra. }
  unfold Rdiv in *. rewrite Rmult_0_l, Rplus_0_l, Rmult_1_l in E2. lra.
Qed.

(** ** tails of the series *)
Lemma exp_multiple k x : exp (- ((INR k + 1) * x)) = exp (- x) ^ S k.
Proof.
  induction k as [|k IH]; [cbn [INR]; rewrite Rplus_0_l, Rmult_1_l; cbn [pow]; ring|]. rewrite S_INR. cbn [pow] in *. rewrite <- IH, <- exp_plus. f_equal. ring.
Qed.
Lemma geometric q f C n : 0 < q < 1 -> (forall k, 0 <= f k <= C) -> forall j, 0 <= rsum (n + j) (fun k => q ^ S k * f k) - rsum n (fun k => q ^ S k * f k) <= C * q ^ S n / (1 - q) - C * q ^ S (n + j) / (1 - q).
Proof.
  intros Hq Hf. induction j as [|j IH]; [rewrite Nat.add_0_r; lra|]. rewrite Nat.add_succ_r. cbn [rsum]. pose proof (Hf (n + j)%nat) as F. assert (P : 0 < q ^ S (n + j)) by (apply pow_lt; lra).
  set (s1 := rsum (n + j) _) in *. set (s2 := rsum n _) in *. set (p := q ^ S (n + j)) in *. change (q ^ S (S (n + j))) with (q * p). assert (0 <= p * f (n + j)%nat <= p * C) by (split; [apply Rmult_le_pos; lra|apply Rmult_le_compat_l; lra]).
  replace (C * (q * p) / (1 - q)) with (C * p / (1 - q) - p * C) by (field; lra). lra.
Qed.
Lemma inv_ge_1 k j : 0 < / (INR k + 1) ^ j <= 1.
Proof.
  pose proof (pos_INR k). assert (P : 1 <= (INR k + 1) ^ j) by (apply pow_R1_Rle; lra). split; [apply Rinv_0_lt_compat; lra|]. apply Rle_trans with (/ 1); [apply Rinv_le_contravar; lra|lra].
Qed.
Lemma A_tail n j x : 0 < x -> 0 <= A (n + j) x - A n x <= (x + 1) * exp (- x) ^ S n / (1 - exp (- x)).
Proof.
  intros Hx. pose proof (exp_pos (- x)) as P. assert (Q : exp (- x) < 1) by (rewrite <- exp_0; apply exp_increasing; lra).
  pose proof (geometric (exp (- x)) (fun k => x / (INR k + 1) + / (INR k + 1) ^ 2) (x + 1) n ltac:(lra)) as G.
  assert (F : forall k, 0 <= x / (INR k + 1) + / (INR k + 1) ^ 2 <= x + 1).
  { intros k. pose proof (inv_ge_1 k 1) as I1. pose proof (inv_ge_1 k 2). rewrite pow_1 in I1. unfold Rdiv. set (u := / (INR k + 1)) in *. assert (0 <= x * u <= x * 1) by (split; [apply Rmult_le_pos; lra|apply Rmult_le_compat_l; lra]). lra. }
  specialize (G F j). assert (E1 : forall m, A m x = rsum m (fun k => exp (- x) ^ S k * (x / (INR k + 1) + / (INR k + 1) ^ 2))) by (intros m; apply rsum_ext; intros k _; rewrite exp_multiple; reflexivity).
  rewrite !E1. assert (0 < (x + 1) * exp (- x) ^ S (n + j) / (1 - exp (- x))) by (apply Rdiv_lt_0_compat; [apply Rmult_lt_0_compat; [lra|apply pow_lt, P]|lra]). lra.
Qed.
Lemma B_tail n j x : 0 < x -> 0 <= B (n + j) x - B n x <= (x ^ 2 + 2 * x + 2) * exp (- x) ^ S n / (1 - exp (- x)).
Proof.
  intros Hx. pose proof (exp_pos (- x)) as P. assert (Q : exp (- x) < 1) by (rewrite <- exp_0; apply exp_increasing; lra).
  pose proof (geometric (exp (- x)) (fun k => x ^ 2 / (INR k + 1) + 2 * x / (INR k + 1) ^ 2 + 2 / (INR k + 1) ^ 3) (x ^ 2 + 2 * x + 2) n ltac:(lra)) as G. assert (X2 : 0 < x ^ 2) by (apply pow_lt, Hx).
  assert (F : forall k, 0 <= x ^ 2 / (INR k + 1) + 2 * x / (INR k + 1) ^ 2 + 2 / (INR k + 1) ^ 3 <= x ^ 2 + 2 * x + 2).
  { intros k. pose proof (inv_ge_1 k 1) as I1. pose proof (inv_ge_1 k 2) as I2. pose proof (inv_ge_1 k 3) as I3. rewrite pow_1 in I1. unfold Rdiv. set (u := / (INR k + 1)) in *. set (u2 := / (INR k + 1) ^ 2) in *. set (u3 := / (INR k + 1) ^ 3) in *. set (y := x ^ 2) in *.
    assert (0 <= y * u <= y * 1) by (split; [apply Rmult_le_pos; lra|apply Rmult_le_compat_l; lra]). assert (0 <= 2 * x * u2 <= 2 * x * 1) by (split; [apply Rmult_le_pos; lra|apply Rmult_le_compat_l; lra]). lra. }
  specialize (G F j). assert (E1 : forall m, B m x = rsum m (fun k => exp (- x) ^ S k * (x ^ 2 / (INR k + 1) + 2 * x / (INR k + 1) ^ 2 + 2 / (INR k + 1) ^ 3))) by (intros m; apply rsum_ext; intros k _; rewrite exp_multiple; reflexivity).
  rewrite !E1. assert (0 < (x ^ 2 + 2 * x + 2) * exp (- x) ^ S (n + j) / (1 - exp (- x))) by (apply Rdiv_lt_0_compat; [apply Rmult_lt_0_compat; [lra|apply pow_lt, P]|lra]). lra.
Qed.

(** ** the constants at infinity *)
Fixpoint qeval (p : list Q) (w : Q) : Q := match p with [] => 0%Q | a :: r => qplus a (qmult w (qeval r w)) end.
Lemma qeval_R p w : Q2R (qeval p w) = peval p (Q2R w).
Proof. induction p as [|a r IH]; cbn [qeval peval]; [apply Q2R_0|]. rewrite qplus_R, qmult_R, IH. reflexivity. Qed.
Fixpoint qpows (s : nat) (n : nat) : Q := match n with O => 0%Q | S m => qplus (qpows s m) (1 # Pos.of_nat (n ^ s)) end.
Lemma qpows_R s n : Q2R (qpows s n) = rsum n (fun k => / (INR k + 1) ^ s).
Proof.
  induction n as [|n IH]; cbn [qpows rsum]; [apply Q2R_0|]. rewrite qplus_R, IH. f_equal. unfold Q2R. cbn [Qnum Qden]. rewrite Rmult_1_l. f_equal. rewrite <- S_INR, <- pow_INR, INR_IZR_INZ. f_equal.
  assert (S n ^ s <> 0)%nat by (apply Nat.pow_nonzero; lia). lia.
Qed.
Definition up2 : list Q := [0; 1; -(1 # 2); 1 # 6; 0; -(1 # 30); 0; 1 # 42; 0; -(1 # 30); 0; 5 # 66]%Q.
Definition lo2 : list Q := [0; 1; -(1 # 2); 1 # 6; 0; -(1 # 30); 0; 1 # 42; 0; -(1 # 30)]%Q.
Definition up3 : list Q := [0; 0; 1 # 2; -(1 # 2); 1 # 4; 0; -(1 # 12); 0; 1 # 12; 0; -(3 # 20); 0; 5 # 12]%Q.
Definition lo3 : list Q := [0; 0; 1 # 2; -(1 # 2); 1 # 4; 0; -(1 # 12); 0; 1 # 12; 0; -(3 # 20)]%Q.
Ltac explicit u := unfold u, peval, Q2R; cbn [Qopp Qnum Qden Z.opp].
Lemma up2_step n : 0 < n -> / (n + 1) ^ 2 <= peval up2 (/ n) - peval up2 (/ (n + 1)).
Proof.
  intros H. apply Rminus_le_0. explicit up2. match goal with |- 0 <= ?e => replace e with ((5/66 + 5/6 * n + 62/15 * n ^ 2 + 182/15 * n ^ 3 + 487/21 * n ^ 4 + 625/21 * n ^ 5 + 2654/105 * n ^ 6 + 1382/105 * n ^ 7 + 691/210 * n ^ 8) / (n ^ 11 * (n + 1) ^ 11)) by (field; lra) end.
  apply Rlt_le, Rdiv_lt_0_compat; [|apply Rmult_lt_0_compat; apply pow_lt; lra]. repeat (apply Rplus_lt_0_compat; [|apply Rmult_lt_0_compat; [lra|try apply pow_lt; exact H]]). lra.
Qed.
Lemma lo2_step n : 0 < n -> peval lo2 (/ n) - peval lo2 (/ (n + 1)) <= / (n + 1) ^ 2.
Proof.
  intros H. apply Rminus_le_0. explicit lo2. match goal with |- 0 <= ?e => replace e with ((1/30 + 3/10 * n + 247/210 * n ^ 2 + 181/70 * n ^ 3 + 709/210 * n ^ 4 + 5/2 * n ^ 5 + 5/6 * n ^ 6) / (n ^ 9 * (n + 1) ^ 9)) by (field; lra) end.
  apply Rlt_le, Rdiv_lt_0_compat; [|apply Rmult_lt_0_compat; apply pow_lt; lra]. repeat (apply Rplus_lt_0_compat; [|apply Rmult_lt_0_compat; [lra|try apply pow_lt; exact H]]). lra.
Qed.
Lemma up3_step n : 0 < n -> / (n + 1) ^ 3 <= peval up3 (/ n) - peval up3 (/ (n + 1)).
Proof.
  intros H. apply Rminus_le_0. explicit up3. match goal with |- 0 <= ?e => replace e with ((5/12 + 5 * n + 547/20 * n ^ 2 + 1348/15 * n ^ 3 + 5893/30 * n ^ 4 + 298 * n ^ 5 + 1897/6 * n ^ 6 + 3428/15 * n ^ 7 + 2073/20 * n ^ 8 + 691/30 * n ^ 9) / (n ^ 12 * (n + 1) ^ 12)) by (field; lra) end.
  apply Rlt_le, Rdiv_lt_0_compat; [|apply Rmult_lt_0_compat; apply pow_lt; lra]. repeat (apply Rplus_lt_0_compat; [|apply Rmult_lt_0_compat; [lra|try apply pow_lt; exact H]]). lra.
Qed.
Lemma lo3_step n : 0 < n -> peval lo3 (/ n) - peval lo3 (/ (n + 1)) <= / (n + 1) ^ 3.
Proof.
  intros H. apply Rminus_le_0. explicit lo3. match goal with |- 0 <= ?e => replace e with ((3/20 + 3/2 * n + 20/3 * n ^ 2 + 103/6 * n ^ 3 + 167/6 * n ^ 4 + 859/30 * n ^ 5 + 35/2 * n ^ 6 + 5 * n ^ 7) / (n ^ 10 * (n + 1) ^ 10)) by (field; lra) end.
  apply Rlt_le, Rdiv_lt_0_compat; [|apply Rmult_lt_0_compat; apply pow_lt; lra]. repeat (apply Rplus_lt_0_compat; [|apply Rmult_lt_0_compat; [lra|try apply pow_lt; exact H]]). lra.
Qed.
Lemma telescope_up s u N : (0 < N)%nat -> (forall n, 0 < n -> / (n + 1) ^ s <= peval u (/ n) - peval u (/ (n + 1))) ->
  forall j, rsum (N + j) (fun k => / (INR k + 1) ^ s) + peval u (/ INR (N + j)) <= rsum N (fun k => / (INR k + 1) ^ s) + peval u (/ INR N).
Proof.
  intros HN H. induction j as [|j IH]; [rewrite Nat.add_0_r; lra|]. rewrite Nat.add_succ_r. cbn [rsum]. rewrite S_INR. specialize (H (INR (N + j)) ltac:(apply lt_0_INR; lia)). lra.
Qed.
Lemma telescope_lo s u N : (0 < N)%nat -> (forall n, 0 < n -> peval u (/ n) - peval u (/ (n + 1)) <= / (n + 1) ^ s) ->
  forall j, rsum N (fun k => / (INR k + 1) ^ s) + peval u (/ INR N) <= rsum (N + j) (fun k => / (INR k + 1) ^ s) + peval u (/ INR (N + j)).
Proof.
  intros HN H. induction j as [|j IH]; [rewrite Nat.add_0_r; lra|]. rewrite Nat.add_succ_r. cbn [rsum]. rewrite S_INR. specialize (H (INR (N + j)) ltac:(apply lt_0_INR; lia)). lra.
Qed.
Lemma small_tail r w : 0 <= w <= 1 -> Qle_bool (sumabs r) 2 = true -> Rabs (peval (0%Q :: r) w) <= 2 * w.
Proof.
  intros Hw C. cbn [peval]. rewrite Q2R_0, Rplus_0_l, Rabs_mult, (Rabs_pos_eq w) by lra. rewrite (Rmult_comm 2). apply Rmult_le_compat_l; [lra|]. apply Qle_bool_iff, Qle_Rle in C. rewrite Q2R_2 in C. eapply Rle_trans; [apply sumabs_R; exact Hw|exact C].
Qed.
Definition V2 : Q := qdec (164493406684822644, 17)%Z.
Definition V3 : Q := qmult (1 # 4) (qdec (480822761263837714, 17)%Z).
Definition e17 : Q := (1 # 100000000000000000)%Q.
Lemma num2_up : Qle_bool (qplus (qpows 2 30) (qeval up2 (1 # 30))) (qplus V2 e17) = true. Proof. vm_compute. reflexivity. Qed.
Lemma num2_lo : Qle_bool (qplus V2 (Qopp e17)) (qplus (qpows 2 30) (qeval lo2 (1 # 30))) = true. Proof. vm_compute. reflexivity. Qed.
Lemma num3_up : Qle_bool (qplus (qpows 3 30) (qeval up3 (1 # 30))) (qplus V3 e17) = true. Proof. vm_compute. reflexivity. Qed.
Lemma num3_lo : Qle_bool (qplus V3 (Qopp e17)) (qplus (qpows 3 30) (qeval lo3 (1 # 30))) = true. Proof. vm_compute. reflexivity. Qed.
Lemma third : Q2R (1 # 30) = / INR 30. Proof. rewrite INR_IZR_INZ. unfold Q2R. cbn. lra. Qed.
Lemma inv_01 m : (0 < m)%nat -> 0 <= / INR m <= 1.
Proof. intros H. assert (1 <= INR m) by (apply (le_INR 1); lia). split; [apply Rlt_le, Rinv_0_lt_compat; lra|]. apply Rle_trans with (/ 1); [apply Rinv_le_contravar; lra|lra]. Qed.
Lemma sq_sum_bounds m : (30 <= m)%nat -> Rabs (sq_sum m - Q2R V2) <= Q2R e17 + 2 / INR m.
Proof.
  intros Hm. pose proof (telescope_up 2 up2 30 ltac:(lia) up2_step (m - 30)) as U. pose proof (telescope_lo 2 lo2 30 ltac:(lia) lo2_step (m - 30)) as L. replace (30 + (m - 30))%nat with m in * by lia. fold (sq_sum m) in *.
  pose proof num2_up as NU. pose proof num2_lo as NL. apply Qle_bool_iff, Qle_Rle in NU. apply Qle_bool_iff, Qle_Rle in NL. rewrite !qplus_R, ?Q2R_opp, qeval_R, qpows_R, third in *.
  pose proof (small_tail (tl up2) (/ INR m) (inv_01 m ltac:(lia)) eq_refl) as S1. pose proof (small_tail (tl lo2) (/ INR m) (inv_01 m ltac:(lia)) eq_refl) as S2. change (0%Q :: tl up2) with up2 in S1. change (0%Q :: tl lo2) with lo2 in S2.
  apply Rabs_le_between in S1. apply Rabs_le_between in S2. apply Rabs_le_between. unfold Rdiv. lra.
Qed.
Lemma cb_sum_bounds m : (30 <= m)%nat -> Rabs (cb_sum m - Q2R V3) <= Q2R e17 + 2 / INR m.
Proof.
  intros Hm. pose proof (telescope_up 3 up3 30 ltac:(lia) up3_step (m - 30)) as U. pose proof (telescope_lo 3 lo3 30 ltac:(lia) lo3_step (m - 30)) as L. replace (30 + (m - 30))%nat with m in * by lia. fold (cb_sum m) in *.
  pose proof num3_up as NU. pose proof num3_lo as NL. apply Qle_bool_iff, Qle_Rle in NU. apply Qle_bool_iff, Qle_Rle in NL. rewrite !qplus_R, ?Q2R_opp, qeval_R, qpows_R, third in *.
  pose proof (small_tail (tl up3) (/ INR m) (inv_01 m ltac:(lia)) eq_refl) as S1. pose proof (small_tail (tl lo3) (/ INR m) (inv_01 m ltac:(lia)) eq_refl) as S2. change (0%Q :: tl up3) with up3 in S1. change (0%Q :: tl lo3) with lo3 in S2.
  apply Rabs_le_between in S1. apply Rabs_le_between in S2. apply Rabs_le_between. unfold Rdiv. lra.
Qed.

(** ** the integrals from the first n terms *)
Lemma le_by_inv a b c : 0 <= c -> (forall m, (30 <= m)%nat -> a <= b + c / INR m) -> a <= b.
Proof.
  intros Hc H. apply Rnot_lt_le. intros N. destruct (nfloor_ex (c / (a - b) + 1)) as [k [_ K]]. { apply Rplus_le_le_0_compat; [apply Rdiv_le_0_compat; lra|lra]. }
  specialize (H (k + 31)%nat ltac:(lia)). assert (M : c / (a - b) < INR (k + 31)) by (rewrite plus_INR; cbn [INR]; lra). assert (P : 0 < INR (k + 31)) by (apply lt_0_INR; lia).
  apply (Rmult_lt_compat_r (a - b)) in M; [|lra]. unfold Rdiv in M, H. rewrite Rmult_assoc, Rinv_l, Rmult_1_r in M by lra. apply (Rmult_lt_compat_r (/ INR (k + 31))) in M; [|apply Rinv_0_lt_compat, P].
  replace (INR (k + 31) * (a - b) * / INR (k + 31)) with (a - b) in M by (field; lra). lra.
Qed.
Lemma int1_tail n x : 0 < x -> Rabs (Q2R V2 - A n x - RInt k1 0 x) <= Q2R e17 + (x + 1) * exp (- x) ^ S n / (1 - exp (- x)).
Proof.
  intros Hx. apply (le_by_inv _ _ 3); [lra|]. intros m Hm. pose proof (sq_sum_bounds (n + m) ltac:(lia)) as S. pose proof (int1_series (n + m) x ltac:(lia) Hx) as I1. pose proof (A_tail n m x Hx) as T. apply Rabs_le_between in S.
  assert (J : 0 <= / INR (n + m) <= / INR m). { assert (0 < INR m) by (apply lt_0_INR; lia). split; [apply Rlt_le, Rinv_0_lt_compat, lt_0_INR; lia|]. apply Rinv_le_contravar; [assumption|apply le_INR; lia]. }
  apply Rabs_le_between. unfold Rdiv in *. lra.
Qed.
Lemma int2_tail n x : 0 < x -> Rabs (2 * Q2R V3 - B n x - RInt k2 0 x) <= 2 * Q2R e17 + (x ^ 2 + 2 * x + 2) * exp (- x) ^ S n / (1 - exp (- x)).
Proof.
  intros Hx. apply (le_by_inv _ _ 5); [lra|]. intros m Hm. pose proof (cb_sum_bounds (n + m) ltac:(lia)) as S. pose proof (int2_series (n + m) x ltac:(lia) Hx) as I1. pose proof (B_tail n m x Hx) as T. apply Rabs_le_between in S.
  assert (J : 0 <= / INR (n + m) <= / INR m). { assert (0 < INR m) by (apply lt_0_INR; lia). split; [apply Rlt_le, Rinv_0_lt_compat, lt_0_INR; lia|]. apply Rinv_le_contravar; [assumption|apply le_INR; lia]. }
  assert (J2 : / INR (n + m) ^ 2 <= / INR (n + m)). { assert (1 <= INR (n + m)) by (apply (le_INR 1); lia). apply Rinv_le_contravar; [lra|]. nra. }
  apply Rabs_le_between. unfold Rdiv in *. lra.
Qed.

(** ** tails that are negligible *)
Lemma negligible n x : 4 < x -> 70 <= INR (S n) * x -> exp (- x) ^ S n / (1 - exp (- x)) <= / 10 ^ 25.
Proof.
  intros Hx Hn. assert (P : 0 < exp (- x)) by apply exp_pos. assert (Q : exp (- x) <= 1 / 2).
  { pose proof (exp_ineq1 x ltac:(lra)). rewrite exp_Ropp. apply Rle_trans with (/ 2); [apply Rinv_le_contravar; lra|lra]. }
  assert (E1 : exp (- x) ^ S n <= / (12 / 5) ^ 70).
  { rewrite <- exp_multiple, exp_Ropp. apply Rinv_le_contravar; [apply pow_lt; lra|]. apply Rle_trans with (exp 1 ^ 70); [apply pow_incr; pose proof exp_1_lower; lra|].
    assert (X : forall k, exp 1 ^ k = exp (INR k)). { induction k as [|k IH]; [cbn; rewrite exp_0; reflexivity|]. rewrite S_INR, exp_plus, <- IH. cbn [pow]. ring. }
    rewrite X. rewrite S_INR in Hn. replace (INR 70) with 70 by (rewrite INR_IZR_INZ; reflexivity). destruct (Rle_lt_or_eq_dec _ _ Hn) as [L|L]; [left; apply exp_increasing; lra|rewrite <- L; lra]. }
  apply Rle_trans with (exp (- x) ^ S n * 2).
  - unfold Rdiv. apply Rmult_le_compat_l; [apply pow_le; lra|]. apply Rle_trans with (/ (1 / 2)); [apply Rinv_le_contravar; lra|lra].
  - apply Rle_trans with (/ (12 / 5) ^ 70 * 2); [lra|]. assert (2 * 10 ^ 25 <= (12 / 5) ^ 70) by (cbn [pow]; lra). assert (0 < 10 ^ 25) by (apply pow_lt; lra). apply Rle_trans with (/ (2 * 10 ^ 25) * 2); [apply Rmult_le_compat_r; [lra|]; apply Rinv_le_contravar; lra|]. right. field.
Qed.
Lemma series1 n x : 4 < x -> 70 <= INR (S n) * x -> Rabs ((decimal (164493406684822644, 17)%Z - A n x) / x - debye 1 x) <= / 10 ^ 17.
Proof.
  intros Hx Hn. pose proof (negligible n x Hx Hn) as N. pose proof (int1_tail n x ltac:(lra)) as T. unfold V2 in T. rewrite qdec_R in T by (cbn; lia). set (v := decimal _) in *.
  replace ((v - A n x) / x - debye 1 x) with ((v - A n x - RInt k1 0 x) * / x) by (unfold debye; cbn [INR]; field; lra). rewrite Rabs_mult, (Rabs_pos_eq (/ x)) by (apply Rlt_le, Rinv_0_lt_compat; lra).
  unfold Rdiv in T. rewrite Rmult_assoc in T. fold (exp (- x) ^ S n / (1 - exp (- x))) in T. set (t := exp (- x) ^ S n / (1 - exp (- x))) in *. assert (E1 : Q2R e17 = / 10 ^ 17) by (unfold e17, Q2R; cbn [Qnum Qden pow]; lra). rewrite E1 in T.
  apply (Rmult_le_reg_r x); [lra|]. rewrite Rmult_assoc, Rinv_l, Rmult_1_r by lra. eapply Rle_trans; [exact T|].
  assert ((x + 1) * t <= (x + 1) * / 10 ^ 25) by (apply Rmult_le_compat_l; lra). assert (10 * / 10 ^ 25 <= / 10 ^ 17) by (cbn [pow]; lra). assert (0 < / 10 ^ 25) by (apply Rinv_0_lt_compat, pow_lt; lra). nra.
Qed.
Lemma series2 n x : 4 < x -> 70 <= INR (S n) * x -> Rabs ((decimal (480822761263837714, 17)%Z - 2 * B n x) / x ^ 2 - debye 2 x) <= / 10 ^ 17.
Proof.
  intros Hx Hn. pose proof (negligible n x Hx Hn) as N. pose proof (int2_tail n x ltac:(lra)) as T. unfold V3 in T. rewrite qmult_R, qdec_R in T by (cbn; lia). set (v := decimal _) in *.
  replace (2 * (Q2R (1 # 4) * v)) with (v / 2) in T by (unfold Q2R; cbn [Qnum Qden]; lra).
  replace ((v - 2 * B n x) / x ^ 2 - debye 2 x) with (2 * ((v / 2 - B n x - RInt k2 0 x) * / x ^ 2)) by (unfold debye; cbn [INR]; field; lra). rewrite !Rabs_mult, (Rabs_pos_eq 2), (Rabs_pos_eq (/ x ^ 2)) by (try lra; apply Rlt_le, Rinv_0_lt_compat, pow_lt; lra).
  unfold Rdiv in T at 2. rewrite Rmult_assoc in T. fold (exp (- x) ^ S n / (1 - exp (- x))) in T. set (t := exp (- x) ^ S n / (1 - exp (- x))) in *. assert (E1 : Q2R e17 = / 10 ^ 17) by (unfold e17, Q2R; cbn [Qnum Qden pow]; lra). rewrite E1 in T.
  assert (X2 : 16 < x ^ 2) by nra. apply (Rmult_le_reg_r (x ^ 2)); [lra|]. rewrite !Rmult_assoc, Rinv_l, Rmult_1_r by lra. eapply Rle_trans; [apply Rmult_le_compat_l; [lra|exact T]|].
  assert ((x ^ 2 + 2 * x + 2) * t <= (x ^ 2 + 2 * x + 2) * / 10 ^ 25) by (apply Rmult_le_compat_l; nra). assert (100 * / 10 ^ 25 <= / 10 ^ 17) by (cbn [pow]; lra). assert (0 < / 10 ^ 25) by (apply Rinv_0_lt_compat, pow_lt; lra). nra.
Qed.

(** ** the loops of the code *)
Lemma loop_app c ex l : forall s, fold_left (fun total i => total * ex + c (INR i)) l s = s * ex ^ length l + fold_left (fun total i => total * ex + c (INR i)) l 0.
Proof. induction l as [|a l IH]; intros s; cbn [fold_left length pow]; [ring|]. rewrite IH, (IH (0 * ex + c (INR a))). ring. Qed.
Lemma loop_sum c ex : forall n a, fold_left (fun total i => total * ex + c (INR i)) (rev (seq a n)) 0 = rsum n (fun k => ex ^ k * c (INR (a + k))).
Proof.
  induction n as [|n IH]; intros a; [reflexivity|]. cbn [seq rev]. rewrite fold_left_app, IH. cbn [fold_left]. rewrite rsum_Sl, <- rsum_scal_r, Nat.add_0_r. cbn [pow]. rewrite Rmult_1_l, Rplus_comm. f_equal. apply rsum_ext. intros k _. replace (S a + k)%nat with (a + S k)%nat by lia. ring.
Qed.
Lemma loop_value c ex n : debye_loop c ex n = rsum n (fun k => ex ^ k * c (INR (1 + k))).
Proof. apply loop_sum. Qed.
Lemma loop1 x n : 0 < x -> debye_loop (fun i => (1 + 1 / (x * i)) / i) (exp (- x)) n * exp (- x) = A n x / x.
Proof.
  intros Hx. unfold A. rewrite loop_value. unfold Rdiv at 3. rewrite <- !rsum_scal_r. apply rsum_ext. intros k _. rewrite exp_multiple, plus_INR. cbn [INR pow]. pose proof (pos_INR k). field. lra.
Qed.
Lemma loop2 x n : 0 < x -> 2 * debye_loop (fun i => let xi := x * i in (1 + 2 / xi + 2 / xi ^ 2) / i) (exp (- x)) n * exp (- x) = 2 * B n x / x ^ 2.
Proof.
  intros Hx. unfold B. rewrite loop_value. unfold Rdiv at 4. rewrite !Rmult_assoc, <- !rsum_scal_r. f_equal. apply rsum_ext. intros k _. rewrite exp_multiple, plus_INR. cbn [INR pow]. pose proof (pos_INR k). field. lra.
Qed.
