(** How close the approximation of the normal distribution function is. *)
From Coq Require Import QArith Qreals.
From Coquelicot Require Import Coquelicot.
From Verif Require Import Base RSumLib M_Gmc S_Gmc P_GmcMarg S_Normal P_GaussInt P_Clausen3.
From Coq Require Import Psatz.
Local Close Scope Q_scope. Local Close Scope Z_scope. Open Scope R_scope.

(** ** Monotonicity from the sign of the derivative *)
Lemma incr_on (f g : R -> R) a b : a <= b -> (forall x, a <= x <= b -> is_derive f x (g x)) -> (forall x, a <= x <= b -> 0 <= g x) -> f a <= f b.
Proof.
  intros H D P. destruct (MVT_gen f a b g) as [c [Hc E]].
  - rewrite Rmin_left, Rmax_right by exact H. intros x Hx. apply D. lra.
  - rewrite Rmin_left, Rmax_right by exact H. intros x Hx. apply cont_of_derive with (g x), D. lra.
  - rewrite Rmin_left, Rmax_right in Hc by exact H. specialize (P c Hc). assert (0 <= g c * (b - a)) by (apply Rmult_le_pos; lra). lra.
Qed.
Lemma decr_on (f g : R -> R) a b : a <= b -> (forall x, a <= x <= b -> is_derive f x (g x)) -> (forall x, a <= x <= b -> g x <= 0) -> f b <= f a.
Proof.
  intros H D P. assert (L : - f a <= - f b); [|lra]. apply (incr_on (fun x => - f x) (fun x => - g x) a b H); [|intros x Hx; specialize (P x Hx); lra].
  intros x Hx. apply (is_derive_opp (V := R_NormedModule)), D, Hx.
Qed.
Lemma lip_on (f g : R -> R) a b m : a <= b -> (forall x, a <= x <= b -> is_derive f x (g x)) -> (forall x, a <= x <= b -> Rabs (g x) <= m) -> Rabs (f b - f a) <= m * (b - a).
Proof.
  intros H D P. destruct (MVT_gen f a b g) as [c [Hc E]].
  - rewrite Rmin_left, Rmax_right by exact H. intros x Hx. apply D. lra.
  - rewrite Rmin_left, Rmax_right by exact H. intros x Hx. apply cont_of_derive with (g x), D. lra.
  - rewrite Rmin_left, Rmax_right in Hc by exact H. rewrite E, Rabs_mult, (Rabs_pos_eq (b - a)) by lra. apply Rmult_le_compat_r; [lra|]. apply P, Hc.
Qed.

(** ** Partial sums of exp (- w) and of its integral *)
Fixpoint es (n : nat) (w : R) : R := match n with O => 1 | S k => es k w + (-1) ^ S k * w ^ S k / INR (fact (S k)) end.
Fixpoint et (n : nat) (y : R) : R := match n with O => y | S k => et k y + (-1) ^ S k * y ^ (2 * S k + 1) / (INR (fact (S k)) * INR (2 * S k + 1)) end.
Lemma fact_pos n : 0 < INR (fact n). Proof. apply INR_fact_lt_0. Qed.
Lemma term_derive (a b w : R) m d : a * (INR (S m) * w ^ m) / b = d -> is_derive (fun w => a * w ^ S m / b) w d.
Proof. intros <-. auto_derive; [trivial|]. change (Init.Nat.pred (S m)) with m. change (match m with O => 1 | S _ => INR m + 1 end) with (INR (S m)). unfold Rdiv. ring. Qed.
Lemma es_derive (n : nat) (w : R) : is_derive (es (S n)) w (- es n w).
Proof.
  induction n as [|n IH].
  - cbn [es]. auto_derive; [trivial|]. cbn. field.
  - change (es (S (S n))) with (fun w => es (S n) w + (-1) ^ S (S n) * w ^ S (S n) / INR (fact (S (S n)))).
    replace (- es (S n) w) with (- es n w + - ((-1) ^ S n * w ^ S n / INR (fact (S n)))) by (cbn [es]; ring).
    apply (is_derive_plus (V := R_NormedModule)); [exact IH|]. apply term_derive. rewrite (fact_simpl (S n)), mult_INR.
    pose proof (fact_pos (S n)). assert (0 < INR (S (S n))) by (apply lt_0_INR; lia). change ((-1) ^ S (S n)) with (-1 * (-1) ^ S n). set (k := INR (S (S n))) in *. set (f := INR (fact (S n))) in *. set (q := (-1) ^ S n). set (v := w ^ S n). field. lra.
Qed.
Lemma es_0 n : es n 0 = 1.
Proof. induction n as [|n IH]; [reflexivity|]. cbn [es]. rewrite IH. cbn [pow]. unfold Rdiv. ring. Qed.
Lemma sign_succ n : (-1) ^ S n = - (-1) ^ n. Proof. cbn [pow]. ring. Qed.
Lemma es_bound n w : 0 <= w -> 0 <= (-1) ^ n * (es n w - exp (- w)).
Proof.
  revert w. induction n as [|n IH]; intros w H.
  - cbn [es pow]. assert (exp (- w) <= 1); [|lra]. rewrite <- exp_0. destruct H as [H| <-]; [left; apply exp_increasing; lra|right; f_equal; ring].
  - replace 0 with ((-1) ^ S n * (es (S n) 0 - exp (- 0))) by (rewrite es_0, Ropp_0, exp_0; ring).
    apply (incr_on (fun w => (-1) ^ S n * (es (S n) w - exp (- w))) (fun w => (-1) ^ n * (es n w - exp (- w))) 0 w H); [|intros x Hx; apply IH; lra].
    intros x _. replace ((-1) ^ n * (es n x - exp (- x))) with ((-1) ^ S n * (- es n x - - exp (- x))) by (rewrite sign_succ; ring).
    apply (is_derive_scal (fun w => es (S n) w - exp (- w))). apply (is_derive_minus (V := R_NormedModule)); [apply es_derive|]. auto_derive; [trivial|ring].
Qed.
Lemma et_derive (n : nat) (y : R) : is_derive (et n) y (es n (y ^ 2)).
Proof.
  induction n as [|n IH]; [cbn [et es]; auto_derive; [trivial|ring]|].
  change (et (S n)) with (fun y => et n y + (-1) ^ S n * y ^ (2 * S n + 1) / (INR (fact (S n)) * INR (2 * S n + 1))). cbn [es].
  apply (is_derive_plus (V := R_NormedModule)); [exact IH|]. replace (2 * S n + 1)%nat with (S (2 * S n)) by lia. apply term_derive. rewrite <- (pow_mult y 2 (S n)).
  pose proof (fact_pos (S n)). assert (0 < INR (S (2 * S n))) by (apply lt_0_INR; lia).
  set (k := INR (S (2 * S n))) in *. set (f := INR (fact (S n))) in *. field. lra.
Qed.
Lemma et_0 n : et n 0 = 0.
Proof. induction n as [|n IH]; [reflexivity|]. cbn [et]. rewrite IH. rewrite (Nat.add_comm _ 1). cbn [Nat.add pow]. unfold Rdiv. ring. Qed.


(** ** Rational evaluation *)
Fixpoint ev (n : nat) (y : Q) : Q * Q * Q :=
  match n with
  | O => (1, 1, y)
  | S k => let '(a, s, t) := ev k y in let a' := Qred (- a * (y * y) / inject_Z (Z.of_nat (S k))) in
           (a', Qred (s + a'), Qred (t + a' * y / inject_Z (Z.of_nat (2 * S k + 1))))
  end%Q.
Lemma Q2R_red q : Q2R (Qred q) = Q2R q. Proof. apply Qeq_eqR, Qred_correct. Qed.
Lemma Q2R_nat n : Q2R (inject_Z (Z.of_nat n)) = INR n. Proof. unfold Q2R. cbn. rewrite INR_IZR_INZ. field. Qed.
Lemma nat_nz n : ~ (inject_Z (Z.of_nat (S n)) == 0)%Q.
Proof. unfold Qeq. cbn [inject_Z Qnum Qden]. lia. Qed.
Lemma ev_R n y : let '(a, s, t) := ev n y in Q2R a = (-1) ^ n * (Q2R y ^ 2) ^ n / INR (fact n) /\ Q2R s = es n (Q2R y ^ 2) /\ Q2R t = et n (Q2R y).
Proof.
  induction n as [|n IH]; [cbn [ev es et fact INR pow]; rewrite RMicromega.Q2R_1; repeat split; field|].
  cbn [ev]. destruct (ev n y) as [[a s] t]. destruct IH as [A [B C]]. set (a' := Qred (- a * _ / _)%Q).
  assert (A' : Q2R a' = (-1) ^ S n * (Q2R y ^ 2) ^ S n / INR (fact (S n))).
  { unfold a'. rewrite Q2R_red, Q2R_div by apply nat_nz. rewrite !Q2R_mult, Q2R_opp, Q2R_nat, A. rewrite fact_simpl, mult_INR. pose proof (fact_pos n). assert (0 < INR (S n)) by (apply lt_0_INR; lia). cbn [pow]. field. lra. }
  split; [exact A'|]. split.
  - rewrite Q2R_red, Q2R_plus, A', B. reflexivity.
  - rewrite Q2R_red, Q2R_plus, Q2R_div by (replace (2 * S n + 1)%nat with (S (2 * S n)) by lia; apply nat_nz). rewrite Q2R_mult, Q2R_nat, A', C. cbn [et]. f_equal. rewrite <- pow_mult, pow_add, pow_1.
    pose proof (fact_pos (S n)). assert (0 < INR (2 * S n + 1)) by (apply lt_0_INR; lia). set (k := INR (2 * S n + 1)) in *. set (f := INR (fact (S n))) in *. set (w := _ ^ (2 * S n)). set (q := (-1) ^ S n). field. lra.
Qed.

(** ** The error function *)
Definition cc : R := 2 / sqrt PI.
Definition clo : Q := 112837916 # 100000000.
Definition chi : Q := 112837917 # 100000000.
Lemma cc_bounds : Q2R clo <= cc <= Q2R chi.
Proof.
  pose proof pi_bounds as B. pose proof PI_RGT_0 as P. pose proof (sqrt_lt_R0 PI P) as S. pose proof (sqrt_sqrt PI ltac:(lra)) as E. unfold cc, clo, chi. unfold Q2R in *. cbn [Qnum Qden pilo pihi] in *.
  set (s := sqrt PI) in *. set (pi := PI) in *. clearbody s pi.
  assert (U : s <= 177245386 / 100000000) by (apply Rnot_lt_le; intros H; assert (177245386 / 100000000 * (177245386 / 100000000) < s * s) by (apply Rmult_le_0_lt_compat; lra); lra).
  assert (L : 177245385 / 100000000 <= s) by (apply Rnot_lt_le; intros H; assert (s * s < 177245385 / 100000000 * (177245385 / 100000000)) by (apply Rmult_le_0_lt_compat; lra); lra).
  split; apply (Rmult_le_reg_r s); try lra; replace (2 / s * s) with 2 by (field; lra); lra.
Qed.

(** ** Rational evaluation of the difference at y: upper bound from n terms (n even), lower bound from n + 1 *)
Definition ptq (y : Q) : Q := (let t := 1 / (1 + (47047 # 100000) * y) in (3480242 # 10000000) * t + (- 958798 # 10000000) * (t * t) + (7478556 # 10000000) * (t * t * t))%Q.
Definition upq (n : nat) (y : Q) : Q := (let '(_, s, t) := ev n y in chi * t - 1 + ptq y * s)%Q.
Definition loq (n : nat) (y : Q) : Q := (let '(_, s, t) := ev (S n) y in clo * t - 1 + ptq y * s)%Q.
Definition posq (n : nat) (y : Q) : bool := let '(_, s0, t0) := ev n y in let '(_, s1, t1) := ev (S n) y in Qle_bool 0 t0 && Qle_bool 0 t1 && Qle_bool 0 (ptq y).
Definition chk (n : nat) (y m : Q) : bool := posq n y && Qle_bool (upq n y) m && Qle_bool (- m)%Q (loq n y).
Lemma Q2R_0' : Q2R 0 = 0. Proof. unfold Q2R. cbn. ring. Qed.
Lemma ptq_R y : 0 <= Q2R y -> Q2R (ptq y) = poly (tt_ (Q2R y)).
Proof.
  intros H. unfold ptq. assert (E : Q2R (1 / (1 + (47047 # 100000) * y))%Q = tt_ (Q2R y)).
  { rewrite Q2R_div.
    - rewrite Q2R_plus, Q2R_mult, RMicromega.Q2R_1. unfold tt_. f_equal.
    - intros E. apply Qeq_eqR in E. rewrite Q2R_plus, Q2R_mult, RMicromega.Q2R_1, Q2R_0' in E. unfold Q2R at 1 in E. cbn [Qnum Qden] in E. nra. }
  cbv zeta. set (t := (1 / _)%Q) in *. clearbody t. rewrite !Q2R_plus, !Q2R_mult, E. unfold poly. unfold Q2R. cbn [Qnum Qden Qopp]. set (x := tt_ _). change (- (958798)) with (-958798). unfold Rdiv. ring.
Qed.

Section Error.
  Variable F : R -> R.
  Hypothesis HF : normal_cdf F.
  Definition erf (y : R) : R := 2 * F (sqrt 2 * y) - 1.
  Lemma erf_derive (y : R) : is_derive erf y (cc * exp (- y ^ 2)).
  Proof.
    destruct HF as [D _]. unfold erf. assert (E : cc * exp (- y ^ 2) = 2 * (sqrt 2 * (exp (- ((sqrt 2 * y) * (sqrt 2 * y)) / 2) / sqrt (2 * PI)))).
    { replace (- (sqrt 2 * y * (sqrt 2 * y)) / 2) with (- (sqrt 2 * sqrt 2) * (y * y) / 2) by field. rewrite sqrt_sqrt by lra. replace (- (2) * (y * y) / 2) with (- y ^ 2) by field.
      rewrite sqrt_mult by (pose proof PI_RGT_0; lra). unfold cc. pose proof (sqrt_lt_R0 PI PI_RGT_0). pose proof (sqrt_lt_R0 2 ltac:(lra)). field. lra. }
    rewrite E. replace (2 * _) with (2 * (sqrt 2 * (exp (- (sqrt 2 * y * (sqrt 2 * y)) / 2) / sqrt (2 * PI))) - 0) by ring. apply (is_derive_minus (V := R_NormedModule)); [|apply (is_derive_const (V := R_NormedModule))].
    apply (is_derive_scal (fun y => F (sqrt 2 * y))). apply (is_derive_comp F (fun y => sqrt 2 * y)); [apply D|]. auto_derive; [trivial|ring].
  Qed.
  Lemma F_sym z : F (- z) = 1 - F z.
  Proof.
    destruct HF as [D [L0 L1]]. set (g := fun z => F z + F (- z)).
    assert (G : forall x : R, is_derive g x 0).
    { intros x. unfold g. replace 0 with (exp (- (x * x) / 2) / sqrt (2 * PI) + -1 * (exp (- (- x * - x) / 2) / sqrt (2 * PI))) by (replace (- x * - x) with (x * x) by ring; ring).
      apply (is_derive_plus (V := R_NormedModule)); [apply D|]. apply (is_derive_comp F Ropp); [apply D|]. auto_derive; [trivial|ring]. }
    assert (K : forall x, 0 <= x -> g x = g 0).
    { intros x Hx. apply Rle_antisym; [apply (decr_on g (fun _ => 0) 0 x)|apply (incr_on g (fun _ => 0) 0 x)]; intros; try lra; apply G. }
    assert (L : is_lim g p_infty 1).
    { unfold g. replace (Finite 1) with (Finite (1 + 0)) by (f_equal; ring). apply (is_lim_plus F (fun z => F (- z)) p_infty 1 0); [exact L1| |reflexivity].
      apply (is_lim_comp F Ropp p_infty 0 m_infty); [exact L0| |exists 0; discriminate]. apply (is_lim_opp (fun x => x) p_infty p_infty), is_lim_id. }
    assert (G0 : g 0 = 1).
    { assert (Lc : is_lim g p_infty (g 0)). { apply (is_lim_ext_loc (fun _ => g 0)); [|apply is_lim_const]. exists 0. intros x Hx. symmetry. apply K. lra. }
      apply is_lim_unique in L, Lc. rewrite L in Lc. injection Lc. intros ->. reflexivity. }
    assert (E : g z = 1).
    { destruct (Rle_dec 0 z) as [H|H]; [rewrite K by exact H; exact G0|]. replace (g z) with (g (- z)) by (unfold g; rewrite Ropp_involutive; ring). rewrite K by lra. exact G0. }
    unfold g in E. lra.
  Qed.
  Lemma erf_0 : erf 0 = 0.
  Proof. unfold erf. rewrite Rmult_0_r. pose proof (F_sym 0) as E. rewrite Ropp_0 in E. lra. Qed.
  Lemma erf_lim : is_lim erf p_infty 1.
  Proof.
    destruct HF as [_ [_ L]]. unfold erf. replace (Finite 1) with (Finite (2 * 1 - 1)) by (f_equal; ring). apply (is_lim_minus _ _ p_infty (2 * 1) 1); [|apply is_lim_const|reflexivity].
    apply (is_lim_scal_l (fun y => F (sqrt 2 * y)) 2 p_infty 1). apply (is_lim_comp F (fun y => sqrt 2 * y) p_infty 1 p_infty); [exact L| |exists 0; discriminate].
    pose proof (is_lim_scal_l (fun y => y) (sqrt 2) p_infty p_infty (is_lim_id _)) as H. replace (Rbar_mult (sqrt 2) p_infty) with p_infty in H; [exact H|].
    cbn. destruct (Rle_dec 0 (sqrt 2)) as [h|h]; [|exfalso; apply h, sqrt_pos]. destruct (Rle_lt_or_eq_dec 0 (sqrt 2) h) as [h'|h']; [reflexivity|]. pose proof (sqrt_lt_R0 2 ltac:(lra)). lra.
  Qed.
  Lemma cc_pos : 0 < cc. Proof. unfold cc. pose proof (sqrt_lt_R0 PI PI_RGT_0). apply Rdiv_lt_0_compat; lra. Qed.
  Lemma erf_bound n y : 0 <= y -> 0 <= (-1) ^ n * (cc * et n y - erf y).
  Proof.
    intros H. replace 0 with ((-1) ^ n * (cc * et n 0 - erf 0)) by (rewrite et_0, erf_0; ring).
    apply (incr_on (fun y => (-1) ^ n * (cc * et n y - erf y)) (fun y => cc * ((-1) ^ n * (es n (y ^ 2) - exp (- y ^ 2)))) 0 y H).
    - intros x _. replace (cc * ((-1) ^ n * (es n (x ^ 2) - exp (- x ^ 2)))) with ((-1) ^ n * (cc * es n (x ^ 2) - cc * exp (- x ^ 2))) by ring.
      apply (is_derive_scal (fun y => cc * et n y - erf y)). apply (is_derive_minus (V := R_NormedModule)); [apply (is_derive_scal (et n)), et_derive|apply erf_derive].
    - intros x _. apply Rmult_le_pos; [left; apply cc_pos|]. apply es_bound. nra.
  Qed.

  (** ** The difference *)
  Definition dd (y : R) : R := erf y - 1 + poly (tt_ y) * exp (- y ^ 2).
  Definition hh (t : R) : R :=
    let p := 47047 / 100000 in let a1 := 3480242 / 10000000 in let a2 := - 958798 / 10000000 in let a3 := 7478556 / 10000000 in
    cc - 2 / p * (a1 + (a2 - a1) * t + (a3 - a2) * t ^ 2 - a3 * t ^ 3) - p * (a1 * t ^ 2 + 2 * a2 * t ^ 3 + 3 * a3 * t ^ 4).
  Lemma dd_derive (y : R) : 0 <= y -> is_derive dd y (exp (- y ^ 2) * hh (tt_ y)).
  Proof.
    intros H. unfold dd. replace (exp (- y ^ 2) * hh (tt_ y)) with (cc * exp (- y ^ 2) - 0 + exp (- y ^ 2) * (hh (tt_ y) - cc)) by ring.
    apply (is_derive_plus (V := R_NormedModule)).
    - apply (is_derive_minus (V := R_NormedModule)); [apply erf_derive|apply (is_derive_const (V := R_NormedModule))].
    - unfold poly, tt_. auto_derive; [lra|]. unfold hh. set (e := exp _). field. lra.
  Qed.
  Lemma dd_0 : dd 0 = 0.
  Proof. unfold dd. rewrite erf_0. unfold tt_. replace (1 / (1 + 47047 / 100000 * 0)) with 1 by (field). rewrite poly_1. replace (- 0 ^ 2) with 0 by ring. rewrite exp_0. ring. Qed.
  Lemma sq_exp_lim : is_lim (fun y => exp (- y ^ 2)) p_infty 0.
  Proof.
    apply (is_lim_le_le_loc (fun _ => 0) (fun y => / y)).
    - exists 1. intros y Hy. split; [left; apply exp_pos|]. rewrite exp_Ropp. apply Rinv_le_contravar; [lra|]. pose proof (exp_ineq1_le (y ^ 2)). nra.
    - apply is_lim_const.
    - pose proof (is_lim_inv (fun y => y) p_infty p_infty (is_lim_id _) ltac:(discriminate)) as H. exact H.
  Qed.
  Lemma dd_lim : is_lim dd p_infty 0.
  Proof.
    unfold dd. replace (Finite 0) with (Finite (1 - 1 + 0)) by (f_equal; ring). apply (is_lim_plus (fun y => erf y - 1) _ p_infty (1 - 1) 0); [|  |reflexivity].
    - apply (is_lim_minus _ _ p_infty 1 1); [apply erf_lim|apply is_lim_const|reflexivity].
    - apply (is_lim_le_le_loc (fun _ => 0) (fun y => exp (- y ^ 2))); [|apply is_lim_const|apply sq_exp_lim].
      exists 0. intros y Hy. pose proof (poly_tt y ltac:(lra)) as B. pose proof (exp_pos (- y ^ 2)). nra.
  Qed.
  Lemma sign_even n : Nat.even n = true -> (-1) ^ n = 1. Proof. intros H. rewrite even_sign, H. reflexivity. Qed.
  Lemma chk_R n y m : 0 <= Q2R y -> Nat.even n = true -> chk n y m = true -> Rabs (dd (Q2R y)) <= Q2R m.
  Proof.
    intros H N C. unfold chk in C. apply andb_true_iff in C. destruct C as [C C2]. apply andb_true_iff in C. destruct C as [C0 C1]. apply Qle_R in C1, C2. rewrite Q2R_opp in C2.
    unfold posq in C0. unfold upq in C1. unfold loq in C2. pose proof (ev_R n y) as E0. pose proof (ev_R (S n) y) as E1. destruct (ev n y) as [[a0 s0] t0]. destruct (ev (S n) y) as [[a1 s1] t1].
    destruct E0 as [_ [S0 T0]]. destruct E1 as [_ [S1 T1]]. apply andb_true_iff in C0. destruct C0 as [C0 P2]. apply andb_true_iff in C0. destruct C0 as [P0 P1]. apply Qle_R in P0, P1, P2. rewrite Q2R_0' in P0, P1, P2.
    rewrite Q2R_plus, Q2R_minus, !Q2R_mult, RMicromega.Q2R_1, ptq_R, S0, T0 in C1 by exact H. rewrite Q2R_plus, Q2R_minus, !Q2R_mult, RMicromega.Q2R_1, ptq_R, S1, T1 in C2 by exact H. rewrite ptq_R in P2 by exact H. rewrite T0 in P0. rewrite T1 in P1.
    pose proof (erf_bound n (Q2R y) H) as B0. pose proof (erf_bound (S n) (Q2R y) H) as B1. pose proof (es_bound n (Q2R y ^ 2) ltac:(nra)) as G0. pose proof (es_bound (S n) (Q2R y ^ 2) ltac:(nra)) as G1. rewrite sign_succ in B1, G1. rewrite (sign_even n N) in *.
    pose proof cc_bounds as K. unfold dd. apply Rabs_le_between. set (P := poly _) in *. set (e := exp _) in *. set (w0 := es n _) in *. set (w1 := es (S n) _) in *. set (z0 := et n _) in *. set (z1 := et (S n) _) in *. set (r := erf _) in *.
    clearbody P e w0 w1 z0 z1 r. assert (P * w1 <= P * e <= P * w0) by (split; apply Rmult_le_compat_l; lra). assert (cc * z0 <= Q2R chi * z0) by (apply Rmult_le_compat_r; lra). assert (Q2R clo * z1 <= cc * z1) by (apply Rmult_le_compat_r; lra). lra.
  Qed.
  Lemma chk_all : chk 4 (7 # 100) (22 # 1000000) && chk 6 (36 # 100) (22 # 1000000) && chk 10 (85 # 100) (22 # 1000000) && chk 18 (16 # 10) (22 # 1000000) = true.
  Proof. vm_compute. reflexivity. Qed.
  Lemma dd_pts : Rabs (dd (7 / 100)) <= 22 / 1000000 /\ Rabs (dd (36 / 100)) <= 22 / 1000000 /\ Rabs (dd (85 / 100)) <= 22 / 1000000 /\ Rabs (dd (16 / 10)) <= 22 / 1000000.
  Proof.
    pose proof chk_all as C. apply andb_true_iff in C. destruct C as [C C4]. apply andb_true_iff in C. destruct C as [C C3]. apply andb_true_iff in C. destruct C as [C1 C2].
    apply chk_R in C1, C2, C3, C4; try reflexivity; try (unfold Q2R; cbn [Qnum Qden]; lra). repeat split; assumption.
  Qed.

  (** ** The sign of the derivative *)
  Definition r1 : R := 283819 / 500000. Definition r2 : R := 7128639 / 10000000. Definition r3 : R := 8512453 / 10000000. Definition r4 : R := 1207067 / 1250000.
  Definition kk : R := 3 * (47047 / 100000) * (7478556 / 10000000).
  Lemma hh_prod t : 0 <= t <= 1 -> Rabs (hh t + kk * ((t - r1) * (t - r2) * (t - r3) * (t - r4))) <= 1 / 2000000.
  Proof.
    intros H. pose proof cc_bounds as K. unfold Q2R in K. cbn [Qnum Qden clo chi] in K. assert (0 <= t ^ 2 <= 1) by nra. assert (0 <= t ^ 3 <= 1) by nra. unfold hh, kk, r1, r2, r3, r4. apply Rabs_le_between. split; lra.
  Qed.
  Lemma tt_between a b y : 0 <= a -> a <= y <= b -> tt_ b <= tt_ y <= tt_ a.
  Proof.
    intros H [[H1|H1] [H2|H2]]; split; try (subst; apply Rle_refl); try (left; apply tt_decr; lra).
  Qed.
  Lemma le3 m a b p q r : 0 <= m -> 0 <= a -> 0 <= b -> m <= p -> a <= q -> b <= r -> m * a * b <= p * q * r.
  Proof. intros. apply Rmult_le_compat; try lra; [apply Rmult_le_pos; lra|]. apply Rmult_le_compat; lra. Qed.
  Lemma le4 m a b c p q r s : 0 <= m -> 0 <= a -> 0 <= b -> 0 <= c -> m <= p -> a <= q -> b <= r -> c <= s -> m * a * b * c <= p * q * r * s.
  Proof. intros. apply Rmult_le_compat; try lra; [repeat apply Rmult_le_pos; lra|]. apply le3; lra. Qed.
  Lemma h0 y : 0 <= y <= 7 / 100 -> hh (tt_ y) <= 0.
  Proof.
    intros H. assert (T : 968 / 1000 <= tt_ y <= 1). { pose proof (tt_between 0 (7 / 100) y ltac:(lra) H). unfold tt_ in *. lra. }
    set (t := tt_ y) in *. clearbody t. pose proof (hh_prod t ltac:(lra)) as B. apply Rabs_le_between in B.
    assert (Q : 2 / 1000 * (1 / 10) * (1 / 5) * (4 / 10) <= (t - r4) * (t - r3) * (t - r2) * (t - r1)).
    { unfold r1, r2, r3, r4. apply le4; lra. }
    replace ((t - r1) * (t - r2) * (t - r3) * (t - r4)) with ((t - r4) * (t - r3) * (t - r2) * (t - r1)) in B by ring. unfold kk in B. lra.
  Qed.
  Lemma h1 y : 8 / 100 <= y <= 36 / 100 -> 0 <= hh (tt_ y).
  Proof.
    intros H. assert (T : 8551 / 10000 <= tt_ y <= 9638 / 10000). { pose proof (tt_between (8 / 100) (36 / 100) y ltac:(lra) H). unfold tt_ in *. lra. }
    set (t := tt_ y) in *. clearbody t. pose proof (hh_prod t ltac:(lra)) as B. apply Rabs_le_between in B.
    assert (Q0 : 0 <= (t - 8551 / 10000) * (9638 / 10000 - t)) by (apply Rmult_le_pos; lra).
    assert (Q : 1 / 10000 * (1 / 10) * (2 / 10) <= (t - r3) * (r4 - t) * (t - r2) * (t - r1)).
    { unfold r1, r2, r3, r4. apply le3; lra. }
    replace ((t - r1) * (t - r2) * (t - r3) * (t - r4)) with (- ((t - r3) * (r4 - t) * (t - r2) * (t - r1))) in B by ring. unfold kk in B. lra.
  Qed.
  Lemma h2 y : 38 / 100 <= y <= 85 / 100 -> hh (tt_ y) <= 0.
  Proof.
    intros H. assert (T : 7143 / 10000 <= tt_ y <= 8484 / 10000). { pose proof (tt_between (38 / 100) (85 / 100) y ltac:(lra) H). unfold tt_ in *. lra. }
    set (t := tt_ y) in *. clearbody t. pose proof (hh_prod t ltac:(lra)) as B. apply Rabs_le_between in B.
    assert (Q0 : 0 <= (t - 7143 / 10000) * (8484 / 10000 - t)) by (apply Rmult_le_pos; lra).
    assert (Q : 1 / 10000 * (1 / 10) * (1 / 10) <= (t - r2) * (r3 - t) * (r4 - t) * (t - r1)).
    { unfold r1, r2, r3, r4. apply le3; lra. }
    replace ((t - r1) * (t - r2) * (t - r3) * (t - r4)) with ((t - r2) * (r3 - t) * (r4 - t) * (t - r1)) in B by ring. unfold kk in B. lra.
  Qed.
  Lemma h3 y : 86 / 100 <= y <= 16 / 10 -> 0 <= hh (tt_ y).
  Proof.
    intros H. assert (T : 5705 / 10000 <= tt_ y <= 71196 / 100000). { pose proof (tt_between (86 / 100) (16 / 10) y ltac:(lra) H). unfold tt_ in *. lra. }
    set (t := tt_ y) in *. clearbody t. pose proof (hh_prod t ltac:(lra)) as B. apply Rabs_le_between in B.
    assert (Q0 : 0 <= (t - 5705 / 10000) * (71196 / 100000 - t)) by (apply Rmult_le_pos; lra).
    assert (Q : 1 / 10000 * (1 / 10) * (2 / 10) <= (t - r1) * (r2 - t) * (r3 - t) * (r4 - t)).
    { unfold r1, r2, r3, r4. apply le3; lra. }
    replace ((t - r1) * (t - r2) * (t - r3) * (t - r4)) with (- ((t - r1) * (r2 - t) * (r3 - t) * (r4 - t))) in B by ring. unfold kk in B. lra.
  Qed.
  Lemma h4 y m : 163 / 100 <= y -> m = 0 \/ 5 <= y /\ m = 4 / 100 -> hh (tt_ y) <= - m.
  Proof.
    intros H M. assert (T : 0 < tt_ y <= 566 / 1000 /\ (5 <= y -> tt_ y <= 3 / 10)).
    { pose proof (tt_range y ltac:(lra)) as R0. split; [split; [lra|]|intros H5].
      - pose proof (tt_between (163 / 100) y y ltac:(lra) ltac:(lra)) as B. set (t := tt_ y) in *. clearbody t. unfold tt_ in B. lra.
      - pose proof (tt_between 5 y y ltac:(lra) ltac:(lra)) as B. set (t := tt_ y) in *. clearbody t. unfold tt_ in B. lra. }
    destruct T as [T T5]. set (t := tt_ y) in *. clearbody t. pose proof (hh_prod t ltac:(lra)) as B. apply Rabs_le_between in B.
    replace ((t - r1) * (t - r2) * (t - r3) * (t - r4)) with ((r1 - t) * (r2 - t) * (r3 - t) * (r4 - t)) in B by ring. destruct M as [->|[H5 ->]].
    - assert (Q : 1 / 1000 * (1 / 10) * (2 / 10) * (3 / 10) <= (r1 - t) * (r2 - t) * (r3 - t) * (r4 - t)).
      { unfold r1, r2, r3, r4. apply le4; lra. }
      unfold kk in B. lra.
    - specialize (T5 H5). assert (Q : 26 / 100 * (41 / 100) * (55 / 100) * (66 / 100) <= (r1 - t) * (r2 - t) * (r3 - t) * (r4 - t)).
      { unfold r1, r2, r3, r4. apply le4; lra. }
      unfold kk in B. lra.
  Qed.
  Lemma abs4 a b c d A B C D : Rabs a <= A -> Rabs b <= B -> Rabs c <= C -> Rabs d <= D -> Rabs (a * b * c * d) <= A * B * C * D.
  Proof. intros. rewrite !Rabs_mult. repeat (apply Rmult_le_compat; try apply Rabs_pos; try assumption; try (repeat apply Rmult_le_pos; apply Rabs_pos)). Qed.
  Lemma hn y : 7 / 100 <= y <= 8 / 100 \/ 36 / 100 <= y <= 38 / 100 \/ 85 / 100 <= y <= 86 / 100 \/ 160 / 100 <= y <= 163 / 100 -> Rabs (hh (tt_ y)) <= 6 / 100000.
  Proof.
    assert (G : forall t, 0 <= t <= 1 -> Rabs ((t - r1) * (t - r2) * (t - r3) * (t - r4)) <= 52 / 1000000 -> Rabs (hh t) <= 6 / 100000).
    { intros t H Q. pose proof (hh_prod t H) as B. apply Rabs_le_between in B, Q. unfold kk in B. apply Rabs_le_between. lra. }
    intros [H|[H|[H|H]]].
    - assert (T : 9637 / 10000 <= tt_ y <= 9682 / 10000). { pose proof (fun h => tt_between _ _ y h H) as B. specialize (B ltac:(lra)). unfold tt_ in *. lra. }
      set (t := tt_ y) in *. clearbody t. apply G; [lra|]. apply Rle_trans with (401 / 1000 * (256 / 1000) * (117 / 1000) * (26 / 10000)); [|lra]. unfold r1, r2, r3, r4. apply abs4; apply Rabs_le_between; lra.
    - assert (T : 8483 / 10000 <= tt_ y <= 8552 / 10000). { pose proof (fun h => tt_between _ _ y h H) as B. specialize (B ltac:(lra)). unfold tt_ in *. lra. }
      set (t := tt_ y) in *. clearbody t. apply G; [lra|]. apply Rle_trans with (288 / 1000 * (143 / 1000) * (4 / 1000) * (118 / 1000)); [|lra]. unfold r1, r2, r3, r4. apply abs4; apply Rabs_le_between; lra.
    - assert (T : 7119 / 10000 <= tt_ y <= 7144 / 10000). { pose proof (fun h => tt_between _ _ y h H) as B. specialize (B ltac:(lra)). unfold tt_ in *. lra. }
      set (t := tt_ y) in *. clearbody t. apply G; [lra|]. apply Rle_trans with (147 / 1000 * (16 / 10000) * (14 / 100) * (254 / 1000)); [|lra]. unfold r1, r2, r3, r4. apply abs4; apply Rabs_le_between; lra.
    - assert (T : 56597 / 100000 <= tt_ y <= 57054 / 100000). { pose proof (fun h => tt_between _ _ y h H) as B. specialize (B ltac:(lra)). unfold tt_ in *. lra. }
      set (t := tt_ y) in *. clearbody t. apply G; [lra|]. apply Rle_trans with (30 / 10000 * (147 / 1000) * (286 / 1000) * (40 / 100)); [|lra]. unfold r1, r2, r3, r4. apply abs4; apply Rabs_le_between; lra.
  Qed.
  (** ** The bound *)
  Definition dg (y : R) : R := exp (- y ^ 2) * hh (tt_ y).
  Lemma dg_neg y : hh (tt_ y) <= 0 -> dg y <= 0. Proof. intros H. unfold dg. pose proof (exp_pos (- y ^ 2)). nra. Qed.
  Lemma dg_pos y : 0 <= hh (tt_ y) -> 0 <= dg y. Proof. intros H. unfold dg. pose proof (exp_pos (- y ^ 2)). nra. Qed.
  Lemma dg_abs y m : Rabs (hh (tt_ y)) <= m -> Rabs (dg y) <= m.
  Proof.
    intros H. unfold dg. rewrite Rabs_mult, (Rabs_pos_eq (exp _)) by (left; apply exp_pos). assert (exp (- y ^ 2) <= 1). { rewrite <- exp_0. destruct (Req_dec (y ^ 2) 0) as [->|E]; [right; f_equal; ring|left; apply exp_increasing; nra]. }
    pose proof (exp_pos (- y ^ 2)). pose proof (Rabs_pos (hh (tt_ y))). nra.
  Qed.
  Definition em : R := 24 / 1000000.
  Lemma step_near u v : 0 <= u -> u <= v -> v - u <= 3 / 100 -> (forall y, u <= y <= v -> Rabs (hh (tt_ y)) <= 6 / 100000) -> Rabs (dd u) <= 22 / 1000000 -> forall y, u <= y <= v -> Rabs (dd y) <= em.
  Proof.
    intros H0 H1 W N U y Hy. assert (L : Rabs (dd y - dd u) <= 6 / 100000 * (y - u)).
    { apply (lip_on dd dg); [lra| |]; intros x Hx; [apply dd_derive; lra|apply dg_abs, N; lra]. }
    apply Rabs_le_between in L, U. apply Rabs_le_between. unfold em. lra.
  Qed.
  Lemma step_incr a b : 0 <= a -> (forall y, a <= y <= b -> 0 <= hh (tt_ y)) -> Rabs (dd a) <= em -> Rabs (dd b) <= em -> forall y, a <= y <= b -> Rabs (dd y) <= em.
  Proof.
    intros H0 N A B y Hy. apply Rabs_le_between in A, B. apply Rabs_le_between.
    assert (dd a <= dd y) by (apply (incr_on dd dg); [lra| |]; intros x Hx; [apply dd_derive; lra|apply dg_pos, N; lra]).
    assert (dd y <= dd b) by (apply (incr_on dd dg); [lra| |]; intros x Hx; [apply dd_derive; lra|apply dg_pos, N; lra]). lra.
  Qed.
  Lemma step_decr a b : 0 <= a -> (forall y, a <= y <= b -> hh (tt_ y) <= 0) -> Rabs (dd a) <= em -> Rabs (dd b) <= em -> forall y, a <= y <= b -> Rabs (dd y) <= em.
  Proof.
    intros H0 N A B y Hy. apply Rabs_le_between in A, B. apply Rabs_le_between.
    assert (dd y <= dd a) by (apply (decr_on dd dg); [lra| |]; intros x Hx; [apply dd_derive; lra|apply dg_neg, N; lra]).
    assert (dd b <= dd y) by (apply (decr_on dd dg); [lra| |]; intros x Hx; [apply dd_derive; lra|apply dg_neg, N; lra]). lra.
  Qed.
  (** a function that falls towards 0 is not negative *)
  Lemma tail_pos (f g : R -> R) a : (forall x, a <= x -> is_derive f x (g x)) -> (forall x, a <= x -> g x <= 0) -> is_lim f p_infty 0 -> 0 <= f a.
  Proof.
    intros D N L. apply (is_lim_le_loc f (fun _ => f a) p_infty 0 (f a)); [|exact L|apply is_lim_const].
    exists a. intros y Hy. apply (decr_on f g); [lra| |]; intros x Hx; [apply D; lra|apply N; lra].
  Qed.
  Lemma dd_bound y : 0 <= y -> Rabs (dd y) <= em.
  Proof.
    intros H. destruct dd_pts as [P1 [P2 [P3 P4]]].
    pose proof (step_near (7 / 100) (8 / 100) ltac:(lra) ltac:(lra) ltac:(lra) (fun y h => hn y (or_introl h)) P1) as N1.
    pose proof (step_near (36 / 100) (38 / 100) ltac:(lra) ltac:(lra) ltac:(lra) (fun y h => hn y (or_intror (or_introl h))) P2) as N2.
    pose proof (step_near (85 / 100) (86 / 100) ltac:(lra) ltac:(lra) ltac:(lra) (fun y h => hn y (or_intror (or_intror (or_introl h)))) P3) as N3.
    assert (N4 : forall y, 16 / 10 <= y <= 163 / 100 -> Rabs (dd y) <= em). { apply step_near; try lra. intros x Hx. apply hn. right. right. right. lra. }
    destruct (Rle_dec y (7 / 100)) as [C|C].
    { apply (step_decr 0 (7 / 100)); [lra|exact h0|rewrite dd_0, Rabs_R0; unfold em; lra|apply N1; lra|lra]. }
    destruct (Rle_dec y (8 / 100)) as [C1|C1]; [apply N1; lra|]. destruct (Rle_dec y (36 / 100)) as [C2|C2].
    { apply (step_incr (8 / 100) (36 / 100)); [lra|exact h1|apply N1; lra|apply N2; lra|lra]. }
    destruct (Rle_dec y (38 / 100)) as [C3|C3]; [apply N2; lra|]. destruct (Rle_dec y (85 / 100)) as [C4|C4].
    { apply (step_decr (38 / 100) (85 / 100)); [lra|exact h2|apply N2; lra|apply N3; lra|lra]. }
    destruct (Rle_dec y (86 / 100)) as [C5|C5]; [apply N3; lra|]. destruct (Rle_dec y (16 / 10)) as [C6|C6].
    { apply (step_incr (86 / 100) (16 / 10)); [lra|exact h3|apply N3; lra|apply N4; lra|lra]. }
    destruct (Rle_dec y (163 / 100)) as [C7|C7]; [apply N4; lra|].
    assert (M : forall x, 163 / 100 <= x -> hh (tt_ x) <= 0). { intros x Hx. pose proof (h4 x 0 Hx (or_introl eq_refl)). lra. }
    assert (dd y <= dd (163 / 100)) by (apply (decr_on dd dg); [lra| |]; intros x Hx; [apply dd_derive; lra|apply dg_neg, M; lra]).
    assert (0 <= dd y) by (apply (tail_pos dd dg); [intros x Hx; apply dd_derive; lra|intros x Hx; apply dg_neg, M; lra|apply dd_lim]).
    pose proof (N4 (163 / 100) ltac:(lra)) as B. apply Rabs_le_between in B. apply Rabs_le_between. unfold em in *. lra.
  Qed.
  (** far out the approximation is too large by more than three per cent *)
  Lemma dd_tail y : 5 <= y -> 3 / 100 * (1 - erf y) <= dd y.
  Proof.
    intros H. assert (T : 0 <= dd y + 3 / 100 * (erf y - 1)); [|lra].
    apply (tail_pos (fun y => dd y + 3 / 100 * (erf y - 1)) (fun y => dg y + 3 / 100 * (cc * exp (- y ^ 2) - 0)) y).
    - intros x Hx. apply (is_derive_plus (V := R_NormedModule)); [apply dd_derive; lra|]. apply (is_derive_scal (fun y => erf y - 1)). apply (is_derive_minus (V := R_NormedModule)); [apply erf_derive|apply (is_derive_const (V := R_NormedModule))].
    - intros x Hx. unfold dg. pose proof (h4 x (4 / 100) ltac:(lra) ltac:(right; lra)) as B. pose proof cc_bounds as K. unfold Q2R in K. cbn [Qnum Qden clo chi] in K. pose proof (exp_pos (- x ^ 2)). nra.
    - replace (Finite 0) with (Finite (0 + 3 / 100 * (1 - 1))) by (f_equal; ring). apply (is_lim_plus dd _ p_infty 0 (3 / 100 * (1 - 1))); [apply dd_lim| |reflexivity].
      apply (is_lim_scal_l (fun y => erf y - 1) (3 / 100) p_infty (1 - 1)). apply (is_lim_minus _ _ p_infty 1 1); [apply erf_lim|apply is_lim_const|reflexivity].
  Qed.
  (** ** The normal distribution function itself *)
  Lemma phi_close y : Rabs (phi y - F (sqrt 2 * y)) <= 12 / 1000000.
  Proof.
    assert (G : forall y, 0 <= y -> phi y - F (sqrt 2 * y) = - dd y / 2). { intros x H. unfold phi. rewrite (proj2 (Rltb_false x 0)) by lra. rewrite Rabs_pos_eq, tail_eq by exact H. unfold dd, erf. field. }
    destruct (Rle_dec 0 y) as [H|H].
    - rewrite (G y H). pose proof (dd_bound y H) as B. apply Rabs_le_between in B. apply Rabs_le_between. unfold em in B. lra.
    - pose proof (phi_sym y) as S. pose proof (F_sym (sqrt 2 * y)) as S'. replace (- (sqrt 2 * y)) with (sqrt 2 * - y) in S' by ring. specialize (G (- y) ltac:(lra)). pose proof (dd_bound (- y) ltac:(lra)) as B. apply Rabs_le_between in B. apply Rabs_le_between. unfold em in B. lra.
  Qed.
  Lemma F_incr a b : a <= b -> F a <= F b.
  Proof.
    intros H. destruct HF as [D _]. apply (incr_on F (fun z => exp (- (z * z) / 2) / sqrt (2 * PI))); [exact H|intros x _; apply D|]. intros x _. left. apply Rdiv_lt_0_compat; [apply exp_pos|apply sqrt_lt_R0]. pose proof PI_RGT_0. lra.
  Qed.
  Definition rho : R := sqrt 2 / sqrt2.
  Lemma rho_bounds : 1 - 5 / 100000000 <= rho <= 1.
  Proof.
    unfold rho, sqrt2. pose proof (sqrt_sqrt 2 ltac:(lra)) as E. pose proof (sqrt_lt_R0 2 ltac:(lra)) as P. set (s := sqrt 2) in *. clearbody s. assert (s <= 14142136 / 10000000) by (apply Rnot_lt_le; intros N; nra). assert (141421356 / 100000000 <= s) by (apply Rnot_lt_le; intros N; nra). lra.
  Qed.
  Lemma F_scale z : Rabs (F (rho * z) - F z) <= 1 / 10000000.
  Proof.
    pose proof rho_bounds as K. assert (G : forall z, 0 <= z -> Rabs (F z - F (rho * z)) <= 1 / 10000000).
    { intros x Hx. destruct HF as [D _]. destruct (MVT_gen F (rho * x) x (fun z => exp (- (z * z) / 2) / sqrt (2 * PI))) as [c [Hc E]].
      - intros y _. apply D.
      - intros y _. apply cont_of_derive with (exp (- (y * y) / 2) / sqrt (2 * PI)), D.
      - rewrite Rmin_left, Rmax_right in Hc by nra. rewrite E. assert (S : 1 <= sqrt (2 * PI)). { rewrite <- sqrt_1. apply sqrt_le_1_alt. pose proof PI2_1. lra. }
        assert (X : exp (- (c * c) / 2) * c <= 1). { replace (- (c * c) / 2) with (- (c * c / 2)) by field. rewrite exp_Ropp. pose proof (exp_ineq1_le (c * c / 2)) as L. pose proof (exp_pos (c * c / 2)). apply (Rmult_le_reg_l (exp (c * c / 2))); [lra|]. rewrite <- Rmult_assoc, Rinv_r by lra. nra. }
        assert (C0 : 0 <= c) by nra. pose proof (exp_pos (- (c * c) / 2)) as X0. set (e := exp _) in *. assert (I : 0 < / sqrt (2 * PI) <= 1) by (split; [apply Rinv_0_lt_compat; lra|rewrite <- Rinv_1; apply Rinv_le_contravar; lra]).
        unfold Rdiv. set (i := / sqrt (2 * PI)) in *. clearbody e i. assert (W : 0 <= x - rho * x <= 1 / 10000000 * c) by nra. rewrite Rabs_pos_eq by (apply Rmult_le_pos; [apply Rmult_le_pos; lra|lra]).
        apply Rle_trans with (e * 1 * (1 / 10000000 * c)); [|nra]. apply Rmult_le_compat; try lra; [apply Rmult_le_pos; lra|apply Rmult_le_compat_l; lra]. }
    destruct (Rle_dec 0 z) as [H|H]; [rewrite Rabs_minus_sym; apply G, H|].
    specialize (G (- z) ltac:(lra)). rewrite (F_sym z) in G. replace (rho * - z) with (- (rho * z)) in G by ring. rewrite (F_sym (rho * z)) in G. replace (1 - F z - (1 - F (rho * z))) with (F (rho * z) - F z) in G by ring. exact G.
  Qed.
  Lemma component_close x mu sigma : 0 < sigma -> Rabs (phi ((x - mu) / (sigma * sqrt2)) - F ((x - mu) / sigma)) <= 125 / 10000000.
  Proof.
    intros H. pose proof (phi_close ((x - mu) / (sigma * sqrt2))) as A. pose proof (F_scale ((x - mu) / sigma)) as B. replace (sqrt 2 * ((x - mu) / (sigma * sqrt2))) with (rho * ((x - mu) / sigma)) in A by (unfold rho; pose proof sqrt2_pos; field; lra).
    apply Rabs_le_between in A, B. apply Rabs_le_between. lra.
  Qed.
  Lemma component_tail x mu sigma : 0 < sigma -> x <= mu - 71 / 10 * sigma -> 103 / 100 * F ((x - mu) / sigma) <= phi ((x - mu) / (sigma * sqrt2)).
  Proof.
    intros H L. set (y := (mu - x) / (sigma * sqrt2)). assert (Y : 5 <= y). { unfold y, sqrt2. apply (Rmult_le_reg_r (sigma * (14142136 / 10000000))); [lra|]. unfold Rdiv at 2. rewrite Rmult_assoc, Rinv_l by lra. lra. }
    replace ((x - mu) / (sigma * sqrt2)) with (- y) by (unfold y; pose proof sqrt2_pos; field; lra).
    pose proof (dd_tail y Y) as T. unfold dd, erf in T. pose proof (F_sym (sqrt 2 * y)) as S. pose proof (phi_sym y) as S'. assert (E : phi y = 1 - / 2 * poly (tt_ y) * exp (- y ^ 2)). { unfold phi. rewrite (proj2 (Rltb_false y 0)) by lra. rewrite Rabs_pos_eq, tail_eq by lra. reflexivity. }
    assert (I : F ((x - mu) / sigma) <= F (- (sqrt 2 * y))).
    { apply F_incr. replace (- (sqrt 2 * y)) with (rho * ((x - mu) / sigma)) by (unfold y, rho; pose proof sqrt2_pos; field; lra). pose proof rho_bounds. assert ((x - mu) / sigma <= 0); [|nra]. apply (Rmult_le_reg_r sigma); [lra|]. unfold Rdiv. rewrite Rmult_assoc, Rinv_l by lra. lra. }
    lra.
  Qed.
End Error.

(** ** Continuity *)
Lemma tail_cont z : 0 <= z -> continuous tail z.
Proof. intros H. apply (ex_derive_continuous (V := R_NormedModule)). unfold tail. auto_derive. lra. Qed.
Lemma phi_cont z : continuous phi z.
Proof.
  destruct (Rtotal_order z 0) as [H|[->|H]].
  - apply (continuous_ext_loc _ (fun z => tail (- z))).
    + exists (mkposreal (- z) ltac:(lra)). intros y Hy. assert (y < 0). { apply Rabs_lt_between in Hy. cbn in Hy. unfold minus, plus, opp in Hy. cbn in Hy. lra. } unfold phi. rewrite (proj2 (Rltb_true y 0)) by assumption. rewrite Rabs_left by assumption. reflexivity.
    + apply (continuous_comp Ropp tail); [apply (continuous_opp (V := R_NormedModule)), continuous_id|]. apply tail_cont. lra.
  - intros P [e HP]. destruct (tail_cont 0 (Rle_refl 0) (ball (tail 0) e)) as [d Hd]; [exists e; intros y Hy; exact Hy|]. exists d. intros y Hy. apply HP. assert (T0 : tail 0 = / 2). { rewrite tail_eq. unfold tt_. replace (1 / (1 + 47047 / 100000 * 0)) with 1 by field. rewrite poly_1. replace (- 0 ^ 2) with 0 by ring. rewrite exp_0. ring. }
    specialize (Hd (Rabs y)). assert (B : ball (tail 0) e (tail (Rabs y))). { apply Hd. change (Rabs (y - 0) < d) in Hy. change (Rabs (Rabs y - 0) < d). rewrite Rminus_0_r, Rabs_Rabsolu. rewrite Rminus_0_r in Hy. exact Hy. }
    change (Rabs (tail (Rabs y) - tail 0) < e) in B. change (Rabs (phi y - phi 0) < e). rewrite phi_0. rewrite T0 in B. unfold phi. destruct (Rltb y 0); [exact B|]. replace (1 - tail (Rabs y) - / 2) with (- (tail (Rabs y) - / 2)) by field. rewrite Rabs_Ropp. exact B.
  - apply (continuous_ext_loc _ (fun z => 1 - tail z)).
    + exists (mkposreal z H). intros y Hy. assert (0 < y). { apply Rabs_lt_between in Hy. cbn in Hy. unfold minus, plus, opp in Hy. cbn in Hy. lra. } unfold phi. rewrite (proj2 (Rltb_false y 0)) by lra. rewrite Rabs_pos_eq by lra. reflexivity.
    + apply (continuous_minus (V := R_NormedModule)); [apply continuous_const|apply tail_cont; lra].
Qed.
Lemma rsum_cont n (f : nat -> R -> R) x : (forall k, continuous (f k) x) -> continuous (fun x => rsum n (fun k => f k x)) x.
Proof. intros H. induction n as [|n IH]; cbn [rsum]; [apply continuous_const|]. apply (continuous_plus (V := R_NormedModule)); [exact IH|apply H]. Qed.
Lemma marginal_cont p j x : continuous (marginal_cdf p j) x.
Proof.
  apply (continuous_ext (fun x => rsum (n_clusters p) (fun k => weight p k * phi ((x - centre p k j) / (deviation p k j * sqrt2))))); [intros y; symmetry; apply marginal_cdf_eq|].
  apply (rsum_cont (n_clusters p) (fun k x => weight p k * phi ((x - centre p k j) / (deviation p k j * sqrt2)))). intros k. apply (continuous_scal_r (weight p k) (fun x => phi ((x - centre p k j) / (deviation p k j * sqrt2)))).
  apply (continuous_comp (fun x => (x - centre p k j) / (deviation p k j * sqrt2)) phi); [|apply phi_cont]. unfold Rdiv. apply (continuous_mult (fun x => x - centre p k j) (fun _ => / (deviation p k j * sqrt2))); [|apply continuous_const].
  apply (continuous_minus (V := R_NormedModule)); [apply continuous_id|apply continuous_const].
Qed.
