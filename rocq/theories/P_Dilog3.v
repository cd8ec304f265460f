(** Accuracy of the real dilogarithm over the whole line; existence and uniqueness of the dilogarithm. *)
From Coquelicot Require Import Coquelicot.
From Verif Require Import Base RSumLib M_Dilog S_Dilog P_Basel P_Dilog P_Dilog2 P_DilogNum.
From Coq Require Import Psatz.
Open Scope R_scope.

Lemma exp_INR_pow n : exp (INR n) = exp 1 ^ n.
Proof. induction n as [|n IH]; [apply exp_0|]. rewrite S_INR, exp_plus, IH. cbn [pow]. ring. Qed.
Lemma exp_le_inv x y : exp x <= exp y -> x <= y.
Proof. intros H. apply Rnot_lt_le. intros N. apply exp_increasing in N. lra. Qed.
Lemma exp_1_lower : 12 / 5 <= exp 1.
Proof.
  replace 1 with (1 / 4 + 1 / 4 + (1 / 4 + 1 / 4)) by field. rewrite !exp_plus. pose proof (exp_ineq1_le (1 / 4)). set (e := exp (1 / 4)) in *.
  assert (25 / 16 <= e * e) by nra. set (f := e * e) in *. nra.
Qed.
Definition C10 : R := DBL_EPSILON * 10.
Lemma C10_val : C10 = 10 / 4503599627370496. Proof. unfold C10, DBL_EPSILON. field. Qed.
Lemma ln_C10 : - 40 <= ln C10 <= - 30.
Proof.
  assert (P : 0 < C10) by (rewrite C10_val; lra). split.
  - apply exp_le_inv. rewrite exp_ln by exact P. replace (-40) with (- INR 40) by (cbn; ring). rewrite exp_Ropp, exp_INR_pow.
    rewrite <- (Rinv_inv C10) by lra. apply Rinv_le_contravar; [apply Rinv_0_lt_compat, P|]. apply Rle_trans with ((12 / 5) ^ 40); [rewrite C10_val; cbn [pow]; lra|]. apply pow_incr. pose proof exp_1_lower. lra.
  - apply exp_le_inv. rewrite exp_ln by exact P. replace (-30) with (- INR 30) by (cbn; ring). rewrite exp_Ropp, exp_INR_pow.
    rewrite <- (Rinv_inv C10) by lra. apply Rinv_le_contravar; [apply pow_lt, exp_pos|]. apply Rle_trans with (3 ^ 30); [apply pow_incr; split; [left; apply exp_pos|apply exp_le_3]|]. rewrite C10_val. cbn [pow]. lra.
Qed.
Lemma dlnd d : 0 < d <= C10 -> - (d * ln d) <= 40 * C10.
Proof.
  intros H. assert (B : ln (C10 / d) <= C10 / d - 1). { rewrite <- (ln_exp (C10 / d - 1)). apply Rcomplements.ln_le; [apply Rdiv_lt_0_compat; lra|]. pose proof (exp_ineq1_le (C10 / d - 1)). lra. }
  unfold Rdiv in B. rewrite ln_mult, ln_Rinv in B by (try apply Rinv_0_lt_compat; lra). pose proof ln_C10 as C.
  assert (d * (- ln d) <= d * (C10 * / d - 1 - ln C10)) by (apply Rmult_le_compat_l; lra). replace (d * (C10 * / d - 1 - ln C10)) with (C10 - d + d * (- ln C10)) in H0 by (field; lra). nra.
Qed.

(** within ten machine epsilons below 1, where the code returns the value at 1 *)
Definition window (x : R) : Prop := 1 - C10 <= x < 1.

Section Dilog.
  Variable L : R -> R.
  Hypothesis D : is_dilog L.

  Lemma window_bound d : 0 < d <= C10 -> 0 <= L d + ln d * ln (1 - d) <= 1 / 10000000000000.
  Proof.
    intros H. pose proof C10_val as C. assert (C10 < 1 / 100000000000000) by (rewrite C; lra). pose proof (En_bounds L D 1 d ltac:(lra)) as B. unfold En, Sn in B. cbn [rsum pow INR] in B.
    assert (I : 1 <= / (1 - d) <= 101 / 100). { split; [rewrite <- Rinv_1 at 1|replace (101 / 100) with (/ (100 / 101)) by field]; apply Rinv_le_contravar; lra. }
    assert (B2 : d * (d * 1) / ((1 + 1) * ((1 + 1) * 1) * (1 - d)) = d * (d * (/ (1 - d) / 4))) by (field; lra). rewrite B2 in B.
    assert (d * (/ (1 - d) / 4) <= 1 / 100) by nra. assert (0 <= d * (/ (1 - d) / 4)) by nra.
    pose proof (ln_ge_minus d ltac:(lra)) as G. unfold Rdiv in G. pose proof (dlnd d H) as Q. assert (ln d < 0) by (rewrite <- ln_1; apply ln_increasing; lra).
    assert (0 <= - (d * ln d)) by nra.
    assert (P1 : 0 <= ln d * ln (1 - d)) by nra.
    assert (P2 : ln d * ln (1 - d) <= - (d * ln d) * / (1 - d)). { replace (ln d * ln (1 - d)) with ((- ln d) * (- ln (1 - d))) by ring. replace (- (d * ln d) * / (1 - d)) with ((- ln d) * (d * / (1 - d))) by ring. apply Rmult_le_compat_l; lra. }
    assert (P3 : - (d * ln d) * / (1 - d) <= 40 * C10 * (101 / 100)) by (apply Rmult_le_compat; lra). rewrite C in *.
    split; [nra|]. assert (d * (d * (/ (1 - d) / 4)) <= d) by nra. lra.
  Qed.
  Lemma window_error : 6 / 100000000000000 < L C10 + ln C10 * ln (1 - C10).
  Proof.
    pose proof C10_val as C. pose proof ln_C10 as B. assert (0 < C10 < 1) by (rewrite C; lra). pose proof (L_pos L D C10 H).
    assert (- ln (1 - C10) >= C10). { assert (ln (1 - C10) <= - C10); [|lra]. rewrite <- (ln_exp (- C10)). apply Rcomplements.ln_le; [lra|]. pose proof (exp_ineq1_le (- C10)). lra. }
    assert (30 * C10 <= ln C10 * ln (1 - C10)) by nra. rewrite C in *. lra.
  Qed.

  Definition EPS : R := 2 / 10000000000000000.
  Lemma xge0 x : 0 < x -> exists v, dilog_xge0 x = Some v /\ (~ window x -> Rabs (v - L x) <= EPS) /\ (window x -> 0 <= v - L x <= 1 / 10000000000000) /\ (x <= 1 / 4 -> 0 <= L x - v <= DBL_EPSILON / 3 * L x).
  Proof.
    intros Hx. unfold dilog_xge0, Rltb, Rleb. pose proof C10_val as C. assert (C0 : 0 < C10 < 1 / 100) by (rewrite C; lra). assert (E2 : EPS2 <= EPS) by (unfold EPS2, EPS; lra). change (DBL_EPSILON * 10) with C10.
    assert (W : ~ window x -> True) by auto.
    destruct (Rlt_dec 2 x) as [H2|H2].
    { eexists. split; [reflexivity|]. split; [|split; [unfold window; lra|lra]]. intros _. assert (I : 0 < 1 / x <= 1 / 2). { unfold Rdiv. rewrite !Rmult_1_l. split; [apply Rinv_0_lt_compat; lra|apply Rinv_le_contravar; lra]. }
      pose proof (series_2_err L D (1 / x) I) as S. pose proof (inversion L D x ltac:(lra)) as V. apply Rabs_le_between in S. apply Rabs_le. nra. }
    destruct (Rlt_dec (101 / 100) x) as [H1|H1].
    { eexists. split; [reflexivity|]. split; [|split; [unfold window; lra|lra]]. intros _. assert (I : 1 / 2 <= 1 / x < 1). { unfold Rdiv. rewrite !Rmult_1_l. split; [apply Rinv_le_contravar; lra|rewrite <- Rinv_1; apply Rinv_lt_contravar; lra]. }
      pose proof (series_2_err L D (1 - 1 / x) ltac:(lra)) as S. pose proof (landen L D x ltac:(lra)) as V. apply Rabs_le_between in S. apply Rabs_le. lra. }
    destruct (Rlt_dec 1 x) as [H0|H0].
    { eexists. split; [reflexivity|]. split; [|split; [unfold window; lra|lra]]. intros _. rewrite near_one_sum. pose proof (near_bound L D (x - 1) ltac:(lra)) as S. replace (1 + (x - 1)) with x in S by ring.
      assert ((x - 1) ^ 8 <= (1 / 100) ^ 8) by (apply pow_incr; lra). assert ((1 / 100) ^ 8 = 1 / 10000000000000000) by (cbn [pow]; field). apply Rabs_le_between in S. apply Rabs_le. unfold EPS. replace (PI * PI) with (PI ^ 2) by ring. lra. }
    destruct (Rle_dec (Rabs (x - 1)) C10) as [Hw|Hw].
    { rewrite Rabs_left1 in Hw by lra. eexists. split; [reflexivity|]. destruct (Req_dec x 1) as [->|N].
      - rewrite (L_1 L D). split; [intros _; rewrite Rminus_eq_0, Rabs_R0; unfold EPS; lra|]. split; [unfold window; lra|lra].
      - split; [intros X; exfalso; apply X; unfold window; lra|]. split; [|lra]. intros _. pose proof (window_bound (1 - x) ltac:(lra)) as B. rewrite <- (P_DilogNum.window L D (1 - x)) in B by lra. replace (1 - (1 - x)) with x in B by ring. exact B. }
    rewrite Rabs_left1 in Hw by lra.
    destruct (Rlt_dec (1 / 2) x) as [Hh|Hh].
    { eexists. split; [reflexivity|]. split; [|split; [unfold window; lra|lra]]. intros _. pose proof (series_2_err L D (1 - x) ltac:(lra)) as S. pose proof (reflection L D x ltac:(lra)) as V. apply Rabs_le_between in S. apply Rabs_le. lra. }
    destruct (Rlt_dec (1 / 4) x) as [Hq|Hq].
    { eexists. split; [reflexivity|]. split; [|split; [unfold window; lra|lra]]. intros _. pose proof (series_2_err L D x ltac:(lra)) as S. lra. }
    destruct (Rlt_dec 0 x) as [_|]; [|contradiction]. destruct (series_1_err L D x ltac:(lra)) as [v [E S]]. exists v. split; [exact E|]. split; [|split; [unfold window; lra|intros _; exact S]]. intros _.
    pose proof (En_bounds L D 0 x ltac:(lra)) as B. unfold En, Sn in B. cbn [rsum pow INR] in B. assert (Q : x * 1 / (1 * (1 * 1) * (1 - x)) <= 1). { apply Rmult_le_reg_r with (1 - x); [lra|]. replace (x * 1 / (1 * (1 * 1) * (1 - x)) * (1 - x)) with x by (field; lra). lra. }
    apply Rabs_le. unfold EPS, DBL_EPSILON in *. lra.
  Qed.
  Lemma dilog_0 : dilog 0 = Some 0.
  Proof.
    unfold dilog, dilog_xge0, Rltb, Rleb. destruct (Rle_dec 0 0) as [_|]; [|lra]. destruct (Rlt_dec 2 0); [lra|]. destruct (Rlt_dec (101 / 100) 0); [lra|]. destruct (Rlt_dec 1 0); [lra|].
    destruct (Rle_dec (Rabs (0 - 1)) (DBL_EPSILON * 10)) as [H|_]; [exfalso; rewrite Rabs_left in H by lra; unfold DBL_EPSILON in H; lra|]. destruct (Rlt_dec (1 / 2) 0); [lra|]. destruct (Rlt_dec (1 / 4) 0); [lra|]. destruct (Rlt_dec 0 0); [lra|]. reflexivity.
  Qed.
End Dilog.

(** ** existence and uniqueness *)
Lemma dilog_unique L M : is_dilog L -> is_dilog M -> forall x, L x = M x.
Proof.
  intros [L0 [Lc Ld]] [M0 [Mc Md]]. set (f := fun x => L x - M x). assert (Cf : forall x, continuity_pt f x) by (intros; apply continuity_pt_minus; auto).
  assert (Df : forall x, x <> 0 -> x <> 1 -> is_derive f x 0). { intros x H0 H1. unfold f. pose proof (is_derive_minus (K := R_AbsRing) (V := R_NormedModule) L M x _ _ (Ld x H0 H1) (Md x H0 H1)) as H. rewrite minus_eq_zero in H. exact H. }
  assert (F0 : f 0 = 0) by (unfold f; rewrite L0, M0; ring). intros x. cut (f x = 0); [unfold f; lra|].
  destruct (Rle_dec x 0) as [H|H]; [rewrite <- F0; apply derive_const_eq; auto; intros; apply Df; lra|].
  destruct (Rle_dec x 1) as [H1|H1]; [rewrite <- F0; symmetry; apply derive_const_eq; [lra|intros; apply Df; lra|auto]|].
  rewrite <- F0. transitivity (f 1); symmetry; apply derive_const_eq; try lra; auto; intros; apply Df; lra.
Qed.

Definition tlnt (t : R) : R := t * ln (Rabs t).
Lemma is_derive_lnabs t : t <> 0 -> is_derive (fun t => ln (Rabs t)) t (/ t).
Proof.
  intros H. destruct (Rlt_dec t 0) as [N|N].
  - apply (is_derive_ext_loc (fun t => ln (- t))); [|auto_derive; [lra|field; lra]]. exists (mkposreal (- t) ltac:(lra)). intros y Hy. cbn in Hy. unfold ball in Hy; cbn in Hy; unfold AbsRing_ball, abs, minus, plus, opp in Hy; cbn in Hy. apply Rabs_def2 in Hy. rewrite Rabs_left by lra. reflexivity.
  - apply (is_derive_ext_loc ln); [|auto_derive; [lra|field; lra]]. exists (mkposreal t ltac:(lra)). intros y Hy. unfold ball in Hy; cbn in Hy; unfold AbsRing_ball, abs, minus, plus, opp in Hy; cbn in Hy. apply Rabs_def2 in Hy. rewrite Rabs_pos_eq by lra. reflexivity.
Qed.
Lemma tlnt_derive t : t <> 0 -> is_derive tlnt t (ln (Rabs t) + 1).
Proof.
  intros H. unfold tlnt. replace (ln (Rabs t) + 1) with (1 * ln (Rabs t) + t * / t) by (field; exact H).
  apply (is_derive_mult (fun t => t) (fun t => ln (Rabs t)) t); [apply (is_derive_id (K := R_AbsRing))|apply is_derive_lnabs, H|intros; apply Rmult_comm].
Qed.
Lemma tlnt_cont t : continuity_pt tlnt t.
Proof.
  destruct (Req_dec t 0) as [->|H]; [|eapply cont_of_derive, tlnt_derive, H].
  intros e He. exists (Rmin (1 / 2) ((e / 4) ^ 2)). split; [apply Rmin_glb_lt; [lra|apply pow_lt; lra]|]. intros y [[_ Hy] Hd]. cbn in *. unfold R_dist in *. rewrite Rminus_0_r in Hd.
  pose proof (Rmin_l (1 / 2) ((e / 4) ^ 2)). pose proof (Rmin_r (1 / 2) ((e / 4) ^ 2)). change (e / 4 * (e / 4 * 1)) with ((e / 4) ^ 2) in Hd.
  assert (A : 0 < Rabs y < 1) by (split; [apply Rabs_pos_lt; auto|lra]). pose proof (xlnx_bound _ A) as X. assert (S : sqrt (Rabs y) <= e / 4) by (rewrite <- (sqrt_pow2 (e / 4)) by lra; apply sqrt_le_1_alt; lra).
  unfold tlnt. replace (y * ln (Rabs y) - 0 * ln (Rabs 0)) with (y * ln (Rabs y)) by ring. rewrite Rabs_mult. rewrite <- (Rabs_Ropp (ln (Rabs y))). rewrite (Rabs_pos_eq (- ln (Rabs y))); [lra|]. assert (ln (Rabs y) < 0) by (rewrite <- ln_1; apply ln_increasing; lra). lra.
Qed.
Definition hint (s : R) : R := if Req_EM_T s 0 then 1 else - tlnt (1 - s) / s.
Lemma hint_cont s : continuity_pt hint s.
Proof.
  assert (C1 : forall s, continuity_pt (fun s => tlnt (1 - s)) s). { intros z. apply (continuity_pt_comp (fun s => 1 - s) tlnt); [apply (cont_of_derive _ z (- (1))); auto_derive; [exact Logic.I|ring]|apply tlnt_cont]. }
  destruct (Req_dec s 0) as [->|H].
  - (* derivative of tlnt at 1 *)
    pose proof (tlnt_derive 1 ltac:(lra)) as T. rewrite Rabs_R1, ln_1, Rplus_0_l in T. apply is_derive_Reals in T. intros e He. destruct (T e He) as [d Hd]. exists d. split; [apply cond_pos|]. intros y [[_ Hy] Hdist]. cbn in *. unfold R_dist in *. rewrite Rminus_0_r in Hdist.
    specialize (Hd (- y) ltac:(lra) ltac:(rewrite Rabs_Ropp; exact Hdist)). unfold hint. destruct (Req_EM_T y 0) as [E|_]; [exfalso; auto|]. destruct (Req_EM_T 0 0) as [_|]; [|congruence].
    replace (- tlnt (1 - y) / y - 1) with ((tlnt (1 + - y) - tlnt 1) / - y - 1); [exact Hd|]. replace (1 + - y) with (1 - y) by ring. unfold tlnt at 2. rewrite Rabs_R1, ln_1. field. auto.
  - apply (continuity_pt_ext_loc (fun s => - tlnt (1 - s) / s)).
    + exists (mkposreal (Rabs s) (Rabs_pos_lt s H)). intros y Hy. unfold ball in Hy; cbn in Hy; unfold AbsRing_ball, abs, minus, plus, opp in Hy; cbn in Hy. unfold hint. destruct (Req_EM_T y 0) as [->|]; [|reflexivity]. exfalso. rewrite Rplus_0_l, Rabs_Ropp in Hy. lra.
    + apply continuity_pt_mult; [apply continuity_pt_opp, C1|]. apply (cont_of_derive Rinv s (- / s ^ 2)). auto_derive; [exact H|field; exact H].
Qed.
Definition Li2 (x : R) : R := tlnt (1 - x) + x + RInt hint 0 x.
Lemma Li2_is_dilog : is_dilog Li2.
Proof.
  assert (CH : forall s, continuous hint s) by (intros; apply continuity_pt_filterlim, hint_cont).
  assert (DI : forall x, is_derive (fun x => RInt hint 0 x) x (hint x)).
  { intros x. apply (is_derive_RInt hint (fun x => RInt hint 0 x) 0 x); [|apply CH]. apply filter_forall. intros y. apply (RInt_correct (V := R_CompleteNormedModule)). apply (ex_RInt_continuous (V := R_CompleteNormedModule)). intros; apply CH. }
  split; [|split].
  - unfold Li2. rewrite (RInt_point (V := R_CompleteNormedModule)). unfold tlnt. rewrite Rminus_0_r, Rabs_R1, ln_1. unfold zero; cbn. ring.
  - intros x. unfold Li2. apply (continuity_pt_plus (fun x => tlnt (1 - x) + x) (fun x => RInt hint 0 x)); [|eapply cont_of_derive, DI].
    apply (continuity_pt_plus (fun x => tlnt (1 - x)) (fun x => x)); [|apply (cont_of_derive _ x 1), (is_derive_id (K := R_AbsRing))].
    apply (continuity_pt_comp (fun s => 1 - s) tlnt); [apply (cont_of_derive _ x (- (1))); auto_derive; [exact Logic.I|ring]|apply tlnt_cont].
  - intros x H0 H1. unfold Li2. pose proof (DI x) as DI'. unfold hint at 2 in DI'. destruct (Req_EM_T x 0) as [|_]; [contradiction|].
    assert (D1 : is_derive (fun x => tlnt (1 - x)) x (- (1) * (ln (Rabs (1 - x)) + 1))) by (apply (is_derive_comp tlnt (fun x => 1 - x)); [apply tlnt_derive; lra|auto_derive; [exact Logic.I|ring]]).
    replace (- ln (Rabs (1 - x)) / x) with (- (1) * (ln (Rabs (1 - x)) + 1) + 1 + - tlnt (1 - x) / x) by (unfold tlnt; field; exact H0).
    apply (is_derive_plus (K := R_AbsRing) (V := R_NormedModule) (fun x => tlnt (1 - x) + x) (fun x => RInt hint 0 x)); [|exact DI'].
    apply (is_derive_plus (K := R_AbsRing) (V := R_NormedModule) (fun x => tlnt (1 - x)) (fun x => x)); [exact D1|apply (is_derive_id (K := R_AbsRing))].
Qed.
