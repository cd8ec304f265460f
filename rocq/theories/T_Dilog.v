(** Theorems about the real dilogarithm: C80. *)
From Coquelicot Require Import Coquelicot.
From Verif Require Import Base RSumLib M_Dilog S_Dilog P_Basel P_Dilog P_Dilog2 P_DilogNum P_Dilog3.
From Coq Require Import Psatz.
Open Scope R_scope.

(** The function meant exists and there is only one. *)
Theorem C80_dilogarithm_exists : exists L, is_dilog L /\ forall M, is_dilog M -> forall x, M x = L x.
Proof. exists Li2. split; [exact Li2_is_dilog|]. intros M HM. apply dilog_unique; [exact HM|exact Li2_is_dilog]. Qed.
Print Assumptions C80_dilogarithm_exists.

Lemma C10_lit : C10 = 10 / 2 ^ 52. Proof. rewrite C10_val. cbn [pow]. field. Qed.

Lemma dilog_any L : is_dilog L -> forall x, exists v, dilog x = Some v /\
  ((0 <= x -> ~ window x) -> (x < 0 -> ~ window (- x) /\ ~ window (x * x)) -> Rabs (v - L x) <= 3 / 10000000000000000) /\
  Rabs (v - L x) <= 1 / 5000000000000 /\
  (0 < Rabs x <= 1 / 4 -> Rabs (v - L x) <= DBL_EPSILON * Rabs (L x)).
Proof.
  intros D x. destruct (Req_dec x 0) as [->|Nx].
  { exists 0. split; [exact dilog_0|]. rewrite (L0 L D), Rminus_0_r, Rabs_R0. repeat split; intros; lra. }
  unfold dilog, Rleb. destruct (Rle_dec 0 x) as [Hx|Hx].
  - destruct (xge0 L D x ltac:(lra)) as [v [E [A [B C]]]]. exists v. split; [exact E|]. split; [|split].
    + intros W _. specialize (A (W Hx)). unfold EPS in A. lra.
    + assert (~ window x \/ window x) as [W|W] by (unfold window; lra). * specialize (A W). unfold EPS in A. lra. * specialize (B W). apply Rabs_le. lra.
    + intros Q. rewrite Rabs_pos_eq in Q by lra. specialize (C ltac:(lra)). pose proof (L_pos L D x ltac:(lra)). rewrite (Rabs_pos_eq (L x)) by lra. assert (0 < DBL_EPSILON) by (unfold DBL_EPSILON; lra). apply Rabs_le. nra.
  - destruct (xge0 L D (- x) ltac:(lra)) as [d1 [E1 [A1 [B1 C1]]]]. destruct (xge0 L D (x * x) ltac:(nra)) as [d2 [E2 [A2 [B2 C2]]]]. rewrite E1, E2.
    eexists. split; [reflexivity|]. pose proof (square L D (- x) ltac:(lra)) as S. rewrite Ropp_involutive in S. replace (- x * - x) with (x * x) in S by ring. rewrite S. clear S.
    replace (1 / 2 * d2 - d1 - (1 / 2 * L (x * x) - L (- x))) with (1 / 2 * (d2 - L (x * x)) - (d1 - L (- x))) by ring. unfold EPS in *. split; [|split].
    + intros _ W. destruct (W ltac:(lra)) as [W1 W2]. specialize (A1 W1). specialize (A2 W2). apply Rabs_le_between in A1. apply Rabs_le_between in A2. apply Rabs_le. lra.
    + assert (Rabs (d1 - L (- x)) <= 1 / 10000000000000).
      { assert (~ window (- x) \/ window (- x)) as [W|W] by (unfold window; lra). * specialize (A1 W). lra. * specialize (B1 W). apply Rabs_le. lra. }
      assert (Rabs (d2 - L (x * x)) <= 1 / 10000000000000).
      { assert (~ window (x * x) \/ window (x * x)) as [W|W] by (unfold window; lra). * specialize (A2 W). lra. * specialize (B2 W). apply Rabs_le. lra. }
      apply Rabs_le_between in H. apply Rabs_le_between in H0. apply Rabs_le. lra.
    + intros Q. rewrite Rabs_left in Q by lra. specialize (C1 ltac:(lra)). specialize (C2 ltac:(nra)). pose proof (L_pos L D (- x) ltac:(lra)) as P1. pose proof (En_bounds L D 0 (x * x) ltac:(nra)) as B. unfold En, Sn in B. cbn [rsum pow INR] in B.
      assert (Q2 : x * x * 1 / (1 * (1 * 1) * (1 - x * x)) <= 1 / 3 * - x). { apply Rmult_le_reg_r with (1 - x * x); [nra|]. replace (x * x * 1 / (1 * (1 * 1) * (1 - x * x)) * (1 - x * x)) with (x * x) by (field; nra). nra. }
      rewrite (Rabs_left1 (1 / 2 * L (x * x) - L (- x))) by lra. assert (D0 : 0 < DBL_EPSILON) by (unfold DBL_EPSILON; lra). set (a := L (x * x)) in *. set (b := L (- x)) in *.
      assert (DBL_EPSILON * a <= DBL_EPSILON * (1 / 3 * b)) by (apply Rmult_le_compat_l; lra). apply Rabs_le. assert (0 <= DBL_EPSILON * b) by (apply Rmult_le_pos; lra). assert (0 <= DBL_EPSILON * a) by (apply Rmult_le_pos; lra). nra.
Qed.

(** Never nan, and within 2e-13 of the dilogarithm at every real argument. *)
Theorem C80_everywhere : forall L, is_dilog L -> forall x, exists v, dilog x = Some v /\ Rabs (v - L x) <= 2 / 10 ^ 13.
Proof. intros L D x. destruct (dilog_any L D x) as [v [E [_ [B _]]]]. exists v. split; [exact E|]. replace (2 / 10 ^ 13) with (1 / 5000000000000) by (cbn [pow]; field). exact B. Qed.
Print Assumptions C80_everywhere.

(** Within 3e-16 unless a nonnegative argument handed to the positive branch (x itself, or -x and x*x for x < 0) lies within ten machine
    epsilons below 1.  Missing for the full claim: exactly those arguments, see C80_near_one_refuted. *)
Theorem C80_double_precision_partial : forall L, is_dilog L -> forall x,
  (0 <= x -> ~ (1 - 10 / 2 ^ 52 <= x < 1)) ->
  (x < 0 -> ~ (1 - 10 / 2 ^ 52 <= - x < 1) /\ ~ (1 - 10 / 2 ^ 52 <= x * x < 1)) ->
  exists v, dilog x = Some v /\ Rabs (v - L x) <= 3 / 10 ^ 16.
Proof.
  intros L D x H1 H2. destruct (dilog_any L D x) as [v [E [B _]]]. exists v. split; [exact E|]. rewrite <- C10_lit in H1, H2.
  replace (3 / 10 ^ 16) with (3 / 10000000000000000) by (cbn [pow]; field). apply B; assumption.
Qed.
Print Assumptions C80_double_precision_partial.

(** Around 0 the relative error is at most the machine epsilon. *)
Theorem C80_relative_near_zero : forall L, is_dilog L -> forall x, 0 < Rabs x <= 1 / 4 -> exists v, dilog x = Some v /\ Rabs (v - L x) <= / 2 ^ 52 * Rabs (L x).
Proof.
  intros L D x H. destruct (dilog_any L D x) as [v [E [_ [_ B]]]]. exists v. split; [exact E|]. replace (/ 2 ^ 52) with DBL_EPSILON by (unfold DBL_EPSILON; f_equal; cbn [pow]; ring). apply B, H.
Qed.
Print Assumptions C80_relative_near_zero.

(** Ten machine epsilons below 1 the value of the dilogarithm at 1 is returned; this is off by more than 6e-14, some two hundred times the
    accuracy found elsewhere.  The same happens at the opposite argument. *)
Theorem C80_near_one_refuted : forall L, is_dilog L ->
  exists x v w, x = 1 - 10 / 2 ^ 52 /\ dilog x = Some v /\ v - L x > 6 / 10 ^ 14 /\ dilog (- x) = Some w /\ w - L (- x) < - (5 / 10 ^ 14).
Proof.
  intros L D. pose proof C10_val as C. assert (C0 : 0 < C10 < 1 / 100) by (rewrite C; lra). pose proof (window_error L D) as W. rewrite <- (P_DilogNum.window L D C10) in W by lra.
  assert (E : dilog_xge0 (1 - C10) = Some (PI ^ 2 / 6)).
  { unfold dilog_xge0, Rltb, Rleb. destruct (Rlt_dec 2 (1 - C10)); [lra|]. destruct (Rlt_dec (101 / 100) (1 - C10)); [lra|]. destruct (Rlt_dec 1 (1 - C10)); [lra|]. change (DBL_EPSILON * 10) with C10.
    destruct (Rle_dec (Rabs (1 - C10 - 1)) C10) as [|N]; [reflexivity|exfalso; apply N; rewrite Rabs_left by lra; lra]. }
  destruct (xge0 L D ((1 - C10) * (1 - C10)) ltac:(nra)) as [d2 [E2 [A2 _]]]. assert (NW : ~ P_Dilog3.window ((1 - C10) * (1 - C10))) by (unfold P_Dilog3.window; nra). specialize (A2 NW). apply Rabs_le_between in A2. unfold EPS in A2.
  exists (1 - C10), (PI ^ 2 / 6), (1 / 2 * d2 - PI ^ 2 / 6). rewrite C10_lit at 1. split; [reflexivity|]. split; [|split; [|split]].
  - unfold dilog, Rleb. destruct (Rle_dec 0 (1 - C10)); [exact E|lra].
  - replace (6 / 10 ^ 14) with (6 / 100000000000000) by (cbn [pow]; field). exact W.
  - unfold dilog, Rleb. destruct (Rle_dec 0 (- (1 - C10))); [lra|]. rewrite Ropp_involutive, E. replace (- (1 - C10) * - (1 - C10)) with ((1 - C10) * (1 - C10)) by ring. rewrite E2. reflexivity.
  - rewrite (square L D (1 - C10)) by lra. replace (5 / 10 ^ 14) with (5 / 100000000000000) by (cbn [pow]; field). lra.
Qed.
Print Assumptions C80_near_one_refuted.

(** Hypotheses met: the dilogarithm exists; x = 3 uses the inversion, x = -1/8 the series twice, x = 1/2 is away from 1. *)
Example C80_case : exists L, is_dilog L /\ (exists v, dilog 3 = Some v /\ Rabs (v - L 3) <= 3 / 10 ^ 16) /\ (exists v, dilog (- (1 / 8)) = Some v /\ Rabs (v - L (- (1 / 8))) <= / 2 ^ 52 * Rabs (L (- (1 / 8))))
  /\ L 1 = PI ^ 2 / 6 /\ L (1 / 2) = PI ^ 2 / 12 - ln 2 ^ 2 / 2.
Proof.
  exists Li2. pose proof Li2_is_dilog as D. assert (P : 0 < 10 / 2 ^ 52 < 1) by (rewrite <- C10_lit, C10_val; lra). split; [exact D|]. split; [apply C80_double_precision_partial; [exact D|lra|lra]|]. split; [apply C80_relative_near_zero; [exact D|rewrite Rabs_left; lra]|].
  split; [apply L_1, D|]. pose proof (reflection Li2 D (1 / 2) ltac:(lra)) as R. replace (1 - 1 / 2) with (1 / 2) in R by field. assert (E : ln (1 / 2) = - ln 2) by (unfold Rdiv; rewrite Rmult_1_l; apply ln_Rinv; lra). rewrite E in R. nra.
Qed.
