(** C30, continued: the Pickands function is convex; what calling A and dAdu gives. *)
From Coquelicot Require Import Coquelicot.
From Verif Require Import Base RSumLib Ext S_Archimedean P_Gen M_Archimedean P_Arch P_Arch2 P_Arch3 P_ArchCode T_Archimedean M_Pickands.
From Coq Require Import Psatz.
Open Scope R_scope.

Lemma exp_below x : 1 + x <= exp x.
Proof. destruct (Req_dec x 0) as [->|N]; [rewrite exp_0; lra|]. left. apply exp_ineq1. exact N. Qed.
Lemma exp_chord a L : 0 <= a <= 1 -> exp (a * L) <= 1 - a + a * exp L.
Proof.
  intros H. pose proof (exp_below ((1 - a) * L)) as E1. pose proof (exp_below (- (a * L))) as E2. pose proof (exp_pos (a * L)) as P.
  assert (F1 : exp L = exp (a * L) * exp ((1 - a) * L)) by (rewrite <- exp_plus; f_equal; ring).
  assert (F2 : 1 = exp (a * L) * exp (- (a * L))) by (rewrite <- exp_plus, Rplus_opp_r, exp_0; reflexivity).
  rewrite F1. replace (1 - a) with ((1 - a) * (exp (a * L) * exp (- (a * L)))) at 1 by (rewrite <- F2; ring).
  assert (exp (a * L) * (1 + (1 - a) * L) <= exp (a * L) * exp ((1 - a) * L)) by (apply Rmult_le_compat_l; lra).
  assert (exp (a * L) * (1 + - (a * L)) <= exp (a * L) * exp (- (a * L))) by (apply Rmult_le_compat_l; lra). nra.
Qed.
Lemma bernoulli th x : 1 <= th -> 0 < x -> 1 + th * (x - 1) <= Rpower x th.
Proof.
  intros H Hx. pose proof (exp_chord (/ th) (th * ln x)) as E. assert (0 < / th) by (apply Rinv_0_lt_compat; lra).
  assert (/ th <= 1) by (rewrite <- Rinv_1; apply Rinv_le_contravar; lra).
  specialize (E ltac:(lra)). replace (/ th * (th * ln x)) with (ln x) in E by (field; lra). rewrite exp_ln in E by exact Hx.
  fold (Rpower x th) in E. apply Rmult_le_compat_l with (r := th) in E; [|lra].
  replace (th * (1 - / th + / th * Rpower x th)) with (th - 1 + Rpower x th) in E by (field; lra). lra.
Qed.
(** the power with 0 ^ th = 0 *)
Definition pw (th x : R) : R := if Reqb x 0 then 0 else Rpower x th.
Lemma pw_pos th x : 0 < x -> pw th x = Rpower x th.
Proof. intros H. unfold pw. rewrite Reqb_neq by lra. reflexivity. Qed.
Lemma pw_nonneg th x : 0 <= pw th x.
Proof. unfold pw. destruct (Reqb x 0); [lra|]. left. apply Rpower_pos. Qed.
Lemma pw_tangent th s x : 1 <= th -> 0 < s -> 0 <= x -> Rpower s th + th * Rpower s th / s * (x - s) <= pw th x.
Proof.
  intros H Hs Hx. pose proof (Rpower_pos s th) as P. destruct (Req_dec x 0) as [->|N].
  - unfold pw. rewrite Reqb_refl. replace (th * Rpower s th / s * (0 - s)) with (- (th * Rpower s th)) by (field; lra). nra.
  - rewrite pw_pos by lra. pose proof (bernoulli th (x / s) H ltac:(apply Rdiv_lt_0_compat; lra)) as B.
    replace (Rpower x th) with (Rpower s th * Rpower (x / s) th) by (rewrite Rpower_mult_distr by (try lra; apply Rdiv_lt_0_compat; lra); f_equal; field; lra).
    replace (Rpower s th + th * Rpower s th / s * (x - s)) with (Rpower s th * (1 + th * (x / s - 1))) by (field; lra). apply Rmult_le_compat_l; lra.
Qed.
Lemma pw_convex th x y a b : 1 <= th -> 0 <= x -> 0 <= y -> 0 <= a -> 0 <= b -> a + b = 1 -> pw th (a * x + b * y) <= a * pw th x + b * pw th y.
Proof.
  intros H Hx Hy Ha Hb E. pose proof (pw_nonneg th x). pose proof (pw_nonneg th y). set (s := a * x + b * y).
  assert (Hs : 0 <= s) by (unfold s; nra). destruct (Req_dec s 0) as [E0|N]; [unfold pw at 1; rewrite E0, Reqb_refl; nra|].
  rewrite pw_pos by lra. pose proof (pw_tangent th s x H ltac:(lra) Hx) as T1. pose proof (pw_tangent th s y H ltac:(lra) Hy) as T2.
  set (c := th * Rpower s th / s) in *. apply Rmult_le_compat_l with (r := a) in T1; [|lra]. apply Rmult_le_compat_l with (r := b) in T2; [|lra].
  assert (a * (Rpower s th + c * (x - s)) + b * (Rpower s th + c * (y - s)) = Rpower s th) by (unfold s at 2 4; replace b with (1 - a) by lra; ring). lra.
Qed.
(** the length of (x, y) *)
Definition len (th x y : R) : R := Rpower (pw th x + pw th y) (1 / th).
Lemma pw_mul th c x : 0 < c -> 0 <= x -> pw th (c * x) = Rpower c th * pw th x.
Proof.
  intros Hc Hx. unfold pw. destruct (Req_dec x 0) as [->|N]; [rewrite Rmult_0_r, Reqb_refl; ring|]. rewrite !Reqb_neq by (try nra; apply Rmult_integral_contrapositive_currified; lra).
  rewrite Rpower_mult_distr by lra. reflexivity.
Qed.
Lemma sum_pos th x y : 0 <= x -> 0 <= y -> 0 < x + y -> 0 < pw th x + pw th y.
Proof.
  intros Hx Hy H. pose proof (pw_nonneg th x). pose proof (pw_nonneg th y). destruct (Rle_lt_or_eq_dec 0 x Hx) as [P|<-].
  - rewrite (pw_pos th x P). pose proof (Rpower_pos x th). lra.
  - rewrite (pw_pos th y) by lra. pose proof (Rpower_pos y th). lra.
Qed.
Lemma len_pos th x y : 0 < len th x y.
Proof. apply Rpower_pos. Qed.
Lemma len_pow th x y : 1 <= th -> 0 <= x -> 0 <= y -> 0 < x + y -> Rpower (len th x y) th = pw th x + pw th y.
Proof. intros H Hx Hy S. unfold len. rewrite Rpower_mult. replace (1 / th * th) with 1 by (field; lra). apply Rpower_1. apply sum_pos; assumption. Qed.
Lemma minkowski th x1 y1 x2 y2 : 1 <= th -> 0 <= x1 -> 0 <= y1 -> 0 <= x2 -> 0 <= y2 -> 0 < x1 + y1 -> 0 < x2 + y2 ->
  len th (x1 + x2) (y1 + y2) <= len th x1 y1 + len th x2 y2.
Proof.
  intros H Hx1 Hy1 Hx2 Hy2 H1 H2. set (a := len th x1 y1). set (b := len th x2 y2). pose proof (len_pos th x1 y1) as Pa. pose proof (len_pos th x2 y2) as Pb. fold a in Pa. fold b in Pb.
  pose proof (len_pow th x1 y1 H Hx1 Hy1 H1) as La. pose proof (len_pow th x2 y2 H Hx2 Hy2 H2) as Lb. fold a in La. fold b in Lb.
  assert (I0 : forall z, 0 < z -> 0 < / z) by (intros; apply Rinv_0_lt_compat; assumption).
  assert (U : forall c x, 0 < c -> 0 <= x -> pw th (/ c * x) = pw th x / Rpower c th).
  { intros c x Hc Hx. rewrite pw_mul by auto. replace (Rpower (/ c) th) with (/ Rpower c th); [field; pose proof (Rpower_pos c th); lra|].
    unfold Rpower. rewrite ln_Rinv by exact Hc. rewrite <- exp_Ropp. f_equal. ring. }
  assert (K : forall z1 z2, 0 <= z1 -> 0 <= z2 -> pw th (z1 + z2) <= Rpower (a + b) th * (a / (a + b) * (pw th z1 / Rpower a th) + b / (a + b) * (pw th z2 / Rpower b th))).
  { intros z1 z2 Hz1 Hz2. replace (z1 + z2) with ((a + b) * (a / (a + b) * (/ a * z1) + b / (a + b) * (/ b * z2))) by (field; repeat split; lra).
    assert (0 <= / a * z1) by (pose proof (I0 a Pa); nra). assert (0 <= / b * z2) by (pose proof (I0 b Pb); nra).
    assert (0 < a / (a + b)) by (apply Rdiv_lt_0_compat; lra). assert (0 < b / (a + b)) by (apply Rdiv_lt_0_compat; lra).
    rewrite pw_mul by (try lra; nra). apply Rmult_le_compat_l; [left; apply Rpower_pos|]. rewrite <- !U by assumption. apply pw_convex; try lra. field. lra. }
  pose proof (K x1 x2 Hx1 Hx2) as K1. pose proof (K y1 y2 Hy1 Hy2) as K2.
  assert (T : pw th (x1 + x2) + pw th (y1 + y2) <= Rpower (a + b) th).
  { eapply Rle_trans; [apply Rplus_le_compat; [exact K1|exact K2]|]. right.
    transitivity (Rpower (a + b) th * (a / (a + b) * ((pw th x1 + pw th y1) / Rpower a th) + b / (a + b) * ((pw th x2 + pw th y2) / Rpower b th))); [field; pose proof (Rpower_pos a th); pose proof (Rpower_pos b th); repeat split; lra|].
    rewrite <- La, <- Lb. field. pose proof (Rpower_pos a th). pose proof (Rpower_pos b th). repeat split; lra. }
  unfold len at 1. replace (a + b) with (Rpower (Rpower (a + b) th) (1 / th)) by (rewrite Rpower_mult; replace (th * (1 / th)) with 1 by (field; lra); apply Rpower_1; lra).
  assert (0 < / th) by (apply I0; lra). apply Rle_Rpower_l; [lra|]. split; [apply sum_pos; lra|exact T].
Qed.
Lemma A_len th w : 1 <= th -> 0 <= w <= 1 -> gumbel_A th w = Fin (len th w (1 - w)).
Proof.
  intros H Hw. unfold gumbel_A, len. destruct (Req_dec w 0) as [->|N0]; [|destruct (Req_dec w 1) as [->|N1]].
  - rewrite Reqb_refl. cbn [orb]. rewrite Rminus_0_r. unfold pw. rewrite Reqb_refl, Reqb_neq by lra. do 2 f_equal. unfold Rpower. rewrite ln_1, Rmult_0_r, exp_0, Rplus_0_l, ln_1, Rmult_0_r, exp_0. reflexivity.
  - rewrite Reqb_refl, orb_true_r. replace (1 - 1) with 0 by ring. unfold pw. rewrite Reqb_refl, Reqb_neq by lra. do 2 f_equal. unfold Rpower. rewrite ln_1, Rmult_0_r, exp_0, Rplus_0_r, ln_1, Rmult_0_r, exp_0. reflexivity.
  - rewrite !Reqb_neq by lra. cbn [orb]. rewrite !pw_pos by lra. rewrite !epow_pos by lra. cbn [eadd]. pose proof (Rpower_pos w th). pose proof (Rpower_pos (1 - w) th). rewrite epow_pos by lra. reflexivity.
Qed.
(** A is convex on [0, 1] *)
Theorem C30_convex : forall th s t a, 1 <= th -> 0 <= s <= 1 -> 0 <= t <= 1 -> 0 <= a <= 1 -> exists As At Am,
  gumbel_A th s = Fin As /\ gumbel_A th t = Fin At /\ gumbel_A th (a * s + (1 - a) * t) = Fin Am /\ Am <= a * As + (1 - a) * At.
Proof.
  intros th s t a H Hs Ht Ha. exists (len th s (1 - s)), (len th t (1 - t)), (len th (a * s + (1 - a) * t) (1 - (a * s + (1 - a) * t))).
  split; [apply A_len; assumption|]. split; [apply A_len; assumption|]. split; [apply A_len; [assumption|nra]|].
  destruct (Req_dec a 0) as [->|N0]; [replace (0 * s + (1 - 0) * t) with t by ring; lra|]. destruct (Req_dec a 1) as [->|N1]; [replace (1 * s + (1 - 1) * t) with s by ring; lra|].
  assert (Hom : forall c x, 0 < c -> 0 <= x <= 1 -> len th (c * x) (c * (1 - x)) = c * len th x (1 - x)).
  { intros c x Hc Hx. unfold len. rewrite !pw_mul by lra. rewrite <- Rmult_plus_distr_l. rewrite <- Rpower_mult_distr by (try apply Rpower_pos; apply sum_pos; lra).
    rewrite Rpower_mult. replace (th * (1 / th)) with 1 by (field; lra). rewrite Rpower_1 by exact Hc. reflexivity. }
  rewrite <- !Hom by lra. replace (1 - (a * s + (1 - a) * t)) with (a * (1 - s) + (1 - a) * (1 - t)) by ring. apply minkowski; try assumption; nra.
Qed.
Print Assumptions C30_convex.
(** Refuted: A of a number, which the documentation allows, raises. *)
Theorem C30_number_refuted : forall th w, gumbel_A_call th (Number w) = Err TypeError.
Proof. reflexivity. Qed.
Print Assumptions C30_number_refuted.
Theorem C30_vector : forall th l, 1 <= th -> Forall (fun w => 0 <= w <= 1) l -> exists r, gumbel_A_call th (Vector l) = Ok (map Fin r) /\ Forall2 (fun w a => Rmax w (1 - w) <= a <= 1) l r.
Proof.
  intros th l H F. cbn [gumbel_A_call]. induction F as [|w l Hw F [r [E G]]]; [exists []; split; [reflexivity|constructor]|].
  destruct (C30_pickands th w H Hw) as [a [Ea [Ba _]]]. exists (a :: r). cbn [map]. rewrite Ea. injection E as E. rewrite E. split; [reflexivity|]. constructor; assumption.
Qed.
Print Assumptions C30_vector.
(** Refuted: dAdu raises for every argument, although A has a derivative everywhere inside. *)
Theorem C30_dAdu_refuted : forall th w, 1 <= th -> gumbel_dAdu th w = Err TypeError /\
  forall x, 0 < x < 1 -> exists A, (forall y, 0 < y < 1 -> gumbel_A th y = Fin (A y)) /\
    is_derive A x (Rpower (Rpower x th + Rpower (1 - x) th) (1 / th - 1) * (Rpower x (th - 1) - Rpower (1 - x) (th - 1))).
Proof.
  intros th w H. split; [reflexivity|]. intros x Hx. exists (fun y => Rpower (Rpower y th + Rpower (1 - y) th) (1 / th)). split.
  - intros y Hy. rewrite A_len by lra. unfold len. rewrite !pw_pos by lra. reflexivity.
  - pose proof (Rpower_pos x th) as P1. pose proof (Rpower_pos (1 - x) th) as P2. unfold Rpower in *. auto_derive; [change (1 + - x) with (1 - x); repeat split; try lra; exact Logic.I|].
    set (S := exp (th * ln x) + exp (th * ln (1 - x))) in *. assert (PS : 0 < S) by (unfold S; lra).
    replace (exp ((1 / th - 1) * ln S)) with (exp (1 / th * ln S) * / S) by (replace ((1 / th - 1) * ln S) with (1 / th * ln S + - ln S) by ring; rewrite exp_plus, exp_Ropp, exp_ln by exact PS; reflexivity).
    replace (exp ((th - 1) * ln x)) with (exp (th * ln x) * / x) by (replace ((th - 1) * ln x) with (th * ln x + - ln x) by ring; rewrite exp_plus, exp_Ropp, exp_ln by lra; reflexivity).
    replace (exp ((th - 1) * ln (1 - x))) with (exp (th * ln (1 - x)) * / (1 - x)) by (replace ((th - 1) * ln (1 - x)) with (th * ln (1 - x) + - ln (1 - x)) by ring; rewrite exp_plus, exp_Ropp, exp_ln by lra; reflexivity).
    change (1 + - x) with (1 - x). fold S. field. repeat split; lra.
Qed.
Print Assumptions C30_dAdu_refuted.
Example C30_convex_case : exists Am, gumbel_A 2 (1 / 2) = Fin Am /\ Am < 1 /\ exists As At, gumbel_A 2 0 = Fin As /\ gumbel_A 2 1 = Fin At /\ Am <= (As + At) / 2.
Proof.
  destruct (C30_convex 2 0 1 (1 / 2)) as [As [At [Am [E1 [E2 [E3 L]]]]]]; [lra|lra|lra|lra|]. exists Am. replace (1 / 2 * 0 + (1 - 1 / 2) * 1) with (1 / 2) in E3 by field. split; [exact E3|]. split.
  - rewrite A_len in E3 by lra. injection E3 as <-. unfold len. rewrite !pw_pos by lra. replace (1 - 1 / 2) with (1 / 2) by field.
    assert (Q : Rpower (1 / 2) 2 = 1 / 4) by (change 2 with (1 + 1) at 2; rewrite Rpower_plus, Rpower_1 by lra; field). rewrite Q.
    assert (O : Rpower 1 (1 / 2) = 1) by (unfold Rpower; rewrite ln_1, Rmult_0_r, exp_0; reflexivity). rewrite <- O at 4. apply Rlt_Rpower_l; lra.
  - exists As, At. split; [exact E1|]. split; [exact E2|]. lra.
Qed.
