(** The loops of the real dilogarithm and their truncation errors; existence of the dilogarithm. *)
From Coquelicot Require Import Coquelicot.
From Verif Require Import Base RSumLib M_Dilog S_Dilog P_Basel P_Dilog P_Dilog2.
From Coq Require Import Psatz.
Open Scope R_scope.

(** ** the loops add the terms of the series *)
Lemma Sn_pos n x : 0 < x -> (0 < n)%nat -> x <= Sn n x.
Proof.
  intros Hx Hn. destruct n as [|n]; [lia|]. clear Hn. induction n as [|n IH]; unfold Sn in *; [cbn; lra|].
  change (rsum (S (S n)) (fun k => x ^ S k / INR (S k) ^ 2)) with (rsum (S n) (fun k => x ^ S k / INR (S k) ^ 2) + x ^ S (S n) / INR (S (S n)) ^ 2).
  assert (0 < x ^ S (S n) / INR (S (S n)) ^ 2) by (apply Rdiv_lt_0_compat; apply pow_lt; [exact Hx|apply INR_S_pos]). lra.
Qed.
Lemma Sn_S n x : Sn (S n) x = Sn n x + x ^ S n / INR (S n) ^ 2. Proof. reflexivity. Qed.
Lemma Tn_S n x : Tn (S n) x = Tn n x + x ^ S n / (INR (S n) ^ 2 * (INR (S n) + 1)). Proof. reflexivity. Qed.

Lemma quarter_pow x : 0 < x <= 1 / 4 -> x ^ 26 <= DBL_EPSILON.
Proof.
  intros H. apply Rle_trans with ((1 / 4) ^ 26); [apply pow_incr; lra|]. unfold DBL_EPSILON. cbn [pow]. lra.
Qed.
Lemma stop_1 K x : 0 < x <= 1 / 4 -> (27 <= K)%nat -> x ^ K / INR K ^ 2 / Sn K x < DBL_EPSILON.
Proof.
  intros Hx HK. pose proof (Sn_pos K x ltac:(lra) ltac:(lia)) as P. assert (Kp : 27 <= INR K) by (replace 27 with (INR 27) by (cbn; ring); apply le_INR, HK).
  replace K with (1 + 26 + (K - 27))%nat at 1 by lia. rewrite !pow_add, pow_1. pose proof (quarter_pow x Hx) as Q. assert (Q0 : 0 < x ^ 26) by (apply pow_lt; lra).
  assert (R0 : 0 < x ^ (K - 27) <= 1) by (split; [apply pow_lt; lra|rewrite <- (pow1 (K - 27)); apply pow_incr; lra]).
  assert (K2 : 1 < INR K ^ 2) by nra. apply Rmult_lt_reg_r with (Sn K x * INR K ^ 2); [apply Rmult_lt_0_compat; lra|].
  replace (x * x ^ 26 * x ^ (K - 27) / INR K ^ 2 / Sn K x * (Sn K x * INR K ^ 2)) with (x * (x ^ 26 * x ^ (K - 27))) by (field; lra).
  assert (D0 : 0 < DBL_EPSILON) by (unfold DBL_EPSILON; lra).
  assert (x ^ 26 * x ^ (K - 27) <= DBL_EPSILON * 1) by (apply Rmult_le_compat; lra).
  apply Rle_lt_trans with (x * (DBL_EPSILON * 1)); [apply Rmult_le_compat_l; lra|]. replace (x * (DBL_EPSILON * 1)) with (DBL_EPSILON * (x * 1)) by ring. apply Rmult_lt_compat_l; [exact D0|].
  apply Rlt_le_trans with (x * INR K ^ 2); [apply Rmult_lt_compat_l; lra|apply Rmult_le_compat_r; lra].
Qed.
Lemma series_1_run x : 0 < x <= 1 / 4 -> forall n j, (1 <= j <= 26)%nat -> (27 <= j + n)%nat ->
  exists K, (2 <= K)%nat /\ series_1_loop n (S j) x (x ^ j / INR j ^ 2) (Sn j x) = Some (Sn K x) /\ x ^ K / INR K ^ 2 < DBL_EPSILON * Sn K x.
Proof.
  intros Hx. induction n as [|n IH]; intros j Hj Hn; [lia|]. cbn [series_1_loop].
  replace (x ^ j / INR j ^ 2 * (x * ((INR (S j) - 1) / INR (S j)) ^ 2)) with (x ^ S j / INR (S j) ^ 2).
  2:{ assert (0 < INR j) by (apply lt_0_INR; lia). rewrite S_INR. replace (INR j + 1 - 1) with (INR j) by ring. cbn [pow]. field. lra. }
  rewrite <- Sn_S. pose proof (Sn_pos (S j) x ltac:(lra) ltac:(lia)) as P. assert (T0 : 0 < x ^ S j / INR (S j) ^ 2) by (apply Rdiv_lt_0_compat; apply pow_lt; [lra|apply INR_S_pos]).
  unfold Rltb. destruct (Rlt_dec (Rabs (x ^ S j / INR (S j) ^ 2 / Sn (S j) x)) DBL_EPSILON) as [H|H].
  - exists (S j). split; [lia|]. split; [reflexivity|]. rewrite Rabs_pos_eq in H by (left; apply Rdiv_lt_0_compat; lra).
    apply Rmult_lt_reg_r with (/ Sn (S j) x); [apply Rinv_0_lt_compat; lra|]. rewrite Rmult_assoc, Rinv_r, Rmult_1_r by lra. exact H.
  - destruct (le_lt_dec 27 (S j)) as [G|G]; [exfalso; apply H; rewrite Rabs_pos_eq by (left; apply Rdiv_lt_0_compat; lra); apply stop_1; assumption|].
    apply IH; lia.
Qed.
Lemma series_1_sum x : 0 < x <= 1 / 4 -> exists K, (2 <= K)%nat /\ dilog_series_1 x = Some (Sn K x) /\ x ^ K / INR K ^ 2 < DBL_EPSILON * Sn K x.
Proof.
  intros Hx. destruct (series_1_run x Hx 998 1 ltac:(lia) ltac:(lia)) as [K H]. exists K. unfold dilog_series_1. replace (x ^ 1 / INR 1 ^ 2) with x in H by (cbn; field). replace (Sn 1 x) with x in H by (unfold Sn; cbn; field). exact H.
Qed.

Lemma Tn_pos n x : 0 < x -> (0 < n)%nat -> 0 < Tn n x.
Proof.
  intros Hx Hn. destruct n as [|n]; [lia|]. clear Hn. induction n as [|n IH]; [unfold Tn; cbn; lra|]. rewrite Tn_S. pose proof (INR_S_pos (S n)).
  assert (0 < x ^ S (S n) / (INR (S (S n)) ^ 2 * (INR (S (S n)) + 1))) by (apply Rdiv_lt_0_compat; [apply pow_lt, Hx|apply Rmult_lt_0_compat; [apply pow_lt|]; lra]). lra.
Qed.
Lemma Tn_le n x : 0 < x <= 1 -> Tn n x <= x * (1 - / (INR n + 1)).
Proof.
  intros Hx. induction n as [|n IH]; [unfold Tn; cbn; lra|]. rewrite Tn_S, S_INR. pose proof (pos_INR n) as Pn. set (a := INR n) in *.
  assert (x ^ S n / ((a + 1) ^ 2 * (a + 1 + 1)) <= x * (/ (a + 1) - / (a + 1 + 1))); [|lra].
  replace (/ (a + 1) - / (a + 1 + 1)) with (/ ((a + 1) * (a + 1 + 1))) by (field; lra). apply Rmult_le_compat; [apply pow_le; lra|left; apply Rinv_0_lt_compat; apply Rmult_lt_0_compat; [apply pow_lt|]; lra| |].
  - cbn [pow]. assert (0 <= x ^ n <= 1) by (split; [apply pow_le; lra|rewrite <- (pow1 n); apply pow_incr; lra]). nra.
  - apply Rinv_le_contravar; [nra|]. apply Rmult_le_compat_r; [lra|nra].
Qed.
Lemma series_2_run x : 0 < x <= 1 / 2 -> forall n j, (1 <= j)%nat ->
  exists K, (1 <= K)%nat /\ series_2_loop n (S j) x (x ^ j) (Tn j x) = Tn K x /\
    (K = (j + n)%nat \/ ((10 <= K)%nat /\ x ^ K / (INR K ^ 2 * (INR K + 1)) < 1 / 2 * DBL_EPSILON * Tn K x)).
Proof.
  intros Hx. induction n as [|n IH]; intros j Hj; [exists j; split; [exact Hj|split; [reflexivity|left; lia]]|]. cbn [series_2_loop].
  replace (x ^ j * x) with (x ^ S j) by (cbn [pow]; ring). replace (x ^ S j / (INR (S j) * INR (S j) * (INR (S j) + 1))) with (x ^ S j / (INR (S j) ^ 2 * (INR (S j) + 1))) by (f_equal; f_equal; ring).
  rewrite <- Tn_S. pose proof (Tn_pos (S j) x ltac:(lra) ltac:(lia)) as P. pose proof (INR_S_pos j) as Pj.
  assert (T0 : 0 < x ^ S j / (INR (S j) ^ 2 * (INR (S j) + 1))) by (apply Rdiv_lt_0_compat; [apply pow_lt; lra|apply Rmult_lt_0_compat; [apply pow_lt|]; lra]).
  destruct ((10 <=? S j)%nat && _) eqn:E.
  - exists (S j). split; [lia|]. split; [reflexivity|]. right. apply andb_prop in E. destruct E as [E1 E2]. apply Nat.leb_le in E1. split; [exact E1|].
    unfold Rltb in E2. destruct (Rlt_dec _ _) as [H|]; [|discriminate]. rewrite Rabs_pos_eq in H by (left; apply Rdiv_lt_0_compat; lra).
    apply Rmult_lt_reg_r with (/ Tn (S j) x); [apply Rinv_0_lt_compat; lra|]. rewrite (Rmult_assoc _ (Tn _ _)), Rinv_r, Rmult_1_r by lra. exact H.
  - destruct (IH (S j) ltac:(lia)) as [K [K1 [K2 K3]]]. exists K. split; [exact K1|]. split; [exact K2|]. destruct K3 as [->|K3]; [left; lia|right; exact K3].
Qed.
Lemma series_2_sum x : 0 < x <= 1 / 2 -> exists K, (1 <= K)%nat /\ series_2_loop 98 2 x x (1 / 2 * x) = Tn K x /\
  (K = 99%nat \/ ((10 <= K)%nat /\ x ^ K / (INR K ^ 2 * (INR K + 1)) < 1 / 2 * DBL_EPSILON * Tn K x)).
Proof.
  intros Hx. pose proof (series_2_run x Hx 98 1 ltac:(lia)) as H. replace (x ^ 1) with x in H by ring. replace (Tn 1 x) with (1 / 2 * x) in H by (unfold Tn; cbn; field). exact H.
Qed.
Lemma small_z_sum x : x <> 0 -> 1 + small_z x = Pn 8 x / x.
Proof. intros H. unfold small_z, Pn. cbn [fold_left rsum INR pow]. field. exact H. Qed.

(** ** truncation errors *)
Definition EPS2 : R := 6 / 100000000000000000.

Section Dilog.
  Variable L : R -> R.
  Hypothesis D : is_dilog L.

  Lemma L_pos x : 0 < x < 1 -> x <= L x.
  Proof. intros H. pose proof (proj1 (En_bounds L D 1 x H)) as B. unfold En, Sn in B. cbn in B. lra. Qed.
  Lemma series_1_err x : 0 < x <= 1 / 4 -> exists v, dilog_series_1 x = Some v /\ 0 <= L x - v <= DBL_EPSILON / 3 * L x.
  Proof.
    intros Hx. destruct (series_1_sum x Hx) as [K [K2 [E ST]]]. exists (Sn K x). split; [exact E|]. pose proof (En_bounds L D K x ltac:(lra)) as B. unfold En in B. split; [apply B|].
    assert (PK : 0 < INR K) by (apply lt_0_INR; lia). assert (XK : 0 < x ^ K) by (apply pow_lt; lra).
    assert (x ^ S K / (INR (S K) ^ 2 * (1 - x)) <= 1 / 3 * (x ^ K / INR K ^ 2)).
    { cbn [pow]. rewrite S_INR. apply Rmult_le_reg_r with ((INR K + 1) ^ 2 * (1 - x)); [apply Rmult_lt_0_compat; [apply pow_lt|]; lra|].
      replace (x * x ^ K / ((INR K + 1) * ((INR K + 1) * 1) * (1 - x)) * ((INR K + 1) ^ 2 * (1 - x))) with (x ^ K * x) by (field; lra).
      replace (1 / 3 * (x ^ K / (INR K * (INR K * 1))) * ((INR K + 1) ^ 2 * (1 - x))) with (x ^ K * (1 / 3 * (1 - x) * ((INR K + 1) ^ 2 / INR K ^ 2))) by (field; lra). apply Rmult_le_compat_l; [lra|].
      assert (1 <= (INR K + 1) ^ 2 / INR K ^ 2). { apply Rmult_le_reg_r with (INR K ^ 2); [apply pow_lt, PK|]. unfold Rdiv. rewrite Rmult_assoc, Rinv_l by nra. nra. } nra. }
    assert (Sn K x <= L x) by lra. assert (0 < DBL_EPSILON) by (unfold DBL_EPSILON; lra). assert (DBL_EPSILON * Sn K x <= DBL_EPSILON * L x) by (apply Rmult_le_compat_l; lra). lra.
  Qed.
  Lemma Fn_trunc x K : 0 < x <= 1 / 2 -> (1 <= K)%nat -> (K = 99%nat \/ ((10 <= K)%nat /\ x ^ K / (INR K ^ 2 * (INR K + 1)) < 1 / 2 * DBL_EPSILON * Tn K x)) -> 0 <= Fn L K x <= DBL_EPSILON / 4.
  Proof.
    intros Hx HK C. pose proof (Fn_bounds L D K x ltac:(lra)) as B. split; [apply B|]. eapply Rle_trans; [apply B|]. assert (PK : 1 <= INR K) by (replace 1 with (INR 1) by reflexivity; apply le_INR, HK). assert (XK : 0 < x ^ K) by (apply pow_lt; lra).
    assert (Q : x ^ S K / (INR (S K) ^ 2 * (INR (S K) + 1) * (1 - x)) <= 2 * x * (x ^ K / (INR K ^ 2 * (INR K + 1)))).
    { replace (2 * x * (x ^ K / (INR K ^ 2 * (INR K + 1)))) with (x ^ S K * (2 * / (INR K ^ 2 * (INR K + 1)))) by (cbn [pow]; field; lra). apply Rmult_le_compat_l; [apply pow_le; lra|]. rewrite S_INR.
      replace (2 * / (INR K ^ 2 * (INR K + 1))) with (/ (1 / 2 * (INR K ^ 2 * (INR K + 1)))) by (field; lra). apply Rinv_le_contravar; [apply Rmult_lt_0_compat; [lra|apply Rmult_lt_0_compat; [apply pow_lt|]; lra]|].
      assert (INR K ^ 2 * (INR K + 1) <= (INR K + 1) ^ 2 * (INR K + 1 + 1)) by (apply Rmult_le_compat; nra). assert (0 < (INR K + 1) ^ 2 * (INR K + 1 + 1)) by nra. nra. }
    eapply Rle_trans; [exact Q|]. destruct C as [->|[_ C]].
    - assert (x ^ 99 <= (1 / 2) ^ 99) by (apply pow_incr; lra). assert ((1 / 2) ^ 99 <= DBL_EPSILON / 4) by (unfold DBL_EPSILON; cbn [pow]; lra).
      assert (0 < / (INR 99 ^ 2 * (INR 99 + 1)) <= 1). { split; [apply Rinv_0_lt_compat; nra|]. rewrite <- Rinv_1 at 2. apply Rinv_le_contravar; nra. }
      assert (x ^ 99 / (INR 99 ^ 2 * (INR 99 + 1)) <= x ^ 99) by (unfold Rdiv; nra). assert (0 < x ^ 99 / (INR 99 ^ 2 * (INR 99 + 1))) by (apply Rmult_lt_0_compat; lra). nra.
    - pose proof (Tn_le K x ltac:(lra)) as T. assert (0 < / (INR K + 1)) by (apply Rinv_0_lt_compat; lra). assert (Tn K x <= x) by nra. assert (D0 : 0 < DBL_EPSILON) by (unfold DBL_EPSILON; lra).
      assert (x ^ K / (INR K ^ 2 * (INR K + 1)) <= 1 / 2 * DBL_EPSILON * x) by nra. assert (0 < x ^ K / (INR K ^ 2 * (INR K + 1))) by (apply Rdiv_lt_0_compat; [lra|apply Rmult_lt_0_compat; [apply pow_lt|]; lra]). nra.
  Qed.
  Lemma series_2_err x : 0 < x <= 1 / 2 -> Rabs (dilog_series_2 x - L x) <= EPS2.
  Proof.
    intros Hx. destruct (series_2_sum x Hx) as [K [HK [E C]]]. pose proof (Fn_trunc x K Hx HK C) as F. unfold Fn in F. unfold dilog_series_2. rewrite E.
    assert (D0 : DBL_EPSILON / 4 <= 56 / 1000000000000000000) by (unfold DBL_EPSILON; lra). unfold Rltb. destruct (Rlt_dec (1 / 100) x) as [H|H]; [apply Rabs_le; unfold EPS2; lra|].
    rewrite small_z_sum by lra. pose proof (Rn_bounds 8 x ltac:(lra)) as R. unfold Rn in R.
    assert (Z : (x - 1) * (Pn 8 x / x) - (1 - x) * ln (1 - x) / x = (1 - x) * (- ln (1 - x) - Pn 8 x) / x) by (field; lra).
    assert (Z1 : 0 <= (1 - x) * (- ln (1 - x) - Pn 8 x) / x <= x ^ 8 / 9).
    { split; [apply Rmult_le_pos; [nra|left; apply Rinv_0_lt_compat; lra]|]. apply Rmult_le_reg_r with x; [lra|]. unfold Rdiv at 1. rewrite Rmult_assoc, Rinv_l, Rmult_1_r by lra.
      apply Rle_trans with ((1 - x) * (x ^ 9 / (INR 9 * (1 - x)))); [apply Rmult_le_compat_l; [lra|apply R]|]. right. cbn [pow INR]. field. lra. }
    assert (x ^ 8 <= (1 / 100) ^ 8) by (apply pow_incr; lra). assert ((1 / 100) ^ 8 = 1 / 10000000000000000) by (cbn [pow]; field). apply Rabs_le. unfold EPS2. lra.
  Qed.
  Lemma near_one_sum x : near_one x = N8 (x - 1).
  Proof. unfold near_one, N8. cbn [fold_left rsum]. set (e := x - 1). set (l := ln e). cbn [pow INR Nat.add]. field. Qed.

  (** the window below 1: what is returned there exceeds the dilogarithm by this much *)
  Lemma window d : 0 < d < 1 -> PI ^ 2 / 6 - L (1 - d) = L d + ln d * ln (1 - d).
  Proof. intros H. rewrite <- (reflection L D d H). ring. Qed.
End Dilog.
