(** Frank's tau and rho near the independence copula. *)
From Coquelicot Require Import Coquelicot.
From Verif Require Import Base RSumLib Ext S_Archimedean P_Gen M_Archimedean P_Arch P_ArchCode P_CM P_Arch2 P_Debye P_Debye2.
Open Scope R_scope.

Lemma nonneg_of_derive (f f' : R -> R) b : f 0 = 0 -> (forall t, is_derive f t (f' t)) -> (forall t, 0 <= t <= b -> 0 <= f' t) -> forall x, 0 <= x <= b -> 0 <= f x.
Proof.
  intros H0 D P x [Hx Hb]. destruct (Rle_lt_or_eq_dec 0 x Hx) as [L|<-]; [|lra].
  destruct (MVT_cor2 f f' 0 x L) as [c [E C]]; [intros c _; apply is_derive_Reals, D|]. specialize (P c ltac:(lra)). nra.
Qed.
Lemma exp_poly_le x : 0 <= x <= 1 -> 1 + x + x ^ 2 / 2 + x ^ 3 / 6 <= exp x.
Proof.
  intros Hx. cut (0 <= 1 - (1 + x + x ^ 2 / 2 + x ^ 3 / 6) * exp (- x)).
  { intros K. pose proof (exp_pos x). assert (exp (- x) * exp x = 1) by (rewrite <- exp_plus, Rplus_opp_l; apply exp_0). nra. }
  apply (nonneg_of_derive (fun x => 1 - (1 + x + x ^ 2 / 2 + x ^ 3 / 6) * exp (- x)) (fun x => x ^ 3 / 6 * exp (- x)) 1); [rewrite Ropp_0, exp_0; field| | |exact Hx].
  - intros t. auto_derive; [exact Logic.I|field].
  - intros t Ht. pose proof (exp_pos (- t)). apply Rmult_le_pos; [|lra]. assert (0 <= t ^ 3) by (apply pow_le; lra). lra.
Qed.
Lemma exp_poly_ge x : 0 <= x <= 1 -> exp x <= 1 + x + x ^ 2 / 2 + x ^ 3 / 6 + x ^ 4 / 12.
Proof.
  intros Hx. cut (0 <= (1 + x + x ^ 2 / 2 + x ^ 3 / 6 + x ^ 4 / 12) * exp (- x) - 1).
  { intros K. pose proof (exp_pos x). assert (exp (- x) * exp x = 1) by (rewrite <- exp_plus, Rplus_opp_l; apply exp_0). nra. }
  apply (nonneg_of_derive (fun x => (1 + x + x ^ 2 / 2 + x ^ 3 / 6 + x ^ 4 / 12) * exp (- x) - 1) (fun x => x ^ 3 * (2 - x) / 12 * exp (- x)) 1); [rewrite Ropp_0, exp_0; field| | |exact Hx].
  - intros t. auto_derive; [exact Logic.I|field].
  - intros t Ht. pose proof (exp_pos (- t)). apply Rmult_le_pos; [|lra]. assert (0 <= t ^ 3) by (apply pow_le; lra). assert (0 <= t ^ 3 * (2 - t)) by nra. lra.
Qed.
Lemma k1_near x : 0 <= x <= 1 -> Rabs (k1 x - (1 - x / 2 + x ^ 2 / 12)) <= x ^ 3 / 10.
Proof.
  intros Hx. destruct (Req_dec x 0) as [->|N]; [rewrite k1_0; replace (1 - (1 - 0 / 2 + 0 ^ 2 / 12)) with 0 by field; rewrite Rabs_R0; lra|].
  rewrite k1_nz by exact N. pose proof (expm1_pos x ltac:(lra)) as P. pose proof (exp_poly_le x Hx) as L. pose proof (exp_poly_ge x Hx) as U. set (e := exp x - 1) in *.
  assert (L' : x + x ^ 2 / 2 + x ^ 3 / 6 <= e) by (unfold e; lra). assert (U' : e <= x + x ^ 2 / 2 + x ^ 3 / 6 + x ^ 4 / 12) by (unfold e; lra). clear L U. clearbody e.
  replace (x / e - (1 - x / 2 + x ^ 2 / 12)) with ((x - (1 - x / 2 + x ^ 2 / 12) * e) / e) by (field; lra). unfold Rdiv at 1. rewrite Rabs_mult, (Rabs_pos_eq (/ e)) by (left; apply Rinv_0_lt_compat; lra).
  apply Rmult_le_reg_r with e; [exact P|]. rewrite Rmult_assoc, Rinv_l, Rmult_1_r by lra.
  set (q := 1 - x / 2 + x ^ 2 / 12) in *. assert (Q : 1 / 2 <= q <= 1) by (unfold q; nra).
  assert (X2 : 0 <= x ^ 2 <= 1) by nra. assert (X4 : 0 <= x ^ 4 <= 1) by (replace (x ^ 4) with (x ^ 2 * x ^ 2) by ring; nra). assert (X5 : 0 <= x ^ 5 <= x ^ 4) by (replace (x ^ 5) with (x ^ 4 * x) by ring; nra).
  assert (A : q * e <= q * (x + x ^ 2 / 2 + x ^ 3 / 6) + x ^ 4 / 12) by nra. assert (B : q * (x + x ^ 2 / 2 + x ^ 3 / 6) <= q * e) by nra.
  assert (M : q * (x + x ^ 2 / 2 + x ^ 3 / 6) = x - x ^ 4 / 24 + x ^ 5 / 72) by (unfold q; field).
  assert (D : x ^ 4 / 10 <= x ^ 3 / 10 * e).
  { replace (x ^ 4 / 10) with (x ^ 3 / 10 * x) by field. assert (0 <= x ^ 3) by (apply pow_le; lra). apply Rmult_le_compat_l; [lra|]. nra. }
  apply Rabs_le_between. lra.
Qed.
(** a continuous function within [e t^k] of a polynomial has its integral within the integral of that *)
Lemma int_near (F : R -> R) (f p Pp b Bp : R -> R) : F 0 = 0 -> Pp 0 = 0 -> Bp 0 = 0 -> (forall t, is_derive F t (f t)) -> (forall t, is_derive Pp t (p t)) -> (forall t, is_derive Bp t (b t)) ->
  (forall t, 0 <= t <= 1 -> Rabs (f t - p t) <= b t) -> forall x, 0 <= x <= 1 -> Rabs (F x - Pp x) <= Bp x.
Proof.
  intros F0 P0 B0 DF DP DB H x Hx. apply Rabs_le_between. split.
  - cut (0 <= Bp x + (F x - Pp x)); [lra|]. apply (nonneg_of_derive (fun x => Bp x + (F x - Pp x)) (fun x => b x + (f x - p x)) 1); [rewrite F0, P0, B0; ring| | |exact Hx].
    + intros t. apply (is_derive_plus Bp (fun x => F x - Pp x)); [apply DB|]. apply (is_derive_minus F Pp); [apply DF|apply DP].
    + intros t Ht. specialize (H t Ht). apply Rabs_le_between in H. lra.
  - cut (0 <= Bp x - (F x - Pp x)); [lra|]. apply (nonneg_of_derive (fun x => Bp x - (F x - Pp x)) (fun x => b x - (f x - p x)) 1); [rewrite F0, P0, B0; ring| | |exact Hx].
    + intros t. apply (is_derive_minus Bp (fun x => F x - Pp x)); [apply DB|]. apply (is_derive_minus F Pp); [apply DF|apply DP].
    + intros t Ht. specialize (H t Ht). apply Rabs_le_between in H. lra.
Qed.
Lemma int1_near x : 0 <= x <= 1 -> Rabs (RInt k1 0 x - (x - x ^ 2 / 4 + x ^ 3 / 36)) <= x ^ 4 / 40.
Proof.
  apply (int_near (fun x => RInt k1 0 x) k1 (fun x => 1 - x / 2 + x ^ 2 / 12) (fun x => x - x ^ 2 / 4 + x ^ 3 / 36) (fun x => x ^ 3 / 10) (fun x => x ^ 4 / 40)); [apply int_0|field|field|apply debye_int_derive| | |apply k1_near].
  - intros t. auto_derive; [exact Logic.I|field].
  - intros t. auto_derive; [exact Logic.I|field].
Qed.
Lemma int2_near x : 0 <= x <= 1 -> Rabs (RInt k2 0 x - (x ^ 2 / 2 - x ^ 3 / 6 + x ^ 4 / 48)) <= x ^ 5 / 50.
Proof.
  apply (int_near (fun x => RInt k2 0 x) k2 (fun x => x - x ^ 2 / 2 + x ^ 3 / 12) (fun x => x ^ 2 / 2 - x ^ 3 / 6 + x ^ 4 / 48) (fun x => x ^ 4 / 10) (fun x => x ^ 5 / 50)); [apply int_0|field|field|apply int2_derive| | |].
  - intros t. auto_derive; [exact Logic.I|field].
  - intros t. auto_derive; [exact Logic.I|field].
  - intros t Ht. rewrite k2_k1. replace (t * k1 t - (t - t ^ 2 / 2 + t ^ 3 / 12)) with (t * (k1 t - (1 - t / 2 + t ^ 2 / 12))) by field. rewrite Rabs_mult, (Rabs_pos_eq t) by lra.
    replace (t ^ 4 / 10) with (t * (t ^ 3 / 10)) by field. apply Rmult_le_compat_l; [lra|apply k1_near, Ht].
Qed.
Lemma tau_odd th : th <> 0 -> frank_tau_ (debye 1) (- th) = - frank_tau_ (debye 1) th.
Proof. intros N. unfold frank_tau_. rewrite debye1_opp by exact N. field. exact N. Qed.
Lemma rho_odd th : th <> 0 -> 1 + 12 / - th * (debye 2 (- th) - debye 1 (- th)) = - (1 + 12 / th * (debye 2 th - debye 1 th)).
Proof. intros N. rewrite debye1_opp, debye2_opp by exact N. field. exact N. Qed.
Lemma tau_near th : 0 < th <= 1 -> Rabs (frank_tau_ (debye 1) th - th / 9) <= th ^ 2 / 10.
Proof.
  intros H. pose proof (int1_near th ltac:(lra)) as X. unfold frank_tau_, debye. rewrite pow_1. change (INR 1) with 1. set (i := RInt k1 0 th) in *.
  replace (1 + 4 * (1 / th * i - 1) / th - th / 9) with (4 / th ^ 2 * (i - (th - th ^ 2 / 4 + th ^ 3 / 36))) by (field; lra). assert (P : 0 < th ^ 2) by nra. rewrite Rabs_mult, (Rabs_pos_eq (4 / th ^ 2)) by (left; apply Rdiv_lt_0_compat; lra).
  replace (th ^ 2 / 10) with (4 / th ^ 2 * (th ^ 4 / 40)) by (field; lra). apply Rmult_le_compat_l; [left; apply Rdiv_lt_0_compat; lra|exact X].
Qed.
Lemma rho_near th : 0 < th <= 1 -> Rabs (1 + 12 / th * (debye 2 th - debye 1 th) - th / 6) <= th ^ 2.
Proof.
  intros H. pose proof (int1_near th ltac:(lra)) as X. pose proof (int2_near th ltac:(lra)) as Y. unfold debye. rewrite pow_1. change (INR 1) with 1. replace (INR 2) with 2 by (cbn; ring). set (i := RInt k1 0 th) in *. set (j := RInt k2 0 th) in *.
  replace (1 + 12 / th * (2 / th ^ 2 * j - 1 / th * i) - th / 6) with (24 / th ^ 3 * (j - (th ^ 2 / 2 - th ^ 3 / 6 + th ^ 4 / 48)) + - (12 / th ^ 2 * (i - (th - th ^ 2 / 4 + th ^ 3 / 36)))) by (field; lra).
  assert (P2 : 0 < th ^ 2) by nra. assert (P3 : 0 < th ^ 3) by (apply pow_lt; lra). eapply Rle_trans; [apply Rabs_triang|]. rewrite Rabs_Ropp, !Rabs_mult.
  rewrite (Rabs_pos_eq (24 / th ^ 3)), (Rabs_pos_eq (12 / th ^ 2)) by (left; apply Rdiv_lt_0_compat; lra).
  assert (A : 24 / th ^ 3 * Rabs (j - (th ^ 2 / 2 - th ^ 3 / 6 + th ^ 4 / 48)) <= 24 / th ^ 3 * (th ^ 5 / 50)) by (apply Rmult_le_compat_l; [left; apply Rdiv_lt_0_compat; lra|exact Y]).
  assert (B : 12 / th ^ 2 * Rabs (i - (th - th ^ 2 / 4 + th ^ 3 / 36)) <= 12 / th ^ 2 * (th ^ 4 / 40)) by (apply Rmult_le_compat_l; [left; apply Rdiv_lt_0_compat; lra|exact X]).
  replace (24 / th ^ 3 * (th ^ 5 / 50)) with (24 / 50 * th ^ 2) in A by (field; lra). replace (12 / th ^ 2 * (th ^ 4 / 40)) with (12 / 40 * th ^ 2) in B by (field; lra). lra.
Qed.
