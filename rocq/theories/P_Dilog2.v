(** The dilogarithm: value at 1, functional equations, existence. *)
From Coquelicot Require Import Coquelicot.
From Verif Require Import Base RSumLib S_Dilog P_Basel P_Dilog.
From Coq Require Import Psatz.
Open Scope R_scope.

(** x log x vanishes at 0 *)
Lemma xlnx_bound x : 0 < x < 1 -> 0 <= - (x * ln x) <= 2 * sqrt x.
Proof.
  intros H. assert (ln x < 0) by (rewrite <- ln_1; apply ln_increasing; lra). split; [nra|].
  assert (S0 : 0 < sqrt x) by (apply sqrt_lt_R0; lra). assert (E : sqrt x * sqrt x = x) by (apply sqrt_sqrt; lra).
  assert (B : ln (/ sqrt x) <= / sqrt x - 1). { rewrite <- (ln_exp (/ sqrt x - 1)). apply Rcomplements.ln_le; [apply Rinv_0_lt_compat, S0|]. pose proof (exp_ineq1_le (/ sqrt x - 1)). lra. }
  rewrite ln_Rinv in B by exact S0. assert (El : ln x = 2 * ln (sqrt x)) by (rewrite <- E at 1; rewrite ln_mult by exact S0; ring).
  assert (- ln x <= 2 * / sqrt x) by lra. assert (x * / sqrt x = sqrt x) by (rewrite <- E at 1; field; lra). nra.
Qed.
Lemma rsum_abs n f : Rabs (rsum n f) <= rsum n (fun k => Rabs (f k)).
Proof. induction n as [|n IH]; cbn; [rewrite Rabs_R0; lra|]. eapply Rle_trans; [apply Rabs_triang|lra]. Qed.
Lemma ln_ge_minus x : 0 < x < 1 -> 0 <= - ln (1 - x) <= x / (1 - x).
Proof.
  intros H. split; [assert (ln (1 - x) < 0) by (rewrite <- ln_1; apply ln_increasing; lra); lra|].
  assert (B : ln (/ (1 - x)) <= / (1 - x) - 1). { rewrite <- (ln_exp (/ (1 - x) - 1)). apply Rcomplements.ln_le; [apply Rinv_0_lt_compat; lra|]. pose proof (exp_ineq1_le (/ (1 - x) - 1)). lra. }
  rewrite ln_Rinv in B by lra. replace (x / (1 - x)) with (/ (1 - x) - 1) by (field; lra). lra.
Qed.
Lemma lnln_bound x : 0 < x <= 1 / 2 -> 0 <= ln x * ln (1 - x) <= 4 * sqrt x.
Proof.
  intros H. pose proof (xlnx_bound x ltac:(lra)) as A. pose proof (ln_ge_minus x ltac:(lra)) as B. assert (ln x < 0) by (rewrite <- ln_1; apply ln_increasing; lra).
  assert (x / (1 - x) <= 2 * x). { apply Rmult_le_reg_r with (1 - x); [lra|]. unfold Rdiv. rewrite Rmult_assoc, Rinv_l by lra. nra. }
  split; [nra|]. replace (ln x * ln (1 - x)) with ((- ln x) * (- ln (1 - x))) by ring. apply Rle_trans with ((- ln x) * (2 * x)); [apply Rmult_le_compat_l; lra|]. lra.
Qed.

Section Dilog.
  Variable L : R -> R.
  Hypothesis D : is_dilog L.

  (** ** value at 1 *)
  Lemma L_1_bounds n : (0 < n)%nat -> sq_sum n <= L 1 <= sq_sum n + / INR n.
  Proof.
    intros Hn. assert (E1 : Sn n 1 = sq_sum n) by (apply rsum_ext; intros k _; rewrite pow1, S_INR; unfold Rdiv; apply Rmult_1_l).
    (* for x < 1: Sn n x <= L x, and L x <= Sn n x + 1/n through Sn m for large m *)
    assert (Tail : forall m, sq_sum (n + m) <= sq_sum n + / INR n - / INR (n + m)).
    { induction m as [|m IH]; [rewrite Nat.add_0_r; lra|]. rewrite Nat.add_succ_r. unfold sq_sum in *. cbn [rsum]. rewrite S_INR. assert (0 < INR (n + m)) by (apply lt_0_INR; lia). set (a := INR (n + m)) in *.
      assert (/ (a + 1) ^ 2 <= / a - / (a + 1)). { replace (/ a - / (a + 1)) with (/ (a * (a + 1))) by (field; lra). apply Rinv_le_contravar; nra. } lra. }
    assert (Up : forall x, 0 < x < 1 -> L x <= sq_sum n + / INR n).
    { intros x Hx. apply Rnot_lt_le. intros N. set (g := L x - (sq_sum n + / INR n)) in *. assert (0 < g) by (unfold g; lra).
      destruct (pow_lt_1_zero x ltac:(rewrite Rabs_pos_eq; lra) (g * (1 - x)) ltac:(nra)) as [m Hm]. specialize (Hm (S (n + m)) ltac:(lia)). rewrite Rabs_pos_eq in Hm by (apply pow_le; lra).
      pose proof (proj2 (En_bounds L D (n + m) x Hx)) as B. unfold En in B.
      assert (Sn (n + m) x <= sq_sum (n + m)). { apply rsum_le. intros k _. rewrite <- S_INR. unfold Rdiv. rewrite <- (Rmult_1_l (/ INR (S k) ^ 2)) at 2. apply Rmult_le_compat_r; [left; apply Rinv_0_lt_compat, pow_lt, INR_S_pos|]. rewrite <- (pow1 (S k)). apply pow_incr. lra. }
      assert (x ^ S (n + m) / (INR (S (n + m)) ^ 2 * (1 - x)) <= x ^ S (n + m) / (1 - x)).
      { assert (0 < x ^ S (n + m)) by (apply pow_lt; lra). apply Rmult_le_compat_l; [lra|]. apply Rinv_le_contravar; [lra|]. assert (1 <= INR (S (n + m))) by (rewrite S_INR; pose proof (pos_INR (n + m)); lra). assert (1 <= INR (S (n + m)) ^ 2) by (rewrite <- (pow1 2); apply pow_incr; lra). rewrite <- (Rmult_1_l (1 - x)) at 1. apply Rmult_le_compat_r; lra. }
      assert (x ^ S (n + m) / (1 - x) < g). { apply Rmult_lt_reg_r with (1 - x); [lra|]. unfold Rdiv. rewrite Rmult_assoc, Rinv_l, Rmult_1_r by lra. exact Hm. }
      specialize (Tail m). assert (0 < / INR (n + m)) by (apply Rinv_0_lt_compat, lt_0_INR; lia). unfold g in *. lra. }
    assert (Lo : forall x, 0 < x < 1 -> Sn n x <= L x) by (intros x Hx; pose proof (proj1 (En_bounds L D n x Hx)) as B; unfold En in B; lra).
    split.
    - rewrite <- E1. apply Rnot_lt_le. intros N. pose proof (continuity_pt_minus _ _ 1 (L_cont L D 1) (Sn_cont n 1)) as C. destruct (C (Sn n 1 - L 1) ltac:(lra)) as [d [Hd H]].
      set (x := 1 - Rmin (1 / 2) (d / 2)). assert (0 < Rmin (1 / 2) (d / 2)) by (apply Rmin_glb_lt; lra). pose proof (Rmin_l (1 / 2) (d / 2)). pose proof (Rmin_r (1 / 2) (d / 2)).
      assert (Q : R_dist ((L - Sn n)%F x) ((L - Sn n)%F 1) < Sn n 1 - L 1). { apply (H x). split; [split; [exact Logic.I|unfold x; lra]|]. cbn. unfold R_dist, x. rewrite Rabs_left; lra. }
      unfold R_dist, minus_fct in Q. apply Rabs_def2 in Q. specialize (Lo x ltac:(unfold x; lra)). lra.
    - apply Rnot_lt_le. intros N. destruct (L_cont L D 1 (L 1 - (sq_sum n + / INR n)) ltac:(lra)) as [d [Hd H]].
      set (x := 1 - Rmin (1 / 2) (d / 2)). assert (0 < Rmin (1 / 2) (d / 2)) by (apply Rmin_glb_lt; lra). pose proof (Rmin_l (1 / 2) (d / 2)). pose proof (Rmin_r (1 / 2) (d / 2)).
      assert (Q : R_dist (L x) (L 1) < L 1 - (sq_sum n + / INR n)). { apply (H x). split; [split; [exact Logic.I|unfold x; lra]|]. cbn. unfold R_dist, x. rewrite Rabs_left; lra. }
      unfold R_dist in Q. apply Rabs_def2 in Q. specialize (Up x ltac:(unfold x; lra)). lra.
  Qed.
  Lemma L_1 : L 1 = PI ^ 2 / 6.
  Proof. apply basel, L_1_bounds. Qed.

  (** ** functional equations *)
  Lemma reflection x : 0 < x < 1 -> L x + L (1 - x) + ln x * ln (1 - x) = PI ^ 2 / 6.
  Proof.
    set (f := fun x => L x + L (1 - x) + ln x * ln (1 - x)).
    assert (Df : forall x, 0 < x < 1 -> is_derive f x 0).
    { intros y Hy. assert (D1 : is_derive L y (- ln (1 - y) / y)) by (apply L_derive; [exact D|lra|lra]). assert (D2 : is_derive L (1 - y) (- ln y / (1 - y))).
      { pose proof (L_derive L D (1 - y) ltac:(lra) ltac:(lra)) as H. replace (1 - (1 - y)) with y in H by ring. exact H. }
      assert (D3 : is_derive (fun y => L (1 - y)) y (- (1) * (- ln y / (1 - y)))) by (apply (is_derive_comp L (fun y => 1 - y)); [exact D2|auto_derive; [exact Logic.I|ring]]).
      assert (D4 : is_derive (fun y => ln y * ln (1 - y)) y (ln (1 - y) / y - ln y / (1 - y))) by (auto_derive; [lra|change (1 + - y) with (1 - y); field; lra]).
      unfold f. replace 0 with (- ln (1 - y) / y + - (1) * (- ln y / (1 - y)) + (ln (1 - y) / y - ln y / (1 - y))) by (field; lra).
      apply (is_derive_plus (K := R_AbsRing) (V := R_NormedModule) (fun y => L y + L (1 - y)) (fun y => ln y * ln (1 - y))); [|exact D4].
      apply (is_derive_plus (K := R_AbsRing) (V := R_NormedModule) L (fun y => L (1 - y))); assumption. }
    intros Hx. change (f x = PI ^ 2 / 6). rewrite <- L_1.
    assert (Cst : forall y, 0 < y < x -> f y = f x).
    { intros y Hy. apply derive_const_eq; [lra|intros; apply Df; lra|]. intros z Hz. eapply cont_of_derive, Df. lra. }
    apply Rminus_diag_uniq. destruct (Req_dec (f x - L 1) 0) as [E|N]; [exact E|exfalso]. set (e := Rabs (f x - L 1)). assert (He : 0 < e) by (apply Rabs_pos_lt, N).
    (* near 0: f y is close to L 1 *)
    destruct (L_cont L D 0 (e / 4) ltac:(lra)) as [d [Hd H]]. destruct (L_cont L D 1 (e / 4) ltac:(lra)) as [d' [Hd' H']].
    set (s := (e / 16) ^ 2). assert (Hs : 0 < s) by (apply pow_lt; lra).
    set (y := Rmin (Rmin (d / 2) (d' / 2)) (Rmin (x / 2) (Rmin (s / 2) (1 / 2)))).
    assert (Y0 : 0 < y) by (repeat apply Rmin_glb_lt; lra).
    assert (Y1 : y <= d / 2) by (eapply Rle_trans; [apply Rmin_l|apply Rmin_l]). assert (Y2 : y <= d' / 2) by (eapply Rle_trans; [apply Rmin_l|apply Rmin_r]).
    assert (Y3 : y <= x / 2) by (eapply Rle_trans; [apply Rmin_r|apply Rmin_l]). assert (Y45 : y <= Rmin (s / 2) (1 / 2)) by (eapply Rle_trans; [apply Rmin_r|apply Rmin_r]).
    pose proof (Rmin_l (s / 2) (1 / 2)). pose proof (Rmin_r (s / 2) (1 / 2)).
    assert (Q1 : R_dist (L y) (L 0) < e / 4). { apply (H y). split; [split; [exact Logic.I|lra]|]. cbn. unfold R_dist. rewrite Rabs_pos_eq; lra. }
    assert (Q2 : R_dist (L (1 - y)) (L 1) < e / 4). { apply (H' (1 - y)). split; [split; [exact Logic.I|lra]|]. cbn. unfold R_dist. rewrite Rabs_left; lra. }
    pose proof (lnln_bound y ltac:(lra)) as Q3. assert (Sy : sqrt y <= e / 16). { rewrite <- (sqrt_pow2 (e / 16)) by lra. apply sqrt_le_1_alt. fold s. lra. }
    rewrite (L0 L D) in Q1. unfold R_dist in Q1, Q2. rewrite Rminus_0_r in Q1. apply Rabs_def2 in Q1. apply Rabs_def2 in Q2.
    pose proof (Cst y ltac:(lra)) as C. unfold f at 1 in C. assert (Rabs (f x - L 1) < e); [|unfold e in *; lra]. apply Rabs_def1; lra.
  Qed.
  Lemma inversion x : 1 < x -> L x + L (1 / x) = PI ^ 2 / 3 - 1 / 2 * ln x ^ 2.
  Proof.
    intros Hx. set (f := fun x => L x + L (/ x) + 1 / 2 * ln x ^ 2). assert (Ci : forall z, 0 < z -> continuity_pt (fun z => L (/ z)) z).
    { intros z Hz. apply (continuity_pt_comp Rinv L); [apply (cont_of_derive Rinv z (- / z ^ 2)); auto_derive; [lra|field; lra]|apply (L_cont L D)]. }
    assert (E : f 1 = f x).
    { apply derive_const_eq; [lra| |].
      - intros y Hy. assert (D1 : is_derive L y (- ln (y - 1) / y)) by (apply L_derive_gt; [exact D|lra]).
        assert (Iy : 0 < / y < 1). { split; [apply Rinv_0_lt_compat; lra|]. rewrite <- Rinv_1. apply Rinv_lt_contravar; lra. }
        assert (D2 : is_derive (fun y => L (/ y)) y (- / y ^ 2 * (- ln (1 - / y) / (/ y)))).
        { apply (is_derive_comp L Rinv); [apply L_derive; [exact D|lra|lra]|auto_derive; [lra|field; lra]]. }
        assert (D3 : is_derive (fun y => 1 / 2 * ln y ^ 2) y (ln y / y)) by (auto_derive; [lra|field; lra]).
        assert (El : ln (1 - / y) = ln (y - 1) - ln y). { replace (1 - / y) with ((y - 1) * / y) by (field; lra). rewrite ln_mult, ln_Rinv by lra. ring. }
        unfold f. replace 0 with (- ln (y - 1) / y + - / y ^ 2 * (- ln (1 - / y) / (/ y)) + ln y / y) by (rewrite El; field; lra).
        apply (is_derive_plus (K := R_AbsRing) (V := R_NormedModule) (fun y => L y + L (/ y)) (fun y => 1 / 2 * ln y ^ 2)); [|exact D3].
        apply (is_derive_plus (K := R_AbsRing) (V := R_NormedModule) L (fun y => L (/ y))); assumption.
      - intros z Hz. apply continuity_pt_plus; [apply continuity_pt_plus; [apply (L_cont L D)|apply Ci; lra]|]. apply (cont_of_derive _ z (ln z / z)). auto_derive; [lra|field; lra]. }
    unfold f in E. rewrite ln_1, Rinv_1, L_1 in E. replace (1 / x) with (/ x) by (field; lra). nra.
  Qed.
  Lemma landen x : 1 < x -> L x = PI ^ 2 / 6 + L (1 - 1 / x) - ln x * (ln (1 - 1 / x) + 1 / 2 * ln x).
  Proof.
    intros Hx. assert (Ix : 0 < 1 / x < 1). { unfold Rdiv. rewrite Rmult_1_l. split; [apply Rinv_0_lt_compat; lra|]. rewrite <- Rinv_1. apply Rinv_lt_contravar; lra. }
    pose proof (inversion x Hx) as A. pose proof (reflection (1 / x) Ix) as B. assert (E : ln (1 / x) = - ln x) by (unfold Rdiv; rewrite Rmult_1_l; apply ln_Rinv; lra). rewrite E in B. nra.
  Qed.
  Lemma square x : 0 < x -> L (- x) = 1 / 2 * L (x * x) - L x.
  Proof.
    intros Hx. set (f := fun x => 1 / 2 * L (x * x) - L x - L (- x)).
    assert (Cf : forall z, continuity_pt f z).
    { intros z. apply continuity_pt_minus; [apply continuity_pt_minus|].
      - apply continuity_pt_scal. apply (continuity_pt_comp (fun z => z * z) L); [apply (cont_of_derive _ z (2 * z)); auto_derive; [exact Logic.I|ring]|apply (L_cont L D)].
      - apply (L_cont L D).
      - apply (continuity_pt_comp Ropp L); [apply (cont_of_derive _ z (- (1))); auto_derive; [exact Logic.I|ring]|apply (L_cont L D)]. }
    assert (Df : forall y, 0 < y -> y <> 1 -> is_derive f y 0).
    { intros y Hy Hy1. destruct D as [_ [_ DD]]. assert (Hyy : y * y <> 1) by nra.
      assert (D1 : is_derive (fun y => 1 / 2 * L (y * y)) y (1 / 2 * (2 * y * (- ln (Rabs (1 - y * y)) / (y * y))))).
      { apply (is_derive_scal (fun y => L (y * y))). apply (is_derive_comp L (fun y => y * y)); [apply DD; [nra|exact Hyy]|auto_derive; [exact Logic.I|ring]]. }
      assert (D2 : is_derive (fun y => L (- y)) y (- (1) * (- ln (Rabs (1 - - y)) / - y))) by (apply (is_derive_comp L Ropp); [apply DD; lra|auto_derive; [exact Logic.I|ring]]).
      pose proof (DD y ltac:(lra) Hy1) as D3.
      assert (El : ln (Rabs (1 - y * y)) = ln (Rabs (1 - y)) + ln (Rabs (1 - - y))). { replace (1 - y * y) with ((1 - y) * (1 - - y)) by ring. rewrite Rabs_mult. apply ln_mult; apply Rabs_pos_lt; lra. }
      unfold f. replace 0 with (1 / 2 * (2 * y * (- ln (Rabs (1 - y * y)) / (y * y))) - - ln (Rabs (1 - y)) / y - - (1) * (- ln (Rabs (1 - - y)) / - y)) by (rewrite El; field; lra).
      apply (is_derive_minus (K := R_AbsRing) (V := R_NormedModule) (fun y => 1 / 2 * L (y * y) - L y) (fun y => L (- y))); [|exact D2].
      apply (is_derive_minus (K := R_AbsRing) (V := R_NormedModule) (fun y => 1 / 2 * L (y * y)) L); assumption. }
    assert (F0 : f 0 = 0) by (unfold f; rewrite Rmult_0_l, Ropp_0, (L0 L D); ring).
    cut (f x = 0); [unfold f; lra|]. rewrite <- F0. symmetry.
    destruct (Rle_dec x 1) as [H1|H1]; [apply derive_const_eq; [lra|intros; apply Df; lra|auto]|].
    transitivity (f 1); [apply derive_const_eq; [lra|intros; apply Df; lra|auto]|apply derive_const_eq; [lra|intros; apply Df; lra|auto]].
  Qed.

  (** ** just above 1: eight terms *)
  Definition N8 (e : R) : R := rsum 8 (fun k => (-1) ^ k * e ^ S k * (1 - INR (S k) * ln e) / INR (S k) ^ 2).
  Lemma N8_derive e : 0 < e -> is_derive N8 e (- ln e * ((1 - e ^ 8) / (1 + e))).
  Proof.
    intros He. replace (- ln e * ((1 - e ^ 8) / (1 + e))) with (rsum 8 (fun k => - ln e * (- e) ^ k)).
    - apply (is_derive_rsum 8 (fun k e => (-1) ^ k * e ^ S k * (1 - INR (S k) * ln e) / INR (S k) ^ 2)). intros k _. pose proof (INR_S_pos k).
      auto_derive; [lra|]. fixinr. replace (- e) with (-1 * e) by ring. rewrite (Rpow_mult_distr (-1) e k). cbn [pow]. field. lra.
    - rewrite rsum_scal, geom by lra. f_equal. replace (1 - - e) with (1 + e) by ring. f_equal. replace ((- e) ^ 8) with (e ^ 8) by ring. reflexivity.
  Qed.
  Lemma near_bound e : 0 < e < 1 -> Rabs (L (1 + e) - PI ^ 2 / 6 - N8 e) <= 2 * e ^ 8.
  Proof.
    intros He. rewrite <- L_1. set (g := fun e => L (1 + e) - L 1 - N8 e).
    assert (Dg : forall y, 0 < y < 1 -> is_derive g y (- ln y * (y ^ 8 / (1 + y)))).
    { intros y Hy. replace (- ln y * (y ^ 8 / (1 + y))) with (- ln y / (1 + y) - 0 - - ln y * ((1 - y ^ 8) / (1 + y))) by (field; lra).
      apply (is_derive_minus (K := R_AbsRing) (V := R_NormedModule) (fun e => L (1 + e) - L 1) N8); [|apply N8_derive; lra].
      apply (is_derive_minus (K := R_AbsRing) (V := R_NormedModule) (fun e => L (1 + e)) (fun _ => L 1)); [|apply (is_derive_const (K := R_AbsRing) (V := R_NormedModule))].
      replace (- ln y / (1 + y)) with (1 * (- ln y / (1 + y))) by ring. apply (is_derive_comp L (fun e => 1 + e)); [|auto_derive; [exact Logic.I|ring]].
      pose proof (L_derive_gt L D (1 + y) ltac:(lra)) as H. replace (1 + y - 1) with y in H by ring. exact H. }
    (* |-y ln y| <= 2 sqrt y <= 2, so the derivative lies between 0 and 2 y^7 *)
    assert (B : forall y, 0 < y < 1 -> 0 <= - ln y * (y ^ 8 / (1 + y)) <= 2 * y ^ 7).
    { intros y Hy. pose proof (xlnx_bound y Hy) as X. assert (sqrt y <= 1) by (rewrite <- sqrt_1; apply sqrt_le_1_alt; lra). assert (P7 : 0 < y ^ 7) by (apply pow_lt; lra).
      replace (- ln y * (y ^ 8 / (1 + y))) with (- (y * ln y) * (y ^ 7 / (1 + y))) by (cbn [pow]; field; lra).
      assert (0 < y ^ 7 / (1 + y) <= y ^ 7). { split; [apply Rdiv_lt_0_compat; lra|]. rewrite <- (Rmult_1_r (y ^ 7)) at 2. apply Rmult_le_compat_l; [lra|]. rewrite <- Rinv_1. apply Rinv_le_contravar; lra. }
      split; [apply Rmult_le_pos; lra|]. apply Rmult_le_compat; lra. }
    assert (NB : forall y, 0 < y < 1 -> Rabs (N8 y) <= 24 * sqrt y).
    { intros y Hy. pose proof (xlnx_bound y Hy) as X. assert (S1 : 0 <= sqrt y <= 1) by (split; [apply sqrt_pos|rewrite <- sqrt_1; apply sqrt_le_1_alt; lra]). assert (E : sqrt y * sqrt y = y) by (apply sqrt_sqrt; lra).
      unfold N8. eapply Rle_trans; [apply rsum_abs|]. eapply Rle_trans; [apply (rsum_le 8 _ (fun _ => 3 * sqrt y))|rewrite rsum_const; cbn [INR]; lra].
      intros k _. pose proof (INR_S_pos k) as Pk. assert (P1 : 1 <= INR (S k)) by (rewrite S_INR; pose proof (pos_INR k); lra).
      replace ((-1) ^ k * y ^ S k * (1 - INR (S k) * ln y) / INR (S k) ^ 2) with ((-1) ^ k * (y ^ k * (y / INR (S k) ^ 2 + - (y * ln y) / INR (S k)))) by (cbn [pow]; field; lra).
      rewrite Rabs_mult, pow_1_abs, Rmult_1_l. rewrite Rabs_mult. assert (0 <= y ^ k <= 1) by (split; [apply pow_le; lra|rewrite <- (pow1 k); apply pow_incr; lra]). rewrite (Rabs_pos_eq (y ^ k)) by lra.
      assert (0 <= y / INR (S k) ^ 2 <= sqrt y).
      { split; [left; apply Rdiv_lt_0_compat; [lra|apply pow_lt; lra]|]. apply Rle_trans with y; [|nra]. rewrite <- (Rmult_1_r y) at 2. apply Rmult_le_compat_l; [lra|]. rewrite <- Rinv_1. apply Rinv_le_contravar; [lra|nra]. }
      assert (0 <= - (y * ln y) / INR (S k) <= 2 * sqrt y).
      { split; [apply Rmult_le_pos; [lra|left; apply Rinv_0_lt_compat; lra]|]. apply Rle_trans with (- (y * ln y)); [|lra]. rewrite <- (Rmult_1_r (- (y * ln y))) at 2. apply Rmult_le_compat_l; [lra|]. rewrite <- Rinv_1. apply Rinv_le_contravar; lra. }
      rewrite Rabs_pos_eq by lra. nra. }
    (* g is small near 0 *)
    assert (U : forall s, (s = 1 \/ s = - (1)) -> up_at_0 (fun y => s * g y)).
    { intros s Hs eps Heps. destruct (L_cont L D 1 (eps / 2) ltac:(lra)) as [d [Hd H]]. set (r := (eps / 48) ^ 2). assert (Hr : 0 < r) by (apply pow_lt; lra).
      exists (Rmin d (Rmin r 1)). split; [repeat apply Rmin_glb_lt; lra|]. intros y Hy. pose proof (Rmin_l d (Rmin r 1)). pose proof (Rmin_r d (Rmin r 1)). pose proof (Rmin_l r 1). pose proof (Rmin_r r 1).
      assert (Q : R_dist (L (1 + y)) (L 1) < eps / 2). { apply (H (1 + y)). split; [split; [exact Logic.I|lra]|]. cbn. unfold R_dist. rewrite Rabs_pos_eq; lra. }
      specialize (NB y ltac:(lra)). assert (sqrt y <= eps / 48) by (rewrite <- (sqrt_pow2 (eps / 48)) by lra; apply sqrt_le_1_alt; fold r; lra).
      unfold R_dist in Q. apply Rabs_def2 in Q. apply Rabs_le_between in NB. unfold g. destruct Hs as [->| ->]; lra. }
    assert (A1 : 0 <= g e).
    { apply (rise g (fun y => - ln y * (y ^ 8 / (1 + y))) 1); [exact Dg|intros; apply B; assumption| |exact He]. apply (up_ext (fun y => 1 * g y) _ 1); [lra|intros; ring|apply U; left; reflexivity]. }
    assert (A2 : 0 <= 2 * e ^ 8 + - (1) * g e).
    { apply (rise (fun y => 2 * y ^ 8 + - (1) * g y) (fun y => 2 * (8 * y ^ 7) + - (1) * (- ln y * (y ^ 8 / (1 + y)))) 1); [| | |exact He].
      - intros y Hy. apply (is_derive_plus (K := R_AbsRing) (V := R_NormedModule) (fun y => 2 * y ^ 8) (fun y => - (1) * g y)); [auto_derive; [exact Logic.I|ring]|apply (is_derive_scal g), Dg, Hy].
      - intros y Hy. pose proof (B y Hy). assert (0 < y ^ 7) by (apply pow_lt; lra). lra.
      - apply up_plus; [|apply U; right; reflexivity]. apply (up_ge _ 1); [lra|]. intros y Hy. assert (0 < y ^ 8) by (apply pow_lt; lra). lra. }
    change (Rabs (g e) <= 2 * e ^ 8). apply Rabs_le. lra.
  Qed.
End Dilog.
