(** The Clayton, Gumbel and Frank generators are generators; the code computes them. *)
From Coquelicot Require Import Coquelicot.
From Verif Require Import Base RSumLib Ext S_Archimedean P_Gen M_Archimedean.
Open Scope R_scope.

(** ---- powers ---- *)
Lemma exp_mono x y : x <= y -> exp x <= exp y.
Proof. intros [H| ->]; [left; apply exp_increasing; exact H|lra]. Qed.
Lemma ln_mono x y : 0 < x -> x <= y -> ln x <= ln y.
Proof. intros H [L| ->]; [left; apply ln_increasing; assumption|lra]. Qed.
Lemma Rpower_pos x y : 0 < Rpower x y.
Proof. apply exp_pos. Qed.
Lemma Rpower_mono x y a : 0 < x -> x <= y -> 0 <= a -> Rpower x a <= Rpower y a.
Proof. intros. apply exp_mono. apply Rmult_le_compat_l; [assumption|]. apply ln_mono; assumption. Qed.
Lemma Rpower_anti x y a : 0 < x -> x <= y -> a <= 0 -> Rpower y a <= Rpower x a.
Proof. intros. apply exp_mono. pose proof (ln_mono x y H H0). nra. Qed.
Lemma Rpower_1_base a : Rpower 1 a = 1.
Proof. unfold Rpower. rewrite ln_1, Rmult_0_r. apply exp_0. Qed.
Lemma Rpower_inv2 u a b : 0 < u -> a * b = 1 -> Rpower (Rpower u a) b = u.
Proof. intros H E. rewrite Rpower_mult, E. apply Rpower_1. exact H. Qed.
Lemma Rpower_derive x a : 0 < x -> is_derive (fun x => Rpower x a) x (a * Rpower x (a - 1)).
Proof.
  intros H. unfold Rpower at 1. auto_derive; [exact H|].
  rewrite Rmult_1_l. fold (Rpower x a). replace (a - 1) with (a + - (1)) by ring. rewrite Rpower_plus, Rpower_Ropp, Rpower_1 by exact H. ring.
Qed.
Lemma Rpower_le_1 x a : 0 < x <= 1 -> 0 <= a -> Rpower x a <= 1.
Proof. intros. rewrite <- (Rpower_1_base a). apply Rpower_mono; lra. Qed.
Lemma Rpower_ge_1 x a : 0 < x <= 1 -> a <= 0 -> 1 <= Rpower x a.
Proof. intros. rewrite <- (Rpower_1_base a) at 1. apply Rpower_anti; lra. Qed.

(** ---- Clayton, theta > 0 ---- *)
Definition cp_f (th u : R) : R := Rpower u (- th) - 1.
Definition cp_psi (th s : R) : R := Rpower (1 + s) (-1 / th).
Lemma inv_neg th : 0 < th -> -1 / th < 0.
Proof. intros. unfold Rdiv. pose proof (Rinv_0_lt_compat th H). lra. Qed.
Lemma inv_pos th : th < 0 -> 0 < -1 / th.
Proof. intros. unfold Rdiv. pose proof (Rinv_lt_0_compat th H). lra. Qed.
Lemma cp_gen th : 0 < th -> gen 0 (cp_psi th) (cp_f th).
Proof.
  intros H. unfold cp_f, cp_psi. pose proof (inv_neg th H). split.
  - intros u Hu. pose proof (Rpower_ge_1 u (- th) Hu). lra.
  - rewrite Rpower_1_base. ring.
  - intros u v H1 H2 H3. pose proof (Rpower_anti u v (- th) H1 H2). lra.
  - intros u Hu. replace (1 + (Rpower u (- th) - 1)) with (Rpower u (- th)) by ring. apply Rpower_inv2; [lra|field; lra].
  - intros. left. apply Rpower_pos.
  - intros. apply Rpower_anti; lra.
Qed.
Lemma cp_convex th : 0 < th -> convex_gen (cp_psi th).
Proof.
  intros H. pose proof (inv_neg th H). apply (convex_of_deriv _ (fun s => -1 / th * Rpower (1 + s) (-1 / th - 1))).
  - intros s Hs. unfold cp_psi. evar_last.
    + apply (is_derive_comp (fun x => Rpower x (-1 / th)) (fun s => 1 + s)); [apply Rpower_derive; lra|].
      auto_derive; [exact I|reflexivity].
    + unfold scal; cbn. unfold mult; cbn. ring.
  - intros s t Hs Hst. pose proof (Rpower_anti (1 + s) (1 + t) (-1 / th - 1) ltac:(lra) ltac:(lra) ltac:(lra)). nra.
  - intros. apply (g_psi_anti _ _ _ (cp_gen th H)); assumption.
Qed.

(** ---- Clayton, -1 <= theta < 0 ---- *)
Definition cn_f (th u : R) : R := 1 - Rpower u (- th).
Definition cn_psi (th s : R) : R := if Rltb s 1 then Rpower (1 - s) (-1 / th) else 0.
Lemma cn_gen th : th < 0 -> gen 0 (cn_psi th) (cn_f th).
Proof.
  intros H. unfold cn_f, cn_psi. pose proof (inv_pos th H). split.
  - intros u Hu. pose proof (Rpower_le_1 u (- th) Hu). lra.
  - rewrite Rpower_1_base. ring.
  - intros u v H1 H2 H3. pose proof (Rpower_mono u v (- th) H1 H2). lra.
  - intros u Hu. pose proof (Rpower_pos u (- th)). rewrite (proj2 (Rltb_true _ 1)) by lra.
    replace (1 - (1 - Rpower u (- th))) with (Rpower u (- th)) by ring. apply Rpower_inv2; [lra|field; lra].
  - intros s Hs. destruct (Rltb s 1); [left; apply Rpower_pos|lra].
  - intros s t Hs Ht. destruct (Rltb t 1) eqn:E.
    + apply Rltb_true in E. rewrite (proj2 (Rltb_true s 1)) by lra. apply Rpower_mono; lra.
    + destruct (Rltb s 1); [left; apply Rpower_pos|lra].
Qed.
Lemma cn_convex th : -1 <= th < 0 -> convex_gen (cn_psi th).
Proof.
  intros H. set (p := -1 / th). assert (Hp : 1 <= p).
  { unfold p, Rdiv. assert (1 * - th <= 1) by lra. apply Rmult_le_reg_r with (- th); [lra|].
    replace (-1 * / th * - th) with 1 by (field; lra). lra. }
  (* H y = max(y,0)^p *)
  set (Hh := fun y => if Rltb 0 y then Rpower y p else 0).
  assert (HE : forall s, cn_psi th s = Hh (1 - s)).
  { intros s. unfold cn_psi, Hh. fold p. destruct (Rltb s 1) eqn:E.
    - apply Rltb_true in E. rewrite (proj2 (Rltb_true 0 (1 - s))) by lra. reflexivity.
    - apply Rltb_false in E. rewrite (proj2 (Rltb_false 0 (1 - s))) by lra. reflexivity. }
  assert (Hpos : forall y, 0 <= Hh y) by (intros y; unfold Hh; destruct (Rltb 0 y); [left; apply Rpower_pos|lra]).
  assert (Hmono : forall y z, y <= z -> Hh y <= Hh z).
  { intros y z L. unfold Hh at 1. destruct (Rltb 0 y) eqn:E; [|apply Hpos]. apply Rltb_true in E. unfold Hh.
    rewrite (proj2 (Rltb_true 0 z)) by lra. apply Rpower_mono; lra. }
  assert (Hsup : forall y z, 0 <= y -> 0 <= z -> Hh y + Hh z <= Hh (y + z)).
  { intros y z [Hy|<-] Hz.
    - destruct Hz as [Hz|<-].
      + unfold Hh. rewrite !(proj2 (Rltb_true 0 _)) by lra.
        replace p with (1 + (p - 1)) by ring. rewrite !Rpower_plus, !Rpower_1 by lra.
        pose proof (Rpower_mono y (y + z) (p - 1) ltac:(lra) ltac:(lra) ltac:(lra)).
        pose proof (Rpower_mono z (y + z) (p - 1) ltac:(lra) ltac:(lra) ltac:(lra)).
        nra.
      + rewrite Rplus_0_r. unfold Hh at 2. rewrite Rltb_irrefl. lra.
    - rewrite Rplus_0_l. unfold Hh at 1. rewrite Rltb_irrefl. lra. }
  assert (Hinc : forall a b h, a <= b -> 0 <= h -> Hh (a + h) - Hh a <= Hh (b + h) - Hh b).
  { intros a b h Hab Hh0. destruct (Rle_lt_dec a 0) as [Ha|Ha].
    - assert (Ea : Hh a = 0) by (unfold Hh; rewrite (proj2 (Rltb_false 0 a)) by lra; reflexivity).
      destruct (Rle_lt_dec (a + h) 0) as [Hah|Hah].
      + assert (Hh (a + h) = 0) by (unfold Hh; rewrite (proj2 (Rltb_false 0 (a + h))) by lra; reflexivity).
        pose proof (Hmono b (b + h) ltac:(lra)). lra.
      + destruct (Rle_lt_dec b 0) as [Hb|Hb].
        * assert (Hh b = 0) by (unfold Hh; rewrite (proj2 (Rltb_false 0 b)) by lra; reflexivity).
          pose proof (Hmono (a + h) (b + h) ltac:(lra)). lra.
        * pose proof (Hsup (a + h) b ltac:(lra) ltac:(lra)). pose proof (Hmono (a + h + b) (b + h) ltac:(lra)). lra.
    - destruct (Rle_lt_or_eq_dec a b Hab) as [L|<-]; [|lra].
      destruct (MVT_cor2 (fun s => Rpower (s + h) p - Rpower s p) (fun s => p * Rpower (s + h) (p - 1) - p * Rpower s (p - 1)) a b L)
        as [c [E [C1 C2]]].
      + intros c Hc. apply is_derive_Reals. apply (@is_derive_minus R_AbsRing R_NormedModule); [|apply Rpower_derive; lra].
        evar_last.
        * apply (is_derive_comp (fun x => Rpower x p) (fun s => s + h)); [apply Rpower_derive; lra|].
          auto_derive; [exact I|reflexivity].
        * unfold scal; cbn. unfold mult; cbn. ring.
      + pose proof (Rpower_mono c (c + h) (p - 1) ltac:(lra) ltac:(lra) ltac:(lra)).
        unfold Hh. rewrite !(proj2 (Rltb_true 0 _)) by lra.
        assert (0 <= (p * Rpower (c + h) (p - 1) - p * Rpower c (p - 1)) * (b - a)); [|lra].
        apply Rmult_le_pos; [nra|lra]. }
  intros x y h Hx Hxy Hh0. rewrite !HE.
  pose proof (Hinc (1 - (y + h)) (1 - (x + h)) h ltac:(lra) Hh0) as Q.
  replace (1 - (y + h) + h) with (1 - y) in Q by ring. replace (1 - (x + h) + h) with (1 - x) in Q by ring. exact Q.
Qed.

(** ---- Gumbel, theta >= 1 ---- *)
Definition gu_f (th u : R) : R := if Reqb u 1 then 0 else Rpower (- ln u) th.
Definition gu_psi (th s : R) : R := if Rltb 0 s then exp (- Rpower s (1 / th)) else 1.
Lemma ln_neg u : 0 < u < 1 -> ln u < 0.
Proof. intros. rewrite <- ln_1. apply ln_increasing; lra. Qed.
Lemma inv_01 th : 1 <= th -> 0 < 1 / th <= 1.
Proof.
  intros. unfold Rdiv. rewrite Rmult_1_l. split; [apply Rinv_0_lt_compat; lra|].
  rewrite <- Rinv_1. apply Rinv_le_contravar; lra.
Qed.
Lemma gu_gen th : 1 <= th -> gen 0 (gu_psi th) (gu_f th).
Proof.
  intros H. unfold gu_f, gu_psi. pose proof (inv_01 th H). split.
  - intros u Hu. destruct (Reqb u 1); [lra|left; apply Rpower_pos].
  - rewrite Reqb_refl. reflexivity.
  - intros u v H1 H2 H3. destruct (Reqb v 1) eqn:E.
    + destruct (Reqb u 1); [lra|left; apply Rpower_pos].
    + apply Reqb_false in E. rewrite (proj2 (Reqb_false u 1)) by lra. pose proof (ln_neg v ltac:(lra)).
      pose proof (ln_mono u v H1 H2). apply Rpower_mono; lra.
  - intros u Hu. destruct (Reqb u 1) eqn:E.
    + apply Reqb_true in E. rewrite Rltb_irrefl. lra.
    + apply Reqb_false in E. rewrite (proj2 (Rltb_true 0 _)) by apply Rpower_pos.
      pose proof (ln_neg u ltac:(lra)). rewrite Rpower_inv2 by (try lra; field; lra). rewrite Ropp_involutive. apply exp_ln. lra.
  - intros s Hs. destruct (Rltb 0 s); [left; apply exp_pos|lra].
  - intros s t Hs Ht. destruct (Rltb 0 s) eqn:E.
    + apply Rltb_true in E. rewrite (proj2 (Rltb_true 0 t)) by lra. apply exp_mono.
      pose proof (Rpower_mono s t (1 / th) E Ht). lra.
    + destruct (Rltb 0 t); [|lra]. pose proof (Rpower_pos t (1 / th)). pose proof (exp_mono (- Rpower t (1 / th)) 0 ltac:(lra)) as Q. rewrite exp_0 in Q. exact Q.
Qed.
Lemma gu_convex th : 1 <= th -> convex_gen (gu_psi th).
Proof.
  intros H. pose proof (inv_01 th H) as Ha. set (a := 1 / th) in *.
  apply (convex_of_deriv _ (fun s => - (exp (- Rpower s a) * (a * Rpower s (a - 1))))).
  - intros s Hs. apply (is_derive_ext_loc (fun s => exp (- Rpower s a))).
    + exists (mkposreal s Hs). intros y Hy. unfold gu_psi. fold a. rewrite (proj2 (Rltb_true 0 y)); [reflexivity|].
      unfold ball in Hy; cbn in Hy; unfold AbsRing_ball, abs, minus, plus, opp in Hy; cbn in Hy. apply Rabs_def2 in Hy. lra.
    + evar_last.
      * apply (is_derive_comp exp (fun s => - Rpower s a)); [apply is_derive_Reals; apply derivable_pt_lim_exp|].
        apply (@is_derive_opp R_AbsRing R_NormedModule). apply Rpower_derive. exact Hs.
      * unfold scal, opp; cbn. unfold mult; cbn. ring.
  - intros s t Hs Hst. apply Ropp_le_contravar.
    assert (exp (- Rpower t a) <= exp (- Rpower s a)).
    { apply exp_mono. pose proof (Rpower_mono s t a Hs Hst ltac:(lra)). lra. }
    pose proof (Rpower_anti s t (a - 1) Hs Hst ltac:(lra)).
    pose proof (exp_pos (- Rpower t a)). pose proof (Rpower_pos t (a - 1)).
    apply Rmult_le_compat; nra.
  - intros. apply (g_psi_anti _ _ _ (gu_gen th H)); assumption.
Qed.

(** ---- Frank, theta <> 0 ---- *)
Definition fr_f (th u : R) : R := - ln ((exp (- (u * th)) - 1) / (exp (- th) - 1)).
Definition fr_psi (th s : R) : R := - ln (1 + (exp (- th) - 1) * exp (- s)) / th.
(** e^{-th} - 1 has the sign of -th *)
Lemma em_pos th : th < 0 -> 0 < exp (- th) - 1.
Proof. intros. pose proof (exp_increasing 0 (- th) ltac:(lra)). rewrite exp_0 in H0. lra. Qed.
Lemma em_neg th : 0 < th -> -1 < exp (- th) - 1 < 0.
Proof. intros. pose proof (exp_increasing (- th) 0 ltac:(lra)). rewrite exp_0 in H0. pose proof (exp_pos (- th)). lra. Qed.
Lemma em_ratio th u : th <> 0 -> 0 < u <= 1 -> 0 < (exp (- (u * th)) - 1) / (exp (- th) - 1) <= 1.
Proof.
  intros H Hu. destruct (Rlt_le_dec th 0) as [L|L].
  - pose proof (em_pos th L). assert (u * th < 0) by nra. pose proof (em_pos (u * th) H1).
    assert (exp (- (u * th)) <= exp (- th)) by (apply exp_mono; nra).
    split; [apply Rdiv_lt_0_compat; lra|]. apply Rmult_le_reg_r with (exp (- th) - 1); [lra|].
    unfold Rdiv. rewrite Rmult_assoc, Rinv_l by lra. lra.
  - assert (0 < th) by lra. pose proof (em_neg th H0). assert (0 < u * th) by nra. pose proof (em_neg (u * th) H2).
    assert (exp (- th) <= exp (- (u * th))) by (apply exp_mono; nra).
    replace ((exp (- (u * th)) - 1) / (exp (- th) - 1)) with ((1 - exp (- (u * th))) / (1 - exp (- th))) by (field; lra).
    split; [apply Rdiv_lt_0_compat; lra|]. apply Rmult_le_reg_r with (1 - exp (- th)); [lra|].
    unfold Rdiv. rewrite Rmult_assoc, Rinv_l by lra. lra.
Qed.
Lemma fr_arg th s : 0 <= s -> 0 < 1 + (exp (- th) - 1) * exp (- s).
Proof.
  intros H. pose proof (exp_pos (- s)). assert (exp (- s) <= 1) by (rewrite <- exp_0; apply exp_mono; lra).
  pose proof (exp_pos (- th)). nra.
Qed.
Lemma fr_inv th u : th <> 0 -> 0 < u <= 1 -> fr_psi th (fr_f th u) = u.
Proof.
  intros H Hu. unfold fr_psi, fr_f. rewrite Ropp_involutive. pose proof (em_ratio th u H Hu).
  assert (exp (- th) - 1 <> 0).
  { destruct (Rlt_le_dec th 0) as [L|L]; [pose proof (em_pos th L)|pose proof (em_neg th ltac:(lra))]; lra. }
  rewrite exp_ln by lra.
  replace (1 + (exp (- th) - 1) * ((exp (- (u * th)) - 1) / (exp (- th) - 1))) with (exp (- (u * th))) by (field; exact H1).
  rewrite ln_exp. field. exact H.
Qed.
Lemma fr_gen th : th <> 0 -> gen 0 (fr_psi th) (fr_f th).
Proof.
  intros H. assert (PA : forall s t, 0 <= s -> s <= t -> fr_psi th t <= fr_psi th s).
  { intros s t Hs Ht. unfold fr_psi. assert (exp (- t) <= exp (- s)) by (apply exp_mono; lra).
    pose proof (fr_arg th s Hs). pose proof (fr_arg th t ltac:(lra)).
    destruct (Rlt_le_dec th 0) as [L|L].
    - pose proof (em_pos th L).
      assert (ln (1 + (exp (- th) - 1) * exp (- t)) <= ln (1 + (exp (- th) - 1) * exp (- s))) by (apply ln_mono; nra).
      pose proof (Rinv_lt_0_compat th L). unfold Rdiv. nra.
    - pose proof (em_neg th ltac:(lra)).
      assert (ln (1 + (exp (- th) - 1) * exp (- s)) <= ln (1 + (exp (- th) - 1) * exp (- t))) by (apply ln_mono; nra).
      pose proof (Rinv_0_lt_compat th ltac:(lra)). unfold Rdiv. nra. }
  split.
  - intros u Hu. unfold fr_f. pose proof (em_ratio th u H Hu).
    pose proof (ln_mono _ 1 (proj1 H0) (proj2 H0)). rewrite ln_1 in H1. lra.
  - unfold fr_f. rewrite Rmult_1_l. replace ((exp (- th) - 1) / (exp (- th) - 1)) with 1; [rewrite ln_1; ring|].
    field. destruct (Rlt_le_dec th 0) as [L|L]; [pose proof (em_pos th L)|pose proof (em_neg th ltac:(lra))]; lra.
  - intros u v H1 H2 H3. unfold fr_f. apply Ropp_le_contravar. apply ln_mono; [apply em_ratio; lra|].
    destruct (Rlt_le_dec th 0) as [L|L].
    + pose proof (em_pos th L). assert (exp (- (u * th)) <= exp (- (v * th))) by (apply exp_mono; nra).
      unfold Rdiv. apply Rmult_le_compat_r; [left; apply Rinv_0_lt_compat|]; lra.
    + pose proof (em_neg th ltac:(lra)). assert (exp (- (v * th)) <= exp (- (u * th))) by (apply exp_mono; nra).
      pose proof (Rinv_lt_0_compat (exp (- th) - 1) ltac:(lra)). unfold Rdiv. nra.
  - intros u Hu. apply fr_inv; assumption.
  - intros s Hs. (* psi s >= lim 0 *)
    unfold fr_psi. pose proof (fr_arg th s Hs). pose proof (exp_pos (- s)).
    destruct (Rlt_le_dec th 0) as [L|L].
    + pose proof (em_pos th L). pose proof (ln_mono 1 (1 + (exp (- th) - 1) * exp (- s)) ltac:(lra) ltac:(nra)). rewrite ln_1 in H3.
      pose proof (Rinv_lt_0_compat th L). unfold Rdiv. nra.
    + pose proof (em_neg th ltac:(lra)). pose proof (ln_mono (1 + (exp (- th) - 1) * exp (- s)) 1 H0 ltac:(nra)). rewrite ln_1 in H3.
      pose proof (Rinv_0_lt_compat th ltac:(lra)). unfold Rdiv. nra.
  - exact PA.
Qed.
Lemma fr_convex th : th <> 0 -> convex_gen (fr_psi th).
Proof.
  intros H. set (c := exp (- th) - 1).
  apply (convex_of_deriv _ (fun s => / th * (1 - / (1 + c * exp (- s))))).
  - intros s Hs. pose proof (fr_arg th s ltac:(lra)) as P. fold c in P. unfold fr_psi. fold c. auto_derive; [exact P|].
    field. split; lra.
  - intros s t Hs Hst. assert (exp (- t) <= exp (- s)) by (apply exp_mono; lra).
    pose proof (fr_arg th s ltac:(lra)) as P. pose proof (fr_arg th t ltac:(lra)) as P'. fold c in P, P'.
    destruct (Rlt_le_dec th 0) as [L|L].
    + pose proof (em_pos th L). fold c in H1. pose proof (Rinv_lt_0_compat th L).
      assert (/ (1 + c * exp (- s)) <= / (1 + c * exp (- t))) by (apply Rinv_le_contravar; nra). nra.
    + pose proof (em_neg th ltac:(lra)). fold c in H1. pose proof (Rinv_0_lt_compat th ltac:(lra)).
      assert (/ (1 + c * exp (- t)) <= / (1 + c * exp (- s))) by (apply Rinv_le_contravar; nra). nra.
  - intros. apply (g_psi_anti _ _ _ (fr_gen th H)); assumption.
Qed.
