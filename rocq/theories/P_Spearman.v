(** Spearman's rho: comparison of integrals over (0, 1), reflection, existence for every copula. *)
From Coquelicot Require Import Coquelicot.
From Verif Require Import Base RSumLib S_Archimedean S_Concord P_GaussInt P_Kendall.
Open Scope R_scope.

Lemma near_half : filter_prod (at_right 0) (at_left 1) (fun ab : R * R => 0 < fst ab < 1 / 2 /\ 1 / 2 < snd ab < 1).
Proof.
  apply (Filter_prod _ _ _ (fun a => 0 < a < 1 / 2) (fun b => 1 / 2 < b < 1)).
  - exists (mkposreal (1 / 2) ltac:(lra)). intros a Ha L. apply Rabs_def2 in Ha. cbn in Ha. unfold minus, plus, opp in Ha; cbn in Ha. lra.
  - exists (mkposreal (1 / 2) ltac:(lra)). intros b Hb L. apply Rabs_def2 in Hb. cbn in Hb. unfold minus, plus, opp in Hb; cbn in Hb. lra.
  - intros a b Ha Hb. split; assumption.
Qed.
Lemma integral_near g l e : 0 < e -> integral_01 g l ->
  filter_prod (at_right 0) (at_left 1) (fun ab : R * R => exists y, is_RInt g (fst ab) (snd ab) y /\ Rabs (y - l) < e).
Proof.
  intros He H. unfold integral_01, is_RInt_gen, filterlimi, filter_le, filtermapi in H.
  specialize (H (fun y => Rabs (y - l) < e)). apply H. exists (mkposreal e He). intros y Hy. exact Hy.
Qed.
Lemma integral_le g g' l l' : (forall v, 0 < v < 1 -> g v <= g' v) -> integral_01 g l -> integral_01 g' l' -> l <= l'.
Proof.
  intros E H H'. destruct (Rle_lt_dec l l') as [|N]; [assumption|]. exfalso.
  assert (He : 0 < (l - l') / 2) by lra.
  pose proof (filter_and _ _ near_half (filter_and _ _ (integral_near g l _ He H) (integral_near g' l' _ He H'))) as F.
  destruct (filter_ex (F := filter_prod (at_right 0) (at_left 1)) _ F) as [[a b] [[Ha Hb] [[y [Hy Dy]] [y' [Hy' Dy']]]]]. cbn [fst snd] in *.
  assert (y <= y') by (apply (is_RInt_le g g' a b y y'); [lra|exact Hy|exact Hy'|intros x Hx; apply E; lra]).
  apply Rabs_def2 in Dy. apply Rabs_def2 in Dy'. lra.
Qed.
Lemma integral_plus g g' l l' : integral_01 g l -> integral_01 g' l' -> integral_01 (fun v => g v + g' v) (l + l').
Proof. intros H H'. exact (is_RInt_gen_plus (V := R_NormedModule) g g' l l' H H'). Qed.
Lemma integral_scal g c l : integral_01 g l -> integral_01 (fun v => c * g v) (c * l).
Proof. intros H. exact (is_RInt_gen_scal (V := R_NormedModule) g c l H). Qed.
Lemma integral_reflect g l : integral_01 g l -> integral_01 (fun v => g (1 - v)) l.
Proof.
  intros H. unfold integral_01, is_RInt_gen, filterlimi, filter_le, filtermapi in *. intros P HP. specialize (H P HP).
  destruct H as [Q R HQ HR K].
  apply (Filter_prod _ _ _ (fun a => R (1 - a)) (fun b => Q (1 - b))).
  - destruct HR as [d Hd]. exists d. intros a Ha L. apply Hd; [|lra]. unfold ball in *; cbn in *; unfold AbsRing_ball, abs, minus, plus, opp in *; cbn in *. replace (1 - a + - (1)) with (- (a + - 0)) by ring. rewrite Rabs_Ropp. exact Ha.
  - destruct HQ as [d Hd]. exists d. intros a Ha L. apply Hd; [|lra]. unfold ball in *; cbn in *; unfold AbsRing_ball, abs, minus, plus, opp in *; cbn in *. replace (1 - a + - 0) with (- (a + - (1))) by ring. rewrite Rabs_Ropp. exact Ha.
  - intros a b Ha Hb. destruct (K _ _ Hb Ha) as [y [Hy Py]]. cbn [fst snd] in *. exists y. split; [|exact Py].
    assert (X : is_RInt g (-1 * a + 1) (-1 * b + 1) (opp y)) by (replace (-1 * a + 1) with (1 - a) by ring; replace (-1 * b + 1) with (1 - b) by ring; apply is_RInt_swap, Hy).
    apply (is_RInt_comp_lin g (-1) 1 a b) in X. apply (is_RInt_scal _ _ _ (-1)) in X.
    assert (Ey : scal (-1) (opp y) = y) by (unfold scal, opp; cbn; unfold mult; cbn; change (-1 * - y = y); ring). rewrite Ey in X.
    refine (is_RInt_ext _ _ _ _ _ _ X). intros v _. unfold scal; cbn; unfold mult; cbn. replace (-1 * v + 1) with (1 - v) by ring. ring.
Qed.
Lemma integral_id : integral_01 (fun v => v) (1 / 2).
Proof.
  replace (1 / 2) with (1 / 2 - 0) by ring. apply (integral_primitive (fun v => v) (fun v => v * v / 2)).
  - intros v _. auto_derive; [exact Logic.I|field].
  - intros v _. apply continuous_id.
  - intros e He. exists (Rmin 1 e). split; [apply Rmin_pos; lra|]. intros u Hu. pose proof (Rmin_l 1 e). pose proof (Rmin_r 1 e). apply Rabs_def1; nra.
  - intros e He. exists (Rmin 1 e). split; [apply Rmin_pos; lra|]. intros u Hu. pose proof (Rmin_l 1 e). pose proof (Rmin_r 1 e). apply Rabs_def1; nra.
Qed.
Lemma integral_const c : integral_01 (fun _ => c) c.
Proof.
  cut (integral_01 (fun _ => c) (c * 1 - c * 0)); [intros X; replace (c * 1 - c * 0) with c in X by ring; exact X|]. apply (integral_primitive (fun _ => c) (fun v => c * v)).
  - intros v _. auto_derive; [exact Logic.I|ring].
  - intros v _. apply continuous_const.
  - intros e He. assert (0 < Rabs c + 1) by (pose proof (Rabs_pos c); lra). assert (0 < e / (Rabs c + 1)) by (apply Rdiv_lt_0_compat; lra).
    exists (e / (Rabs c + 1)). split; [assumption|]. intros u Hu. replace (c * u - c * 0) with (c * u) by ring. rewrite Rabs_mult, (Rabs_pos_eq u) by lra.
    assert (u * (Rabs c + 1) < e) by (apply Rlt_le_trans with (e / (Rabs c + 1) * (Rabs c + 1)); [apply Rmult_lt_compat_r; lra|right; field; lra]). pose proof (Rabs_pos c). nra.
  - intros e He. assert (0 < Rabs c + 1) by (pose proof (Rabs_pos c); lra). assert (0 < e / (Rabs c + 1)) by (apply Rdiv_lt_0_compat; lra).
    exists (e / (Rabs c + 1)). split; [assumption|]. intros u Hu. replace (c * u - c * 1) with (- (c * (1 - u))) by ring. rewrite Rabs_Ropp, Rabs_mult, (Rabs_pos_eq (1 - u)) by lra.
    assert ((1 - u) * (Rabs c + 1) < e) by (apply Rlt_le_trans with (e / (Rabs c + 1) * (Rabs c + 1)); [apply Rmult_lt_compat_r; lra|right; field; lra]). pose proof (Rabs_pos c). nra.
Qed.

(** a function on (0, 1) that does not grow faster than its argument and has limits at the ends is integrable *)
Section Exists.
  Variable g : R -> R.
  Variables a b : R.
  Hypothesis Lip : forall v w, 0 < v < 1 -> 0 < w < 1 -> Rabs (g v - g w) <= Rabs (v - w).
  Hypothesis La : forall v, 0 < v < 1 -> Rabs (g v - a) <= v.
  Hypothesis Lb : forall v, 0 < v < 1 -> Rabs (g v - b) <= 1 - v.
  Definition gx (v : R) : R := if Rle_dec v 0 then a else if Rle_dec 1 v then b else g v.
  Lemma ab_close : Rabs (b - a) <= 1.
  Proof. pose proof (La (1/2) ltac:(lra)) as A. pose proof (Lb (1/2) ltac:(lra)) as B. apply Rabs_le_between in A. apply Rabs_le_between in B. apply Rabs_le_between. lra. Qed.
  Lemma gx_lip v w : Rabs (gx v - gx w) <= Rabs (v - w).
  Proof.
    assert (K : forall v w, v <= w -> Rabs (gx v - gx w) <= w - v).
    { clear v w. intros v w L. unfold gx. destruct (Rle_dec v 0), (Rle_dec w 0).
      - replace (a - a) with 0 by ring. rewrite Rabs_R0. lra.
      - destruct (Rle_dec 1 w).
        + pose proof ab_close. rewrite Rabs_minus_sym. lra.
        + rewrite Rabs_minus_sym. pose proof (La w ltac:(lra)). lra.
      - lra.
      - destruct (Rle_dec 1 v), (Rle_dec 1 w); try lra.
        + replace (b - b) with 0 by ring. rewrite Rabs_R0. lra.
        + pose proof (Lb v ltac:(lra)). lra.
        + pose proof (Lip v w ltac:(lra) ltac:(lra)) as X. rewrite (Rabs_minus_sym v w), (Rabs_pos_eq (w - v)) in X by lra. exact X. }
    destruct (Rle_lt_dec v w) as [L|L].
    - rewrite (Rabs_minus_sym v w), (Rabs_pos_eq (w - v)) by lra. apply K, L.
    - rewrite Rabs_minus_sym, (Rabs_pos_eq (v - w)) by lra. apply K. lra.
  Qed.
  Lemma gx_cont v : continuous gx v.
  Proof.
    apply continuity_pt_filterlim. intros e He. exists e. split; [exact He|]. intros w [_ Hw]. unfold dist in *; cbn in *; unfold R_dist in *. apply Rle_lt_trans with (2 := Hw), gx_lip.
  Qed.
  Lemma integral_exists : exists l, integral_01 g l.
  Proof.
    set (P := fun v => RInt gx 0 v).
    assert (D : forall v, is_derive P v (gx v)).
    { intros v. apply (is_derive_RInt (V := R_CompleteNormedModule) gx P 0 v); [|apply gx_cont].
      apply filter_forall. intros w. apply (RInt_correct (V := R_CompleteNormedModule)). apply (ex_RInt_continuous (V := R_CompleteNormedModule)). intros z _. apply gx_cont. }
    assert (C : forall v, continuous P v) by (intros v; apply (ex_derive_continuous (V := R_NormedModule)); eexists; apply D).
    exists (P 1 - P 0). apply (integral_ext gx).
    { intros v Hv. unfold gx. destruct (Rle_dec v 0); [lra|]. destruct (Rle_dec 1 v); [lra|reflexivity]. }
    apply (integral_primitive gx P); [intros; apply D|intros; apply gx_cont| |].
    - intros e He. pose proof (C 0) as C0. apply continuity_pt_filterlim in C0. destruct (C0 e He) as [d [Hd K]]. exists d. split; [exact Hd|].
      intros u Hu. apply K. split; [split; [exact Logic.I|lra]|]. unfold dist; cbn; unfold R_dist. rewrite Rabs_pos_eq; lra.
    - intros e He. pose proof (C 1) as C0. apply continuity_pt_filterlim in C0. destruct (C0 e He) as [d [Hd K]]. exists d. split; [exact Hd|].
      intros u Hu. apply K. split; [split; [exact Logic.I|lra]|]. unfold dist; cbn; unfold R_dist. rewrite Rabs_left; lra.
  Qed.
End Exists.

(** every function between the Frechet bounds that does not grow faster than either argument has a Spearman's rho, between -1 and 1 *)
Section Copula.
  Variable C : R -> R -> R.
  Hypothesis Fr : forall u v, 0 < u < 1 -> 0 < v < 1 -> Rmax 0 (u + v - 1) <= C u v <= Rmin u v.
  Hypothesis Lu : forall u u' v, 0 < u < 1 -> 0 < u' < 1 -> 0 < v < 1 -> Rabs (C u v - C u' v) <= Rabs (u - u').
  Hypothesis Lv : forall u v v', 0 < u < 1 -> 0 < v < 1 -> 0 < v' < 1 -> Rabs (C u v - C u v') <= Rabs (v - v').
  Lemma fr u v : 0 < u < 1 -> 0 < v < 1 -> 0 <= C u v /\ u + v - 1 <= C u v /\ C u v <= u /\ C u v <= v.
  Proof. intros Hu Hv. pose proof (Fr u v Hu Hv). pose proof (Rmax_l 0 (u + v - 1)). pose proof (Rmax_r 0 (u + v - 1)). pose proof (Rmin_l u v). pose proof (Rmin_r u v). lra. Qed.
  Lemma line_exists u : 0 < u < 1 -> exists l, integral_01 (C u) l.
  Proof.
    intros Hu. apply (integral_exists (C u) 0 u).
    - intros v w Hv Hw. apply Lv; assumption.
    - intros v Hv. destruct (fr u v Hu Hv) as [A [B [D E]]]. apply Rabs_le_between. lra.
    - intros v Hv. destruct (fr u v Hu Hv) as [A [B [D E]]]. apply Rabs_le_between. lra.
  Qed.
  Lemma spearman_exists : exists r, spearman_rho C r.
  Proof.
    set (I := fun u => RInt_gen (C u) (at_right 0) (at_left 1)).
    assert (HI : forall u, 0 < u < 1 -> integral_01 (C u) (I u)).
    { intros u Hu. destruct (line_exists u Hu) as [l Hl]. unfold I. unfold integral_01 in *. rewrite (is_RInt_gen_unique (V := R_CompleteNormedModule) _ _ Hl). exact Hl. }
    destruct (integral_exists I 0 (1 / 2)) as [l Hl].
    - intros u u' Hu Hu'. pose proof (HI u Hu) as A. pose proof (HI u' Hu') as B. pose proof (Rabs_pos (u - u')).
      apply Rabs_le_between. split.
      + assert (I u' <= I u + Rabs (u - u')); [|lra]. apply (integral_le (C u') (fun v => C u v + Rabs (u - u'))); [|exact B|apply integral_plus; [exact A|apply integral_const]].
        intros v Hv. pose proof (Lu u u' v Hu Hu' Hv) as X. apply Rabs_le_between in X. lra.
      + assert (I u <= I u' + Rabs (u - u')); [|lra]. apply (integral_le (C u) (fun v => C u' v + Rabs (u - u'))); [|exact A|apply integral_plus; [exact B|apply integral_const]].
        intros v Hv. pose proof (Lu u u' v Hu Hu' Hv) as X. apply Rabs_le_between in X. lra.
    - intros u Hu. pose proof (HI u Hu) as A. apply Rabs_le_between.
      assert (0 <= I u) by (apply (integral_le (fun _ => 0) (C u)); [intros v Hv; apply (fr u v Hu Hv)|apply integral_const|exact A]).
      assert (I u <= u) by (apply (integral_le (C u) (fun _ => u)); [intros v Hv; apply (fr u v Hu Hv)|exact A|apply integral_const]). lra.
    - intros u Hu. pose proof (HI u Hu) as A. apply Rabs_le_between.
      assert (I u <= 1 / 2) by (apply (integral_le (C u) (fun v => v)); [intros v Hv; apply (fr u v Hu Hv)|exact A|apply integral_id]).
      assert (1 / 2 + (u - 1) <= I u).
      { apply (integral_le (fun v => v + (u - 1)) (C u)); [|apply integral_plus; [apply integral_id|apply integral_const]|exact A]. intros v Hv. pose proof (fr u v Hu Hv). lra. }
      lra.
    - exists (12 * l - 3), I. split; [exact HI|]. replace ((12 * l - 3 + 3) / 12) with l by field. exact Hl.
  Qed.
  Lemma integral_sq : integral_01 (fun v => v * v / 2) (1 / 6).
  Proof.
    replace (1 / 6) with (1 / 6 - 0) by ring. apply (integral_primitive _ (fun v => v * v * v / 6)).
    - intros v _. auto_derive; [exact Logic.I|field].
    - intros v _. apply (ex_derive_continuous (V := R_NormedModule)). auto_derive. exact Logic.I.
    - intros e He. exists (Rmin 1 e). split; [apply Rmin_pos; lra|]. intros u Hu. pose proof (Rmin_l 1 e). pose proof (Rmin_r 1 e). assert (0 < u * u <= u) by nra. apply Rabs_def1; nra.
    - intros e He. exists (Rmin 1 e). split; [apply Rmin_pos; lra|]. intros u Hu. pose proof (Rmin_l 1 e). pose proof (Rmin_r 1 e). assert (0 < u * u <= 1) by nra.
      replace (u * u * u / 6 - 1 / 6) with (- ((1 - u) * (1 + u + u * u) / 6)) by field. rewrite Rabs_Ropp, Rabs_pos_eq by nra. nra.
  Qed.
  Lemma integral_min u : 0 < u < 1 -> integral_01 (fun v => Rmin u v) (u - u * u / 2).
  Proof.
    intros Hu. set (P := fun v => if Rle_dec v u then v * v / 2 else u * v - u * u / 2).
    replace (u - u * u / 2) with (u * 1 - u * u / 2 - 0) by ring. apply (integral_primitive _ P).
    - intros v Hv. apply is_derive_Reals. intros e He. exists (mkposreal e He). intros h Hh0 Hh. cbn in Hh.
      assert (Q : Rabs (P (v + h) - P v - Rmin u v * h) <= h * h / 2).
      { unfold P, Rmin. destruct (Rle_dec (v + h) u), (Rle_dec v u), (Rle_dec u v); apply Rabs_le_between; try nra; assert (u = v) by lra; subst; nra. }
      replace ((P (v + h) - P v) / h - Rmin u v) with ((P (v + h) - P v - Rmin u v * h) / h) by (field; exact Hh0).
      unfold Rdiv. rewrite Rabs_mult, Rabs_inv. pose proof (Rabs_pos_lt h Hh0) as Hp. apply Rmult_lt_reg_r with (Rabs h); [exact Hp|]. rewrite Rmult_assoc, Rinv_l, Rmult_1_r by lra.
      assert (h * h = Rabs h * Rabs h) by (rewrite <- Rabs_mult, Rabs_pos_eq; [reflexivity|nra]). nra.
    - intros v Hv. apply continuity_pt_filterlim. intros e He. exists e. split; [exact He|]. intros w [_ Hw]. unfold dist in *; cbn in *; unfold R_dist in *. apply Rle_lt_trans with (2 := Hw).
      unfold Rmin. destruct (Rle_dec u w), (Rle_dec u v); unfold Rabs; repeat destruct Rcase_abs; lra.
    - intros e He. exists (Rmin u e). split; [apply Rmin_pos; lra|]. intros w Hw. pose proof (Rmin_l u e). pose proof (Rmin_r u e). unfold P. destruct (Rle_dec w u); [|lra]. apply Rabs_def1; nra.
    - intros e He. exists (Rmin (1 - u) e). split; [apply Rmin_pos; lra|]. intros w Hw. pose proof (Rmin_l (1 - u) e). pose proof (Rmin_r (1 - u) e). unfold P. destruct (Rle_dec w u); [lra|]. apply Rabs_def1; nra.
  Qed.
  Lemma spearman_range r : spearman_rho C r -> -1 <= r <= 1.
  Proof.
    intros [I [HI H]]. split.
    - assert (1 / 6 <= (r + 3) / 12); [|lra]. apply (integral_le (fun u => u * u / 2) I); [|exact integral_sq|exact H].
      intros u Hu. pose proof (integral_reflect _ _ (integral_min u Hu)) as M.
      assert (X : integral_01 (fun v => u + -1 * Rmin u (1 - v)) (u + -1 * (u - u * u / 2))) by (apply integral_plus; [apply integral_const|apply (integral_scal _ (-1)), M]).
      replace (u * u / 2) with (u + -1 * (u - u * u / 2)) by field. apply (integral_le (fun v => u + -1 * Rmin u (1 - v)) (C u)); [|exact X|apply HI, Hu].
      intros v Hv. pose proof (fr u v Hu Hv). unfold Rmin. destruct (Rle_dec u (1 - v)); lra.
    - assert ((r + 3) / 12 <= 1 / 2 + -1 * (1 / 6)); [|lra].
      apply (integral_le I (fun u => u + -1 * (u * u / 2))); [|exact H|apply integral_plus; [exact integral_id|apply (integral_scal _ (-1)), integral_sq]].
      intros u Hu. replace (u + -1 * (u * u / 2)) with (u - u * u / 2) by ring. apply (integral_le (C u) (fun v => Rmin u v)); [|apply HI, Hu|apply integral_min, Hu].
      intros v Hv. apply Fr; assumption.
  Qed.
End Copula.
