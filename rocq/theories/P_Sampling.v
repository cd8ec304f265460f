(** Marshall and Olkin's construction: a row below a bound, and the gamma integral. *)
From Coquelicot Require Import Coquelicot.
From Verif Require Import Base RSumLib Ext P_Gen P_Arch P_Arch2 P_ArchCode M_Archimedean M_Special M_Sampling S_Sampling.
From Coq Require Import Psatz Classical_Prop.
Local Close Scope Z_scope. Open Scope R_scope.

Section Row.
  Variables (psi f : R -> R) (psiE : ext -> result ext).
  Hypothesis G : gen 0 psi f.
  Hypothesis I2 : forall s, 0 <= s -> 0 < psi s /\ f (psi s) = s.
  Hypothesis E : forall s, 0 <= s -> psiE (Fin s) = Ok (Fin (psi s)).
  Lemma f_strict u : 0 < u < 1 -> 0 < f u.
  Proof.
    intros H. destruct (g_pos _ _ _ G u ltac:(lra)) as [|E0]; [assumption|]. exfalso. pose proof (g_inv _ _ _ G u ltac:(lra)) as A. pose proof (g_inv _ _ _ G 1 ltac:(lra)) as B. rewrite (g_one _ _ _ G) in B. rewrite <- E0 in A. lra.
  Qed.
  Lemma psi_strict s : 0 < s -> 0 < psi s < 1.
  Proof.
    intros H. destruct (I2 s ltac:(lra)) as [P Q]. split; [exact P|]. pose proof (g_psi_anti _ _ _ G 0 s ltac:(lra) ltac:(lra)) as A. pose proof (g_inv _ _ _ G 1 ltac:(lra)) as B. rewrite (g_one _ _ _ G) in B. destruct (Req_dec (psi s) 1) as [K|]; [|lra]. rewrite K, (g_one _ _ _ G) in Q. lra.
  Qed.
  Lemma psi_le s u : 0 < s -> 0 < u < 1 -> (psi s <= u <-> f u <= s).
  Proof.
    intros Hs Hu. pose proof (psi_strict s Hs) as P. split; intros H.
    - rewrite <- (proj2 (I2 s ltac:(lra))). apply (g_anti _ _ _ G); lra.
    - rewrite <- (g_inv _ _ _ G u) by lra. apply (g_psi_anti _ _ _ G); [apply (g_pos _ _ _ G); lra|exact H].
  Qed.
  Lemma one_entry v w : 0 < v -> 0 < w < 1 -> psiE (ediv (eopp (elog (Fin w))) v) = Ok (Fin (psi (- ln w / v))) /\ 0 < - ln w / v.
  Proof.
    intros Hv Hw. assert (L : ln w < 0) by (rewrite <- ln_1; apply ln_increasing; lra). assert (0 < - ln w / v) by (apply Rdiv_lt_0_compat; lra). split; [|assumption].
    rewrite elog_pos by lra. unfold ediv. cbn [eopp escal]. replace (/ v * - ln w) with (- ln w / v) by (unfold Rdiv; ring). apply E. lra.
  Qed.
  Lemma entry_iff v w u : 0 < v -> 0 < w < 1 -> 0 < u < 1 -> (psi (- ln w / v) <= u <-> w <= exp (- (v * f u))).
  Proof.
    intros Hv Hw Hu. destruct (one_entry v w Hv Hw) as [_ P]. rewrite (psi_le _ u P Hu). split; intros H.
    - rewrite <- (exp_ln w) by lra. apply exp_mono. apply Rmult_le_compat_l with (r := v) in H; [|lra]. replace (v * (- ln w / v)) with (- ln w) in H by (field; lra). lra.
    - assert (K : ln w <= - (v * f u)) by (rewrite <- (ln_exp (- (v * f u))); apply ln_le; lra). apply Rmult_le_reg_l with v; [lra|]. replace (v * (- ln w / v)) with (- ln w) by (field; lra). lra.
  Qed.
  Lemma row_below v us : 0 < v -> inside us -> below_iff (mapM (fun w => psiE (ediv (eopp (elog (Fin w))) v))) us (map (fun u => exp (- (v * f u))) us).
  Proof.
    intros Hv Hus. split; [apply map_length|]. split.
    - unfold inside in *. rewrite Forall_map. eapply Forall_impl; [|exact Hus]. intros u Hu. cbv beta. pose proof (f_strict u Hu). split; [apply exp_pos|]. rewrite <- exp_0. apply exp_increasing. nra.
    - intros ws Hws. revert us Hus. induction Hws as [|w ws Hw _ IH]; intros [|u us] Hus HL; try discriminate.
      + exists []. split; [reflexivity|]. split; [constructor|]. split; constructor.
      + inversion Hus as [|? ? Hu Hus']; subst. destruct (IH us Hus' ltac:(cbn in HL; lia)) as [r [Er [Ir Q]]]. destruct (one_entry v w Hv Hw) as [E1 P].
        exists (psi (- ln w / v) :: r). cbn [mapM map]. rewrite E1, Er. cbn [bind]. split; [reflexivity|]. split; [constructor; [apply psi_strict, P|exact Ir]|]. split; intros H; inversion H; subst; constructor; try (apply Q; assumption); apply entry_iff; assumption.
  Qed.
  Lemma row_prod v us : prod (map (fun u => exp (- (v * f u))) us) = exp (- (v * lsum (map f us))).
  Proof.
    induction us as [|u us IH]; cbn [map prod fold_right lsum]; [unfold prod; cbn; rewrite Rmult_0_r, Ropp_0, exp_0; reflexivity|]. unfold prod in *. cbn [fold_right]. rewrite IH, <- exp_plus. f_equal. unfold lsum. cbn [fold_right]. ring.
  Qed.
  Lemma f_sum_pos us : inside us -> 0 <= lsum (map f us).
  Proof. intros H. induction H as [|u us Hu _ IH]; unfold lsum in *; cbn [map fold_right]; [lra|]. pose proof (f_strict u Hu). lra. Qed.
End Row.

(** ** integrals over the half line *)
Lemma half_pos : filter_prod (at_right 0) (Rbar_locally p_infty) (fun p : R * R => 0 < fst p /\ 0 < snd p).
Proof.
  apply (Filter_prod _ _ _ (fun a => 0 < a) (fun b => 0 < b)).
  - exists (mkposreal 1 Rlt_0_1). intros y _ H. exact H.
  - exists 0. intros y H. exact H.
  - intros a b A B. split; assumption.
Qed.
Lemma half_ext f g l : (forall v, 0 < v -> f v = g v) -> half_line f l -> half_line g l.
Proof.
  intros H. apply is_RInt_gen_ext. apply filter_imp with (2 := half_pos). intros [a b] [A B] x Hx. cbn [fst snd] in *. apply H. apply Rlt_le_trans with (Rmin a b); [apply Rmin_glb_lt; assumption|lra].
Qed.
Lemma half_scal f l k : half_line f l -> half_line (fun v => k * f v) (k * l).
Proof. intros H. exact (is_RInt_gen_scal (V := R_NormedModule) f k l H). Qed.
Lemma half_stretch f l c : 0 < c -> half_line f l -> half_line (fun v => c * f (c * v)) l.
Proof.
  intros Hc H P HP. destruct (H P HP) as [Q1 Q2 H1 H2 H3]. cbn [fst snd] in H3.
  apply (Filter_prod _ _ _ (fun a => Q1 (c * a)) (fun b => Q2 (c * b))).
  - destruct H1 as [d Hd]. assert (D : 0 < d / c) by (apply Rdiv_lt_0_compat; [apply cond_pos|exact Hc]). exists (mkposreal _ D). intros y By Py. apply Hd; [|nra]. change (Rabs (y - 0) < d / c) in By. change (Rabs (c * y - 0) < d). rewrite Rminus_0_r in *. rewrite Rabs_pos_eq in * by nra. apply Rmult_lt_compat_l with (r := c) in By; [|exact Hc]. replace (c * (d / c)) with (pos d) in By by (field; lra). exact By.
  - destruct H2 as [M HM]. exists (M / c). intros y Hy. apply HM. apply Rmult_lt_compat_l with (r := c) in Hy; [|exact Hc]. replace (c * (M / c)) with M in Hy by (field; lra). exact Hy.
  - intros a b Qa Qb. destruct (H3 _ _ Qa Qb) as [y [I Py]]. exists y. split; [|exact Py]. cbn [fst snd].
    apply (is_RInt_ext (fun v => scal c (f (c * v + 0)))); [intros v _; rewrite Rplus_0_r; reflexivity|]. apply (is_RInt_comp_lin f c 0 a b y). rewrite !Rplus_0_r. exact I.
Qed.
(** the Laplace transform of the gamma distribution *)
Lemma gamma_laplace a G s : 0 < G -> 0 <= s -> half_line (fun v => Rpower v (a - 1) * exp (- v)) G -> half_line (fun v => gamma_density a G v * exp (- (v * s))) (Rpower (1 + s) (- a)).
Proof.
  intros HG Hs H. assert (Hc : 0 < 1 + s) by lra. pose proof (half_stretch _ _ (1 + s) Hc H) as K. apply (half_scal _ _ (Rpower (1 + s) (- a) / G)) in K.
  replace (Rpower (1 + s) (- a) / G * G) with (Rpower (1 + s) (- a)) in K by (field; lra). eapply half_ext; [|exact K]. intros v Hv. cbv beta. unfold gamma_density.
  rewrite <- Rpower_mult_distr by lra. replace (exp (- ((1 + s) * v))) with (exp (- v) * exp (- (v * s))) by (rewrite <- exp_plus; f_equal; ring).
  assert (P : Rpower (1 + s) (- a) * ((1 + s) * Rpower (1 + s) (a - 1)) = 1). { rewrite <- (Rpower_1 (1 + s)) at 2 by lra. rewrite <- !Rpower_plus. replace (- a + (1 + (a - 1))) with 0 by ring. apply Rpower_O. lra. }
  transitivity ((Rpower (1 + s) (- a) * ((1 + s) * Rpower (1 + s) (a - 1))) * (Rpower v (a - 1) * exp (- v) / G * exp (- (v * s)))); [unfold Rdiv; ring|]. rewrite P. ring.
Qed.
(** the exponential distribution *)
Lemma exp_half : half_line (fun v => Rpower v (1 - 1) * exp (- v)) 1.
Proof.
  apply (half_ext (fun v => exp (- v))); [intros v Hv; replace (1 - 1) with 0 by ring; rewrite Rpower_O by exact Hv; ring|].
  assert (D : forall a b, is_RInt (fun v => exp (- v)) a b (exp (- a) - exp (- b))).
  { intros a b. replace (exp (- a) - exp (- b)) with (minus ((fun v => - exp (- v)) b) ((fun v => - exp (- v)) a)) by (unfold minus, plus, opp; cbn; ring). apply (is_RInt_derive (V := R_CompleteNormedModule) (fun v => - exp (- v))).
    - intros x _. evar_last; [apply (is_derive_opp (V := R_NormedModule)); auto_derive; [exact Logic.I|reflexivity]|unfold opp; cbn; ring].
    - intros x _. apply (ex_derive_continuous (fun v => exp (- v))). auto_derive. exact Logic.I. }
  intros P HP. unfold filtermapi. destruct HP as [e He].
  assert (E2 : 0 < e / 2) by (apply Rmult_lt_0_compat; [apply cond_pos|lra]).
  apply (Filter_prod _ _ _ (fun a => 0 < a < e / 2) (fun b => exp (- b) < e / 2)).
  - exists (mkposreal _ E2). intros y By Py. change (Rabs (y - 0) < e / 2) in By. rewrite Rminus_0_r, Rabs_pos_eq in By by lra. lra.
  - exists (- ln (e / 2)). intros y Hy. rewrite <- (exp_ln (e / 2)) by exact E2. apply exp_increasing. lra.
  - intros a b A B. cbn [fst snd]. exists (exp (- a) - exp (- b)). split; [apply D|]. apply He. change (Rabs (exp (- a) - exp (- b) - 1) < e). pose proof (exp_ineq1_le (- a)). assert (exp (- a) < 1) by (rewrite <- exp_0; apply exp_increasing; lra). pose proof (exp_pos (- b)). apply Rabs_def1; lra.
Qed.
(** ** the gamma integral exists *)
Section Gamma.
  Variable a : R.
  Hypothesis Ha : 0 < a.
  Definition gker (v : R) : R := Rpower v (a - 1) * exp (- v).
  Lemma gker_pos v : 0 < gker v.
  Proof. apply Rmult_lt_0_compat; apply exp_pos. Qed.
  Lemma gker_cont v : 0 < v -> continuous gker v.
  Proof. intros H. apply (ex_derive_continuous gker). unfold gker, Rpower. auto_derive. exact H. Qed.
  Lemma gker_ex x y : 0 < x -> 0 < y -> ex_RInt gker x y.
  Proof. intros Hx Hy. apply (ex_RInt_continuous (V := R_CompleteNormedModule)). intros z Hz. apply gker_cont. apply Rlt_le_trans with (Rmin x y); [apply Rmin_glb_lt; assumption|lra]. Qed.
  Definition gF (x : R) : R := RInt gker 1 x.
  Lemma gF_diff x y : 0 < x -> 0 < y -> is_RInt gker x y (gF y - gF x).
  Proof.
    intros Hx Hy. assert (E : RInt gker x y = gF y - gF x).
    { unfold gF. rewrite <- (RInt_Chasles (V := R_CompleteNormedModule) gker 1 x y) by (apply gker_ex; lra). unfold plus. cbn. ring. }
    rewrite <- E. apply (RInt_correct (V := R_CompleteNormedModule)). apply gker_ex; assumption.
  Qed.
  Lemma gF_mono x y : 0 < x -> x <= y -> gF x <= gF y.
  Proof.
    intros Hx Hy. pose proof (is_RInt_ge_0 gker x y (gF y - gF x) Hy (gF_diff x y Hx ltac:(lra)) (fun v _ => Rlt_le _ _ (gker_pos v))). lra.
  Qed.
  Lemma gF_low x : 0 < x <= 1 -> - / a <= gF x.
  Proof.
    intros [Hx H1]. assert (I1 : is_RInt (fun v => Rpower v (a - 1)) x 1 (/ a * Rpower 1 a - / a * Rpower x a)).
    { apply (is_RInt_derive (V := R_CompleteNormedModule) (fun v => / a * Rpower v a)).
      - intros v Hv. rewrite Rmin_left, Rmax_right in Hv by lra. unfold Rpower. evar_last; [auto_derive; [lra|reflexivity]|]. replace (exp ((a - 1) * ln v)) with (exp (a * ln v) * / v). field; lra. replace ((a - 1) * ln v) with (a * ln v + - ln v) by ring. rewrite exp_plus, exp_Ropp, exp_ln by lra. reflexivity.
      - intros v Hv. rewrite Rmin_left, Rmax_right in Hv by lra. apply (ex_derive_continuous (fun v => Rpower v (a - 1))). unfold Rpower. auto_derive. lra. }
    pose proof (is_RInt_le gker (fun v => Rpower v (a - 1)) x 1 _ _ H1 (gF_diff x 1 Hx Rlt_0_1) I1) as K.
    assert (F1 : gF 1 = 0) by (unfold gF; exact (RInt_point (V := R_CompleteNormedModule) 1 gker)). rewrite F1 in K.
    assert (P : 0 < / a * Rpower x a) by (apply Rmult_lt_0_compat; [apply Rinv_0_lt_compat; exact Ha|apply exp_pos]).
    assert (Q : 0 - gF x <= / a * Rpower 1 a - / a * Rpower x a). { apply K. intros v Hv. unfold gker. pose proof (exp_pos ((a - 1) * ln v)) as E1. assert (E2 : exp (- v) <= 1) by (rewrite <- exp_0; apply exp_mono; lra). unfold Rpower. pose proof (exp_pos (- v)). nra. }
    rewrite Rpower_1_base in Q. lra.
  Qed.
  Lemma gF_high : exists B, forall x, 1 <= x -> gF x <= B.
  Proof.
    set (m := Rabs (a - 1) + 1). assert (Hm : 0 < m) by (unfold m; pose proof (Rabs_pos (a - 1)); lra). set (K := exp (m * ln (2 * m))). exists (2 * K). intros x Hx.
    assert (I1 : is_RInt (fun v => K * exp (- v / 2)) 1 x ((- 2 * K * exp (- x / 2)) - (- 2 * K * exp (- 1 / 2)))).
    { apply (is_RInt_derive (V := R_CompleteNormedModule) (fun v => - 2 * K * exp (- v / 2))).
      - intros v _. evar_last; [auto_derive; [exact Logic.I|reflexivity]|]. unfold Rdiv. field.
      - intros v _. apply (ex_derive_continuous (fun v => K * exp (- v / 2))). auto_derive. exact Logic.I. }
    pose proof (is_RInt_le gker (fun v => K * exp (- v / 2)) 1 x _ _ Hx (gF_diff 1 x Rlt_0_1 ltac:(lra)) I1) as L.
    assert (F1 : gF 1 = 0) by (unfold gF; exact (RInt_point (V := R_CompleteNormedModule) 1 gker)). rewrite F1 in L.
    assert (HK : 0 < K) by apply exp_pos.
    assert (Q : gF x - 0 <= - 2 * K * exp (- x / 2) - - 2 * K * exp (- 1 / 2)).
    { apply L. intros v Hv. unfold gker, Rpower, K. rewrite <- !exp_plus. apply exp_mono.
      assert (L0 : 0 <= ln v) by (rewrite <- ln_1; apply ln_le; lra). assert (A1 : (a - 1) * ln v <= m * ln v) by (apply Rmult_le_compat_r; [exact L0|unfold m; pose proof (Rle_abs (a - 1)); lra]).
      assert (A2 : ln v <= v / (2 * m) + ln (2 * m)). { replace v with (v / (2 * m) * (2 * m)) at 1 by (field; lra). assert (0 < v / (2 * m)) by (apply Rdiv_lt_0_compat; lra). rewrite ln_mult by lra. apply Rplus_le_compat_r. pose proof (exp_ineq1_le (ln (v / (2 * m)))) as E1. rewrite exp_ln in E1 by assumption. lra. }
      apply Rmult_le_compat_l with (r := m) in A2; [|lra]. replace (m * (v / (2 * m) + ln (2 * m))) with (v / 2 + m * ln (2 * m)) in A2 by (field; lra). lra. }
    assert (E1 : 0 < exp (- x / 2)) by apply exp_pos. assert (E2 : exp (- 1 / 2) <= 1) by (rewrite <- exp_0; apply exp_mono; lra). nra.
  Qed.
  Lemma gamma_exists : exists G, 0 < G /\ half_line (fun v => Rpower v (a - 1) * exp (- v)) G.
  Proof.
    destruct gF_high as [B HB].
    destruct (completeness (fun y => exists x, 1 <= x /\ y = gF x)) as [U [HU1 HU2]].
    { exists B. intros y [x [Hx ->]]. apply HB, Hx. } { exists (gF 1), 1. split; [lra|reflexivity]. }
    destruct (completeness (fun y => exists x, 0 < x <= 1 /\ y = - gF x)) as [V [HV1 HV2]].
    { exists (/ a). intros y [x [Hx ->]]. pose proof (gF_low x Hx). lra. } { exists (- gF 1), 1. split; [lra|reflexivity]. }
    exists (U + V). split.
    - assert (A1 : gF 2 <= U) by (apply HU1; exists 2; split; [lra|reflexivity]). assert (A2 : - gF 1 <= V) by (apply HV1; exists 1; split; [lra|reflexivity]).
      assert (A3 : 0 < gF 2 - gF 1). { pose proof (gF_diff 1 2 ltac:(lra) ltac:(lra)) as D. rewrite <- (is_RInt_unique (V := R_CompleteNormedModule) _ _ _ _ D). apply RInt_gt_0; [lra|intros; apply gker_pos|]. intros v Hv. apply gker_cont. lra. }
      lra.
    - intros P HP. destruct HP as [e He]. unfold filtermapi. assert (E2 : 0 < e / 2) by (apply Rmult_lt_0_compat; [apply cond_pos|lra]).
      assert (X1 : exists x, 1 <= x /\ U - e / 2 < gF x). { apply NNPP. intros N. assert (U <= U - e / 2); [|lra]. apply HU2. intros y [x [Hx ->]]. apply Rnot_lt_le. intros Q. apply N. exists x. split; assumption. }
      assert (X2 : exists x, 0 < x <= 1 /\ V - e / 2 < - gF x). { apply NNPP. intros N. assert (V <= V - e / 2); [|lra]. apply HV2. intros y [x [Hx ->]]. apply Rnot_lt_le. intros Q. apply N. exists x. split; assumption. }
      destruct X1 as [b0 [Hb0 Kb]]. destruct X2 as [a0 [Ha0 Ka]].
      apply (Filter_prod _ _ _ (fun s => 0 < s < a0) (fun t => b0 < t)).
      + exists (mkposreal a0 (proj1 Ha0)). intros y By Py. change (Rabs (y - 0) < a0) in By. rewrite Rminus_0_r, Rabs_pos_eq in By by lra. lra.
      + exists b0. intros y Hy. exact Hy.
      + intros s t Hs Ht. cbn [fst snd]. exists (gF t - gF s). split; [apply gF_diff; lra|]. apply He. change (Rabs (gF t - gF s - (U + V)) < e).
        assert (B1 : gF t <= U) by (apply HU1; exists t; split; [lra|reflexivity]). assert (B2 : - gF s <= V) by (apply HV1; exists s; split; [lra|reflexivity]).
        pose proof (gF_mono b0 t ltac:(lra) ltac:(lra)). pose proof (gF_mono s a0 ltac:(lra) ltac:(lra)). apply Rabs_def1; lra.
  Qed.
End Gamma.
