(** Bivariate copulas with a conditional distribution of location-scale form: derivatives and diagonal. *)
From Coquelicot Require Import Coquelicot.
From Verif Require Import Base RSumLib Ext S_Linalg S_Stats S_EllipDensity S_Archimedean P_GaussInt.
Open Scope R_scope.

Lemma gen_value (g P : R -> R) y : (forall t, is_derive P t (g t)) -> (forall t, continuous g t) -> is_lim P m_infty 0 -> integral_up_to g y (P y).
Proof.
  intros D C L. unfold integral_up_to.
  assert (E : forall t, Derive P t = g t) by (intros t; apply is_derive_unique, D).
  apply (is_RInt_gen_ext (Derive P)). { apply filter_forall. intros ab x _. apply E. }
  replace (P y) with (P y - 0) by ring.
  apply (is_RInt_gen_Derive P 0 (P y)).
  - apply filter_forall. intros ab x _. eexists. apply D.
  - apply filter_forall. intros ab x _. apply (continuous_ext g); [intros; symmetry; apply E|apply C].
  - exact L.
  - intros Q HQ. unfold filtermap, at_point. apply locally_singleton. exact HQ.
Qed.
Lemma gen_unique (g : R -> R) y l l' : integral_up_to g y l -> integral_up_to g y l' -> l = l'.
Proof. intros H H'. unfold integral_up_to in *. rewrite <- (is_RInt_gen_unique g l H). apply is_RInt_gen_unique. exact H'. Qed.
Lemma gen_primitive (g P : R -> R) : (forall t, continuous g t) -> (forall x, integral_up_to g x (P x)) -> forall x, is_derive P x (g x).
Proof.
  intros C H x.
  assert (E : forall y, P y = P x + RInt g x y).
  { intros y. apply (gen_unique g y); [apply H|]. unfold integral_up_to.
    apply (is_RInt_gen_Chasles (V := R_NormedModule) g x (P x) (RInt g x y)); [apply H|]. apply is_RInt_gen_at_point.
    apply (RInt_correct (V := R_CompleteNormedModule)), (ex_RInt_continuous (V := R_CompleteNormedModule)). intros; apply C. }
  apply (is_derive_ext (fun y => P x + RInt g x y)); [intros; symmetry; apply E|].
  replace (g x) with (plus 0 (g x)) by (unfold plus; cbn; ring).
  apply (is_derive_plus (fun _ => P x) (fun y => RInt g x y)); [apply (is_derive_const (P x))|].
  apply (is_derive_RInt (V := R_NormedModule) g (fun b => RInt g x b) x x); [|apply C].
  exists (mkposreal 1 Rlt_0_1). intros b _. apply (RInt_correct (V := R_CompleteNormedModule)), (ex_RInt_continuous (V := R_CompleteNormedModule)). intros; apply C.
Qed.
Lemma gen_vanish (g P : R -> R) : (forall t, continuous g t) -> (forall x, integral_up_to g x (P x)) -> is_lim P m_infty 0.
Proof.
  intros C H. pose proof (gen_primitive g P C H) as D. apply is_lim_spec. intros eps.
  pose proof (H 0) as H0. unfold integral_up_to, is_RInt_gen, filterlimi, filterlim, filter_le, filtermapi in H0.
  destruct (H0 (ball (P 0) eps)) as [Q1 Q2 HQ1 HQ2 K]; [exists eps; auto|].
  unfold at_point in HQ2. destruct HQ1 as [A HA]. exists A. intros x Hx. destruct (K x 0 (HA x Hx) HQ2) as [l [Hl Bl]]. cbn [fst snd] in Hl.
  assert (E : l = P 0 - P x).
  { rewrite <- (is_RInt_unique _ _ _ _ Hl). apply is_RInt_unique. apply (is_RInt_derive (V := R_CompleteNormedModule) P); intros; [apply D|apply C]. }
  assert (B : Rabs (l - P 0) < eps) by exact Bl. rewrite E in B. rewrite Rminus_0_r. replace (P 0 - P x - P 0) with (- P x) in B by ring. rewrite Rabs_Ropp in B. exact B.
Qed.
(** a function with non-negative derivative that vanishes at -oo is non-negative *)
Lemma vanish_nonneg (P g : R -> R) : (forall t, is_derive P t (g t)) -> (forall t, 0 <= g t) -> is_lim P m_infty 0 -> forall x, 0 <= P x.
Proof.
  intros D N L x. destruct (Rle_lt_dec 0 (P x)) as [|B]; [assumption|]. exfalso.
  apply is_lim_spec in L. destruct (L (mkposreal (- P x / 2) ltac:(lra))) as [A HA]. cbn in HA.
  set (y := Rmin (A - 1) (x - 1)). assert (Y : y < A /\ y < x) by (unfold y; pose proof (Rmin_l (A - 1) (x - 1)); pose proof (Rmin_r (A - 1) (x - 1)); lra).
  specialize (HA y (proj1 Y)). rewrite Rminus_0_r in HA. apply Rabs_def2 in HA.
  destruct (MVT_gen P y x g) as [c [_ Hc]].
  - intros t _. apply D.
  - intros t _. apply (cont_of_derive P t (g t)), D.
  - pose proof (N c). nra.
Qed.

Section Distribution.
  Variables F f : R -> R.
  Hypothesis DF : distribution F f.
  Lemma dist_increasing x y : x < y -> F x < F y.
  Proof.
    intros H. destruct DF as [D [Pos _]]. destruct (MVT_gen F x y f) as [c [_ Hc]].
    - intros t _. apply D.
    - intros t _. apply (cont_of_derive F t (f t)), D.
    - pose proof (Pos c). nra.
  Qed.
  Lemma dist_nonneg x : 0 <= F x.
  Proof. destruct DF as [D [Pos [_ [L _]]]]. apply (vanish_nonneg F f D); [intros t; left; apply Pos|exact L]. Qed.
  Lemma dist_le_1 x : F x <= 1.
  Proof.
    destruct DF as [D [Pos [_ [_ L]]]]. destruct (Rle_lt_dec (F x) 1) as [|B]; [assumption|]. exfalso.
    apply is_lim_spec in L. destruct (L (mkposreal (F x - 1) ltac:(lra))) as [A HA]. cbn in HA.
    set (y := Rmax (A + 1) (x + 1)). assert (Y : A < y /\ x < y) by (unfold y; pose proof (Rmax_l (A + 1) (x + 1)); pose proof (Rmax_r (A + 1) (x + 1)); lra).
    specialize (HA y (proj1 Y)). apply Rabs_def2 in HA. pose proof (dist_increasing x y (proj2 Y)). lra.
  Qed.
  Lemma dist_range x : 0 < F x < 1.
  Proof. pose proof (dist_increasing (x - 1) x ltac:(lra)). pose proof (dist_increasing x (x + 1) ltac:(lra)). pose proof (dist_nonneg (x - 1)). pose proof (dist_le_1 (x + 1)). lra. Qed.
  Lemma dist_inj x y : F x = F y -> x = y.
  Proof. intros E. destruct (Rtotal_order x y) as [H|[H|H]]; [|exact H|]; apply dist_increasing in H; lra. Qed.

  Variable q : R -> R.
  Hypothesis Hq : quantile F q.
  Lemma quantile_inv x : q (F x) = x.
  Proof. apply dist_inj. apply Hq. apply dist_range. Qed.
  Lemma quantile_increasing u v : 0 < u < 1 -> 0 < v < 1 -> u < v -> q u < q v.
  Proof.
    intros Hu Hv L. destruct (Rlt_le_dec (q u) (q v)) as [|N]; [assumption|]. exfalso.
    assert (F (q v) <= F (q u)) by (destruct N as [N| ->]; [left; apply dist_increasing; exact N|lra]). rewrite (Hq u Hu), (Hq v Hv) in H. lra.
  Qed.
  Lemma quantile_derive u : 0 < u < 1 -> is_derive q u (/ f (q u)).
  Proof.
    intros Hu. destruct DF as [D [Pos _]]. apply is_derive_Reals.
    assert (C : continuity_pt q u).
    { intros eps He. set (a := F (q u - eps)). set (b := F (q u + eps)).
      assert (A : a < u < b). { unfold a, b. rewrite <- (Hq u Hu) at 2 3. split; apply dist_increasing; lra. }
      exists (Rmin (u - a) (b - u)). split; [apply Rmin_pos; lra|]. intros v [_ Hv]. cbn in *. unfold R_dist in *.
      pose proof (Rmin_l (u - a) (b - u)). pose proof (Rmin_r (u - a) (b - u)). apply Rabs_def2 in Hv.
      assert (0 < a) by apply dist_range. assert (b < 1) by apply dist_range. assert (V : 0 < v < 1) by lra.
      apply Rabs_def1.
      - assert (q v < q u + eps); [|lra]. rewrite <- (quantile_inv (q u + eps)). apply quantile_increasing; [exact V|apply dist_range|]. fold b. lra.
      - assert (q u - eps < q v); [|lra]. rewrite <- (quantile_inv (q u - eps)). apply quantile_increasing; [apply dist_range|exact V|]. fold a. lra. }
    intros eps He. set (g := f (q u)). assert (G : 0 < g) by apply Pos.
    (* the difference quotient of F at q u, inverted *)
    assert (Dq : derivable_pt_lim F (q u) g) by (apply is_derive_Reals, D).
    assert (L : exists d, 0 < d /\ forall h, h <> 0 -> Rabs h < d -> Rabs (h / (F (q u + h) - F (q u)) - / g) < eps).
    { assert (M : 0 < Rmin (g / 2) (eps * (g * g) / 2)) by (apply Rmin_pos; [lra|]; assert (0 < eps * (g * g)) by (apply Rmult_lt_0_compat; [exact He|nra]); lra).
      destruct (Dq _ M) as [d Hd]. exists d. split; [apply cond_pos|]. intros h Hh Hhd. specialize (Hd h Hh Hhd).
      set (k := (F (q u + h) - F (q u)) / h) in *. pose proof (Rmin_l (g / 2) (eps * (g * g) / 2)). pose proof (Rmin_r (g / 2) (eps * (g * g) / 2)).
      assert (K : g / 2 < k) by (apply Rabs_def2 in Hd; lra).
      assert (N0 : F (q u + h) - F (q u) <> 0) by (intros E; unfold k in K; rewrite E in K; unfold Rdiv in K at 2; rewrite Rmult_0_l in K; lra).
      replace (h / (F (q u + h) - F (q u)) - / g) with ((g - k) / (k * g)) by (unfold k; field; repeat split; try assumption; lra).
      unfold Rdiv. rewrite Rabs_mult. rewrite Rabs_minus_sym. rewrite (Rabs_pos_eq (/ (k * g))) by (left; apply Rinv_0_lt_compat; nra).
      apply Rmult_lt_reg_r with (k * g); [nra|]. rewrite Rmult_assoc, Rinv_l, Rmult_1_r by nra. apply Rlt_le_trans with (1 := Hd).
      assert (0 < eps * g * (k - g / 2)) by (repeat apply Rmult_lt_0_compat; lra). lra. }
    destruct L as [d [Hd L]]. destruct (C d Hd) as [al [Hal Cal]].
    assert (Pd : 0 < Rmin al (Rmin u (1 - u))) by (repeat apply Rmin_pos; lra).
    exists (mkposreal _ Pd). cbn. intros h Hh Hha.
    pose proof (Rmin_l al (Rmin u (1 - u))). pose proof (Rmin_r al (Rmin u (1 - u))). pose proof (Rmin_l u (1 - u)). pose proof (Rmin_r u (1 - u)).
    assert (V : 0 < u + h < 1) by (apply Rabs_def2 in Hha; lra).
    set (k := q (u + h) - q u).
    assert (Nk : k <> 0). { intros E. apply Hh. assert (q (u + h) = q u) by (unfold k in E; lra). pose proof (Hq _ V). pose proof (Hq _ Hu). rewrite H3 in H4. lra. }
    assert (Bk : Rabs k < d).
    { apply (Cal (u + h)). split; [split; [exact Logic.I|intros E; apply Hh; lra]|]. cbn. unfold R_dist. replace (u + h - u) with h by ring. lra. }
    specialize (L k Nk Bk). replace (q u + k) with (q (u + h)) in L by (unfold k; ring). rewrite (Hq _ V), (Hq _ Hu) in L. replace (u + h - u) with h in L by ring. exact L.
  Qed.
  Lemma quantile_0 A : exists d, 0 < d /\ forall u, 0 < u < 1 -> u < d -> q u < A.
  Proof.
    exists (F A). split; [apply dist_range|]. intros u Hu L. rewrite <- (quantile_inv A). apply quantile_increasing; [exact Hu|apply dist_range|exact L].
  Qed.
  Lemma quantile_1 A : exists d, d < 1 /\ forall u, 0 < u < 1 -> d < u -> A < q u.
  Proof.
    exists (F A). split; [apply dist_range|]. intros u Hu L. rewrite <- (quantile_inv A). apply quantile_increasing; [apply dist_range|exact Hu|exact L].
  Qed.
  Lemma even_reflect : (forall x, f (- x) = f x) -> forall x, F (- x) = 1 - F x.
  Proof.
    intros E x. destruct DF as [D [_ [_ [L0 L1]]]].
    assert (D0 : forall y, is_derive (fun y => F (- y) + F y) y 0).
    { intros y. evar_last; [apply (is_derive_plus (fun y => F (- y)) F); [apply (is_derive_comp F (fun y => - y)); [apply D|auto_derive; [exact Logic.I|reflexivity]]|apply D]|].
      unfold plus, scal; cbn; unfold mult; cbn. rewrite E. ring. }
    assert (K : forall y, F (- y) + F y = F (- x) + F x).
    { intros y. destruct (MVT_gen (fun y => F (- y) + F y) x y (fun _ => 0)) as [c [_ Hc]]; [intros t _; apply D0|intros t _; apply cont_of_derive with 0, D0|lra]. }
    assert (L : is_lim (fun y => F (- y) + F y) p_infty (0 + 1)).
    { apply is_lim_plus'; [|exact L1]. apply (is_lim_comp F (fun y => - y) p_infty 0 m_infty); [exact L0| |exists 0; intros; discriminate].
      change m_infty with (Rbar_opp p_infty). apply is_lim_opp, is_lim_id. }
    assert (L' : is_lim (fun y => F (- y) + F y) p_infty (F (- x) + F x)) by (apply (is_lim_ext (fun _ => F (- x) + F x)); [intros; symmetry; apply K|apply is_lim_const]).
    apply is_lim_unique in L. apply is_lim_unique in L'. rewrite L in L'. injection L' as L'. lra.
  Qed.
  Lemma quantile_reflect : (forall x, f (- x) = f x) -> forall u, 0 < u < 1 -> q (1 - u) = - q u.
  Proof. intros E u Hu. apply dist_inj. rewrite even_reflect by exact E. rewrite !Hq by lra. reflexivity. Qed.
End Distribution.

(** every distribution function has a quantile function *)
Definition quantile_of (F : R -> R) (u : R) : R := real (Lub_Rbar (fun x => F x <= u)).
Lemma quantile_exists F f : distribution F f -> quantile F (quantile_of F).
Proof.
  intros DF u Hu. pose proof DF as [D [Pos [_ [L0 L1]]]].
  assert (X : exists x, F x = u).
  { apply is_lim_spec in L0. apply is_lim_spec in L1. destruct (L0 (mkposreal u (proj1 Hu))) as [A HA]. destruct (L1 (mkposreal (1 - u) ltac:(lra))) as [B HB]. cbn in *.
    set (a := Rmin A B - 1). set (b := Rmax A B + 1).
    assert (a < A /\ B < b /\ a < b) by (unfold a, b; pose proof (Rmin_l A B); pose proof (Rmax_r A B); pose proof (Rmin_r A B); lra).
    specialize (HA a ltac:(lra)). specialize (HB b ltac:(lra)). rewrite Rminus_0_r in HA. apply Rabs_def2 in HA. apply Rabs_def2 in HB.
    destruct (IVT_gen F a b u) as [x [_ Hx]].
    - intros x. apply (cont_of_derive F x (f x)), D.
    - rewrite Rmin_left, Rmax_right by lra. lra.
    - exists x. exact Hx. }
  destruct X as [x Hx]. unfold quantile_of. replace (Lub_Rbar (fun y => F y <= u)) with (Finite x); [exact Hx|]. symmetry. apply is_lub_Rbar_unique. split.
  - intros y Hy. cbn. destruct (Rle_lt_dec y x) as [|N]; [assumption|]. pose proof (dist_increasing F f DF x y N). lra.
  - intros b Hb. apply Hb. lra.
Qed.

Section Kernel.
  Variables F f F1 f1 sl q : R -> R.
  Variable rho : R.
  Variable M : R -> R -> R.
  Hypothesis DF : distribution F f.
  Hypothesis DF1 : distribution F1 f1.
  Hypothesis sl_pos : forall x, 0 < sl x.
  Hypothesis sl_cont : forall x, continuous sl x.
  Definition kz (x y : R) : R := sl x * (y - rho * x).
  Definition km (x y : R) : R := f x * (f1 (kz x y) * sl x).
  Hypothesis sym : forall x y, km x y = km y x.
  Hypothesis HM : joint_cdf km M.
  Hypothesis Hq : quantile F q.

  Lemma kz_derive x y : is_derive (kz x) y (sl x).
  Proof. unfold kz. auto_derive; [exact Logic.I|ring]. Qed.
  Lemma F1_cont x : continuous F1 x.
  Proof. destruct DF1 as [D _]. apply (ex_derive_continuous (V := R_NormedModule)). eexists. apply D. Qed.
  Lemma kz_cont1 y x : continuous (fun x => kz x y) x.
  Proof.
    unfold kz. apply (continuous_mult sl (fun x => y - rho * x)); [apply sl_cont|].
    apply (ex_derive_continuous (V := R_NormedModule)). auto_derive. exact Logic.I.
  Qed.
  Lemma G_derive x y : is_derive (fun y => f x * F1 (kz x y)) y (km x y).
  Proof.
    destruct DF1 as [D _]. unfold km. apply (is_derive_scal (fun y => F1 (kz x y)) y (f x)).
    rewrite Rmult_comm. apply (is_derive_comp F1 (kz x)); [apply D|apply kz_derive].
  Qed.
  Lemma kz_lim x : is_lim (kz x) m_infty m_infty.
  Proof.
    unfold kz. pose proof (sl_pos x).
    apply (is_lim_ext (fun y => sl x * y + (- (sl x * (rho * x))))); [intros; ring|].
    replace m_infty with (Rbar_plus m_infty (- (sl x * (rho * x)))) at 2 by reflexivity.
    apply (is_lim_plus _ _ _ m_infty (Finite (- (sl x * (rho * x))))); [|apply is_lim_const|reflexivity].
    replace m_infty with (Rbar_mult (sl x) m_infty) at 2. { apply is_lim_scal_l, is_lim_id. }
    cbn. destruct (Rle_dec 0 (sl x)) as [h|n]; [|lra]. destruct (Rle_lt_or_eq_dec _ _ h); [reflexivity|lra].
  Qed.
  Lemma kz_lim_p x : is_lim (kz x) p_infty p_infty.
  Proof.
    unfold kz. pose proof (sl_pos x).
    apply (is_lim_ext (fun y => sl x * y + (- (sl x * (rho * x))))); [intros; ring|].
    replace p_infty with (Rbar_plus p_infty (- (sl x * (rho * x)))) at 2 by reflexivity.
    apply (is_lim_plus _ _ _ p_infty (Finite (- (sl x * (rho * x))))); [|apply is_lim_const|reflexivity].
    replace p_infty with (Rbar_mult (sl x) p_infty) at 2. { apply is_lim_scal_l, is_lim_id. }
    cbn. destruct (Rle_dec 0 (sl x)) as [h|n]; [|lra]. destruct (Rle_lt_or_eq_dec _ _ h); [reflexivity|lra].
  Qed.
  Lemma G_lim x : is_lim (fun y => f x * F1 (kz x y)) m_infty 0.
  Proof.
    replace (Finite 0) with (Rbar_mult (f x) 0) by (cbn; f_equal; ring). apply is_lim_scal_l.
    apply (is_lim_comp F1 (kz x) m_infty 0 m_infty); [apply DF1|apply kz_lim|exists 0; intros; discriminate].
  Qed.
  Lemma km_cont2 x y : continuous (km x) y.
  Proof.
    destruct DF1 as [_ [_ [C _]]]. unfold km. apply (continuous_mult (fun _ => f x) (fun y => f1 (kz x y) * sl x)); [apply continuous_const|].
    apply (continuous_mult (fun y => f1 (kz x y)) (fun _ => sl x)); [|apply continuous_const].
    apply (continuous_comp (kz x) f1); [|apply C]. apply (ex_derive_continuous (V := R_NormedModule)). eexists. apply kz_derive.
  Qed.
  Lemma G_cont1 y x : continuous (fun x => f x * F1 (kz x y)) x.
  Proof.
    destruct DF as [_ [_ [C _]]]. apply (continuous_mult f (fun x => F1 (kz x y))); [apply C|]. apply (continuous_comp (fun x => kz x y) F1); [apply kz_cont1|apply F1_cont].
  Qed.
  Lemma M_integral_x x y : integral_up_to (fun s => f s * F1 (kz s y)) x (M x y).
  Proof.
    destruct HM as [[G [G1 G2]] _].
    assert (E : forall s t, G s t = f s * F1 (kz s t)).
    { intros s t. apply (gen_unique (km s) t); [apply G1|]. apply (gen_value (km s) (fun y => f s * F1 (kz s y))); [intros; apply G_derive|intros; apply km_cont2|apply G_lim]. }
    specialize (G2 x y). unfold integral_up_to in *. refine (is_RInt_gen_ext _ _ _ _ G2). apply filter_forall. intros ab s _. apply E.
  Qed.
  Lemma M_integral_y x y : integral_up_to (fun t => f t * F1 (kz t x)) y (M x y).
  Proof.
    destruct HM as [_ [G [G1 G2]]].
    assert (E : forall s t, G s t = f t * F1 (kz t s)).
    { intros s t. apply (gen_unique (km t) s).
      - specialize (G1 s t). unfold integral_up_to in *. refine (is_RInt_gen_ext _ _ _ _ G1). apply filter_forall. intros ab x' _. apply sym.
      - apply (gen_value (km t) (fun y => f t * F1 (kz t y))); [intros; apply G_derive|intros; apply km_cont2|apply G_lim]. }
    specialize (G2 x y). unfold integral_up_to in *. refine (is_RInt_gen_ext _ _ _ _ G2). apply filter_forall. intros ab s _. apply E.
  Qed.
  Lemma M_derive_x x y : is_derive (fun x => M x y) x (f x * F1 (kz x y)).
  Proof. apply (gen_primitive (fun s => f s * F1 (kz s y)) (fun x => M x y)); [intros; apply G_cont1|intros; apply M_integral_x]. Qed.
  Lemma M_derive_y x y : is_derive (M x) y (f y * F1 (kz y x)).
  Proof. apply (gen_primitive (fun t => f t * F1 (kz t x)) (M x)); [intros; apply G_cont1|intros; apply M_integral_y]. Qed.
  Lemma M_lim_x y : is_lim (fun x => M x y) m_infty 0.
  Proof. apply (gen_vanish (fun s => f s * F1 (kz s y)) (fun x => M x y)); [intros; apply G_cont1|intros; apply M_integral_x]. Qed.
  Lemma M_bounds x y : 0 <= M x y <= F x.
  Proof.
    split.
    - apply (vanish_nonneg (fun x => M x y) (fun x => f x * F1 (kz x y))); [intros; apply M_derive_x| |apply M_lim_x].
      intros t. destruct DF as [_ [P _]]. pose proof (P t). pose proof (dist_range F1 f1 DF1 (kz t y)). nra.
    - assert (0 <= F x - M x y); [|lra]. destruct DF as [D [P [_ [L _]]]].
      apply (vanish_nonneg (fun x => F x - M x y) (fun x => f x - f x * F1 (kz x y))).
      + intros t. apply (is_derive_minus F (fun x => M x y)); [apply D|apply M_derive_x].
      + intros t. pose proof (P t). pose proof (dist_range F1 f1 DF1 (kz t y)). nra.
      + replace (Finite 0) with (Rbar_minus 0 0) by (cbn; f_equal; ring). apply is_lim_minus'; [exact L|apply M_lim_x].
  Qed.

  Definition kC (u v : R) : R := M (q u) (q v).
  Lemma kC_derive_u u v : 0 < u < 1 -> is_derive (fun u => kC u v) u (F1 (kz (q u) (q v))).
  Proof.
    intros Hu. unfold kC. pose proof (proj1 (proj2 DF) (q u)) as P.
    evar_last; [apply (is_derive_comp (fun x => M x (q v)) q); [apply M_derive_x|apply (quantile_derive F f DF q Hq u Hu)]|].
    unfold scal; cbn; unfold mult; cbn. field. lra.
  Qed.
  Lemma kC_derive_v u v : 0 < v < 1 -> is_derive (kC u) v (F1 (kz (q v) (q u))).
  Proof.
    intros Hv. unfold kC. pose proof (proj1 (proj2 DF) (q v)) as P.
    evar_last; [apply (is_derive_comp (M (q u)) q); [apply M_derive_y|apply (quantile_derive F f DF q Hq v Hv)]|].
    unfold scal; cbn; unfold mult; cbn. field. lra.
  Qed.
  Lemma kernel_derive u v : 0 < v < 1 -> is_derive (fun v => F1 (kz (q u) (q v))) v (km (q u) (q v) / (f (q u) * f (q v))).
  Proof.
    intros Hv. destruct DF1 as [D _]. pose proof (proj1 (proj2 DF) (q v)) as P. pose proof (proj1 (proj2 DF) (q u)) as P'.
    evar_last; [apply (is_derive_comp (fun y => F1 (kz (q u) y)) q); [apply (is_derive_comp F1 (kz (q u))); [apply D|apply kz_derive]|apply (quantile_derive F f DF q Hq v Hv)]|].
    unfold scal; cbn; unfold mult; cbn. unfold km. field. lra.
  Qed.
  Lemma kernel_lim_0 u : lim_0 (fun v => F1 (kz (q u) (q v))) 0.
  Proof.
    intros e He. destruct DF1 as [_ [_ [_ [L _]]]].
    assert (LL : is_lim (fun y => F1 (kz (q u) y)) m_infty 0) by (apply (is_lim_comp F1 (kz (q u)) m_infty 0 m_infty); [exact L|apply kz_lim|exists 0; intros; discriminate]).
    apply is_lim_spec in LL. destruct (LL (mkposreal e He)) as [A HA]. destruct (quantile_0 F f DF q Hq A) as [d [Hd K]].
    exists (Rmin d 1). split; [apply Rmin_pos; lra|]. intros v Hv. pose proof (Rmin_l d 1). pose proof (Rmin_r d 1). apply HA, K; lra.
  Qed.
  Lemma kernel_lim_1 u : lim_1 (fun v => F1 (kz (q u) (q v))) 1.
  Proof.
    intros e He. destruct DF1 as [_ [_ [_ [_ L]]]].
    assert (LL : is_lim (fun y => F1 (kz (q u) y)) p_infty 1) by (apply (is_lim_comp F1 (kz (q u)) p_infty 1 p_infty); [exact L|apply kz_lim_p|exists 0; intros; discriminate]).
    apply is_lim_spec in LL. destruct (LL (mkposreal e He)) as [A HA]. destruct (quantile_1 F f DF q Hq A) as [d [Hd K]].
    exists (Rmin (1 - d) 1). split; [apply Rmin_pos; lra|]. intros v Hv. pose proof (Rmin_l (1 - d) 1). pose proof (Rmin_r (1 - d) 1). apply HA, K; lra.
  Qed.

  Lemma M_diag_derive x : is_derive (fun x => M x x) x (2 * (f x * F1 (kz x x))).
  Proof.
    assert (Df : differentiable_pt_lim M x x (f x * F1 (kz x x)) (f x * F1 (kz x x))).
    { apply filterdiff_differentiable_pt_lim.
      eapply filterdiff_ext_lin; [apply (is_derive_filterdiff M x x (fun x y => f x * F1 (kz x y)) (f x * F1 (kz x x)))|].
      - apply filter_forall. intros [a b]. apply M_derive_x.
      - apply M_derive_y.
      - cbn. destruct DF as [_ [_ [C _]]].
        apply (continuous_mult (fun u : R * R => f (fst u)) (fun u : R * R => F1 (kz (fst u) (snd u)))).
        + apply (continuous_comp (fun u : R * R => fst u) f); [apply continuous_fst|apply C].
        + apply (continuous_comp (fun u : R * R => kz (fst u) (snd u)) F1); [|apply F1_cont]. unfold kz.
          apply (continuous_mult (fun u : R * R => sl (fst u)) (fun u : R * R => snd u - rho * fst u)).
          * apply (continuous_comp (fun u : R * R => fst u) sl); [apply continuous_fst|apply sl_cont].
          * apply (continuous_minus (V := R_NormedModule) (fun u : R * R => snd u) (fun u : R * R => rho * fst u)); [apply continuous_snd|].
            apply (continuous_mult (fun _ : R * R => rho) (fun u : R * R => fst u)); [apply continuous_const|apply continuous_fst].
      - intros [a b]. unfold plus, scal; cbn; unfold mult; cbn. ring. }
    apply is_derive_Reals. replace (2 * (f x * F1 (kz x x))) with (f x * F1 (kz x x) * 1 + f x * F1 (kz x x) * 1) by ring.
    apply (derivable_pt_lim_comp_2d M (fun x => x) (fun x => x)); [exact Df|apply derivable_pt_lim_id|apply derivable_pt_lim_id].
  Qed.
  Lemma diag_derive u : 0 < u < 1 -> is_derive (fun u => kC u u) u (2 * F1 (kz (q u) (q u))).
  Proof.
    intros Hu. unfold kC. pose proof (proj1 (proj2 DF) (q u)) as P.
    evar_last; [apply (is_derive_comp (fun x => M x x) q); [apply M_diag_derive|apply (quantile_derive F f DF q Hq u Hu)]|].
    unfold scal; cbn; unfold mult; cbn. field. lra.
  Qed.
  Lemma kC_bounds u v : 0 < u < 1 -> 0 <= kC u v <= u.
  Proof. intros Hu. unfold kC. rewrite <- (Hq u Hu) at 3. apply M_bounds. Qed.
  (** the diagonal section near 0 *)
  Lemma diag_lim_0 L : lim_0 (fun u => 2 * F1 (kz (q u) (q u))) L -> lim_0 (fun u => kC u u / u) L.
  Proof.
    intros H e He. destruct (H (e / 2) ltac:(lra)) as [d [Hd K]]. exists (Rmin d 1). split; [apply Rmin_pos; lra|]. intros u Hu.
    pose proof (Rmin_l d 1). pose proof (Rmin_r d 1).
    assert (B : forall w, 0 < w < u -> Rabs (kC u u - L * u) <= e / 2 * u + (1 + Rabs L) * w).
    { intros w Hw. destruct (MVT_gen (fun u => kC u u) w u (fun u => 2 * F1 (kz (q u) (q u)))) as [c [Hc Ec]].
      - intros t Ht. rewrite Rmin_left, Rmax_right in Ht by lra. apply diag_derive. lra.
      - intros t Ht. rewrite Rmin_left, Rmax_right in Ht by lra. apply (cont_of_derive (fun u => kC u u) t (2 * F1 (kz (q t) (q t)))), diag_derive. lra.
      - rewrite Rmin_left, Rmax_right in Hc by lra. specialize (K c ltac:(lra)). pose proof (kC_bounds w w ltac:(lra)) as Kw.
        replace (kC u u - L * u) with ((2 * F1 (kz (q c) (q c)) - L) * (u - w) + kC w w - L * w) by lra.
        apply Rle_trans with (1 := Rabs_triang _ _). apply Rle_trans with (Rabs ((2 * F1 (kz (q c) (q c)) - L) * (u - w)) + Rabs (kC w w) + Rabs (- (L * w))).
        { apply Rplus_le_compat_r. apply Rabs_triang. }
        rewrite Rabs_Ropp, !Rabs_mult, (Rabs_pos_eq (u - w)), (Rabs_pos_eq w), (Rabs_pos_eq (kC w w)) by lra.
        pose proof (Rabs_pos (2 * F1 (kz (q c) (q c)) - L)). nra. }
    assert (B0 : Rabs (kC u u - L * u) <= e / 2 * u).
    { apply le_epsilon. intros x Hx. pose proof (Rabs_pos L) as PL. set (w := Rmin (u / 2) (x / (1 + Rabs L))).
      assert (W : 0 < w /\ w <= u / 2 /\ w <= x / (1 + Rabs L)).
      { unfold w. repeat split; [apply Rmin_pos; [lra|apply Rdiv_lt_0_compat; lra]|apply Rmin_l|apply Rmin_r]. }
      specialize (B w ltac:(lra)). assert ((1 + Rabs L) * w <= x); [|lra].
      apply Rle_trans with ((1 + Rabs L) * (x / (1 + Rabs L))); [apply Rmult_le_compat_l; lra|]. right. field. lra. }
    replace (kC u u / u - L) with ((kC u u - L * u) / u) by (field; lra). unfold Rdiv. rewrite Rabs_mult, (Rabs_pos_eq (/ u)) by (left; apply Rinv_0_lt_compat; lra).
    apply Rmult_lt_reg_r with u; [lra|]. rewrite Rmult_assoc, Rinv_l, Rmult_1_r by lra. nra.
  Qed.
  (** radial symmetry of the diagonal section *)
  Hypothesis even : forall x, f (- x) = f x.
  Hypothesis even1 : forall x, f1 (- x) = f1 x.
  Hypothesis sl_even : forall x, sl (- x) = sl x.
  Lemma kz_odd x y : kz (- x) (- y) = - kz x y.
  Proof. unfold kz. rewrite sl_even. ring. Qed.
  Lemma diag_reflect u : 0 < u < 1 -> kC (1 - u) (1 - u) = 1 - 2 * u + kC u u.
  Proof.
    intros Hu.
    assert (D : forall t, 0 < t < 1 -> is_derive (fun t => kC (1 - t) (1 - t) - kC t t + 2 * t) t 0).
    { intros t Ht. pose proof (diag_derive t Ht) as D1. pose proof (diag_derive (1 - t) ltac:(lra)) as D2.
      rewrite (quantile_reflect F f DF q Hq even t Ht), kz_odd, (even_reflect F1 f1 DF1 even1) in D2.
      evar_last.
      - apply (is_derive_plus (fun t => kC (1 - t) (1 - t) - kC t t) (fun t => 2 * t)); [|apply (is_derive_scal (fun t => t) t 2 1), (is_derive_id t)].
        apply (is_derive_minus (fun t => kC (1 - t) (1 - t)) (fun t => kC t t)); [|exact D1].
        apply (is_derive_comp (fun t => kC t t) (fun t => 1 - t) t (2 * (1 - F1 (kz (q t) (q t)))) (-1)); [exact D2|]. auto_derive; [exact Logic.I|ring].
      - unfold plus, minus, opp, scal; cbn; unfold mult; cbn. ring. }
    assert (E : kC (1 - u) (1 - u) - kC u u + 2 * u = kC (1 - 1 / 2) (1 - 1 / 2) - kC (1 / 2) (1 / 2) + 2 * (1 / 2)).
    { destruct (MVT_gen (fun t => kC (1 - t) (1 - t) - kC t t + 2 * t) (1 / 2) u (fun _ => 0)) as [c [_ Hc]].
      - intros t Ht. apply D. pose proof (Rmin_glb_lt (1 / 2) u 0 ltac:(lra) ltac:(lra)). pose proof (Rmax_lub_lt (1 / 2) u 1 ltac:(lra) ltac:(lra)). lra.
      - intros t Ht. apply (cont_of_derive (fun t => kC (1 - t) (1 - t) - kC t t + 2 * t) t 0), D.
        pose proof (Rmin_glb_lt (1 / 2) u 0 ltac:(lra) ltac:(lra)). pose proof (Rmax_lub_lt (1 / 2) u 1 ltac:(lra) ltac:(lra)). lra.
      - lra. }
    replace (1 - 1 / 2) with (1 / 2) in E by lra. lra.
  Qed.
  Lemma diag_lim_1 L : lim_0 (fun u => kC u u / u) L -> lim_1 (fun u => (1 - 2 * u + kC u u) / (1 - u)) L.
  Proof.
    intros H e He. destruct (H e He) as [d [Hd K]]. exists (Rmin d 1). split; [apply Rmin_pos; lra|]. intros u Hu.
    pose proof (Rmin_l d 1). pose proof (Rmin_r d 1). specialize (K (1 - u) ltac:(lra)). rewrite diag_reflect in K by lra. exact K.
  Qed.
End Kernel.
