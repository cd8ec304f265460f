(** The normal distribution function: the Gaussian integral, by differentiating (int_0^x e^(-t^2/2) dt)^2 + 2 int_0^1 e^(-x^2(1+t^2)/2)/(1+t^2) dt. *)
From Coquelicot Require Import Coquelicot.
From Verif Require Import Base RSumLib.
Open Scope R_scope.

Definition gk (t : R) : R := exp (- (t * t) / 2).
Definition gI (x : R) : R := RInt gk 0 x.
Definition gj (x t : R) : R := exp (- (x * x) * (1 + t * t) / 2) / (1 + t * t).
Definition gJ (x : R) : R := RInt (gj x) 0 1.

Lemma cont_of_derive (f : R -> R) x l : is_derive f x l -> continuity_pt f x.
Proof. intros D. apply continuity_pt_filterlim, (ex_derive_continuous (V := R_NormedModule)). eexists. exact D. Qed.
Lemma gk_cont x : continuous gk x.
Proof. apply (ex_derive_continuous (V := R_NormedModule)). unfold gk. auto_derive. exact Logic.I. Qed.
Lemma gI_derive x : is_derive gI x (gk x).
Proof.
  unfold gI. apply (is_derive_RInt (V := R_NormedModule) gk (fun b => RInt gk 0 b) 0 x); [|apply gk_cont].
  exists (mkposreal 1 Rlt_0_1). intros y _. apply (RInt_correct (V := R_CompleteNormedModule)), (ex_RInt_continuous (V := R_CompleteNormedModule)). intros; apply gk_cont.
Qed.
Lemma one_sq t : 0 < 1 + t * t.
Proof. nra. Qed.
Lemma gj_derive x t : is_derive (fun u => gj u t) x (- x * exp (- (x * x) * (1 + t * t) / 2)).
Proof. pose proof (one_sq t). unfold gj. auto_derive; [lra|]. unfold Rdiv. set (e := exp _). field. lra. Qed.
Lemma cont2_exp (f : R -> R -> R) x y : continuity_2d_pt f x y -> continuity_2d_pt (fun u v => exp (f u v)) x y.
Proof. intros H. apply (continuity_1d_2d_pt_comp exp f); [|exact H]. apply derivable_continuous, derivable_exp. Qed.
Lemma gj_cont x t : continuous (gj x) t.
Proof. pose proof (one_sq t). apply (ex_derive_continuous (V := R_NormedModule)). unfold gj. auto_derive. lra. Qed.
Lemma gJ_derive x : is_derive gJ x (RInt (fun t => - x * exp (- (x * x) * (1 + t * t) / 2)) 0 1).
Proof.
  replace (RInt (fun t => - x * exp (- (x * x) * (1 + t * t) / 2)) 0 1) with (RInt (fun t => Derive (fun u => gj u t) x) 0 1)
    by (apply RInt_ext; intros t _; apply is_derive_unique, gj_derive).
  unfold gJ. apply (is_derive_RInt_param gj).
  - exists (mkposreal 1 Rlt_0_1). intros y _ t _. eexists. apply gj_derive.
  - intros t _. apply (continuity_2d_pt_ext (fun u v => - u * exp (- (u * u) * (1 + v * v) / 2))).
    { intros u v. symmetry. apply is_derive_unique, gj_derive. }
    apply continuity_2d_pt_mult; [apply continuity_2d_pt_opp, continuity_2d_pt_id1|]. apply cont2_exp.
    apply continuity_2d_pt_mult; [|apply continuity_2d_pt_const].
    apply continuity_2d_pt_mult.
    + apply continuity_2d_pt_opp, continuity_2d_pt_mult; apply continuity_2d_pt_id1.
    + apply continuity_2d_pt_plus; [apply continuity_2d_pt_const|]. apply continuity_2d_pt_mult; apply continuity_2d_pt_id2.
  - exists (mkposreal 1 Rlt_0_1). intros y _. apply (ex_RInt_continuous (V := R_CompleteNormedModule)). intros; apply gj_cont.
Qed.
Lemma scaled x : RInt (fun t => - x * exp (- (x * x) * (1 + t * t) / 2)) 0 1 = - gk x * gI x.
Proof.
  replace (RInt (fun t => - x * exp (- (x * x) * (1 + t * t) / 2)) 0 1) with (RInt (fun t => scal (- gk x) (scal x (gk (x * t + 0)))) 0 1).
  2: { apply RInt_ext. intros t _. unfold scal; cbn; unfold mult; cbn. unfold gk.
       transitivity (- x * (exp (- (x * x) / 2) * exp (- ((x * t + 0) * (x * t + 0)) / 2))); [ring|]. rewrite <- exp_plus. f_equal. f_equal. field. }
  assert (E : ex_RInt (fun t => scal x (gk (x * t + 0))) 0 1).
  { apply (ex_RInt_continuous (V := R_CompleteNormedModule)). intros t _. apply (ex_derive_continuous (V := R_NormedModule)). unfold gk, scal; cbn; unfold mult; cbn. auto_derive. exact Logic.I. }
  transitivity (scal (- gk x) (RInt (V := R_CompleteNormedModule) (fun t => scal x (gk (x * t + 0))) 0 1)).
  { exact (RInt_scal (V := R_CompleteNormedModule) (fun t => scal x (gk (x * t + 0))) 0 1 (- gk x) E). }
  transitivity (scal (- gk x) (RInt gk (x * 0 + 0) (x * 1 + 0))).
  { f_equal. apply (RInt_comp_lin (V := R_CompleteNormedModule) gk x 0 0 1). apply (ex_RInt_continuous (V := R_CompleteNormedModule)). intros; apply gk_cont. }
  unfold gI. replace (x * 0 + 0) with 0 by ring. replace (x * 1 + 0) with x by ring. reflexivity.
Qed.
Lemma gsum_const x : gI x * gI x + 2 * gJ x = PI / 2.
Proof.
  assert (D : forall y, is_derive (fun x => gI x * gI x + 2 * gJ x) y 0).
  { intros y. pose proof (gI_derive y) as D1. pose proof (gJ_derive y) as D2. rewrite scaled in D2.
    evar_last; [apply (is_derive_plus (fun x => gI x * gI x) (fun x => 2 * gJ x)); [apply (is_derive_mult gI gI y _ _ D1 D1); intros; apply Rmult_comm|apply (is_derive_scal gJ y 2 _ D2)]|].
    unfold plus, mult, scal; cbn; unfold mult; cbn. ring. }
  assert (E0 : gI 0 * gI 0 + 2 * gJ 0 = PI / 2).
  { assert (Z : gI 0 = 0) by (unfold gI; rewrite RInt_point; reflexivity). rewrite Z.
    replace (gJ 0) with (PI / 4); [field|]. unfold gJ.
    rewrite <- atan_1. symmetry. apply is_RInt_unique.
    assert (A : is_RInt (fun t => / (1 + t * t)) 0 1 (minus (atan 1) (atan 0))).
    { apply (is_RInt_derive (V := R_CompleteNormedModule) atan).
      - intros t _. apply is_derive_Reals. evar_last; [apply derivable_pt_lim_atan|]. unfold Rsqr. field. nra.
      - intros t _. pose proof (one_sq t). apply (ex_derive_continuous (V := R_NormedModule)). auto_derive. lra. }
    unfold minus, plus, opp in A; cbn in A. rewrite atan_0, Ropp_0, Rplus_0_r in A.
    refine (is_RInt_ext _ _ _ _ _ _ A). intros t _. assert (Q : / (1 + t * t) = gj 0 t); [|exact Q]. unfold gj. replace (- (0 * 0) * (1 + t * t) / 2) with 0 by field. rewrite exp_0. pose proof (one_sq t). field. lra. }
  assert (K : forall y, gI y * gI y + 2 * gJ y = gI 0 * gI 0 + 2 * gJ 0).
  { intros y. destruct (MVT_gen (fun x => gI x * gI x + 2 * gJ x) 0 y (fun _ => 0)) as [c [_ Hc]].
    - intros t _. apply D.
    - intros t _. apply cont_of_derive with 0, D.
    - lra. }
  rewrite K. exact E0.
Qed.
Lemma gJ_bound x : 0 <= gJ x <= gk x.
Proof.
  assert (E : ex_RInt (gj x) 0 1) by (apply (ex_RInt_continuous (V := R_CompleteNormedModule)); intros; apply gj_cont).
  unfold gJ. split.
  - apply RInt_ge_0; [lra|exact E|]. intros t _. unfold gj. pose proof (one_sq t). apply Rlt_le, Rdiv_lt_0_compat; [apply exp_pos|lra].
  - replace (gk x) with (RInt (fun _ => gk x) 0 1) by (rewrite (RInt_const (V := R_CompleteNormedModule)); unfold scal; cbn; unfold mult; cbn; ring).
    apply RInt_le; [lra|exact E|apply (ex_RInt_const (V := R_CompleteNormedModule))|]. intros t _. unfold gj, gk. pose proof (one_sq t).
    apply Rle_trans with (exp (- (x * x) * (1 + t * t) / 2)).
    + apply Rmult_le_reg_r with (1 + t * t); [lra|]. unfold Rdiv at 1. rewrite Rmult_assoc, Rinv_l, Rmult_1_r by lra. pose proof (exp_pos (- (x * x) * (1 + t * t) / 2)). nra.
    + destruct (Req_dec (- (x * x) * (1 + t * t) / 2) (- (x * x) / 2)) as [->|N]; [lra|]. left. apply exp_increasing.
      assert (- (x * x) * (1 + t * t) / 2 <= - (x * x) / 2); [|lra]. pose proof (Rle_0_sqr (x * t)). unfold Rsqr in *. nra.
Qed.
Lemma gk_lim : is_lim gk p_infty 0.
Proof.
  apply (is_lim_le_le_loc (fun _ => 0) (fun x => exp (- x))).
  - exists 2. intros x Hx. unfold gk. split; [left; apply exp_pos|]. left. apply exp_increasing. nra.
  - apply is_lim_const.
  - apply (is_lim_comp exp (fun x => - x) p_infty 0 m_infty); [apply is_lim_exp_m| |exists 0; intros; discriminate].
    change m_infty with (Rbar_opp p_infty). apply is_lim_opp, is_lim_id.
Qed.
Lemma gI_pos x : 0 <= x -> 0 <= gI x.
Proof. intros H. unfold gI. apply RInt_ge_0; [exact H|apply (ex_RInt_continuous (V := R_CompleteNormedModule)); intros; apply gk_cont|]. intros; left; apply exp_pos. Qed.
Lemma gI_lim : is_lim gI p_infty (sqrt (PI / 2)).
Proof.
  assert (L : is_lim (fun x => gI x * gI x) p_infty (PI / 2)).
  { apply (is_lim_ext (fun x => PI / 2 - 2 * gJ x)); [intros x; pose proof (gsum_const x); lra|].
    replace (Finite (PI / 2)) with (Rbar_minus (PI / 2) (Rbar_mult 2 0)) by (cbn; f_equal; ring).
    apply is_lim_minus'; [apply is_lim_const|]. cbn. replace (2 * 0) with 0 by ring.
    apply (is_lim_le_le_loc (fun _ => 0) (fun x => 2 * gk x)).
    - exists 0. intros x _. pose proof (gJ_bound x) as [Q1 Q2]. split; cbn in *; lra.
    - apply is_lim_const.
    - replace (Finite 0) with (Rbar_mult 2 0) by (cbn; f_equal; ring). apply is_lim_scal_l, gk_lim. }
  apply (is_lim_ext_loc (fun x => sqrt (gI x * gI x))).
  { exists 0. intros x Hx. rewrite sqrt_square; [reflexivity|apply gI_pos; lra]. }
  apply (is_lim_comp sqrt (fun x => gI x * gI x) p_infty (sqrt (PI / 2)) (PI / 2)); [|exact L|].
  2: { exists 0. intros x _ E. injection E as E. pose proof (gsum_const x). pose proof (gJ_bound x).
       assert (0 < gJ x); [|lra]. unfold gJ. apply RInt_gt_0; [lra| |intros; apply gj_cont].
       intros t _. unfold gj. pose proof (one_sq t). apply Rdiv_lt_0_compat; [apply exp_pos|lra]. }
  apply is_lim_continuity. apply continuity_pt_sqrt. pose proof PI_RGT_0. lra.
Qed.
Lemma gI_odd x : gI (- x) = - gI x.
Proof.
  assert (D : forall y, is_derive (fun y => gI (- y) + gI y) y 0).
  { intros y. evar_last; [apply (is_derive_plus (fun y => gI (- y)) gI); [apply (is_derive_comp gI (fun y => - y)); [apply gI_derive|auto_derive; [exact Logic.I|reflexivity]]|apply gI_derive]|].
    unfold plus, scal; cbn; unfold mult; cbn. unfold gk. replace (- (- y * - y) / 2) with (- (y * y) / 2) by field. ring. }
  destruct (MVT_gen (fun y => gI (- y) + gI y) 0 x (fun _ => 0)) as [c [_ Hc]].
  - intros t _. apply D.
  - intros t _. apply cont_of_derive with 0, D.
  - assert (Z : gI 0 = 0) by (unfold gI; rewrite RInt_point; reflexivity). rewrite Ropp_0, Z in Hc. lra.
Qed.
