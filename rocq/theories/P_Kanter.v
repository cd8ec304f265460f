(** Kanter's representation has the positive stable law: its Laplace transform is exp(- t ^ alpha).  Writing the conditional transform
    given the angle as an integral over r, the sum over the angles is the integral of an exact derivative over the upper half plane. *)
From Coquelicot Require Import Coquelicot.
From Verif Require Import Base RSumLib Ext S_Sampling T_Stable.
From Coq Require Import Psatz Classical_Prop.
Local Close Scope Z_scope. Open Scope R_scope.

Lemma near_pos (P : R -> Prop) x lo hi : lo < x < hi -> (forall y, lo < y < hi -> P y) -> locally x P.
Proof.
  intros H Q. assert (E : 0 < Rmin (x - lo) (hi - x)) by (apply Rmin_pos; lra). exists (mkposreal _ E). intros y By. change (Rabs (y - x) < Rmin (x - lo) (hi - x)) in By.
  pose proof (Rmin_l (x - lo) (hi - x)). pose proof (Rmin_r (x - lo) (hi - x)). apply Rabs_def2 in By. apply Q. lra.
Qed.
Lemma cont_of_d (f : R -> R) x d : is_derive f x d -> continuity_pt f x.
Proof. intros H. apply continuity_pt_filterlim. apply (ex_derive_continuous (V := R_NormedModule)). exists d. exact H. Qed.
Lemma k2_fst (f : R -> R) a b : continuity_pt f a -> continuity_2d_pt (fun u _ => f u) a b.
Proof. intros H. apply (continuity_1d_2d_pt_comp f (fun u _ => u)); [exact H|apply continuity_2d_pt_id1]. Qed.
Lemma k2_snd (f : R -> R) a b : continuity_pt f b -> continuity_2d_pt (fun _ v => f v) a b.
Proof. intros H. apply (continuity_1d_2d_pt_comp f (fun _ v => v)); [exact H|apply continuity_2d_pt_id2]. Qed.

Section Kanter.
  Variables (al t : R).
  Hypothesis Hal : 0 < al < 1.
  Hypothesis Ht : 0 < t.
  Definition cc (p : R) : R := sin (al * p) / sin p.
  Definition kk (p : R) : R := sin ((1 - al) * p) / sin p.
  Definition xx (r : R) : R := Rpower r (al - 1).
  Definition WW (p r : R) : R := exp (- (t * cc p * xx r) - kk p * (r * xx r)).
  Definition qq (p r : R) : R := r * r - 2 * t * r * cos p + t * t.
  Definition pp (p r : R) : R := t * sin p / qq p r.
  Definition mm (p r : R) : R := r * (t * cos p - r) / qq p r.
  Definition cc' (p : R) : R := (al * kk p - (1 - al) * cc p * cos p) / sin p.
  Definition kk' (p : R) : R := ((1 - al) * cc p - al * kk p * cos p) / sin p.
  Definition pp' (p r : R) : R := (t * cos p * qq p r - t * sin p * (2 * t * r * sin p)) / (qq p r * qq p r).
  Definition dWp (p r : R) : R := WW p r * (- (t * cc' p * xx r) - kk' p * (r * xx r)) * pp p r + WW p r * pp' p r.
  Definition dd (p r : R) : R := WW p r * (al * kk p * xx r).

  Lemma xx_pos r : 0 < xx r. Proof. apply exp_pos. Qed.
  Lemma WW_pos p r : 0 < WW p r. Proof. apply exp_pos. Qed.
  Lemma qq_1 p r : qq p r = (r - t * cos p) * (r - t * cos p) + t * sin p * (t * sin p).
  Proof. unfold qq. pose proof (sin2_cos2 p) as S. unfold Rsqr in S. transitivity (r * r - 2 * t * r * cos p + t * t * (sin p * sin p + cos p * cos p)); [rewrite S; ring|ring]. Qed.
  Lemma qq_2 p r : qq p r = (t - r * cos p) * (t - r * cos p) + r * sin p * (r * sin p).
  Proof. unfold qq. pose proof (sin2_cos2 p) as S. unfold Rsqr in S. transitivity (r * r * (sin p * sin p + cos p * cos p) - 2 * t * r * cos p + t * t); [rewrite S; ring|ring]. Qed.
  Lemma sp p : 0 < p < PI -> 0 < sin p. Proof. intros H. apply sin_gt_0; lra. Qed.
  Lemma qq_pos p r : 0 < p < PI -> 0 < qq p r.
  Proof. intros H. rewrite qq_1. pose proof (sp p H) as S. assert (V : 0 < t * sin p) by (apply Rmult_lt_0_compat; lra). pose proof (Rle_0_sqr (r - t * cos p)) as U. unfold Rsqr in U. pose proof (Rmult_lt_0_compat _ _ V V). lra. Qed.
  Lemma al_in p : 0 < p < PI -> 0 < al * p < PI /\ 0 < (1 - al) * p < PI.
  Proof. intros H. assert (0 < al * p) by nra. assert (0 < (1 - al) * p) by nra. nra. Qed.
  Lemma cc_pos p : 0 < p < PI -> 0 < cc p.
  Proof. intros H. destruct (al_in p H). apply Rdiv_lt_0_compat; apply sp; assumption. Qed.
  Lemma kk_pos p : 0 < p < PI -> 0 < kk p.
  Proof. intros H. destruct (al_in p H). apply Rdiv_lt_0_compat; apply sp; assumption. Qed.
  Lemma trig1 p : sin p <> 0 -> cos (al * p) = kk p + cc p * cos p.
  Proof.
    intros H. unfold kk, cc. replace ((1 - al) * p) with (p - al * p) by ring. rewrite sin_minus. field. exact H.
  Qed.
  Lemma trig2 p : sin p <> 0 -> cos ((1 - al) * p) = cc p + kk p * cos p.
  Proof.
    intros H. unfold kk, cc. replace (al * p) with (p - (1 - al) * p) by ring. rewrite sin_minus. field. exact H.
  Qed.
  Lemma cc_derive p : 0 < p < PI -> is_derive cc p (cc' p).
  Proof.
    intros H. pose proof (sp p H) as S. unfold cc. evar_last; [auto_derive; [lra|reflexivity]|]. rewrite (trig1 p) by lra. unfold cc', kk, cc. field. lra.
  Qed.
  Lemma kk_derive p : 0 < p < PI -> is_derive kk p (kk' p).
  Proof.
    intros H. pose proof (sp p H) as S. unfold kk. evar_last; [auto_derive; [lra|reflexivity]|]. rewrite (trig2 p) by lra. unfold kk', kk, cc. field. lra.
  Qed.
  Lemma xx_derive r : 0 < r -> is_derive xx r ((al - 1) * xx r / r).
  Proof. intros H. unfold xx, Rpower. evar_last; [auto_derive; [lra|reflexivity]|]. field. lra. Qed.
  Lemma WW_dp p r : 0 < p < PI -> is_derive (fun p => WW p r) p (WW p r * (- (t * cc' p * xx r) - kk' p * (r * xx r))).
  Proof.
    intros H. unfold WW. evar_last.
    - apply (is_derive_comp exp (fun p => - (t * cc p * xx r) - kk p * (r * xx r))); [apply is_derive_exp|].
      apply (is_derive_minus (V := R_NormedModule) (fun p => - (t * cc p * xx r)) (fun p => kk p * (r * xx r))).
      + apply (is_derive_opp (V := R_NormedModule) (fun p => t * cc p * xx r)). apply (is_derive_ext (fun p => t * xx r * cc p)); [intros; match goal with |- ?a = ?b => change (@eq R a b) end; ring|]. apply (is_derive_scal cc), cc_derive, H.
      + apply (is_derive_ext (fun p => r * xx r * kk p)); [intros; match goal with |- ?a = ?b => change (@eq R a b) end; ring|]. apply (is_derive_scal kk), kk_derive, H.
    - unfold scal, minus, plus, opp; cbn; unfold mult; cbn. ring.
  Qed.
  Lemma WW_dr p r : 0 < r -> is_derive (fun r => WW p r) r (WW p r * ((1 - al) * t * cc p * xx r / r - al * kk p * xx r)).
  Proof.
    intros H. unfold WW. evar_last.
    - apply (is_derive_comp exp (fun r => - (t * cc p * xx r) - kk p * (r * xx r))); [apply is_derive_exp|].
      apply (is_derive_minus (V := R_NormedModule) (fun r => - (t * cc p * xx r)) (fun r => kk p * (r * xx r))).
      + apply (is_derive_opp (V := R_NormedModule) (fun r => t * cc p * xx r)). apply (is_derive_scal xx), xx_derive, H.
      + apply (is_derive_scal (fun r => r * xx r)). apply (is_derive_mult (fun r => r) xx); [apply is_derive_id|apply xx_derive, H|intros; apply Rmult_comm].
    - unfold scal, minus, plus, opp, one; cbn; unfold mult; cbn. field. lra.
  Qed.
  Lemma pp_dp p r : 0 < p < PI -> is_derive (fun p => pp p r) p (pp' p r).
  Proof. intros H. pose proof (qq_pos p r H) as Q. unfold pp, pp', qq in *. evar_last; [auto_derive; [lra|reflexivity]|]. field. lra. Qed.
  Lemma mm_dr p r : 0 < p < PI -> is_derive (fun r => mm p r) r (pp' p r).
  Proof.
    intros H. pose proof (qq_pos p r H) as Q. unfold mm, pp', qq in *. evar_last; [auto_derive; [lra|reflexivity]|].
    pose proof (sin2_cos2 p) as S. unfold Rsqr in S. set (q := r * r - 2 * t * r * cos p + t * t) in *. 
    replace (t * sin p * (2 * t * r * sin p)) with (2 * t * t * r * (1 - cos p * cos p)) by (replace (1 - cos p * cos p) with (sin p * sin p) by lra; ring).
    unfold q. field. exact (Rgt_not_eq _ _ Q).
  Qed.
  Lemma f_dp p r : 0 < p < PI -> is_derive (fun p => WW p r * pp p r) p (dWp p r).
  Proof.
    intros H. evar_last; [apply (is_derive_mult (fun p => WW p r) (fun p => pp p r)); [apply WW_dp, H|apply pp_dp, H|intros; apply Rmult_comm]|].
    unfold plus, mult, dWp; cbn. reflexivity.
  Qed.
  Lemma g_dr p r : 0 < p < PI -> 0 < r -> is_derive (fun r => WW p r * mm p r) r (dWp p r + dd p r).
  Proof.
    intros H Hr. evar_last; [apply (is_derive_mult (fun r => WW p r) (fun r => mm p r)); [apply WW_dr, Hr|apply mm_dr, H|intros; apply Rmult_comm]|].
    unfold plus, mult; cbn. unfold dWp, dd. pose proof (qq_pos p r H) as Q. pose proof (sp p H) as S. unfold mm, pp, cc', kk'. set (w := WW p r). set (x := xx r). set (P := pp' p r). set (c := cc p). set (k := kk p).
    assert (E : ((1 - al) * t * c * x / r - al * k * x) * (r * (t * cos p - r) / qq p r) = (- (t * ((al * k - (1 - al) * c * cos p) / sin p) * x) - ((1 - al) * c - al * k * cos p) / sin p * (r * x)) * (t * sin p / qq p r) + al * k * x).
    { unfold qq in *. field. repeat split; lra. }
    transitivity (w * (((1 - al) * t * c * x / r - al * k * x) * (r * (t * cos p - r) / qq p r)) + w * P); [ring|]. rewrite E. ring.
  Qed.
  (** ** the integral over r between a and b *)
  Lemma xx_cont r : 0 < r -> continuity_pt xx r.
  Proof. intros H. apply (cont_of_d _ _ _ (xx_derive r H)). Qed.
  Lemma sin_c p : continuity_pt sin p. Proof. apply continuity_sin. Qed.
  Lemma cos_c p : continuity_pt cos p. Proof. apply continuity_cos. Qed.
  Lemma cc'_c p : 0 < p < PI -> continuity_pt cc' p.
  Proof. intros H. pose proof (sp p H). apply continuity_pt_filterlim. apply (ex_derive_continuous (V := R_NormedModule)). unfold cc', cc, kk. auto_derive. repeat split; lra. Qed.
  Lemma kk'_c p : 0 < p < PI -> continuity_pt kk' p.
  Proof. intros H. pose proof (sp p H). apply continuity_pt_filterlim. apply (ex_derive_continuous (V := R_NormedModule)). unfold kk', cc, kk. auto_derive. repeat split; lra. Qed.
  Lemma lin2 (f g : R -> R) p r : continuity_pt f p -> continuity_pt g p -> 0 < r -> continuity_2d_pt (fun p r => - (t * f p * xx r) - g p * (r * xx r)) p r.
  Proof.
    intros F G Hr. apply continuity_2d_pt_minus; [apply continuity_2d_pt_opp|]; repeat apply continuity_2d_pt_mult; try apply continuity_2d_pt_const; try apply continuity_2d_pt_id2; try (apply k2_snd, xx_cont, Hr); apply k2_fst; assumption.
  Qed.
  Lemma WW_c2 p r : 0 < p < PI -> 0 < r -> continuity_2d_pt WW p r.
  Proof.
    intros H Hr. apply (continuity_1d_2d_pt_comp exp (fun p r => - (t * cc p * xx r) - kk p * (r * xx r))); [apply derivable_continuous_pt, derivable_pt_exp|].
    apply lin2; [apply (cont_of_d _ _ _ (cc_derive p H))|apply (cont_of_d _ _ _ (kk_derive p H))|exact Hr].
  Qed.
  Lemma qq_c2 p r : continuity_2d_pt qq p r.
  Proof.
    unfold qq. apply continuity_2d_pt_plus; [apply continuity_2d_pt_minus|apply continuity_2d_pt_const]; repeat apply continuity_2d_pt_mult; try apply continuity_2d_pt_const; try apply continuity_2d_pt_id2. apply k2_fst, cos_c.
  Qed.
  Lemma div_c2 (f g : R -> R -> R) p r : continuity_2d_pt f p r -> continuity_2d_pt g p r -> g p r <> 0 -> continuity_2d_pt (fun p r => f p r / g p r) p r.
  Proof. intros F G N. apply continuity_2d_pt_mult; [exact F|apply continuity_2d_pt_inv; assumption]. Qed.
  Lemma dWp_c2 p r : 0 < p < PI -> 0 < r -> continuity_2d_pt dWp p r.
  Proof.
    intros H Hr. pose proof (qq_pos p r H) as Q. unfold dWp. apply continuity_2d_pt_plus; [apply continuity_2d_pt_mult; [apply continuity_2d_pt_mult|]|apply continuity_2d_pt_mult].
    - apply WW_c2; assumption.
    - apply lin2; [apply cc'_c, H|apply kk'_c, H|exact Hr].
    - apply div_c2; [apply continuity_2d_pt_mult; [apply continuity_2d_pt_const|apply k2_fst, sin_c]|apply qq_c2|lra].
    - apply WW_c2; assumption.
    - apply (div_c2 (fun p r => t * cos p * qq p r - t * sin p * (2 * t * r * sin p)) (fun p r => qq p r * qq p r)); [|apply continuity_2d_pt_mult; apply qq_c2|nra].
      apply continuity_2d_pt_minus; repeat apply continuity_2d_pt_mult; try apply continuity_2d_pt_const; try apply continuity_2d_pt_id2; try apply qq_c2; apply k2_fst; (apply sin_c || apply cos_c).
  Qed.
  Lemma c2_slice (f : R -> R -> R) p r : continuity_2d_pt f p r -> continuous (fun r => f p r) r.
  Proof.
    intros H. apply continuity_pt_filterlim. intros e He. destruct (H (mkposreal e He)) as [d Hd]. exists d. split; [apply cond_pos|]. intros y [_ Hy]. cbn in Hy. unfold R_dist in *. apply Hd; [rewrite Rminus_eq_0, Rabs_R0; apply cond_pos|exact Hy].
  Qed.
  Definition II (a b p : R) : R := RInt (fun r => WW p r * pp p r) a b.
  Lemma betw a b r : 0 < a -> a <= b -> Rmin a b <= r <= Rmax a b -> a <= r <= b.
  Proof. intros Ha Hab. rewrite Rmin_left, Rmax_right by lra. auto. Qed.
  Lemma Wp_cont p r : 0 < p < PI -> 0 < r -> continuous (fun r => WW p r * pp p r) r.
  Proof.
    intros H Hr. apply (c2_slice (fun p r => WW p r * pp p r)). apply continuity_2d_pt_mult; [apply WW_c2; assumption|]. apply div_c2; [apply continuity_2d_pt_mult; [apply continuity_2d_pt_const|apply k2_fst, sin_c]|apply qq_c2|]. pose proof (qq_pos p r H). lra.
  Qed.
  Lemma Wp_ex a b p : 0 < a -> a <= b -> 0 < p < PI -> ex_RInt (fun r => WW p r * pp p r) a b.
  Proof. intros Ha Hab H. apply (ex_RInt_continuous (V := R_CompleteNormedModule)). intros r Hr. apply betw in Hr; [|assumption|assumption]. apply Wp_cont; [exact H|lra]. Qed.
  Lemma dd_cont p r : 0 < p < PI -> 0 < r -> continuous (fun r => dd p r) r.
  Proof.
    intros H Hr. apply (c2_slice dd). unfold dd. apply continuity_2d_pt_mult; [apply WW_c2; assumption|]. apply continuity_2d_pt_mult; [apply continuity_2d_pt_mult; [apply continuity_2d_pt_const|apply k2_fst, (cont_of_d _ _ _ (kk_derive p H))]|apply k2_snd, xx_cont, Hr].
  Qed.
  Lemma dd_ex a b p : 0 < a -> a <= b -> 0 < p < PI -> ex_RInt (fun r => dd p r) a b.
  Proof. intros Ha Hab H. apply (ex_RInt_continuous (V := R_CompleteNormedModule)). intros r Hr. apply betw in Hr; [|assumption|assumption]. apply dd_cont; [exact H|lra]. Qed.
  Lemma dWp_int a b p : 0 < a -> a <= b -> 0 < p < PI -> is_RInt (fun r => dWp p r) a b (WW p b * mm p b - WW p a * mm p a - RInt (fun r => dd p r) a b).
  Proof.
    intros Ha Hab H. 
    assert (J : is_RInt (fun r => dWp p r + dd p r) a b (WW p b * mm p b - WW p a * mm p a)).
    { apply (is_RInt_derive (V := R_CompleteNormedModule) (fun r => WW p r * mm p r)).
      - intros r Hr. apply betw in Hr; [|assumption|assumption]. apply g_dr; [exact H|lra].
      - intros r Hr. apply betw in Hr; [|assumption|assumption]. apply (continuous_plus (fun r => dWp p r) (fun r => dd p r)); [apply (c2_slice dWp), dWp_c2; [exact H|lra]|apply dd_cont; [exact H|lra]]. }
    pose proof (is_RInt_minus (V := R_NormedModule) _ _ _ _ _ _ J (RInt_correct (V := R_CompleteNormedModule) _ _ _ (dd_ex a b p Ha Hab H))) as K.
    eapply is_RInt_ext; [|exact K]. intros r _. unfold minus, plus, opp; cbn. ring.
  Qed.
  Lemma II_derive a b p : 0 < a -> a <= b -> 0 < p < PI -> is_derive (II a b) p (WW p b * mm p b - WW p a * mm p a - RInt (fun r => dd p r) a b).
  Proof.
    intros Ha Hab H.
    replace (WW p b * mm p b - WW p a * mm p a - RInt (fun r => dd p r) a b) with (RInt (fun r => Derive (fun p => WW p r * pp p r) p) a b).
    2: { apply (is_RInt_unique (V := R_CompleteNormedModule)). eapply is_RInt_ext; [|apply dWp_int; assumption]. intros r _. symmetry. apply is_derive_unique, f_dp, H. }
    unfold II. apply (is_derive_RInt_param (fun p r => WW p r * pp p r) a b p).
    - apply (near_pos _ p 0 PI H). intros y Hy r _. eexists. apply f_dp, Hy.
    - intros r Hr. apply betw in Hr; [|assumption|assumption]. apply (continuity_2d_pt_ext_loc dWp); [|apply dWp_c2; [exact H|lra]].
      destruct (near_pos (fun y => 0 < y < PI) p 0 PI H (fun y Hy => Hy)) as [d Hd]. exists d. intros u v Hu _. symmetry. apply is_derive_unique, f_dp, Hd, Hu.
    - apply (near_pos _ p 0 PI H). intros y Hy. apply Wp_ex; assumption.
  Qed.
  (** ** the conditional transform *)
  Definition cond (p w : R) : R := exp (- (t * kanter al p w)) * exp (- w).
  Lemma kanter_cc p r : 0 < p < PI -> 0 < r -> kanter al p (kk p * (r * xx r)) = cc p * xx r.
  Proof.
    intros H Hr. destruct (al_in p H) as [A1 A2]. pose proof (sp p H) as S. pose proof (sp _ A1) as S1. pose proof (sp _ A2) as S2. pose proof (xx_pos r) as X. unfold kanter, kk, cc.
    replace (sin ((1 - al) * p) / (sin ((1 - al) * p) / sin p * (r * xx r))) with (sin p * / (r * xx r)) by (field; repeat split; lra).
    assert (Y : r * xx r = Rpower r al) by (unfold xx; replace al with (1 + (al - 1)) at 2 by ring; rewrite Rpower_plus, Rpower_1 by exact Hr; reflexivity).
    rewrite Y. rewrite <- Rpower_Ropp. rewrite <- Rpower_mult_distr by (try exact S; apply exp_pos). rewrite Rpower_mult. unfold xx.
    replace (- al * ((1 - al) / al)) with (al - 1) by (field; lra). set (y := Rpower r (al - 1)).
    assert (Z : Rpower (sin p) ((1 - al) / al) / Rpower (sin p) (1 / al) = / sin p).
    { unfold Rdiv. rewrite <- Rpower_Ropp, <- Rpower_plus. replace ((1 - al) * / al + - (1 * / al)) with (- (1)) by (field; lra). rewrite Rpower_Ropp, Rpower_1 by exact S. reflexivity. }
    transitivity (sin (al * p) * (Rpower (sin p) ((1 - al) / al) / Rpower (sin p) (1 / al)) * y); [unfold Rdiv; ring|]. rewrite Z. reflexivity.
  Qed.
  Lemma cond_cont p w : 0 < p < PI -> 0 < w -> continuous (cond p) w.
  Proof.
    intros H Hw. destruct (al_in p H) as [A1 A2]. pose proof (sp _ A2) as S2. apply (ex_derive_continuous (V := R_NormedModule)). unfold cond, kanter, Rpower. auto_derive.
    assert (0 < sin ((1 - al) * p) / w) by (apply Rdiv_lt_0_compat; lra). repeat split; try lra.
  Qed.
  Lemma dd_cond p a b : 0 < a -> a <= b -> 0 < p < PI -> RInt (fun r => dd p r) a b = RInt (cond p) (kk p * (a * xx a)) (kk p * (b * xx b)).
  Proof.
    intros Ha Hab H. pose proof (kk_pos p H) as K. apply (is_RInt_unique (V := R_CompleteNormedModule)).
    apply (is_RInt_ext (fun r => scal (al * kk p * xx r) (cond p (kk p * (r * xx r))))).
    - intros r Hr. rewrite Rmin_left, Rmax_right in Hr by lra. unfold cond. rewrite kanter_cc by (try exact H; lra). unfold scal; cbn; unfold mult; cbn. unfold dd, WW. rewrite <- exp_plus.
      match goal with |- ?a = ?b => change (@eq R a b) end. replace (- (t * (cc p * xx r)) + - (kk p * (r * xx r))) with (- (t * cc p * xx r) - kk p * (r * xx r)) by ring. ring.
    - apply (is_RInt_comp (V := R_CompleteNormedModule) (cond p) (fun r => kk p * (r * xx r)) (fun r => al * kk p * xx r)).
      + intros r Hr. apply betw in Hr; [|assumption|assumption]. apply cond_cont; [exact H|]. pose proof (xx_pos r). apply Rmult_lt_0_compat; [exact K|]. apply Rmult_lt_0_compat; lra.
      + intros r Hr. apply betw in Hr; [|assumption|assumption]. split.
        * evar_last; [apply (is_derive_scal (fun r => r * xx r)); apply (is_derive_mult (fun r => r) xx); [apply is_derive_id|apply xx_derive; lra|intros; apply Rmult_comm]|]. unfold plus, one; cbn; unfold mult; cbn. field. lra.
        * apply (continuous_mult (fun _ => al * kk p) xx); [apply continuous_const|]. apply continuity_pt_filterlim, xx_cont. lra.
  Qed.
End Kanter.
