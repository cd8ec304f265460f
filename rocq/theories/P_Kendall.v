(** Kendall's tau of an Archimedean copula is 1 + 4 times the integral of the generator over its derivative. *)
From Coquelicot Require Import Coquelicot.
From Verif Require Import Base RSumLib S_Archimedean S_Concord P_GaussInt.
Open Scope R_scope.

(** ** Integrals over (0, 1) *)
Lemma near_01 : filter_prod (at_right 0) (at_left 1) (fun ab : R * R => 0 < fst ab < 1 /\ 0 < snd ab < 1).
Proof.
  apply (Filter_prod _ _ _ (fun a => 0 < a < 1) (fun b => 0 < b < 1)).
  - exists (mkposreal 1 Rlt_0_1). intros a Ha L. apply Rabs_def2 in Ha. cbn in Ha. unfold minus, plus, opp in Ha; cbn in Ha. lra.
  - exists (mkposreal 1 Rlt_0_1). intros b Hb L. apply Rabs_def2 in Hb. cbn in Hb. unfold minus, plus, opp in Hb; cbn in Hb. lra.
  - intros a b Ha Hb. split; assumption.
Qed.
Lemma between_01 (ab : R * R) x : 0 < fst ab < 1 /\ 0 < snd ab < 1 -> Rmin (fst ab) (snd ab) <= x <= Rmax (fst ab) (snd ab) -> 0 < x < 1.
Proof.
  destruct ab as [a b]. intros [Ha Hb] Hx. cbn [fst snd] in *. pose proof (Rmin_glb_lt a b 0 ltac:(lra) ltac:(lra)). pose proof (Rmax_lub_lt a b 1 ltac:(lra) ltac:(lra)). lra.
Qed.
Lemma locally_01 (P : R -> Prop) v : 0 < v < 1 -> (forall w, 0 < w < 1 -> P w) -> locally v P.
Proof.
  intros Hv K. assert (Ep : 0 < Rmin v (1 - v)) by (apply Rmin_pos; lra). exists (mkposreal _ Ep). intros w Hw. apply Rabs_def2 in Hw. unfold minus, plus, opp in Hw; cbn in Hw.
  pose proof (Rmin_l v (1 - v)). pose proof (Rmin_r v (1 - v)). apply K. lra.
Qed.
Lemma integral_ext g g' l : (forall v, 0 < v < 1 -> g v = g' v) -> integral_01 g l -> integral_01 g' l.
Proof.
  intros E H. unfold integral_01 in *. apply (is_RInt_gen_ext g); [|exact H]. apply filter_imp with (2 := near_01). intros ab I x Hx. apply E, (between_01 ab x I). lra.
Qed.
Lemma integral_primitive (g P : R -> R) (a b : R) : (forall v, 0 < v < 1 -> is_derive P v (g v)) -> (forall v, 0 < v < 1 -> continuous g v) ->
  lim_0 P a -> lim_1 P b -> integral_01 g (b - a).
Proof.
  intros D C L0 L1. apply (integral_ext (Derive P)); [intros v Hv; apply is_derive_unique, D, Hv|]. unfold integral_01.
  apply (is_RInt_gen_Derive P a b).
  - apply filter_imp with (2 := near_01). intros ab I x Hx. eexists. apply D, (between_01 ab x I Hx).
  - apply filter_imp with (2 := near_01). intros ab I x Hx. apply (between_01 ab x I) in Hx. apply (continuous_ext_loc (Derive P) g x); [|apply C, Hx].
    apply (locally_01 _ x Hx). intros w Hw. symmetry. apply is_derive_unique, D, Hw.
  - intros Q [eps HQ]. destruct (L0 eps (cond_pos eps)) as [d [Hd K]].
    exists (mkposreal d Hd). intros y Hy L. apply HQ. apply Rabs_def2 in Hy. unfold minus, plus, opp in Hy; cbn in Hy. apply K. lra.
  - intros Q [eps HQ]. destruct (L1 eps (cond_pos eps)) as [d [Hd K]].
    exists (mkposreal d Hd). intros y Hy L. apply HQ. apply Rabs_def2 in Hy. unfold minus, plus, opp in Hy; cbn in Hy. apply K. lra.
Qed.
Lemma kendall_ext C C' t : (forall u v, 0 < u < 1 -> 0 < v < 1 -> C u v = C' u v) -> kendall_tau C t -> kendall_tau C' t.
Proof.
  intros E [Cu [Cv [I [D [H1 H2]]]]]. exists Cu, Cv, I. split; [|split; assumption]. intros u v Hu Hv. destruct (D u v Hu Hv) as [D1 D2]. split.
  - apply (is_derive_ext_loc (fun u => C u v)); [|exact D1]. apply (locally_01 _ u Hu). intros w Hw. apply E; assumption.
  - apply (is_derive_ext_loc (fun v => C u v)); [|exact D2]. apply (locally_01 _ v Hv). intros w Hw. apply E; assumption.
Qed.

(** ** Limits *)
Lemma lim0_const c : lim_0 (fun _ => c) c.
Proof. intros e He. exists 1. split; [lra|]. intros u _. replace (c - c) with 0 by ring. rewrite Rabs_R0. exact He. Qed.
Lemma lim1_const c : lim_1 (fun _ => c) c.
Proof. intros e He. exists 1. split; [lra|]. intros u _. replace (c - c) with 0 by ring. rewrite Rabs_R0. exact He. Qed.
Lemma lim0_ext f g L : (forall u, 0 < u < 1 -> f u = g u) -> lim_0 f L -> lim_0 g L.
Proof. intros E H e He. destruct (H e He) as [d [Hd K]]. exists (Rmin d 1). split; [apply Rmin_pos; lra|]. intros u Hu. pose proof (Rmin_l d 1). pose proof (Rmin_r d 1). rewrite <- E by lra. apply K. lra. Qed.
Lemma lim1_ext f g L : (forall u, 0 < u < 1 -> f u = g u) -> lim_1 f L -> lim_1 g L.
Proof. intros E H e He. destruct (H e He) as [d [Hd K]]. exists (Rmin d 1). split; [apply Rmin_pos; lra|]. intros u Hu. pose proof (Rmin_l d 1). pose proof (Rmin_r d 1). rewrite <- E by lra. apply K. lra. Qed.
Lemma lim0_plus f g a b : lim_0 f a -> lim_0 g b -> lim_0 (fun u => f u + g u) (a + b).
Proof.
  intros H K e He. destruct (H (e / 2) ltac:(lra)) as [d [Hd Kf]], (K (e / 2) ltac:(lra)) as [d' [Hd' Kg]]. exists (Rmin d d'). split; [apply Rmin_pos; lra|].
  intros u Hu. pose proof (Rmin_l d d'). pose proof (Rmin_r d d'). specialize (Kf u ltac:(lra)). specialize (Kg u ltac:(lra)). apply Rabs_def2 in Kf. apply Rabs_def2 in Kg. apply Rabs_def1; lra.
Qed.
Lemma lim1_plus f g a b : lim_1 f a -> lim_1 g b -> lim_1 (fun u => f u + g u) (a + b).
Proof.
  intros H K e He. destruct (H (e / 2) ltac:(lra)) as [d [Hd Kf]], (K (e / 2) ltac:(lra)) as [d' [Hd' Kg]]. exists (Rmin d d'). split; [apply Rmin_pos; lra|].
  intros u Hu. pose proof (Rmin_l d d'). pose proof (Rmin_r d d'). specialize (Kf u ltac:(lra)). specialize (Kg u ltac:(lra)). apply Rabs_def2 in Kf. apply Rabs_def2 in Kg. apply Rabs_def1; lra.
Qed.
Lemma lim0_scal c f a : lim_0 f a -> lim_0 (fun u => c * f u) (c * a).
Proof.
  intros H e He. pose proof (Rabs_pos c). destruct (H (e / (1 + Rabs c))) as [d [Hd K]]; [apply Rdiv_lt_0_compat; lra|]. exists d. split; [exact Hd|]. intros u Hu. specialize (K u Hu).
  replace (c * f u - c * a) with (c * (f u - a)) by ring. rewrite Rabs_mult. apply Rle_lt_trans with (Rabs c * (e / (1 + Rabs c))); [apply Rmult_le_compat_l; lra|].
  apply Rmult_lt_reg_r with (1 + Rabs c); [lra|]. replace (Rabs c * (e / (1 + Rabs c)) * (1 + Rabs c)) with (Rabs c * e) by (field; lra). nra.
Qed.
Lemma lim1_scal c f a : lim_1 f a -> lim_1 (fun u => c * f u) (c * a).
Proof.
  intros H e He. pose proof (Rabs_pos c). destruct (H (e / (1 + Rabs c))) as [d [Hd K]]; [apply Rdiv_lt_0_compat; lra|]. exists d. split; [exact Hd|]. intros u Hu. specialize (K u Hu).
  replace (c * f u - c * a) with (c * (f u - a)) by ring. rewrite Rabs_mult. apply Rle_lt_trans with (Rabs c * (e / (1 + Rabs c))); [apply Rmult_le_compat_l; lra|].
  apply Rmult_lt_reg_r with (1 + Rabs c); [lra|]. replace (Rabs c * (e / (1 + Rabs c)) * (1 + Rabs c)) with (Rabs c * e) by (field; lra). nra.
Qed.
(** a function continuous at the end point *)
Lemma lim0_continuous f : continuity_pt f 0 -> lim_0 f (f 0).
Proof.
  intros C e He. destruct (C e He) as [d [Hd K]]. exists d. split; [exact Hd|]. intros u Hu. apply K. split; [split; [exact Logic.I|lra]|]. cbn. unfold R_dist. rewrite Rabs_pos_eq; lra.
Qed.
Lemma lim1_continuous f : continuity_pt f 1 -> lim_1 f (f 1).
Proof.
  intros C e He. destruct (C e He) as [d [Hd K]]. exists d. split; [exact Hd|]. intros u Hu. apply K. split; [split; [exact Logic.I|lra]|]. cbn. unfold R_dist. rewrite Rabs_left; lra.
Qed.
(** squeezing at 0 *)
Lemma lim0_squeeze f g : (forall u, 0 < u < 1 -> Rabs (f u) <= g u) -> lim_0 g 0 -> lim_0 f 0.
Proof.
  intros B H e He. destruct (H e He) as [d [Hd K]]. exists (Rmin d 1). split; [apply Rmin_pos; lra|]. intros u Hu. pose proof (Rmin_l d 1). pose proof (Rmin_r d 1).
  specialize (K u ltac:(lra)). specialize (B u ltac:(lra)). rewrite Rminus_0_r in *. pose proof (Rle_abs (g u)). lra.
Qed.
Lemma lim1_squeeze f g : (forall u, 0 < u < 1 -> Rabs (f u) <= g u) -> lim_1 g 0 -> lim_1 f 0.
Proof.
  intros B H e He. destruct (H e He) as [d [Hd K]]. exists (Rmin d 1). split; [apply Rmin_pos; lra|]. intros u Hu. pose proof (Rmin_l d 1). pose proof (Rmin_r d 1).
  specialize (K u ltac:(lra)). specialize (B u ltac:(lra)). rewrite Rminus_0_r in *. pose proof (Rle_abs (g u)). lra.
Qed.
Lemma lim0_sqrt : lim_0 sqrt 0.
Proof. rewrite <- sqrt_0 at 1. apply lim0_continuous, continuity_pt_sqrt. lra. Qed.
Lemma lim0_id : lim_0 (fun u => u) 0.
Proof. intros e He. exists e. split; [exact He|]. intros u Hu. rewrite Rminus_0_r, Rabs_pos_eq; lra. Qed.
(** |x ln x| <= 2 sqrt x *)
Lemma x_ln_x x : 0 < x < 1 -> Rabs (x * ln x) <= 2 * sqrt x.
Proof.
  intros H. assert (S : 0 < sqrt x) by (apply sqrt_lt_R0; lra). assert (Q : sqrt x * sqrt x = x) by (apply sqrt_sqrt; lra).
  assert (L : ln x < 0) by (rewrite <- ln_1; apply ln_increasing; lra).
  assert (E : - ln x <= 2 * (/ sqrt x)).
  { replace (- ln x) with (2 * ln (/ sqrt x)).
    - pose proof (exp_ineq1_le (ln (/ sqrt x))) as I. rewrite exp_ln in I by (apply Rinv_0_lt_compat, S). lra.
    - rewrite ln_Rinv by exact S. rewrite <- Q at 2. rewrite ln_mult by exact S. ring. }
  rewrite Rabs_left by nra. replace (- (x * ln x)) with (x * - ln x) by ring. apply Rle_trans with (x * (2 * / sqrt x)); [apply Rmult_le_compat_l; lra|].
  rewrite <- Q at 1. replace (sqrt x * sqrt x * (2 * / sqrt x)) with (2 * sqrt x) by (field; lra). lra.
Qed.

Section Archimedean.
  (** phi the generator, psi its inverse with derivative g, F a primitive of g^2, A = F phi with derivative a, B a primitive of phi a *)
  Variables phi dphi psi g F A a B : R -> R.
  Variables b0 b1 : R.
  Hypothesis phi_derive : forall t, 0 < t < 1 -> is_derive phi t (dphi t).
  Hypothesis dphi_cont : forall t, 0 < t < 1 -> continuous dphi t.
  Hypothesis phi_pos : forall t, 0 < t < 1 -> 0 < phi t.
  Hypothesis phi_1 : lim_1 phi 0.
  Hypothesis psi_derive : forall s, 0 < s -> is_derive psi s (g s).
  Hypothesis g_cont : forall s, 0 < s -> continuous g s.
  Hypothesis F_derive : forall s, 0 < s -> is_derive F s (g s * g s).
  Hypothesis F_phi : forall t, 0 < t < 1 -> F (phi t) = A t.
  Hypothesis F_0 : forall u, 0 < u < 1 -> lim_0 (fun v => F (phi u + phi v)) 0.
  Hypothesis A_derive : forall t, 0 < t < 1 -> is_derive A t (a t).
  Hypothesis phiA_0 : lim_0 (fun t => phi t * A t) 0.
  Hypothesis phiA_1 : lim_1 (fun t => phi t * A t) 0.
  Hypothesis B_derive : forall t, 0 < t < 1 -> is_derive B t (phi t * a t).
  Hypothesis B_0 : lim_0 B b0.
  Hypothesis B_1 : lim_1 B b1.

  Lemma sum_pos u v : 0 < u < 1 -> 0 < v < 1 -> 0 < phi u + phi v.
  Proof. intros Hu Hv. pose proof (phi_pos u Hu). pose proof (phi_pos v Hv). lra. Qed.
  Lemma sum_derive u v : 0 < v < 1 -> is_derive (fun v => phi u + phi v) v (dphi v).
  Proof.
    intros Hv. evar_last; [apply (is_derive_plus (fun _ => phi u) phi); [apply (is_derive_const (phi u))|apply phi_derive, Hv]|]. unfold plus; cbn. apply Rplus_0_l.
  Qed.
  Lemma AC_derive_v u v : 0 < u < 1 -> 0 < v < 1 -> is_derive (fun v => psi (phi u + phi v)) v (dphi v * g (phi u + phi v)).
  Proof.
    intros Hu Hv. apply (is_derive_comp psi (fun v => phi u + phi v)); [apply psi_derive, sum_pos; assumption|apply sum_derive, Hv].
  Qed.
  Lemma AC_derive_u u v : 0 < u < 1 -> 0 < v < 1 -> is_derive (fun u => psi (phi u + phi v)) u (dphi u * g (phi u + phi v)).
  Proof.
    intros Hu Hv. apply (is_derive_ext (fun u => psi (phi v + phi u))); [intros t; rewrite Rplus_comm; reflexivity|]. rewrite (Rplus_comm (phi u)). apply AC_derive_v; assumption.
  Qed.
  Lemma F_1 u : 0 < u < 1 -> lim_1 (fun v => F (phi u + phi v)) (A u).
  Proof.
    intros Hu e He. pose proof (phi_pos u Hu) as Pu.
    assert (C : continuity_pt F (phi u)) by (apply (cont_of_derive F (phi u) (g (phi u) * g (phi u))), F_derive, Pu).
    destruct (C e He) as [c [Hc K]]. destruct (phi_1 c Hc) as [d [Hd L]]. exists (Rmin d 1). split; [apply Rmin_pos; lra|]. intros v Hv. pose proof (Rmin_l d 1). pose proof (Rmin_r d 1).
    specialize (L v ltac:(lra)). rewrite Rminus_0_r in L. pose proof (phi_pos v ltac:(lra)) as Pv. rewrite <- (F_phi u Hu). apply (K (phi u + phi v)).
    split; [split; [exact Logic.I|lra]|]. cbn. unfold R_dist. replace (phi u + phi v - phi u) with (phi v) by ring. exact L.
  Qed.
  Lemma inner u : 0 < u < 1 -> integral_01 (fun v => dphi u * g (phi u + phi v) * (dphi v * g (phi u + phi v))) (dphi u * A u).
  Proof.
    intros Hu. replace (dphi u * A u) with (dphi u * A u - dphi u * 0) by ring.
    apply (integral_primitive _ (fun v => dphi u * F (phi u + phi v))).
    - intros v Hv.
      evar_last; [apply (is_derive_scal (fun v => F (phi u + phi v)) v (dphi u)); apply (is_derive_comp F (fun v => phi u + phi v)); [apply F_derive, sum_pos; assumption|apply sum_derive, Hv]|].
      unfold scal; cbn; unfold mult; cbn. ring.
    - intros v Hv.
      assert (CI : continuous (fun v => g (phi u + phi v)) v).
      { apply (continuous_comp (fun v => phi u + phi v) g); [|apply g_cont, sum_pos; assumption]. apply (ex_derive_continuous (V := R_NormedModule)). eexists. apply sum_derive, Hv. }
      apply (continuous_mult (fun v => dphi u * g (phi u + phi v)) (fun v => dphi v * g (phi u + phi v))).
      + apply (continuous_mult (fun v => dphi u) (fun v => g (phi u + phi v))); [apply continuous_const|exact CI].
      + apply (continuous_mult dphi (fun v => g (phi u + phi v))); [apply dphi_cont, Hv|exact CI].
    - apply lim0_scal, F_0, Hu.
    - apply lim1_scal, F_1, Hu.
  Qed.
  Lemma outer : integral_01 (fun u => dphi u * A u) (- (b1 - b0)).
  Proof.
    replace (- (b1 - b0)) with ((0 + -1 * b1) - (0 + -1 * b0)) by ring.
    apply (integral_primitive _ (fun t => phi t * A t + -1 * B t)).
    - intros t Ht. evar_last.
      + apply (is_derive_plus (fun t => phi t * A t) (fun t => -1 * B t)); [apply (is_derive_mult phi A t (dphi t) (a t)); [apply phi_derive, Ht|apply A_derive, Ht|intros; apply Rmult_comm]|].
        apply (is_derive_scal B t (-1)), B_derive, Ht.
      + unfold plus, scal; cbn; unfold mult; cbn. ring.
    - intros t Ht. apply (continuous_mult dphi A); [apply dphi_cont, Ht|]. apply (ex_derive_continuous (V := R_NormedModule)). eexists. apply A_derive, Ht.
    - apply (lim0_plus (fun t => phi t * A t)); [exact phiA_0|apply lim0_scal, B_0].
    - apply (lim1_plus (fun t => phi t * A t)); [exact phiA_1|apply lim1_scal, B_1].
  Qed.
  Theorem archimedean_tau : kendall_tau (fun u v => psi (phi u + phi v)) (1 + 4 * (b1 - b0)).
  Proof.
    exists (fun u v => dphi u * g (phi u + phi v)), (fun u v => dphi v * g (phi u + phi v)), (fun u => dphi u * A u). split; [|split].
    - intros u v Hu Hv. split; [apply AC_derive_u|apply AC_derive_v]; assumption.
    - exact inner.
    - replace ((1 - (1 + 4 * (b1 - b0))) / 4) with (- (b1 - b0)) by field. exact outer.
  Qed.
End Archimedean.

(** The strict case: g = 1 / phi' psi, F = A psi *)
Section Strict.
  Variables phi dphi psi A B : R -> R.
  Variables b0 b1 : R.
  Hypothesis phi_derive : forall t, 0 < t < 1 -> is_derive phi t (dphi t).
  Hypothesis dphi_neg : forall t, 0 < t < 1 -> dphi t < 0.
  Hypothesis dphi_cont : forall t, 0 < t < 1 -> continuous dphi t.
  Hypothesis phi_pos : forall t, 0 < t < 1 -> 0 < phi t.
  Hypothesis psi_range : forall s, 0 < s -> 0 < psi s < 1.
  Hypothesis psi_derive : forall s, 0 < s -> is_derive psi s (/ dphi (psi s)).
  Hypothesis cancel : forall t, 0 < t < 1 -> psi (phi t) = t.
  Hypothesis phi_0 : forall K, exists d, 0 < d /\ forall t, 0 < t < d -> t < 1 -> K < phi t.
  Hypothesis phi_1 : lim_1 phi 0.
  Hypothesis A_derive : forall t, 0 < t < 1 -> is_derive A t (/ dphi t).
  Hypothesis A_0 : lim_0 A 0.
  Hypothesis phiA_0 : lim_0 (fun t => phi t * A t) 0.
  Hypothesis phiA_1 : lim_1 (fun t => phi t * A t) 0.
  Hypothesis B_derive : forall t, 0 < t < 1 -> is_derive B t (phi t / dphi t).
  Hypothesis B_0 : lim_0 B b0.
  Hypothesis B_1 : lim_1 B b1.
  Lemma psi_decreasing s s' : 0 < s -> s < s' -> psi s' < psi s.
  Proof.
    intros Hs H. destruct (MVT_gen psi s s' (fun s => / dphi (psi s))) as [c [Hc E]].
    - intros x Hx. rewrite Rmin_left in Hx by lra. apply psi_derive. lra.
    - intros x Hx. rewrite Rmin_left in Hx by lra. apply (cont_of_derive psi x (/ dphi (psi x))), psi_derive. lra.
    - rewrite Rmin_left in Hc by lra. pose proof (dphi_neg (psi c) (psi_range c ltac:(lra))) as N. apply Rinv_lt_0_compat in N. nra.
  Qed.
  Lemma AC_lim_0 u : 0 < u < 1 -> lim_0 (fun v => psi (phi u + phi v)) 0.
  Proof.
    intros Hu e He. set (e' := Rmin e 1 / 2). assert (H : 0 < e' < 1 /\ e' < e).
    { unfold e'. pose proof (Rmin_l e 1). pose proof (Rmin_r e 1). pose proof (Rmin_pos e 1 He ltac:(lra)). lra. }
    destruct (phi_0 (phi e')) as [d [Hd K]]. exists (Rmin d 1). split; [apply Rmin_pos; lra|]. intros v Hv. pose proof (Rmin_l d 1). pose proof (Rmin_r d 1).
    specialize (K v ltac:(lra) ltac:(lra)). pose proof (phi_pos u Hu). pose proof (phi_pos e' ltac:(lra)). pose proof (psi_range (phi u + phi v) ltac:(lra)). rewrite Rminus_0_r, Rabs_pos_eq by lra.
    apply Rlt_trans with e'; [|lra]. rewrite <- (cancel e') by lra. apply psi_decreasing; lra.
  Qed.
  Theorem strict_tau : kendall_tau (fun u v => psi (phi u + phi v)) (1 + 4 * (b1 - b0)).
  Proof.
    apply (archimedean_tau phi dphi psi (fun s => / dphi (psi s)) (fun s => A (psi s)) A (fun t => / dphi t) B); try assumption.
    - intros s Hs. pose proof (psi_range s Hs) as R. pose proof (dphi_neg _ R). apply (continuous_comp (fun s => dphi (psi s)) Rinv); [|apply continuous_Rinv; lra].
      apply (continuous_comp psi dphi); [|apply dphi_cont, R]. apply (ex_derive_continuous (V := R_NormedModule)). eexists. apply psi_derive, Hs.
    - intros s Hs. apply (is_derive_comp A psi); [apply A_derive, psi_range, Hs|apply psi_derive, Hs].
    - intros t Ht. rewrite cancel by exact Ht. reflexivity.
    - intros u Hu e He. destruct (A_0 e He) as [d [Hd K]]. destruct (AC_lim_0 u Hu d Hd) as [d' [Hd' L]]. exists (Rmin d' 1). split; [apply Rmin_pos; lra|].
      intros v Hv. pose proof (Rmin_l d' 1). pose proof (Rmin_r d' 1). apply K. pose proof (phi_pos u Hu). pose proof (phi_pos v ltac:(lra)). pose proof (psi_range (phi u + phi v) ltac:(lra)).
      specialize (L v ltac:(lra)). rewrite Rminus_0_r, Rabs_pos_eq in L by lra. lra.
  Qed.
End Strict.
