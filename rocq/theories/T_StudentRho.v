(** C87: rho of the Student copula is not Spearman's rho. *)
From Coquelicot Require Import Coquelicot.
From Verif Require Import Base RSumLib Ext S_Linalg S_Stats S_EllipDensity S_Archimedean S_Concord P_GaussInt P_EllipDensity P_EllipDensity2 P_EllipDensity3 P_EllipDensity5 P_EllipDensity6
  P_Kendall P_Spearman P_CauchyRho P_Rayleigh M_Stats T_Stats M_EllipDensity T_EllipDensity T_EllipConcord.
From Verif Require Import M_Elliptical.
Open Scope R_scope.

(** ** C87 *)
(** Every function between the Frechet bounds that grows no faster than its arguments, in particular every copula, has a Spearman's rho between -1 and 1. *)
Theorem C87_exists : forall C,
  (forall u v, 0 < u < 1 -> 0 < v < 1 -> Rmax 0 (u + v - 1) <= C u v <= Rmin u v) ->
  (forall u u' v, 0 < u < 1 -> 0 < u' < 1 -> 0 < v < 1 -> Rabs (C u v - C u' v) <= Rabs (u - u')) ->
  (forall u v v', 0 < u < 1 -> 0 < v < 1 -> 0 < v' < 1 -> Rabs (C u v - C u v') <= Rabs (v - v')) ->
  exists r, spearman_rho C r /\ -1 <= r <= 1.
Proof. intros C Fr Lu Lv. destruct (spearman_exists C Fr Lu Lv) as [r Hr]. exists r. split; [exact Hr|exact (spearman_range C Fr r Hr)]. Qed.
Print Assumptions C87_exists.

Lemma zero_derive_01 (f : R -> R) : (forall u, 0 < u < 1 -> is_derive f u 0) -> lim_0 f 0 -> forall u, 0 < u < 1 -> f u = 0.
Proof.
  intros D L u Hu. destruct (Req_dec (f u) 0) as [|N]; [assumption|]. exfalso. destruct (L (Rabs (f u)) (Rabs_pos_lt _ N)) as [d [Hd K]].
  set (w := Rmin u d / 2). assert (W : 0 < w /\ w < u /\ w < d) by (pose proof (Rmin_l u d); pose proof (Rmin_r u d); assert (0 < Rmin u d) by (apply Rmin_pos; lra); unfold w; lra).
  assert (E : f u = f w).
  { destruct (MVT_gen f w u (fun _ => 0)) as [c [_ Hc]].
    - intros x Hx. rewrite Rmin_left, Rmax_right in Hx by lra. apply D. lra.
    - intros x Hx. rewrite Rmin_left, Rmax_right in Hx by lra. apply derivable_continuous_pt. exists 0. apply is_derive_Reals, D. lra.
    - lra. }
  specialize (K w ltac:(lra)). rewrite Rminus_0_r, <- E in K. lra.
Qed.
Lemma density_determines C C' c : copula_of_density C c -> copula_of_density C' c -> forall u v, 0 < u < 1 -> 0 < v < 1 -> C u v = C' u v.
Proof.
  intros [h [D [H1 H2]]] [h' [D' [H1' H2']]].
  assert (Z : forall f g a b, lim_0 f a -> lim_0 g b -> a = b -> lim_0 (fun t => f t - g t) 0).
  { intros f g a b Hf Hg -> e He. destruct (Hf (e / 2) ltac:(lra)) as [d [Hd K]]. destruct (Hg (e / 2) ltac:(lra)) as [d' [Hd' K']]. exists (Rmin d d'). split; [apply Rmin_pos; lra|].
    intros u Hu. pose proof (Rmin_l d d'). pose proof (Rmin_r d d'). specialize (K u ltac:(lra)). specialize (K' u ltac:(lra)). apply Rabs_def2 in K. apply Rabs_def2 in K'. apply Rabs_def1; lra. }
  assert (E : forall u v, 0 < u < 1 -> 0 < v < 1 -> h u v - h' u v = 0).
  { intros u v Hu Hv. apply (zero_derive_01 (fun v => h u v - h' u v)); [|apply (Z _ _ 0 0); [apply H1, Hu|apply H1', Hu|reflexivity]|exact Hv].
    intros w Hw. replace 0 with (minus (c u w) (c u w)) by (unfold minus, plus, opp; cbn; ring). apply (is_derive_minus (fun v => h u v) (fun v => h' u v)); [apply D|apply D']; assumption. }
  intros u v Hu Hv. assert (X : C u v - C' u v = 0); [|lra].
  apply (zero_derive_01 (fun u => C u v - C' u v)); [|apply (Z _ _ 0 0); [apply H2, Hv|apply H2', Hv|reflexivity]|exact Hu].
  intros w Hw. rewrite <- (E w v Hw Hv). apply (is_derive_minus (fun u => C u v) (fun u => C' u v)); [apply D|apply D']; assumption.
Qed.
Lemma slope_01 (f h : R -> R) : (forall u, 0 < u < 1 -> is_derive f u (h u)) -> (forall u, 0 < u < 1 -> 0 <= h u <= 1) ->
  forall u u', 0 < u < 1 -> 0 < u' < 1 -> Rabs (f u - f u') <= Rabs (u - u').
Proof.
  intros D B.
  assert (K : forall u u', 0 < u < 1 -> 0 < u' < 1 -> u <= u' -> Rabs (f u - f u') <= Rabs (u - u')).
  { intros u u' Hu Hu' L. destruct (MVT_gen f u u' h) as [c [Hc Ec]].
    - intros x Hx. rewrite Rmin_left, Rmax_right in Hx by lra. apply D. lra.
    - intros x Hx. rewrite Rmin_left, Rmax_right in Hx by lra. apply derivable_continuous_pt. exists (h x). apply is_derive_Reals, D. lra.
    - rewrite Rmin_left, Rmax_right in Hc by lra. specialize (B c ltac:(lra)). rewrite (Rabs_minus_sym (f u)), (Rabs_minus_sym u), Ec, Rabs_mult, (Rabs_pos_eq (h c)) by lra.
      pose proof (Rabs_pos (u' - u)). nra. }
  intros u u' Hu Hu'. destruct (Rle_lt_dec u u') as [L|L]; [apply K; assumption|]. rewrite (Rabs_minus_sym (f u)), (Rabs_minus_sym u). apply K; lra.
Qed.

Section Student.
  Variables t_ppf t_logpdf : R -> R -> R.
  Variable eig : mat R -> list R.
  Variable det : mat R -> R.
  Variable inv : mat R -> result (mat R).
  Variable gamma : R -> R.
  Variable beta : R -> R -> R.
  Variable mvn_pdf : xin -> list R -> mat R -> result (list ext).

  (** The attribute is inherited from the elliptical base class and gives the Gaussian value 6 asin(r/2)/pi.  With one degree of freedom and any
      correlation between 0 and 1/10, the copula whose density the code computes has a Spearman's rho, and it is smaller. *)
  Theorem C87_student_rho_refuted : forall b rho, gamma_beta gamma beta -> (forall m, rayleigh (eig m) m) -> det_2 det -> inv_2 det inv ->
    gamma (1 / 2) = sqrt PI -> gamma 1 = 1 -> gamma (3 / 2) = sqrt PI / 2 ->
    (forall x, t_logpdf x 1 = ln (t_density gamma 1 x)) -> quantile (fun x => 1 / 2 + atan x / PI) (fun p => t_ppf p 1) ->
    0 < rho <= 1 / 10 ->
    let c u v := only (student_pdf t_ppf t_logpdf eig det inv gamma beta mvn_pdf (mkEll 2 b [Some rho]) 1 false [[u; v]]) in
    (exists C, copula_of_density C c) /\
    forall C, copula_of_density C c -> (exists r, spearman_rho C r) /\ forall r, spearman_rho C r -> r < ell_rho rho.
  Proof.
    intros b rho GB HE HD HI G1 G2 G3 Hl Hq Hrho c.
    destruct gamma_half_values as [K1 [K2 K3]].
    assert (ET : forall x, t_density gamma 1 x = t_density gamma_half 1 x) by (intros; unfold t_density; replace ((1 + 1) / 2) with 1 by field; rewrite G1, G2, K1, K2; reflexivity).
    assert (ET' : forall x, t_density gamma (1 + 1) x = t_density gamma_half (1 + 1) x)
      by (intros; unfold t_density; replace ((1 + 1) / 2) with 1 by field; replace ((1 + 1 + 1) / 2) with (3 / 2) by field; rewrite G2, G3, K2, K3; reflexivity).
    assert (EM : forall x y, t2 gamma_half 1 rho x y = t2 gamma 1 rho x y) by (intros; unfold t2; replace ((1 + 2) / 2) with (3 / 2) by field; rewrite G1, G3, K1, K3; reflexivity).
    assert (DD : forall F f f', (forall x, f' x = f x) -> distribution F f -> distribution F f').
    { intros F f f' E [A1 [A2 [A3 A4]]]. split; [intros x; rewrite E; apply A1|]. split; [intros x; rewrite E; apply A2|]. split; [|exact A4]. intros x. apply (continuous_ext f); [intros; symmetry; apply E|apply A3]. }
    assert (DT : distribution T1 (t_density gamma 1)) by (apply (DD T1 (t_density gamma_half 1)); [exact ET|exact T1_distribution]).
    assert (DT' : distribution T2 (t_density gamma (1 + 1))) by (apply (DD T2 (t_density gamma_half (1 + 1))); [exact ET'|exact T2_distribution]).
    assert (B : -1 < rho < 1) by lra.
    assert (HM : joint_cdf (t2 gamma 1 rho) (bvc rho)) by (apply (joint_ext (t2 gamma_half 1 rho)); [exact EM|exact (bvc_joint rho B)]).
    set (q := fun p => t_ppf p 1) in *. set (C0 := fun u v => bvc rho (q u) (q v)).
    assert (SP : forall x, 0 < tsl 1 rho x) by (intros; apply tsl_pos; lra).
    assert (SC : forall x, continuous (tsl 1 rho) x) by (intros; apply tsl_cont; lra).
    assert (GP : forall a, 0 < a -> 0 < gamma a) by apply GB.
    assert (Ec : forall u v, c u v = km (t_density gamma 1) (t_density gamma (1 + 1)) (tsl 1 rho) rho (q u) (q v) / (t_density gamma 1 (q u) * t_density gamma 1 (q v))).
    { intros u v. unfold c. rewrite (student_pair_value t_ppf t_logpdf eig det inv gamma beta mvn_pdf GB b rho 1 u v HE HD HI B ltac:(lra) Hl). rewrite (t_km gamma 1 rho) by (try assumption; lra). reflexivity. }
    assert (SY : forall x y, km (t_density gamma 1) (t_density gamma (1 + 1)) (tsl 1 rho) rho x y = km (t_density gamma 1) (t_density gamma (1 + 1)) (tsl 1 rho) rho y x)
      by (intros; rewrite !t_km by (try assumption; lra); apply t2_sym).
    assert (HK : joint_cdf (km (t_density gamma 1) (t_density gamma (1 + 1)) (tsl 1 rho) rho) (bvc rho)) by (apply (joint_ext (t2 gamma 1 rho)); [intros; symmetry; apply t_km; try assumption; lra|exact HM]).
    assert (D0 : copula_of_density C0 c).
    { exists (fun u v => T2 (kz (tsl 1 rho) rho (q u) (q v))). split; [|split].
      - intros u v Hu Hv. split; [apply (kC_derive_u T1 (t_density gamma 1) T2 (t_density gamma (1 + 1)) (tsl 1 rho) q rho (bvc rho) DT DT' SP SC HK Hq u v Hu)|].
        rewrite Ec. apply (kernel_derive T1 (t_density gamma 1) T2 (t_density gamma (1 + 1)) (tsl 1 rho) q rho DT DT' Hq u v Hv).
      - intros u Hu. apply (kernel_lim_0 T1 (t_density gamma 1) T2 (t_density gamma (1 + 1)) (tsl 1 rho) q rho DT DT' SP Hq u).
      - intros v Hv. apply (qlim_m_0 T1 (t_density gamma 1) q DT Hq (fun x => bvc rho x (q v)) 0), bvc_lim_x, B. }
    split; [exists C0; exact D0|]. intros C HC.
    assert (E : forall u v, 0 < u < 1 -> 0 < v < 1 -> C0 u v = C u v) by (apply (density_determines C0 C c); assumption).
    assert (Fr : forall u v, 0 < u < 1 -> 0 < v < 1 -> Rmax 0 (u + v - 1) <= C0 u v <= Rmin u v).
    { intros u v Hu Hv. apply (kC_frechet T1 (t_density gamma 1) T2 (t_density gamma (1 + 1)) (tsl 1 rho) q rho (bvc rho) DT DT' SP SC SY HK Hq); try assumption; intros; try apply t_density_even; apply tsl_even. }
    split.
    - assert (R2 : forall x, 0 <= T2 x <= 1) by (intros x; pose proof (dist_range T2 _ DT' x); lra).
      destruct (C87_exists C0) as [r [Hr _]]; [exact Fr| | |exists r; exact (spearman_ext C0 C r E Hr)].
      + intros u u' v Hu Hu' Hv. apply (slope_01 (fun u => C0 u v) (fun u => T2 (kz (tsl 1 rho) rho (q u) (q v)))); [|intros; apply R2|exact Hu|exact Hu'].
        intros w Hw. apply (kC_derive_u T1 (t_density gamma 1) T2 (t_density gamma (1 + 1)) (tsl 1 rho) q rho (bvc rho) DT DT' SP SC HK Hq w v Hw).
      + intros u v v' Hu Hv Hv'. apply (slope_01 (C0 u) (fun v => T2 (kz (tsl 1 rho) rho (q v) (q u)))); [|intros; apply R2|exact Hv|exact Hv'].
        intros w Hw. apply (kC_derive_v T1 (t_density gamma 1) T2 (t_density gamma (1 + 1)) (tsl 1 rho) q rho (bvc rho) DT DT' SP SC SY HK Hq u w Hw).
    - intros r Hr. apply (cauchy_bound q Hq rho r Hrho). apply (spearman_ext C C0); [intros; symmetry; apply E; assumption|exact Hr].
  Qed.
End Student.

(** the hypotheses hold for the Cauchy distribution *)
Example C87_case : exists eig,
  gamma_beta gamma_half (fun a b => gamma_half a * gamma_half b / gamma_half (a + b)) /\ (forall m, rayleigh (eig m) m) /\ det_2 case_det /\
  inv_2 case_det (fun m => Ok (mkMat 2 2 (case_im m))) /\ gamma_half (1 / 2) = sqrt PI /\ gamma_half 1 = 1 /\ gamma_half (3 / 2) = sqrt PI / 2 /\
  quantile (fun x => 1 / 2 + atan x / PI) (quantile_of T1).
Proof.
  destruct rayleigh_exists as [eig HE]. exists eig. split; [split; [intros; apply gamma_half_pos|reflexivity]|]. split; [exact HE|]. split; [intros m _ _; reflexivity|].
  split; [intros m Hr Hc Hd; eexists; split; [reflexivity|exact (case_im_ok m Hr Hc Hd)]|]. destruct gamma_half_values as [G1 [G2 G3]]. repeat split; try assumption.
  exact (quantile_exists T1 _ T1_distribution).
Qed.
Example C87_exists_case : exists r, spearman_rho (fun u v => u * v) r /\ -1 <= r <= 1.
Proof.
  apply C87_exists.
  - intros u v Hu Hv. split; [apply Rmax_lub; nra|apply Rmin_glb; nra].
  - intros u u' v Hu Hu' Hv. rewrite <- Rmult_minus_distr_r, Rabs_mult, (Rabs_pos_eq v) by lra. pose proof (Rabs_pos (u - u')). nra.
  - intros u v v' Hu Hv Hv'. rewrite <- Rmult_minus_distr_l, Rabs_mult, (Rabs_pos_eq u) by lra. pose proof (Rabs_pos (v - v')). nra.
Qed.
Print Assumptions C87_student_rho_refuted.
