(** C86: Spearman's rho and Kendall's tau of the Gaussian copula. *)
From Coquelicot Require Import Coquelicot.
From Verif Require Import Base RSumLib Ext S_Linalg S_Stats S_EllipDensity S_Archimedean S_Concord P_GaussInt P_EllipDensity P_EllipDensity2 P_EllipDensity5 P_EllipDensity6 P_Kendall P_GaussConc P_GaussConc2 P_GaussConc3.
From Verif Require Import M_Elliptical M_EllipDensity P_Elliptical T_EllipDensity.
Open Scope R_scope.

(** the normal distribution function and the bivariate one are determined by their densities *)
Lemma normal_unique N : distribution N normal_density -> forall x, N x = Phi x.
Proof.
  intros [D [P [C [L _]]]] x. apply (gen_unique normal_density x); [apply (gen_value normal_density N); assumption|].
  apply (gen_value normal_density Phi); [exact Phi_derive|exact normal_density_cont|exact Phi_lim_m].
Qed.
Lemma joint_unique m M M' : joint_cdf m M -> joint_cdf m M' -> forall x y, M x y = M' x y.
Proof.
  intros [[G [G1 G2]] _] [[G' [G1' G2']] _] x y. apply (gen_unique (fun s => G s y) x); [apply G2|]. specialize (G2' x y). unfold integral_up_to in *.
  refine (is_RInt_gen_ext _ _ _ _ G2'). apply filter_forall. intros ab s _. apply (gen_unique (m s) y); [apply G1'|apply G1].
Qed.
Lemma spearman_ext C C' t : (forall u v, 0 < u < 1 -> 0 < v < 1 -> C u v = C' u v) -> spearman_rho C t -> spearman_rho C' t.
Proof. intros E [I [H1 H2]]. exists I. split; [|exact H2]. intros u Hu. apply (integral_ext (fun v => C u v)); [intros v Hv; apply E; assumption|apply H1, Hu]. Qed.

(** ** C86 *)
(** A copula has at most one Spearman's rho. *)
Theorem C86_unique : forall C r r', spearman_rho C r -> spearman_rho C r' -> r = r'.
Proof.
  intros C r r' [I [H1 H2]] [I' [H1' H2']].
  assert (E : forall u, 0 < u < 1 -> I u = I' u).
  { intros u Hu. specialize (H1 u Hu). specialize (H1' u Hu). unfold integral_01 in *.
    apply (is_RInt_gen_unique (V := R_CompleteNormedModule)) in H1. apply (is_RInt_gen_unique (V := R_CompleteNormedModule)) in H1'. rewrite <- H1, <- H1'. reflexivity. }
  apply (integral_ext I I') in H2; [|exact E]. unfold integral_01 in *. apply (is_RInt_gen_unique (V := R_CompleteNormedModule)) in H2. apply (is_RInt_gen_unique (V := R_CompleteNormedModule)) in H2'. rewrite H2 in H2'. lra.
Qed.
Print Assumptions C86_unique.

Section Gaussian.
  Variable norm_ppf : R -> R.
  Variables mvn_cdf mvn_logcdf : mat R -> list (list R) -> result (list ext).
  (** what is assumed of scipy: the quantile function inverts the normal distribution function, and the bivariate distribution
      function is the double integral of the bivariate normal density *)
  Definition documented_normal (rho : R) : Prop :=
    exists N M, distribution N normal_density /\ quantile N norm_ppf /\ joint_cdf (normal2 rho) M /\
      forall s x y, is_corr2 rho s -> mvn_cdf s [[x; y]] = Ok [Fin (M x y)].
  (** the distribution function computed by the code for one pair of variables with correlation rho *)
  Definition pair_cdf (b : bool) (rho u v : R) : R := only (gaussian_cdf norm_ppf mvn_cdf mvn_logcdf (mkEll 2 b [Some rho]) false [[u; v]]).
  Lemma pair_value b rho : -1 < rho < 1 -> documented_normal rho -> quantile Phi norm_ppf /\ forall u v, pair_cdf b rho u v = bvn rho (norm_ppf u) (norm_ppf v).
  Proof.
    intros H [N [M [HN [Hq [HM Hcdf]]]]]. split; [intros u Hu; rewrite <- (normal_unique N HN); apply Hq, Hu|].
    intros u v. rewrite <- (joint_unique (normal2 rho) M (bvn rho) HM (bvn_joint rho H)). unfold pair_cdf, gaussian_cdf. destruct (pair_sigma b rho) as [s [Es Cs]]. rewrite Es. cbn [bind map]. rewrite Hcdf by exact Cs. reflexivity.
  Qed.
  Theorem C86_spearman : forall b rho, -1 < rho < 1 -> documented_normal rho -> spearman_rho (pair_cdf b rho) (ell_rho rho).
  Proof.
    intros b rho H HD. destruct (pair_value b rho H HD) as [Hq E]. apply (spearman_ext (fun u v => bvn rho (norm_ppf u) (norm_ppf v))); [intros; symmetry; apply E|].
    apply normal_spearman; assumption.
  Qed.
  Theorem C86_kendall : forall b rho, -1 < rho < 1 -> documented_normal rho -> kendall_tau (pair_cdf b rho) (ell_tau rho).
  Proof.
    intros b rho H HD. destruct (pair_value b rho H HD) as [Hq E]. apply (kendall_ext (fun u v => bvn rho (norm_ppf u) (norm_ppf v))); [intros; symmetry; apply E|].
    apply normal_kendall; assumption.
  Qed.
  (** at the medians: Blomqvist's beta is the code's tau *)
  Theorem C86_median : forall b rho, -1 < rho < 1 -> documented_normal rho -> 4 * pair_cdf b rho (1 / 2) (1 / 2) - 1 = ell_tau rho.
  Proof.
    intros b rho H HD. destruct (pair_value b rho H HD) as [Hq E]. rewrite E.
    assert (Z : norm_ppf (1 / 2) = 0) by (apply (dist_inj Phi normal_density Phi_distribution); rewrite Hq by lra; rewrite Phi_0; reflexivity).
    rewrite Z, bvn_00 by exact H. unfold ell_tau. pose proof PI_RGT_0. field. lra.
  Qed.
  (** fitting by inversion: the copula with parameter irho(r) has Spearman's rho r, that with parameter itau(t) has Kendall's tau t *)
  Theorem C86_inverse : forall b r, -1 < r < 1 ->
    (documented_normal (gauss_irho r) -> spearman_rho (pair_cdf b (gauss_irho r)) r) /\
    (documented_normal (ell_itau r) -> kendall_tau (pair_cdf b (ell_itau r)) r).
  Proof.
    intros b r H. pose proof PI_RGT_0. split; intros HD.
    - assert (B : -1 < gauss_irho r < 1).
      { unfold gauss_irho. pose proof (sin_increasing_1 (r * PI / 6) (PI / 6) ltac:(nra) ltac:(nra) ltac:(nra) ltac:(nra) ltac:(nra)) as A. rewrite sin_PI6 in A.
        pose proof (sin_increasing_1 (- (PI / 6)) (r * PI / 6) ltac:(nra) ltac:(nra) ltac:(nra) ltac:(nra) ltac:(nra)) as A'. rewrite sin_neg, sin_PI6 in A'. lra. }
      rewrite <- (gauss_rho_irho r) at 2 by lra. apply C86_spearman; assumption.
    - assert (B : -1 < ell_itau r < 1).
      { unfold ell_itau. pose proof (sin_increasing_1 (r * PI / 2) (PI / 2) ltac:(nra) ltac:(nra) ltac:(nra) ltac:(nra) ltac:(nra)) as A. rewrite sin_PI2 in A.
        pose proof (sin_increasing_1 (- (PI / 2)) (r * PI / 2) ltac:(nra) ltac:(nra) ltac:(nra) ltac:(nra) ltac:(nra)) as A'. rewrite sin_neg, sin_PI2 in A'. lra. }
      rewrite <- (ell_tau_itau r) at 2 by lra. apply C86_kendall; assumption.
  Qed.
End Gaussian.

(** ** A case: the normal distribution function itself, with correlation 1/2 *)
Example C86_case : forall rho, -1 < rho < 1 -> documented_normal (quantile_of Phi) (fun s l => match l with [[x; y]] => Ok [Fin (bvn (get s 0%nat 1%nat) x y)] | _ => Err ValueError end) rho.
Proof.
  intros rho H. exists Phi, (bvn rho). split; [exact Phi_distribution|]. split; [exact (quantile_exists Phi normal_density Phi_distribution)|]. split; [exact (bvn_joint rho H)|].
  intros s x y [_ [_ [_ [_ [E _]]]]]. rewrite E. reflexivity.
Qed.
Example C86_case_value : ell_tau (1 / 2) = 1 / 3 /\ ell_rho 0 = 0.
Proof.
  pose proof PI_RGT_0. split.
  - unfold ell_tau. replace (asin (1 / 2)) with (PI / 6); [field; lra|]. rewrite <- sin_PI6. symmetry. apply asin_sin. lra.
  - unfold ell_rho. replace (0 / 2) with 0 by field. rewrite asin_0. field. lra.
Qed.
Print Assumptions C86_spearman.
Print Assumptions C86_kendall.
Print Assumptions C86_median.
Print Assumptions C86_inverse.
