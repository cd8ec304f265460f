(** Property C129, continued: turning one variable of a pair round changes the sign of the correlation of the elliptical copulas
    (/repo/copulae/elliptical/gaussian.py:75-82, student.py:169-177). *)
From Coquelicot Require Import Coquelicot.
From Verif Require Import Base RSumLib Ext S_Archimedean S_Matrix S_Linalg P_Linalg S_Stats S_Empirical S_Marginal S_EllipDensity
  M_Stats M_Linalg M_Matrix M_EllipDensity P_EllipDensity P_EllipDensity2 P_EllipDensity3 P_EllipDensity5 T_EllipDensity.
From Verif Require Import M_Elliptical.
Open Scope R_scope.

Lemma normal2_turn rho x y : normal2 (- rho) x (- y) = normal2 rho x y.
Proof.
  unfold normal2. replace (- rho * - rho) with (rho * rho) by ring. replace (x * x - 2 * - rho * x * - y + - y * - y) with (x * x - 2 * rho * x * y + y * y) by ring. reflexivity.
Qed.
Lemma t2_turn gamma nu rho x y : t2 gamma nu (- rho) x (- y) = t2 gamma nu rho x y.
Proof.
  unfold t2. replace (- rho * - rho) with (rho * rho) by ring. replace (x * x - 2 * - rho * x * - y + - y * - y) with (x * x - 2 * rho * x * y + y * y) by ring. reflexivity.
Qed.
(** the density at (u, v) for rho is the density at (u, 1 - v) for -rho *)
Theorem C129_gaussian_sign : forall norm_ppf norm_logpdf mvn_logpdf det im N b b' rho u v,
  (forall x, norm_logpdf x = ln (normal_density x)) -> documented_mvn det im mvn_logpdf -> det_2 det -> im_2 det im ->
  distribution N normal_density -> quantile N norm_ppf -> -1 < rho < 1 -> 0 < v < 1 ->
  let pdf := gaussian_pdf norm_ppf norm_logpdf mvn_logpdf in
  only (pdf (mkEll 2 b [Some rho]) false [[u; v]]) = only (pdf (mkEll 2 b' [Some (- rho)]) false [[u; 1 - v]]).
Proof.
  intros q lp mv det im N b b' rho u v Hl Hm D I HN Hq Hr Hv pdf. unfold pdf.
  rewrite (gaussian_pair_value q lp mv det im Hl Hm b rho u v D I Hr), (gaussian_pair_value q lp mv det im Hl Hm b' (- rho) u (1 - v) D I ltac:(lra)).
  rewrite (quantile_reflect N normal_density HN q Hq normal_density_even v Hv), normal2_turn, normal_density_even. reflexivity.
Qed.
Print Assumptions C129_gaussian_sign.
Theorem C129_student_sign : forall t_ppf t_logpdf eig det inv gamma beta mvn_pdf T b b' rho df u v, gamma_beta gamma beta -> (forall m, rayleigh (eig m) m) ->
  det_2 det -> inv_2 det inv -> -1 < rho < 1 -> 0 < df <= 10000 -> (forall x, t_logpdf x df = ln (t_density gamma df x)) ->
  distribution T (t_density gamma df) -> quantile T (fun p => t_ppf p df) -> 0 < v < 1 ->
  let pdf := student_pdf t_ppf t_logpdf eig det inv gamma beta mvn_pdf in
  only (pdf (mkEll 2 b [Some rho]) df false [[u; v]]) = only (pdf (mkEll 2 b' [Some (- rho)]) df false [[u; 1 - v]]).
Proof.
  intros q lp eig det inv gamma beta mv T b b' rho df u v GB HE D I Hr Hdf Hl HT Hq Hv pdf. unfold pdf.
  rewrite (student_pair_value q lp eig det inv gamma beta mv GB b rho df u v HE D I Hr Hdf Hl).
  rewrite (student_pair_value q lp eig det inv gamma beta mv GB b' (- rho) df u (1 - v) HE D I ltac:(lra) Hdf Hl).
  rewrite (quantile_reflect T (t_density gamma df) HT (fun p => q p df) Hq (t_density_even gamma df) v Hv), t2_turn, t_density_even. reflexivity.
Qed.
Print Assumptions C129_student_sign.
(** the cases of C83 meet the hypotheses *)
Example C129_elliptical_case : forall rho, -1 < rho < 1 -> documented_mvn case_det case_im case_logpdf /\ det_2 case_det /\ im_2 case_det case_im /\
  distribution Phi normal_density /\ quantile Phi (quantile_of Phi).
Proof. intros rho H. destruct (C83_gaussian_case rho H) as [_ [A [B [C [D [E _]]]]]]. auto. Qed.
