(** C83, C84: the densities and the tail coefficients of the Gaussian and the Student copula. *)
From Coquelicot Require Import Coquelicot.
From Verif Require Import Base RSumLib Ext S_Archimedean S_Matrix S_Linalg P_Linalg S_Stats S_Empirical S_Marginal S_EllipDensity
  M_Stats T_Stats M_Linalg M_Matrix M_EllipDensity P_Rayleigh P_GaussInt
  P_EllipDensity P_EllipDensity2 P_EllipDensity3 P_EllipDensity4 P_EllipDensity5 P_EllipDensity6.
From Verif Require Import M_Elliptical.
Open Scope R_scope.

(** ** The Gaussian copula *)
Section Gaussian.
  Variables norm_ppf norm_logpdf : R -> R.
  Variables mvn_logpdf mvn_cdf mvn_logcdf : mat R -> list (list R) -> result (list ext).
  Variable det : mat R -> R.
  Variable im : mat R -> nat -> nat -> R.
  Notation pdf := (gaussian_pdf norm_ppf norm_logpdf mvn_logpdf).
  Notation cdf := (gaussian_cdf norm_ppf mvn_cdf mvn_logcdf).

  (** any dimension: at every point the joint normal density of the quantiles over the product of their normal densities *)
  Theorem C83_gaussian_pdf : forall d e s u, (forall x, norm_logpdf x = ln (normal_density x)) -> documented_mvn det im mvn_logpdf ->
    real_sigma e = Ok s -> nr s = d -> nc s = d -> pos_semidef d (get s) -> 0 < det s -> inverse d (get s) (im s) -> Forall (fun x => length x = d) u ->
    let c x := normal_density_n d (det s) (im s) (fun i => nth i (map norm_ppf x) 0) / lprod (map normal_density (map norm_ppf x)) in
    pdf e false u = Ok (map (fun x => Fin (c x)) u) /\ pdf e true u = Ok (map (fun x => Fin (ln (c x))) u).
  Proof.
    intros d e s u Hl Hm Es Hr Hc Hp Hd Hi Hu. exact (gaussian_values norm_ppf norm_logpdf mvn_logpdf det im Hl Hm d e s u Es Hr Hc Hp Hd Hi Hu).
  Qed.
  (** the same in closed form: exp (-(q' S^-1 q - q' q) / 2) / sqrt (det S) *)
  Lemma normal_product l : lprod (map normal_density l) = exp (- rsum (length l) (fun i => nth i l 0 * nth i l 0) / 2) / sqrt ((2 * PI) ^ length l).
  Proof.
    pose proof PI_RGT_0 as P. induction l as [|a l IH].
    - cbn. rewrite Ropp_0. unfold Rdiv. rewrite Rmult_0_l, exp_0, sqrt_1. field.
    - cbn [map lprod length]. rewrite IH. unfold normal_density. rewrite (rsum_Sl (length l)). cbn [nth].
      replace (- (a * a + rsum (length l) (fun i => nth i l 0 * nth i l 0)) / 2) with (- (a * a) / 2 + - rsum (length l) (fun i => nth i l 0 * nth i l 0) / 2) by (unfold Rdiv; ring).
      rewrite exp_plus. cbn [pow]. rewrite (sqrt_mult (2 * PI)) by (try apply pow_le; lra).
      assert (0 < sqrt (2 * PI)) by (apply sqrt_lt_R0; lra). assert (0 < sqrt ((2 * PI) ^ length l)) by (apply sqrt_lt_R0, pow_lt; lra). field. lra.
  Qed.
  Theorem C83_gaussian_closed : forall d e s u, (forall x, norm_logpdf x = ln (normal_density x)) -> documented_mvn det im mvn_logpdf ->
    real_sigma e = Ok s -> nr s = d -> nc s = d -> pos_semidef d (get s) -> 0 < det s -> inverse d (get s) (im s) -> Forall (fun x => length x = d) u ->
    pdf e false u = Ok (map (fun x => let q i := norm_ppf (nth i x 0) in Fin (exp (- (quad d (im s) q - rsum d (fun i => q i * q i)) / 2) / sqrt (det s))) u).
  Proof.
    intros d e s u Hl Hm Es Hr Hc Hp Hd Hi Hu. destruct (C83_gaussian_pdf d e s u Hl Hm Es Hr Hc Hp Hd Hi Hu) as [-> _]. f_equal. apply map_ext_in. intros x Hx.
    rewrite Forall_forall in Hu. specialize (Hu x Hx). cbv zeta. apply f_equal. pose proof PI_RGT_0 as P.
    assert (N : forall i, (i < d)%nat -> nth i (map norm_ppf x) 0 = norm_ppf (nth i x 0)).
    { intros i Hi'. rewrite (nth_indep _ 0 (norm_ppf 0)) by (rewrite map_length; lia). apply map_nth. }
    rewrite normal_product, map_length, Hu. unfold normal_density_n.
    rewrite (quad_ext d (im s) (im s) _ (fun i => norm_ppf (nth i x 0)) ltac:(reflexivity) N).
    rewrite (rsum_ext d (fun i => nth i (map norm_ppf x) 0 * nth i (map norm_ppf x) 0) (fun i => norm_ppf (nth i x 0) * norm_ppf (nth i x 0))) by (intros i Hi'; rewrite N by exact Hi'; reflexivity).
    set (A := quad d (im s) (fun i => norm_ppf (nth i x 0))). set (B := rsum d (fun i => norm_ppf (nth i x 0) * norm_ppf (nth i x 0))).
    replace (- (A - B) / 2) with (- A / 2 + - (- B / 2)) by (unfold Rdiv; ring). rewrite exp_plus, (exp_Ropp (- B / 2)).
    assert (0 < (2 * PI) ^ d) by (apply pow_lt; lra). rewrite sqrt_mult by lra.
    assert (0 < sqrt ((2 * PI) ^ d)) by (apply sqrt_lt_R0; assumption). assert (0 < sqrt (det s)) by (apply sqrt_lt_R0; assumption).
    pose proof (exp_pos (- B / 2)). field. lra.
  Qed.
  (** uncorrelated: density 1 *)
  Theorem C83_gaussian_independent : forall d e s u, (forall x, norm_logpdf x = ln (normal_density x)) -> documented_mvn det im mvn_logpdf ->
    real_sigma e = Ok s -> nr s = d -> nc s = d -> (forall i j, (i < d)%nat -> (j < d)%nat -> get s i j = if Nat.eqb i j then 1 else 0) -> det s = 1 -> inverse d (get s) (im s) ->
    Forall (fun x => length x = d) u -> pdf e false u = Ok (map (fun _ => Fin 1) u).
  Proof.
    intros d e s u Hl Hm Es Hr Hc HI Hd Hi Hu.
    assert (Q : forall x, quad d (get s) x = rsum d (fun i => x i * x i)).
    { intros x. apply rsum_ext. intros i Hi0. rewrite (rsum_ext d _ (fun j => if Nat.eqb j i then x i * x j else 0)).
      - rewrite (rsum_delta d i (fun j => x i * x j) Hi0). reflexivity.
      - intros j Hj. rewrite HI, (Nat.eqb_sym i j) by assumption. destruct (Nat.eqb j i); ring. }
    assert (Hp : pos_semidef d (get s)) by (intros x; rewrite Q; apply rsum_nonneg; intros; nra).
    assert (HJ : forall i j, (i < d)%nat -> (j < d)%nat -> im s i j = get s i j).
    { intros i j Hi' Hj. rewrite HI, <- (Hi i j Hi' Hj) by assumption. rewrite (rsum_ext d _ (fun k => if Nat.eqb k i then im s k j else 0)).
      - symmetry. apply (rsum_delta d i (fun k => im s k j) Hi').
      - intros k Hk. rewrite HI, (Nat.eqb_sym i k) by assumption. destruct (Nat.eqb k i); ring. }
    rewrite (C83_gaussian_closed d e s u Hl Hm Es Hr Hc Hp ltac:(lra) Hi Hu). f_equal. apply map_ext. intros x. cbv zeta. f_equal. rewrite (quad_ext d (im s) (get s) _ _ HJ ltac:(reflexivity)), Q, Hd, sqrt_1.
    replace (- _ / 2) with 0 by (unfold Rdiv; ring). rewrite exp_0. field.
  Qed.
  (** any dimension: the density is the mixed derivative of the distribution function, whatever joint distribution function scipy has *)
  Theorem C83_gaussian_density : forall N d e s M, (forall x, norm_logpdf x = ln (normal_density x)) -> documented_mvn det im mvn_logpdf ->
    distribution N normal_density -> quantile N norm_ppf ->
    real_sigma e = Ok s -> nr s = d -> nc s = d -> pos_semidef d (get s) -> 0 < det s -> inverse d (get s) (im s) ->
    mixed_derivative_on (fun _ => True) d M (fun x => normal_density_n d (det s) (im s) (fun i => nth i x 0)) ->
    (forall rows, mvn_cdf s rows = Ok (map (fun x => Fin (M x)) rows)) ->
    exists C c, (forall u, cdf e false u = Ok (map (fun x => Fin (C x)) u)) /\
      (forall u, Forall (fun x => length x = d) u -> pdf e false u = Ok (map (fun x => Fin (c x)) u)) /\
      mixed_derivative_on interior d C c.
  Proof.
    intros N d e s M Hl Hm HN Hq Es Hr Hc Hp Hd Hi HM Hcdf. exists (fun x => M (map norm_ppf x)).
    exists (fun x => normal_density_n d (det s) (im s) (fun i => nth i (map norm_ppf x) 0) / lprod (map normal_density (map norm_ppf x))). split; [|split].
    - intros u. unfold gaussian_cdf. rewrite Es. cbn [bind]. rewrite Hcdf, map_map. reflexivity.
    - intros u Hu. apply (C83_gaussian_pdf d e s u Hl Hm Es Hr Hc Hp Hd Hi Hu).
    - exact (density_chain N normal_density norm_ppf HN Hq d M _ HM).
  Qed.
  (** reflecting every coordinate leaves the density unchanged *)
  Theorem C83_gaussian_radial : forall N d e s u, (forall x, norm_logpdf x = ln (normal_density x)) -> documented_mvn det im mvn_logpdf ->
    distribution N normal_density -> quantile N norm_ppf ->
    real_sigma e = Ok s -> nr s = d -> nc s = d -> pos_semidef d (get s) -> 0 < det s -> inverse d (get s) (im s) ->
    Forall (fun x => length x = d /\ interior x) u -> pdf e false (map (map (fun p => 1 - p)) u) = pdf e false u.
  Proof.
    intros N d e s u Hl Hm HN Hq Es Hr Hc Hp Hd Hi Hu.
    assert (H1 : Forall (fun x => length x = d) u) by (eapply Forall_impl; [|exact Hu]; intros x [E _]; exact E).
    assert (H2 : Forall (fun x => length x = d) (map (map (fun p => 1 - p)) u)).
    { apply Forall_forall. intros x Hx. apply in_map_iff in Hx. destruct Hx as [y [<- Hy]]. rewrite map_length. rewrite Forall_forall in H1. apply H1, Hy. }
    rewrite (C83_gaussian_closed d e s _ Hl Hm Es Hr Hc Hp Hd Hi H2), (C83_gaussian_closed d e s _ Hl Hm Es Hr Hc Hp Hd Hi H1). f_equal. rewrite map_map.
    apply map_ext_in. intros x Hx. rewrite Forall_forall in Hu. destruct (Hu x Hx) as [HL HI]. cbv zeta.
    assert (E : forall i, (i < d)%nat -> norm_ppf (nth i (map (fun p => 1 - p) x) 0) = - norm_ppf (nth i x 0)).
    { intros i Hi'. rewrite (nth_indep _ 0 ((fun p => 1 - p) 0)) by (rewrite map_length; lia). rewrite map_nth.
      apply (quantile_reflect N normal_density HN norm_ppf Hq normal_density_even). unfold interior in HI. rewrite Forall_forall in HI. apply HI, nth_In. lia. }
    f_equal. rewrite (quad_ext d (im s) (im s) _ (fun i => - norm_ppf (nth i x 0)) ltac:(reflexivity) E).
    replace (quad d (im s) (fun i => - norm_ppf (nth i x 0))) with (quad d (im s) (fun i => norm_ppf (nth i x 0))) by (apply rsum_ext; intros; apply rsum_ext; intros; ring).
    rewrite (rsum_ext d (fun i => norm_ppf (nth i (map (fun p => 1 - p) x) 0) * norm_ppf (nth i (map (fun p => 1 - p) x) 0)) (fun i => norm_ppf (nth i x 0) * norm_ppf (nth i x 0))); [reflexivity|].
    intros i Hi'. rewrite E by exact Hi'. ring.
  Qed.

  (** a pair: [cdf] lies between the Frechet bounds, is exchangeable and radially symmetric; [pdf] is its mixed derivative, positive,
      and integrates to 1 over every vertical line *)
  Theorem C83_gaussian_copula : forall N M b rho, (forall x, norm_logpdf x = ln (normal_density x)) -> documented_mvn det im mvn_logpdf -> det_2 det -> im_2 det im ->
    distribution N normal_density -> quantile N norm_ppf -> -1 < rho < 1 -> joint_cdf (normal2 rho) M ->
    (forall s x y, is_corr2 rho s -> mvn_cdf s [[x; y]] = Ok [Fin (M x y)]) ->
    let e := mkEll 2 b [Some rho] in
    let C u v := only (cdf e false [[u; v]]) in
    let c u v := only (pdf e false [[u; v]]) in
    exists h : R -> R -> R, forall u v, 0 < u < 1 -> 0 < v < 1 ->
      is_derive (fun u => C u v) u (h u v) /\ is_derive (fun v => h u v) v (c u v) /\
      Rmax 0 (u + v - 1) <= C u v <= Rmin u v /\ C u v = C v u /\ C (1 - u) (1 - v) = 1 - u - v + C u v /\
      0 < c u v /\ c u v = c v u /\ is_RInt_gen (c u) (at_right 0) (at_left 1) 1.
  Proof.
    intros N M b rho Hl Hm HD HD' HN Hq Hrho HM Hcdf e C c.
    assert (EC : forall u v, C u v = kC norm_ppf M u v).
    { intros u v. unfold C, gaussian_cdf, e. destruct (pair_sigma b rho) as [s [Es Cs]]. rewrite Es. cbn [bind map]. rewrite Hcdf by exact Cs. reflexivity. }
    assert (Ec : forall u v, c u v = km normal_density normal_density (nsl rho) rho (norm_ppf u) (norm_ppf v) / (normal_density (norm_ppf u) * normal_density (norm_ppf v))).
    { intros u v. unfold c, e. rewrite (gaussian_pair_value norm_ppf norm_logpdf mvn_logpdf det im Hl Hm b rho u v HD HD' Hrho), normal_km by exact Hrho. reflexivity. }
    assert (SP : forall x, 0 < nsl rho x) by (intros; apply nsl_pos, Hrho).
    assert (SY : forall x y, km normal_density normal_density (nsl rho) rho x y = km normal_density normal_density (nsl rho) rho y x) by (intros; rewrite !normal_km by exact Hrho; apply normal2_sym).
    assert (HK : joint_cdf (km normal_density normal_density (nsl rho) rho) M) by (apply (joint_ext (normal2 rho)); [intros; symmetry; apply normal_km, Hrho|exact HM]).
    exists (fun u v => N (kz (nsl rho) rho (norm_ppf u) (norm_ppf v))). intros u v Hu Hv. split; [|split; [|split; [|split; [|split; [|split; [|split]]]]]].
    - apply (is_derive_ext (fun u => kC norm_ppf M u v)); [intros; symmetry; apply EC|].
      apply (kC_derive_u N normal_density N normal_density (nsl rho) norm_ppf rho M HN HN SP (nsl_cont rho) HK Hq u v Hu).
    - rewrite Ec. apply (kernel_derive N normal_density N normal_density (nsl rho) norm_ppf rho HN HN Hq u v Hv).
    - rewrite EC. apply (kC_frechet N normal_density N normal_density (nsl rho) norm_ppf rho M HN HN SP (nsl_cont rho) SY HK Hq normal_density_even normal_density_even ltac:(reflexivity) u v Hu Hv).
    - rewrite !EC. apply (kC_symmetric normal_density normal_density (nsl rho) norm_ppf rho M SY HK).
    - rewrite !EC. apply (kC_reflect N normal_density N normal_density (nsl rho) norm_ppf rho M HN HN SP (nsl_cont rho) SY HK Hq normal_density_even normal_density_even ltac:(reflexivity) u v Hu Hv).
    - rewrite Ec, normal_km by exact Hrho. apply Rdiv_lt_0_compat; [apply normal2_pos, Hrho|apply Rmult_lt_0_compat; apply normal_density_pos].
    - rewrite !Ec, SY. f_equal. apply Rmult_comm.
    - apply (conditional_mass N normal_density N normal_density (nsl rho) norm_ppf rho HN HN SP Hq (c u) 1 u). intros w Hw. rewrite Ec. unfold km.
      pose proof (normal_density_pos (norm_ppf u)). pose proof (normal_density_pos (norm_ppf w)). field. lra.
  Qed.
End Gaussian.

(** ** The Student copula *)
Section Student.
  Variables t_ppf t_logpdf t_cdf : R -> R -> R.
  Variable eig : mat R -> list R.
  Variable det : mat R -> R.
  Variable inv : mat R -> result (mat R).
  Variable gamma : R -> R.
  Variable beta : R -> R -> R.
  Variable mvn_pdf : xin -> list R -> mat R -> result (list ext).
  Notation pdf := (student_pdf t_ppf t_logpdf eig det inv gamma beta mvn_pdf).

  (** any dimension, at most 10000 degrees of freedom: the joint t density of the quantiles over the product of their t densities *)
  Theorem C83_student_pdf : forall d e s ic df u, gamma_beta gamma beta -> (1 <= d)%nat -> 0 < df <= 10000 ->
    (forall x, t_logpdf x df = ln (t_density gamma df x)) ->
    e_dim e = d -> real_sigma e = Ok s -> nr s = d -> nc s = d ->
    let cov := rows_mat d (rows_of s) in
    (forall m, rayleigh (eig m) m) -> symmetric s -> pos_semidef d (get cov) -> 0 < det cov -> inv cov = Ok ic -> inverse d (get cov) (get ic) ->
    Forall (fun x => length x = d) u ->
    let q x := map (fun p => t_ppf p df) x in
    let c x := student_density gamma df d (det cov) (get ic) (fun i => nth i (q x) 0) (fun _ => 0) / lprod (map (t_density gamma df) (q x)) in
    pdf e df false u = Ok (map (fun x => Fin (c x)) u) /\ pdf e df true u = Ok (map (fun x => Fin (ln (c x))) u).
  Proof.
    intros d e s ic df u GB Hd Hdf Hl He Es Hr Hc cov HE Sy Hp Hdet Hinv Hi Hu q c.
    assert (Sy' : symmetric cov).
    { assert (G : forall i j, (i < d)%nat -> (j < d)%nat -> get cov i j = get s i j).
      { intros i j Hi' Hj. unfold cov, rows_of. cbn [rows_mat get]. rewrite Hr, Hc.
        rewrite (nth_indep _ [] (map (get s 0) (seq 0 d))) by (rewrite map_length, seq_length; exact Hi').
        rewrite (map_nth (fun i => map (get s i) (seq 0 d)) (seq 0 d) 0%nat i), seq_nth by exact Hi'. cbn [Nat.add].
        rewrite (nth_indep _ 0 (get s i 0%nat)) by (rewrite map_length, seq_length; exact Hj). rewrite map_nth, seq_nth by exact Hj. reflexivity. }
      intros i j Hi' Hj. cbn [cov rows_mat nr nc] in Hi', Hj. rewrite !G by assumption. apply Sy; rewrite ?Hr, ?Hc; assumption. }
    assert (Hpsd : is_psd eig false psd_tol (AMat cov) = true) by (apply (is_psd_complete eig psd_tol cov (HE cov)); [unfold psd_tol; lra|reflexivity|exact Sy'|exact Hp]).
    exact (student_values t_ppf t_logpdf eig det inv gamma beta mvn_pdf GB d e s ic df u Hd Hdf Hl He Es Hr Hc Hpsd Hp Hdet Hinv Hi Hu).
  Qed.
  (** any dimension: the density is the mixed derivative of the copula of any joint distribution function with that t density *)
  Theorem C83_student_density : forall T d e s ic df M, gamma_beta gamma beta -> (1 <= d)%nat -> 0 < df <= 10000 ->
    (forall x, t_logpdf x df = ln (t_density gamma df x)) ->
    distribution T (t_density gamma df) -> quantile T (fun p => t_ppf p df) ->
    e_dim e = d -> real_sigma e = Ok s -> nr s = d -> nc s = d ->
    let cov := rows_mat d (rows_of s) in
    (forall m, rayleigh (eig m) m) -> symmetric s -> pos_semidef d (get cov) -> 0 < det cov -> inv cov = Ok ic -> inverse d (get cov) (get ic) ->
    mixed_derivative_on (fun _ => True) d M (fun x => student_density gamma df d (det cov) (get ic) (fun i => nth i x 0) (fun _ => 0)) ->
    exists c, (forall u, Forall (fun x => length x = d) u -> pdf e df false u = Ok (map (fun x => Fin (c x)) u)) /\
      mixed_derivative_on interior d (fun x => M (map (fun p => t_ppf p df) x)) c.
  Proof.
    intros T d e s ic df M GB Hd Hdf Hl DT Hq He Es Hr Hc cov HE Sy Hp Hdet Hinv Hi HM.
    exists (fun x => student_density gamma df d (det cov) (get ic) (fun i => nth i (map (fun p => t_ppf p df) x) 0) (fun _ => 0) / lprod (map (t_density gamma df) (map (fun p => t_ppf p df) x))). split.
    - intros u Hu. apply (C83_student_pdf d e s ic df u GB Hd Hdf Hl He Es Hr Hc HE Sy Hp Hdet Hinv Hi Hu).
    - exact (density_chain T (t_density gamma df) (fun p => t_ppf p df) DT Hq d M _ HM).
  Qed.
  (** a pair: as for the Gaussian copula; M is the joint distribution function of the t density *)
  Theorem C83_student_copula : forall T T' M b rho df, gamma_beta gamma beta -> (forall m, rayleigh (eig m) m) -> det_2 det -> inv_2 det inv ->
    -1 < rho < 1 -> 0 < df <= 10000 -> (forall x, t_logpdf x df = ln (t_density gamma df x)) ->
    distribution T (t_density gamma df) -> distribution T' (t_density gamma (df + 1)) -> quantile T (fun p => t_ppf p df) -> joint_cdf (t2 gamma df rho) M ->
    let C u v := M (t_ppf u df) (t_ppf v df) in
    let c u v := only (pdf (mkEll 2 b [Some rho]) df false [[u; v]]) in
    exists h : R -> R -> R, forall u v, 0 < u < 1 -> 0 < v < 1 ->
      is_derive (fun u => C u v) u (h u v) /\ is_derive (fun v => h u v) v (c u v) /\
      Rmax 0 (u + v - 1) <= C u v <= Rmin u v /\ C u v = C v u /\ C (1 - u) (1 - v) = 1 - u - v + C u v /\
      0 < c u v /\ c u v = c v u /\ c (1 - u) (1 - v) = c u v /\ is_RInt_gen (c u) (at_right 0) (at_left 1) 1.
  Proof.
    intros T T' M b rho df GB HE HD HI Hrho Hdf Hl DT DT' Hq HM C c. set (q := fun p => t_ppf p df). set (f := t_density gamma df). set (f1 := t_density gamma (df + 1)).
    destruct GB as [G GB]. assert (N : 0 < df) by lra.
    assert (Ec : forall u v, c u v = km f f1 (tsl df rho) rho (q u) (q v) / (f (q u) * f (q v))).
    { intros u v. unfold c. rewrite (student_pair_value t_ppf t_logpdf eig det inv gamma beta mvn_pdf (conj G GB) b rho df u v HE HD HI Hrho Hdf Hl).
      unfold f, f1. rewrite (t_km gamma df rho) by assumption. reflexivity. }
    assert (SP : forall x, 0 < tsl df rho x) by (intros; apply tsl_pos; assumption).
    assert (SC : forall x, continuous (tsl df rho) x) by (intros; apply tsl_cont; assumption).
    assert (SY : forall x y, km f f1 (tsl df rho) rho x y = km f f1 (tsl df rho) rho y x) by (intros; unfold f, f1; rewrite !t_km by assumption; apply t2_sym).
    assert (HK : joint_cdf (km f f1 (tsl df rho) rho) M) by (apply (joint_ext (t2 gamma df rho)); [intros; symmetry; apply t_km; assumption|exact HM]).
    assert (P : forall x, 0 < f x) by (intros; apply t_density_pos; assumption).
    assert (P1 : forall x, 0 < f1 x) by (intros; apply t_density_pos; [assumption|lra]).
    assert (ev : forall x, f (- x) = f x) by (intros; apply t_density_even). assert (ev1 : forall x, f1 (- x) = f1 x) by (intros; apply t_density_even).
    assert (sev : forall x, tsl df rho (- x) = tsl df rho x) by (intros; apply tsl_even).
    exists (fun u v => T' (kz (tsl df rho) rho (q u) (q v))). intros u v Hu Hv. split; [|split; [|split; [|split; [|split; [|split; [|split; [|split]]]]]]].
    - apply (kC_derive_u T f T' f1 (tsl df rho) q rho M DT DT' SP SC HK Hq u v Hu).
    - rewrite Ec. apply (kernel_derive T f T' f1 (tsl df rho) q rho DT DT' Hq u v Hv).
    - apply (kC_frechet T f T' f1 (tsl df rho) q rho M DT DT' SP SC SY HK Hq ev ev1 sev u v Hu Hv).
    - apply (kC_symmetric f f1 (tsl df rho) q rho M SY HK).
    - apply (kC_reflect T f T' f1 (tsl df rho) q rho M DT DT' SP SC SY HK Hq ev ev1 sev u v Hu Hv).
    - rewrite Ec. apply Rdiv_lt_0_compat; [|apply Rmult_lt_0_compat; apply P]. unfold km. apply Rmult_lt_0_compat; [apply P|]. apply Rmult_lt_0_compat; [apply P1|apply SP].
    - rewrite !Ec, SY. f_equal. apply Rmult_comm.
    - rewrite !Ec. rewrite (quantile_reflect T f DT q Hq ev u Hu), (quantile_reflect T f DT q Hq ev v Hv), !ev. f_equal. unfold km. rewrite ev, sev.
      f_equal. f_equal. unfold kz. rewrite sev. rewrite <- ev1. f_equal. ring.
    - apply (conditional_mass T f T' f1 (tsl df rho) q rho DT DT' SP Hq (c u) 1 u). intros w Hw. rewrite Ec. unfold km.
      pose proof (P (q u)). pose proof (P (q w)). field. lra.
  Qed.

  (** the distribution function is not there *)
  Theorem C83_student_cdf_refuted : forall e df log x, exists err, student_cdf t_ppf e df log x = Err err /\ (forall s, real_sigma e = Ok s -> err = NotImplementedError).
  Proof.
    intros e df log x. unfold student_cdf. destruct (real_sigma e) as [s|err].
    - exists NotImplementedError. split; [destruct log; reflexivity|reflexivity].
    - exists err. split; [reflexivity|]. intros s H. discriminate H.
  Qed.
  (** above 10000 degrees of freedom the joint density is replaced by the normal one while the margins stay t: the result is not the density of a
      copula, its integral over some vertical line is not 1 *)
  Lemma large_df_value b rho df u v : (forall m, rayleigh (eig m) m) -> -1 < rho < 1 -> 10000 < df ->
    (forall x, t_logpdf x df = ln (t_density gamma df x)) -> (forall a, 0 < a -> 0 < gamma a) ->
    (forall s x y, is_corr2 rho s -> mvn_pdf (XMat 2 [[x; y]]) [0; 0] s = Ok [Fin (normal2 rho x y)]) ->
    only (pdf (mkEll 2 b [Some rho]) df false [[u; v]]) =
    normal2 rho (t_ppf u df) (t_ppf v df) / (t_density gamma df (t_ppf u df) * t_density gamma df (t_ppf v df)).
  Proof.
    intros HE H Hdf Hl G Hm. destruct (pair_sigma b rho) as [s [Es C]]. pose proof C as [Er [Ec _]].
    set (cov := rows_mat 2 (rows_of s)). assert (CC : is_corr2 rho cov) by (apply rows_corr2, C).
    assert (Hp : pos_semidef 2 (get cov)) by (apply (corr2_psd rho); assumption).
    assert (Sy : symmetric cov).
    { destruct CC as [A1 [A2 [A3 [A4 [A5 A6]]]]]. intros [|[|i]] [|[|j]] Hi' Hj; rewrite ?A1, ?A2 in *; try lia; congruence. }
    assert (Hpsd : is_psd eig false psd_tol (AMat cov) = true) by (apply (is_psd_complete eig psd_tol cov (HE cov)); [unfold psd_tol; lra|reflexivity|exact Sy|exact Hp]).
    pose proof (rows_of_length s) as RL. rewrite Er in RL.
    unfold student_pdf. rewrite Es. cbn [bind map]. unfold mvt_logpdf, mvt_pdf, process_parameters. rewrite RL, Ec. cbn [Nat.eqb bind e_dim]. fold cov. change (nr cov) with 2%nat. cbn [bind repeat]. rewrite Hpsd. cbn [negb].
    rewrite (proj2 (Rleb_false df 0)) by lra. cbn [bind]. unfold t_limit. rewrite (proj2 (Rltb_true 10000 df)) by lra. rewrite (Hm cov _ _ CC). cbn [rmap bind map].
    rewrite elog_pos by (apply normal2_pos, H). pose proof (minus_margins_values (fun x => t_logpdf x df) (t_density gamma df) (fun p => t_ppf p df) (fun x => normal2 rho (nth 0 x 0) (nth 1 x 0)) [[u; v]] Hl) as K.
    cbn [map nth] in K. rewrite K; [|intros; apply t_density_pos; [exact G|lra]|intros; apply normal2_pos, H]. cbn [map eexp only lprod]. rewrite Rmult_1_r.
    apply exp_ln. apply Rdiv_lt_0_compat; [apply normal2_pos, H|apply Rmult_lt_0_compat; apply t_density_pos; try exact G; lra].
  Qed.
  Lemma ln_9 : ln 9 <= 4.
  Proof. replace 9 with (3 * 3) by ring. rewrite ln_mult by lra. pose proof (exp_ineq1_le 2). pose proof (ln_le 3 (exp 2) ltac:(lra) ltac:(lra)). rewrite ln_exp in *. lra. Qed.
  Theorem C83_student_large_df_refuted : forall T b rho df, (forall m, rayleigh (eig m) m) -> (forall a, 0 < a -> 0 < gamma a) ->
    -1 < rho < 1 -> 10000 < df -> (forall x, t_logpdf x df = ln (t_density gamma df x)) ->
    distribution T (t_density gamma df) -> quantile T (fun p => t_ppf p df) ->
    (forall s x y, is_corr2 rho s -> mvn_pdf (XMat 2 [[x; y]]) [0; 0] s = Ok [Fin (normal2 rho x y)]) ->
    exists u A, 0 < u < 1 /\ A <> 1 /\ is_RInt_gen (fun v => only (pdf (mkEll 2 b [Some rho]) df false [[u; v]])) (at_right 0) (at_left 1) A.
  Proof.
    intros T b rho df HE G H Hdf Hl DT Hq Hm. set (q := fun p => t_ppf p df). set (f := t_density gamma df).
    assert (P : forall x, 0 < f x) by (intros; apply t_density_pos; [exact G|lra]).
    assert (Mass : forall u, is_RInt_gen (fun v => only (pdf (mkEll 2 b [Some rho]) df false [[u; v]])) (at_right 0) (at_left 1) (normal_density (q u) / f (q u))).
    { intros u. refine (conditional_mass T f Phi normal_density (nsl rho) q rho DT Phi_distribution (fun x => nsl_pos rho x H) Hq _ _ u _). intros v Hv.
      rewrite large_df_value by assumption. fold f. fold (q u) (q v). rewrite <- normal_km by exact H. unfold km. pose proof (P (q u)). pose proof (P (q v)). field. lra. }
    assert (On : forall x, 0 < T x < 1) by (apply (dist_range T f DT)).
    assert (Qx : forall x, q (T x) = x) by (intros x; apply (dist_inj T f DT); apply Hq, On).
    set (x := sqrt (8 * df)). assert (X2 : x * x = 8 * df) by (apply sqrt_sqrt; lra).
    destruct (Req_dec (normal_density 0 / f 0) 1) as [E0|N0]; [|exists (T 0), (normal_density 0 / f 0); split; [apply On|split; [exact N0|]]; pose proof (Mass (T 0)) as K; rewrite (Qx 0) in K; exact K].
    destruct (Req_dec (normal_density x / f x) 1) as [Ex|Nx]; [|exists (T x), (normal_density x / f x); split; [apply On|split; [exact Nx|]]; pose proof (Mass (T x)) as K; rewrite (Qx x) in K; exact K].
    exfalso. pose proof (P 0) as P0. pose proof (P x) as Px.
    assert (E0' : normal_density 0 = f 0) by (apply (Rmult_eq_reg_r (/ f 0)); [rewrite Rinv_r by lra; exact E0|apply Rinv_neq_0_compat; lra]).
    assert (Ex' : normal_density x = f x) by (apply (Rmult_eq_reg_r (/ f x)); [rewrite Rinv_r by lra; exact Ex|apply Rinv_neq_0_compat; lra]).
    set (k := gamma ((df + 1) / 2) / (gamma (df / 2) * sqrt (df * PI))).
    assert (F0 : f 0 = k) by (unfold f, t_density; fold k; replace (1 + 0 * 0 / df) with 1 by (field; lra); unfold Rpower; rewrite ln_1, Rmult_0_r, exp_0; ring).
    assert (Fx : f x = k * exp (- ((df + 1) / 2) * ln 9)) by (unfold f, t_density; fold k; rewrite X2; replace (1 + 8 * df / df) with 9 by (field; lra); reflexivity).
    assert (Nx : normal_density x = normal_density 0 * exp (- (4 * df))).
    { unfold normal_density. rewrite X2. replace (- (0 * 0) / 2) with 0 by field. rewrite exp_0. replace (- (8 * df) / 2) with (- (4 * df)) by field. unfold Rdiv. ring. }
    rewrite Nx, E0', F0, Fx in Ex'. assert (K : 0 < k) by (rewrite <- F0; exact P0).
    apply (Rmult_eq_reg_l k) in Ex'; [|lra]. apply exp_inv in Ex'. pose proof ln_9. nra.
  Qed.
End Student.

(** ** Tail coefficients *)
(** the k-th coefficient the Gaussian copula reports is the limit of its k-th pair copula, lower and upper *)
Theorem C84_gaussian : forall N q e k rho M, distribution N normal_density -> quantile N q ->
  nth_error (e_rhos e) k = Some (Some rho) -> -1 < rho < 1 -> joint_cdf (normal2 rho) M ->
  let C u v := M (q u) (q v) in
  exists L U, nth_error (fst (gaussian_lambda e)) k = Some L /\ nth_error (snd (gaussian_lambda e)) k = Some U /\
    lim_0 (fun u => C u u / u) L /\ lim_1 (fun u => (1 - 2 * u + C u u) / (1 - u)) U.
Proof.
  intros N q e k rho M HN Hq Hk Hrho HM C. exists 0, 0.
  assert (V : nth_error (map is_one (e_rhos e)) k = Some 0).
  { rewrite nth_error_map, Hk. cbn [option_map is_one]. rewrite (proj2 (Reqb_false rho 1)) by lra. reflexivity. }
  assert (SP : forall x, 0 < nsl rho x) by (intros; apply nsl_pos, Hrho).
  assert (SY : forall x y, km normal_density normal_density (nsl rho) rho x y = km normal_density normal_density (nsl rho) rho y x) by (intros; rewrite !normal_km by exact Hrho; apply normal2_sym).
  assert (HK : joint_cdf (km normal_density normal_density (nsl rho) rho) M) by (apply (joint_ext (normal2 rho)); [intros; symmetry; apply normal_km, Hrho|exact HM]).
  assert (L0 : lim_0 (fun u => C u u / u) 0).
  { apply (diag_lim_0 N normal_density N normal_density (nsl rho) q rho M HN HN SP (nsl_cont rho) SY HK Hq 0).
    apply (lim_0_of_m_infty N normal_density q (fun x => 2 * N (kz (nsl rho) rho x x)) 0 HN Hq).
    replace (Finite 0) with (Rbar_mult 2 0) by (cbn; f_equal; ring). apply (is_lim_scal_l (fun x => N (kz (nsl rho) rho x x)) 2 m_infty 0).
    destruct HN as [_ [_ [_ [HN _]]]]. apply (is_lim_comp N (fun x => kz (nsl rho) rho x x) m_infty 0 m_infty); [exact HN|apply normal_kz_lim, Hrho|exists 0; intros; discriminate]. }
  split; [exact V|split; [exact V|split; [exact L0|]]].
  apply (diag_lim_1 N normal_density N normal_density (nsl rho) q rho M HN HN SP (nsl_cont rho) SY HK Hq normal_density_even normal_density_even ltac:(reflexivity) 0 L0).
Qed.
Print Assumptions C84_gaussian.
(** correlation 1 (both coordinates equal) and -1 (opposite coordinates) *)
Theorem C84_gaussian_degenerate : forall N q e k rho M, distribution N normal_density -> quantile N q -> nth_error (e_rhos e) k = Some (Some rho) ->
  rho = 1 /\ (forall x y, M x y = N (Rmin x y)) \/ rho = -1 /\ (forall x y, M x y = Rmax 0 (N x + N y - 1)) ->
  let C u v := M (q u) (q v) in
  exists L U, nth_error (fst (gaussian_lambda e)) k = Some L /\ nth_error (snd (gaussian_lambda e)) k = Some U /\
    lim_0 (fun u => C u u / u) L /\ lim_1 (fun u => (1 - 2 * u + C u u) / (1 - u)) U.
Proof.
  intros N q e k rho M HN Hq Hk [[-> HM]|[-> HM]] C.
  - exists 1, 1. assert (V : nth_error (map is_one (e_rhos e)) k = Some 1) by (rewrite nth_error_map, Hk; cbn [option_map is_one]; rewrite Reqb_refl; reflexivity).
    assert (E : forall u, 0 < u < 1 -> C u u = u) by (intros u Hu; unfold C; rewrite HM, Rmin_left by lra; apply Hq, Hu).
    split; [exact V|split; [exact V|split]]; intros e' He; exists 1; (split; [lra|]); intros u Hu; rewrite E by lra.
    + replace (u / u - 1) with 0 by (field; lra). rewrite Rabs_R0. exact He.
    + replace ((1 - 2 * u + u) / (1 - u) - 1) with 0 by (field; lra). rewrite Rabs_R0. exact He.
  - exists 0, 0. assert (V : nth_error (map is_one (e_rhos e)) k = Some 0) by (rewrite nth_error_map, Hk; cbn [option_map is_one]; rewrite (proj2 (Reqb_false (-1) 1)) by lra; reflexivity).
    assert (E : forall u, 0 < u < 1 -> C u u = Rmax 0 (2 * u - 1)) by (intros u Hu; unfold C; rewrite HM, Hq by exact Hu; f_equal; ring).
    split; [exact V|split; [exact V|split]]; intros e' He; exists (1 / 2); (split; [lra|]); intros u Hu; rewrite E by lra.
    + rewrite Rmax_left by lra. replace (0 / u - 0) with 0 by (field; lra). rewrite Rabs_R0. exact He.
    + rewrite Rmax_right by lra. replace ((1 - 2 * u + (2 * u - 1)) / (1 - u) - 0) with 0 by (field; lra). rewrite Rabs_R0. exact He.
Qed.
Print Assumptions C84_gaussian_degenerate.

(** the tail of the t copula: 2 T_(nu+1) (- sqrt ((nu + 1) (1 - rho) / (1 + rho))) *)
Theorem C84_student_tail : forall gamma T T' q rho nu M, (forall a, 0 < a -> 0 < gamma a) -> 0 < nu -> -1 < rho < 1 ->
  distribution T (t_density gamma nu) -> distribution T' (t_density gamma (nu + 1)) -> quantile T q -> joint_cdf (t2 gamma nu rho) M ->
  let C u v := M (q u) (q v) in
  lim_0 (fun u => C u u / u) (t_tail T' nu rho) /\ lim_1 (fun u => (1 - 2 * u + C u u) / (1 - u)) (t_tail T' nu rho).
Proof.
  intros gamma T T' q rho nu M G N Hrho DT DT' Hq HM C. set (f := t_density gamma nu). set (f1 := t_density gamma (nu + 1)).
  assert (SP : forall x, 0 < tsl nu rho x) by (intros; apply tsl_pos; assumption).
  assert (SC : forall x, continuous (tsl nu rho) x) by (intros; apply tsl_cont; assumption).
  assert (SY : forall x y, km f f1 (tsl nu rho) rho x y = km f f1 (tsl nu rho) rho y x) by (intros; unfold f, f1; rewrite !t_km by assumption; apply t2_sym).
  assert (HK : joint_cdf (km f f1 (tsl nu rho) rho) M) by (apply (joint_ext (t2 gamma nu rho)); [intros; symmetry; apply t_km; assumption|exact HM]).
  assert (L0 : lim_0 (fun u => C u u / u) (t_tail T' nu rho)).
  { apply (diag_lim_0 T f T' f1 (tsl nu rho) q rho M DT DT' SP SC SY HK Hq).
    apply (lim_0_of_m_infty T f q (fun x => 2 * T' (kz (tsl nu rho) rho x x)) _ DT Hq).
    apply (lim_of_cont T' (fun x => kz (tsl nu rho) rho x x)); [|apply t_kz_lim; assumption].
    destruct DT' as [D _]. apply (ex_derive_continuous (V := R_NormedModule)). eexists. apply D. }
  split; [exact L0|]. apply (diag_lim_1 T f T' f1 (tsl nu rho) q rho M DT DT' SP SC SY HK Hq); try exact L0; intros; [apply t_density_even|apply t_density_even|apply tsl_even].
Qed.
Print Assumptions C84_student_tail.
(** the code leaves out the division by 1 + rho: wrong for every correlation other than 0, too small for positive ones and too large for negative ones *)
Theorem C84_student_lambda_refuted : forall gamma T T' q t_cdf e k rho nu M, (forall a, 0 < a -> 0 < gamma a) -> 0 < nu -> -1 < rho < 1 -> rho <> 0 ->
  distribution T (t_density gamma nu) -> distribution T' (t_density gamma (nu + 1)) -> (forall x, t_cdf x (nu + 1) = T' x) -> quantile T q ->
  joint_cdf (t2 gamma nu rho) M -> nth_error (e_rhos e) k = Some (Some rho) ->
  let C u v := M (q u) (q v) in
  exists got right, nth_error (fst (student_lambda t_cdf e (Fin nu))) k = Some (Some got) /\ nth_error (snd (student_lambda t_cdf e (Fin nu))) k = Some (Some got) /\
    lim_0 (fun u => C u u / u) right /\ lim_1 (fun u => (1 - 2 * u + C u u) / (1 - u)) right /\
    (0 < rho -> got < right) /\ (rho < 0 -> right < got).
Proof.
  intros gamma T T' q t_cdf e k rho nu M G N Hrho Hn DT DT' Ht Hq HM Hk C. exists (2 * T' (- sqrt ((nu + 1) * (1 - rho)))), (t_tail T' nu rho).
  assert (P : 0 < (nu + 1) * (1 - rho)) by nra.
  assert (V : nth_error (map (student_tail t_cdf nu) (e_rhos e)) k = Some (Some (2 * T' (- sqrt ((nu + 1) * (1 - rho)))))).
  { rewrite nth_error_map, Hk. cbn [option_map student_tail]. rewrite (proj2 (Rleb_true 0 _)) by lra. rewrite Ht. reflexivity. }
  destruct (C84_student_tail gamma T T' q rho nu M G N Hrho DT DT' Hq HM) as [L0 L1].
  split; [exact V|split; [exact V|split; [exact L0|split; [exact L1|]]]]. unfold t_tail.
  assert (I : forall x y, x < y -> T' x < T' y) by (intros x y; apply (dist_increasing T' _ DT')).
  assert (E : (nu + 1) * (1 - rho) / (1 + rho) * (1 + rho) = (nu + 1) * (1 - rho)) by (field; lra).
  assert (P' : 0 < (nu + 1) * (1 - rho) / (1 + rho)) by (apply Rdiv_lt_0_compat; lra).
  split; intros Hs; apply Rmult_lt_compat_l; try lra; apply I, Ropp_lt_contravar, sqrt_lt_1; try lra; nra.
Qed.
Print Assumptions C84_student_lambda_refuted.
(** correct for uncorrelated pairs and for correlation 1 *)
Theorem C84_student_zero : forall gamma T T' q t_cdf e k nu M, (forall a, 0 < a -> 0 < gamma a) -> 0 < nu ->
  distribution T (t_density gamma nu) -> distribution T' (t_density gamma (nu + 1)) -> (forall x, t_cdf x (nu + 1) = T' x) -> quantile T q ->
  joint_cdf (t2 gamma nu 0) M -> nth_error (e_rhos e) k = Some (Some 0) ->
  let C u v := M (q u) (q v) in
  exists L U, nth_error (fst (student_lambda t_cdf e (Fin nu))) k = Some (Some L) /\ nth_error (snd (student_lambda t_cdf e (Fin nu))) k = Some (Some U) /\
    lim_0 (fun u => C u u / u) L /\ lim_1 (fun u => (1 - 2 * u + C u u) / (1 - u)) U.
Proof.
  intros gamma T T' q t_cdf e k nu M G N DT DT' Ht Hq HM Hk C. exists (t_tail T' nu 0), (t_tail T' nu 0).
  assert (V : nth_error (map (student_tail t_cdf nu) (e_rhos e)) k = Some (Some (t_tail T' nu 0))).
  { rewrite nth_error_map, Hk. cbn [option_map student_tail]. rewrite (proj2 (Rleb_true 0 _)) by lra. rewrite Ht. unfold t_tail. replace ((nu + 1) * (1 - 0) / (1 + 0)) with ((nu + 1) * (1 - 0)) by field. reflexivity. }
  split; [exact V|split; [exact V|]]. apply (C84_student_tail gamma T T' q 0 nu M G N ltac:(lra) DT DT' Hq HM).
Qed.
Print Assumptions C84_student_zero.
Theorem C84_student_one : forall gamma T' t_cdf e k nu, 0 < nu -> distribution T' (t_density gamma (nu + 1)) -> (forall x, t_cdf x (nu + 1) = T' x) ->
  nth_error (e_rhos e) k = Some (Some 1) ->
  nth_error (fst (student_lambda t_cdf e (Fin nu))) k = Some (Some 1) /\ nth_error (snd (student_lambda t_cdf e (Fin nu))) k = Some (Some 1).
Proof.
  intros gamma T' t_cdf e k nu N DT' Ht Hk.
  assert (V : nth_error (map (student_tail t_cdf nu) (e_rhos e)) k = Some (Some 1)); [|split; exact V].
  rewrite nth_error_map, Hk. cbn [option_map student_tail]. rewrite (proj2 (Rleb_true 0 _)) by lra. rewrite Ht. replace ((nu + 1) * (1 - 1)) with 0 by ring. rewrite sqrt_0.
  pose proof (even_reflect T' _ DT' (fun x => t_density_even gamma (nu + 1) x) 0) as R0. rewrite Ropp_0 in *. do 2 f_equal. lra.
Qed.
Print Assumptions C84_student_one.
(** what the code returns is always in (0, 1], larger for larger correlations; for infinitely many degrees of freedom it is the Gaussian answer *)
Theorem C84_student_range : forall gamma T' t_cdf nu r r', 0 < nu -> distribution T' (t_density gamma (nu + 1)) -> (forall x, t_cdf x (nu + 1) = T' x) ->
  r < r' <= 1 -> exists a a', student_tail t_cdf nu (Some r) = Some a /\ student_tail t_cdf nu (Some r') = Some a' /\ 0 < a < a' /\ a' <= 1.
Proof.
  intros gamma T' t_cdf nu r r' N DT' Ht Hr. cbn [student_tail]. rewrite !(proj2 (Rleb_true 0 _)) by nra. rewrite !Ht. do 2 eexists. split; [reflexivity|split; [reflexivity|]].
  assert (I : forall x y, x < y -> T' x < T' y) by (intros x y; apply (dist_increasing T' _ DT')).
  pose proof (dist_range T' _ DT' (- sqrt ((nu + 1) * (1 - r)))) as [B _].
  assert (L : - sqrt ((nu + 1) * (1 - r)) < - sqrt ((nu + 1) * (1 - r'))) by (apply Ropp_lt_contravar, sqrt_lt_1; nra). apply I in L.
  pose proof (even_reflect T' _ DT' (fun x => t_density_even gamma (nu + 1) x) 0) as R0. rewrite Ropp_0 in R0.
  pose proof (sqrt_pos ((nu + 1) * (1 - r'))) as [S|S]; [pose proof (I (- sqrt ((nu + 1) * (1 - r'))) 0 ltac:(lra)); lra|].
  rewrite <- S, Ropp_0 in *. lra.
Qed.
Print Assumptions C84_student_range.
Theorem C84_student_infinite : forall t_cdf e, student_lambda t_cdf e Pinf = (map Some (fst (gaussian_lambda e)), map Some (snd (gaussian_lambda e))).
Proof. intros t_cdf e. unfold student_lambda, gaussian_lambda. cbn [fst snd]. rewrite map_map. reflexivity. Qed.
Print Assumptions C84_student_infinite.

(** ** Cases *)
Definition case_det (m : mat R) : R := get m 0%nat 0%nat * get m 1%nat 1%nat - get m 0%nat 1%nat * get m 1%nat 0%nat.
Definition case_im (m : mat R) (i j : nat) : R :=
  match i, j with
  | O, O => get m 1%nat 1%nat / case_det m | O, _ => - get m 0%nat 1%nat / case_det m
  | _, O => - get m 1%nat 0%nat / case_det m | _, _ => get m 0%nat 0%nat / case_det m
  end.
Definition case_logpdf (cov : mat R) (rows : list (list R)) : result (list ext) :=
  Ok (map (fun x => Fin (ln (normal_density_n (nr cov) (case_det cov) (case_im cov) (fun i => nth i x 0)))) rows).
Definition case_cdf (cov : mat R) (rows : list (list R)) : result (list ext) :=
  Ok (map (fun x => Fin (bvn (get cov 0%nat 1%nat) (nth 0 x 0) (nth 1 x 0))) rows).
Lemma case_im_ok : im_2 case_det case_im.
Proof.
  intros m Hr Hc Hd [|[|i]] [|[|j]] Hi Hj; try lia; cbn [rsum case_im]; unfold case_det in *; cbn [Nat.eqb]; field; exact Hd.
Qed.
(** the pair theorem of the Gaussian copula with Phi, its quantile function and Plackett's integral for the joint distribution *)
Example C83_gaussian_case : forall rho, -1 < rho < 1 ->
  (forall x, ln (normal_density x) = ln (normal_density x)) /\ documented_mvn case_det case_im case_logpdf /\ det_2 case_det /\ im_2 case_det case_im /\
  distribution Phi normal_density /\ quantile Phi (quantile_of Phi) /\ joint_cdf (normal2 rho) (bvn rho) /\
  (forall s x y, is_corr2 rho s -> case_cdf s [[x; y]] = Ok [Fin (bvn rho x y)]).
Proof.
  intros rho H. split; [reflexivity|]. split; [|split; [|split; [|split; [|split; [|split]]]]].
  - intros d cov rows Hr Hc _ _ _ _. unfold case_logpdf. rewrite Hr. reflexivity.
  - intros m _ _. reflexivity.
  - exact case_im_ok.
  - exact Phi_distribution.
  - exact (quantile_exists Phi normal_density Phi_distribution).
  - exact (bvn_joint rho H).
  - intros s x y [_ [_ [_ [_ [E _]]]]]. unfold case_cdf. rewrite E. reflexivity.
Qed.
(** three dimensions, all correlations 1/2: the matrix of the general theorem *)
Definition case3_ell : ell := mkEll 3 false [Some (1 / 2); Some (1 / 2); Some (1 / 2)].
Definition case3_inv (i j : nat) : R := if Nat.eqb i j then 3 / 2 else - (1 / 2).
Example C83_gaussian_pdf_case : exists s, real_sigma case3_ell = Ok s /\ nr s = 3%nat /\ nc s = 3%nat /\ pos_semidef 3 (get s) /\ symmetric s /\ inverse 3 (get s) case3_inv /\ get s 0%nat 2%nat = 1 / 2.
Proof.
  eexists. split; [reflexivity|]. split; [reflexivity|split; [reflexivity|split; [|split; [|split]]]].
  - intros x. unfold quad. cbn. pose proof (Rle_0_sqr (x 0%nat + x 1%nat + x 2%nat)). pose proof (Rle_0_sqr (x 0%nat)). pose proof (Rle_0_sqr (x 1%nat)). pose proof (Rle_0_sqr (x 2%nat)). unfold Rsqr in *. nra.
  - intros [|[|[|i]]] [|[|[|j]]] Hi Hj; cbn in *; try lia; reflexivity.
  - intros [|[|[|i]]] [|[|[|j]]] Hi Hj; try lia; unfold case3_inv; cbn; field.
  - reflexivity.
Qed.
(** the bivariate Cauchy copula: one degree of freedom, joint distribution in closed form *)
Example C83_student_case : forall rho, -1 < rho < 1 -> exists eig,
  gamma_beta gamma_half (fun a b => gamma_half a * gamma_half b / gamma_half (a + b)) /\ (forall m, rayleigh (eig m) m) /\ det_2 case_det /\
  inv_2 case_det (fun m => Ok (mkMat 2 2 (case_im m))) /\ 0 < 1 <= 10000 /\
  distribution T1 (t_density gamma_half 1) /\ distribution T2 (t_density gamma_half (1 + 1)) /\ quantile T1 (quantile_of T1) /\ joint_cdf (t2 gamma_half 1 rho) (bvc rho).
Proof.
  intros rho H. destruct rayleigh_exists as [eig HE]. exists eig. split; [split; [intros; apply gamma_half_pos|reflexivity]|]. split; [exact HE|]. split; [intros m _ _; reflexivity|].
  split; [intros m Hr Hc Hd; eexists; split; [reflexivity|exact (case_im_ok m Hr Hc Hd)]|]. split; [lra|]. split; [exact T1_distribution|]. split; [exact T2_distribution|].
  split; [exact (quantile_exists T1 _ T1_distribution)|exact (bvc_joint rho H)].
Qed.
Example C83_student_large_df_case : exists eig gamma T, (forall m, rayleigh (eig m) m) /\ (forall a, 0 < a -> 0 < gamma a) /\ 10000 < 20000 /\
  distribution T (t_density gamma 20000) /\ quantile T (quantile_of T).
Proof.
  destruct rayleigh_exists as [eig HE]. destruct (t_exists 20000 ltac:(lra)) as [gamma [T [G DT]]]. exists eig, gamma, T.
  split; [exact HE|]. split; [intros a _; apply G|]. split; [lra|]. split; [exact DT|exact (quantile_exists T _ DT)].
Qed.
Example C84_case : nth_error (e_rhos (mkEll 2 false [Some (1 / 2)])) 0 = Some (Some (1 / 2)) /\ -1 < 1 / 2 < 1 /\ joint_cdf (normal2 (1 / 2)) (bvn (1 / 2)) /\
  joint_cdf (t2 gamma_half 1 (1 / 2)) (bvc (1 / 2)) /\ joint_cdf (t2 gamma_half 1 0) (bvc 0) /\ (forall x, (fun x (_ : R) => T2 x) x (1 + 1) = T2 x).
Proof. split; [reflexivity|]. split; [lra|]. split; [apply bvn_joint; lra|]. split; [apply bvc_joint; lra|]. split; [apply bvc_joint; lra|reflexivity]. Qed.
(** the joint distribution function asked for by the density theorems, for a pair *)
Example C83_density_case : forall rho, -1 < rho < 1 ->
  mixed_derivative_on (fun _ => True) 2 (fun x => bvn rho (nth 0 x 0) (nth 1 x 0)) (fun x => normal_density_n 2 (1 - rho * rho) (pair_inv rho) (fun i => nth i x 0)).
Proof.
  intros rho H.
  assert (HK : joint_cdf (km normal_density normal_density (nsl rho) rho) (bvn rho)) by (apply (joint_ext (normal2 rho)); [intros; symmetry; apply normal_km, H|apply bvn_joint, H]).
  exists (fun k x => match k with O => bvn rho (nth 0 x 0) (nth 1 x 0) | S O => normal_density (nth 0 x 0) * Phi (kz (nsl rho) rho (nth 0 x 0) (nth 1 x 0))
                     | _ => normal2 rho (nth 0 x 0) (nth 1 x 0) end).
  split; [reflexivity|split].
  - intros [|a [|b [|c l]]] HL _; try discriminate HL. cbn [nth]. symmetry. apply (normal_n_pair rho a b H).
  - intros [|[|k]] [|a [|b [|c l]]] Hk HL _; try discriminate HL; try lia; cbn [nth S_Empirical.set_nth].
    + exact (M_derive_x Phi normal_density Phi normal_density (nsl rho) rho (bvn rho) Phi_distribution Phi_distribution (fun x => nsl_pos rho x H) (nsl_cont rho) HK a b).
    + rewrite <- normal_km by exact H. exact (G_derive normal_density Phi normal_density (nsl rho) rho Phi_distribution a b).
Qed.
Print Assumptions C83_gaussian_pdf.
Print Assumptions C83_gaussian_closed.
Print Assumptions C83_gaussian_independent.
Print Assumptions C83_gaussian_density.
Print Assumptions C83_gaussian_radial.
Print Assumptions C83_gaussian_copula.
Print Assumptions C83_student_pdf.
Print Assumptions C83_student_density.
Print Assumptions C83_student_copula.
Print Assumptions C83_student_cdf_refuted.
Print Assumptions C83_student_large_df_refuted.
