(** The elliptical density code: values of the model. *)
From Coquelicot Require Import Coquelicot.
From Verif Require Import Base RSumLib Ext S_Matrix S_Linalg P_Linalg S_Stats M_Stats T_Stats S_EllipDensity M_Linalg M_Matrix M_Elliptical M_EllipDensity P_EllipDensity2 P_EllipDensity3 P_EllipDensity4.
Open Scope R_scope.

Lemma combine_maps {A B C} (g : A -> B) (h : A -> C) l : combine (map g l) (map h l) = map (fun x => (g x, h x)) l.
Proof. induction l as [|a l IH]; [reflexivity|]. cbn. f_equal. exact IH. Qed.
Lemma esum_logs (logpdf f : R -> R) l : (forall x, logpdf x = ln (f x)) -> (forall x, 0 < f x) -> esum (map (fun x => Fin (logpdf x)) l) = Fin (ln (lprod (map f l))).
Proof.
  intros E P. induction l as [|a l IH]; [cbn; rewrite ln_1; reflexivity|]. cbn [map esum fold_right lprod]. unfold esum in IH. rewrite IH. cbn [eadd]. rewrite E.
  rewrite ln_mult; [reflexivity|apply P|]. apply lprod_pos, Forall_forall. intros x Hx. apply in_map_iff in Hx. destruct Hx as [y [<- _]]. apply P.
Qed.
Lemma minus_margins_values (logpdf f q : R -> R) (J : list R -> R) u : (forall x, logpdf x = ln (f x)) -> (forall x, 0 < f x) -> (forall x, In x u -> 0 < J (map q x)) ->
  minus_margins logpdf (map (fun x => Fin (ln (J x))) (map (map q) u)) (map (map q) u) = map (fun x => Fin (ln (J (map q x) / lprod (map f (map q x))))) u.
Proof.
  intros E P HJ. unfold minus_margins. rewrite map_map. rewrite (combine_maps (fun x => Fin (ln (J (map q x)))) (map q) u), map_map. apply map_ext_in. intros x Hx. cbn [fst snd].
  rewrite (esum_logs logpdf f) by assumption. cbn [esub eopp eadd]. unfold esub. cbn [eopp eadd]. f_equal.
  assert (0 < lprod (map f (map q x))) by (apply lprod_pos, Forall_forall; intros y Hy; apply in_map_iff in Hy; destruct Hy as [z [<- _]]; apply P).
  unfold Rdiv. rewrite ln_mult, ln_Rinv; [reflexivity|assumption|apply HJ, Hx|apply Rinv_0_lt_compat; assumption].
Qed.
Lemma exp_of_logs {A} (V : A -> R) l : (forall x, In x l -> 0 < V x) -> map eexp (map (fun x => Fin (ln (V x))) l) = map (fun x => Fin (V x)) l.
Proof. intros H. rewrite map_map. apply map_ext_in. intros x Hx. cbn [eexp]. rewrite exp_ln by (apply H, Hx). reflexivity. Qed.

Lemma quad_ext n m m' x x' : (forall i j, (i < n)%nat -> (j < n)%nat -> m i j = m' i j) -> (forall i, (i < n)%nat -> x i = x' i) -> quad n m x = quad n m' x'.
Proof. intros E E'. apply rsum_ext. intros i Hi. apply rsum_ext. intros j Hj. rewrite E, !E' by assumption. reflexivity. Qed.
Lemma student_density_pos gamma nu d det inv x mu : (forall a, 0 < a -> 0 < gamma a) -> 0 < nu -> 0 < det -> 0 < student_density gamma nu d det inv x mu.
Proof.
  intros G N D. unfold student_density. pose proof (pos_INR d). apply Rmult_lt_0_compat; [|apply exp_pos]. apply Rdiv_lt_0_compat; [apply G; lra|].
  repeat apply Rmult_lt_0_compat; [apply G; lra|apply exp_pos|apply sqrt_lt_R0, D].
Qed.
Lemma normal_density_n_pos d det inv x : 0 < det -> 0 < normal_density_n d det inv x.
Proof. intros H. apply Rdiv_lt_0_compat; [apply exp_pos|]. apply sqrt_lt_R0. apply Rmult_lt_0_compat; [|exact H]. apply pow_lt. pose proof PI_RGT_0. lra. Qed.
Lemma t_density_pos gamma nu x : (forall a, 0 < a -> 0 < gamma a) -> 0 < nu -> 0 < t_density gamma nu x.
Proof.
  intros G N. unfold t_density. apply Rmult_lt_0_compat; [|apply exp_pos]. apply Rdiv_lt_0_compat; [apply G; lra|]. apply Rmult_lt_0_compat; [apply G; lra|].
  apply sqrt_lt_R0. pose proof PI_RGT_0. nra.
Qed.

(** the correlation matrix of a pair *)
Lemma pair_sigma b rho : exists s, real_sigma (mkEll 2 b [Some rho]) = Ok s /\ is_corr2 rho s.
Proof. eexists. split; [reflexivity|]. repeat split; reflexivity. Qed.
Lemma corr2_psd rho m : -1 < rho < 1 -> is_corr2 rho m -> pos_semidef 2 (get m).
Proof.
  intros H [_ [_ [E1 [E2 [E3 E4]]]]] x. unfold quad. cbn [rsum]. rewrite E1, E2, E3, E4. pose proof (one_minus_sq rho H).
  pose proof (Rle_0_sqr (x 1%nat + rho * x 0%nat)). pose proof (Rle_0_sqr (x 0%nat)). unfold Rsqr in *. nra.
Qed.
Definition pair_inv (rho : R) (i j : nat) : R := if Nat.eqb i j then 1 / (1 - rho * rho) else - rho / (1 - rho * rho).
Lemma pair_inv_ok rho m : -1 < rho < 1 -> is_corr2 rho m -> inverse 2 (get m) (pair_inv rho).
Proof.
  intros H [_ [_ [E1 [E2 [E3 E4]]]]] [|[|i]] [|[|j]] Hi Hj; try lia; cbn [rsum]; unfold pair_inv; cbn [Nat.eqb]; pose proof (one_minus_sq rho H); rewrite ?E1, ?E2, ?E3, ?E4; field; lra.
Qed.
Lemma pair_inv_unique rho m ic : -1 < rho < 1 -> is_corr2 rho m -> inverse 2 (get m) ic -> forall i j, (i < 2)%nat -> (j < 2)%nat -> ic i j = pair_inv rho i j.
Proof.
  intros H [_ [_ [E1 [E2 [E3 E4]]]]] I. pose proof (one_minus_sq rho H) as P.
  pose proof (I 0%nat 0%nat ltac:(lia) ltac:(lia)) as I00. pose proof (I 0%nat 1%nat ltac:(lia) ltac:(lia)) as I01.
  pose proof (I 1%nat 0%nat ltac:(lia) ltac:(lia)) as I10. pose proof (I 1%nat 1%nat ltac:(lia) ltac:(lia)) as I11.
  cbn [rsum Nat.eqb] in *. rewrite E1, E2, E3, E4 in *. clear I.
  intros [|[|i]] [|[|j]] Hi Hj; try lia; unfold pair_inv; cbn [Nat.eqb]; apply Rmult_eq_reg_r with (1 - rho * rho); try lra; unfold Rdiv; rewrite Rmult_assoc, Rinv_l by lra; nra.
Qed.
Lemma pair_quad rho x : -1 < rho < 1 ->
  quad 2 (pair_inv rho) x = (x 0%nat * x 0%nat - 2 * rho * x 0%nat * x 1%nat + x 1%nat * x 1%nat) / (1 - rho * rho).
Proof. intros H. pose proof (one_minus_sq rho H). unfold quad, pair_inv. cbn [rsum Nat.eqb]. field. lra. Qed.
Lemma normal_n_pair rho x y : -1 < rho < 1 -> normal_density_n 2 (1 - rho * rho) (pair_inv rho) (fun i => nth i [x; y] 0) = normal2 rho x y.
Proof.
  intros H. pose proof (one_minus_sq rho H). pose proof PI_RGT_0. unfold normal_density_n, normal2. rewrite pair_quad by exact H. cbn [nth]. f_equal.
  - f_equal. field. lra.
  - rewrite sqrt_mult by nra. f_equal. cbn [pow]. rewrite Rmult_1_r. apply sqrt_square. lra.
Qed.
Lemma student_pair gamma nu rho ic x y : 0 < nu -> -1 < rho < 1 -> (forall i j, (i < 2)%nat -> (j < 2)%nat -> ic i j = pair_inv rho i j) ->
  student_density gamma nu 2 (1 - rho * rho) ic (fun i => nth i [x; y] 0) (fun i => nth i (repeat 0 2) 0) = t2 gamma nu rho x y.
Proof.
  intros N H I. pose proof (one_minus_sq rho H). pose proof PI_RGT_0. unfold student_density, t2, student_quad.
  rewrite (quad_ext 2 ic (pair_inv rho) _ (fun i => nth i [x; y] 0)) by (try exact I; intros [|[|i]] Hi; try lia; cbn; ring).
  rewrite pair_quad by exact H. cbn [nth INR]. replace (1 + 1) with 2 by ring. replace (2 / 2) with 1 by field. rewrite Rpower_1 by nra.
  f_equal. f_equal. field. lra.
Qed.
Lemma rows_corr2 rho s : is_corr2 rho s -> is_corr2 rho (rows_mat 2 (rows_of s)).
Proof. intros [E1 [E2 [E3 [E4 [E5 E6]]]]]. unfold rows_of. rewrite E1, E2. repeat split; cbn; assumption. Qed.
Lemma rows_of_length s : length (rows_of s) = nr s.
Proof. unfold rows_of. rewrite map_length, seq_length. reflexivity. Qed.

(** ** Gaussian *)
Section Gaussian.
  Variables norm_ppf norm_logpdf : R -> R.
  Variable mvn_logpdf : mat R -> list (list R) -> result (list ext).
  Variable det : mat R -> R.
  Variable im : mat R -> nat -> nat -> R.
  Hypothesis Hlog : forall x, norm_logpdf x = ln (normal_density x).
  Hypothesis Hmvn : documented_mvn det im mvn_logpdf.
  Definition gaussian_ratio (d : nat) (dt : R) (ic : nat -> nat -> R) (x : list R) : R :=
    normal_density_n d dt ic (fun i => nth i (map norm_ppf x) 0) / lprod (map normal_density (map norm_ppf x)).
  Lemma gaussian_values d e s u : real_sigma e = Ok s -> nr s = d -> nc s = d -> pos_semidef d (get s) -> 0 < det s -> inverse d (get s) (im s) ->
    Forall (fun x => length x = d) u ->
    gaussian_pdf norm_ppf norm_logpdf mvn_logpdf e false u = Ok (map (fun x => Fin (gaussian_ratio d (det s) (im s) x)) u) /\
    gaussian_pdf norm_ppf norm_logpdf mvn_logpdf e true u = Ok (map (fun x => Fin (ln (gaussian_ratio d (det s) (im s) x))) u).
  Proof.
    intros Es Hr Hc Hp Hd Hi Hu. unfold gaussian_pdf. rewrite Es. cbn [bind].
    rewrite (Hmvn d s (map (map norm_ppf) u) Hr Hc Hp Hd Hi); [|apply Forall_forall; intros x Hx; apply in_map_iff in Hx; destruct Hx as [y [<- Hy]]; rewrite map_length; rewrite Forall_forall in Hu; apply Hu, Hy].
    cbn [bind]. rewrite (minus_margins_values norm_logpdf normal_density norm_ppf (fun x => normal_density_n d (det s) (im s) (fun i => nth i x 0)) u Hlog normal_density_pos)
      by (intros; apply normal_density_n_pos, Hd).
    split; [|reflexivity]. f_equal. apply (exp_of_logs (gaussian_ratio d (det s) (im s))). intros x _. apply Rdiv_lt_0_compat; [apply normal_density_n_pos, Hd|].
    apply lprod_pos, Forall_forall. intros y Hy. apply in_map_iff in Hy. destruct Hy as [z [<- _]]. apply normal_density_pos.
  Qed.
  Lemma gaussian_pair_value b rho u v : det_2 det -> im_2 det im -> -1 < rho < 1 ->
    only (gaussian_pdf norm_ppf norm_logpdf mvn_logpdf (mkEll 2 b [Some rho]) false [[u; v]]) =
    normal2 rho (norm_ppf u) (norm_ppf v) / (normal_density (norm_ppf u) * normal_density (norm_ppf v)).
  Proof.
    intros D I H. destruct (pair_sigma b rho) as [s [Es C]]. pose proof (one_minus_sq rho H) as P.
    assert (Ed : det s = 1 - rho * rho) by (destruct C as [A1 [A2 [A3 [A4 [A5 A6]]]]]; rewrite D, A3, A4, A5, A6 by assumption; ring).
    pose proof C as [Er [Ec _]].
    assert (HI : inverse 2 (get s) (im s)) by (apply I; [exact Er|exact Ec|lra]).
    destruct (gaussian_values 2 _ s [[u; v]] Es Er Ec (corr2_psd rho s H C) ltac:(lra) HI) as [V _]; [repeat constructor|].
    rewrite V. cbn [map only]. unfold gaussian_ratio. rewrite Ed. cbn [map].
    replace (normal_density_n 2 (1 - rho * rho) (im s) (fun i => nth i [norm_ppf u; norm_ppf v] 0)) with (normal_density_n 2 (1 - rho * rho) (pair_inv rho) (fun i => nth i [norm_ppf u; norm_ppf v] 0)).
    2: { unfold normal_density_n. do 4 f_equal. apply quad_ext; [|reflexivity]. intros i j Hi Hj. symmetry. apply (pair_inv_unique rho s); assumption. }
    rewrite normal_n_pair by exact H. cbn [lprod]. rewrite Rmult_1_r. reflexivity.
  Qed.
End Gaussian.

(** ** Student *)
Section Student.
  Variables t_ppf t_logpdf : R -> R -> R.
  Variable eig : mat R -> list R.
  Variable det : mat R -> R.
  Variable inv : mat R -> result (mat R).
  Variable gamma : R -> R.
  Variable beta : R -> R -> R.
  Variable mvn_pdf : xin -> list R -> mat R -> result (list ext).
  Hypothesis GB : gamma_beta gamma beta.
  Notation spdf := (student_pdf t_ppf t_logpdf eig det inv gamma beta mvn_pdf).
  Definition student_ratio (df : R) (d : nat) (dt : R) (ic : nat -> nat -> R) (x : list R) : R :=
    student_density gamma df d dt ic (fun i => nth i (map (fun p => t_ppf p df) x) 0) (fun _ => 0) / lprod (map (t_density gamma df) (map (fun p => t_ppf p df) x)).
  Lemma student_values d e s ic df u : (1 <= d)%nat -> 0 < df <= 10000 -> (forall x, t_logpdf x df = ln (t_density gamma df x)) ->
    e_dim e = d -> real_sigma e = Ok s -> nr s = d -> nc s = d ->
    let cov := rows_mat d (rows_of s) in
    is_psd eig false psd_tol (AMat cov) = true -> pos_semidef d (get cov) -> 0 < det cov -> inv cov = Ok ic -> inverse d (get cov) (get ic) ->
    Forall (fun x => length x = d) u ->
    spdf e df false u = Ok (map (fun x => Fin (student_ratio df d (det cov) (get ic) x)) u) /\
    spdf e df true u = Ok (map (fun x => Fin (ln (student_ratio df d (det cov) (get ic) x))) u).
  Proof.
    intros Hd Hdf Hlog He Es Hr Hc cov Hpsd Hp Hdet Hinv Hi Hu. unfold student_pdf. rewrite Es. cbn [bind]. rewrite He.
    pose proof (rows_of_length s) as RL. rewrite Hr in RL.
    assert (HU : Forall (fun x => length x = d) (map (map (fun p => t_ppf p df)) u)).
    { apply Forall_forall; intros x Hx; apply in_map_iff in Hx; destruct Hx as [y [<- Hy]]; rewrite map_length; rewrite Forall_forall in Hu; apply Hu, Hy. }
    assert (EC : nc s = length (rows_of s)) by (rewrite RL; exact Hc). rewrite EC.
    rewrite C51_log. rewrite (proj1 (C51_defaults eig det inv gamma beta mvn_pdf _ (Some df) (rows_of s))). rewrite RL.
    rewrite (proj1 (C51_density eig det inv gamma beta mvn_pdf d (rows_of s) (map (map (fun p => t_ppf p df)) u) (repeat 0 d) df ic GB Hd RL (repeat_length 0 d) HU Hdf Hpsd Hp Hdet Hinv Hi)).
    cbn [rmap bind]. fold cov. set (J := fun x : list R => student_density gamma df d (det cov) (get ic) (fun i => nth i x 0) (fun _ => 0)).
    destruct GB as [G _].
    assert (PJ : forall x, 0 < J x) by (intros x; apply student_density_pos; [exact G|lra|exact Hdet]).
    replace (map elog (map (fun x => Fin (student_density gamma df d (det cov) (get ic) (fun i => nth i x 0) (fun i => nth i (repeat 0 d) 0))) (map (map (fun p => t_ppf p df)) u)))
      with (map (fun x => Fin (ln (J x))) (map (map (fun p => t_ppf p df)) u)).
    2: { generalize (map (map (fun p => t_ppf p df)) u). intros l. rewrite map_map. apply map_ext. intros x. replace (student_density gamma df d (det cov) (get ic) (fun i => nth i x 0) (fun i => nth i (repeat 0 d) 0)) with (J x).
         - rewrite elog_pos by apply PJ. reflexivity.
         - unfold J, student_density, student_quad. do 3 f_equal. f_equal. apply quad_ext; [reflexivity|]. intros i _. rewrite nth_repeat. reflexivity. }
    rewrite (minus_margins_values (fun x => t_logpdf x df) (t_density gamma df) (fun p => t_ppf p df) J u Hlog) by (intros; first [apply PJ|apply t_density_pos; [exact G|lra]]).
    cbn [bind]. split; [|reflexivity]. f_equal. apply (exp_of_logs (student_ratio df d (det cov) (get ic))). intros x _. apply Rdiv_lt_0_compat; [apply PJ|].
    apply lprod_pos, Forall_forall. intros y Hy. apply in_map_iff in Hy. destruct Hy as [z [<- _]]. apply t_density_pos; [exact G|lra].
  Qed.
  Lemma student_pair_value b rho df u v : (forall m, rayleigh (eig m) m) -> det_2 det -> inv_2 det inv -> -1 < rho < 1 -> 0 < df <= 10000 ->
    (forall x, t_logpdf x df = ln (t_density gamma df x)) ->
    only (spdf (mkEll 2 b [Some rho]) df false [[u; v]]) =
    t2 gamma df rho (t_ppf u df) (t_ppf v df) / (t_density gamma df (t_ppf u df) * t_density gamma df (t_ppf v df)).
  Proof.
    intros HE D I H Hdf Hlog. destruct (pair_sigma b rho) as [s [Es C]]. pose proof (one_minus_sq rho H) as P. pose proof C as [Er [Ec _]].
    set (cov := rows_mat 2 (rows_of s)). assert (CC : is_corr2 rho cov) by (apply rows_corr2, C).
    assert (Ed : det cov = 1 - rho * rho) by (destruct CC as [A1 [A2 [A3 [A4 [A5 A6]]]]]; rewrite D, A3, A4, A5, A6 by assumption; ring).
    destruct (I cov) as [ic [Ei Hi]]; [reflexivity|reflexivity|lra|].
    assert (Hp : pos_semidef 2 (get cov)) by (apply (corr2_psd rho); assumption).
    assert (Sy : symmetric cov).
    { destruct CC as [A1 [A2 [A3 [A4 [A5 A6]]]]]. intros [|[|i]] [|[|j]] Hi' Hj; rewrite ?A1, ?A2 in *; try lia; congruence. }
    assert (Hpsd : is_psd eig false psd_tol (AMat cov) = true) by (apply (is_psd_complete eig psd_tol cov (HE cov)); [unfold psd_tol; lra|reflexivity|exact Sy|exact Hp]).
    destruct (student_values 2 (mkEll 2 b [Some rho]) s ic df [[u; v]] ltac:(lia) Hdf Hlog eq_refl Es Er Ec Hpsd Hp ltac:(fold cov; lra) Ei Hi) as [V _]; [repeat constructor|].
    rewrite V. fold cov. cbn [map only]. unfold student_ratio. rewrite Ed. cbn [map].
    replace (student_density gamma df 2 (1 - rho * rho) (get ic) (fun i => nth i [t_ppf u df; t_ppf v df] 0) (fun _ => 0))
      with (student_density gamma df 2 (1 - rho * rho) (get ic) (fun i => nth i [t_ppf u df; t_ppf v df] 0) (fun i => nth i (repeat 0 2) 0)).
    2: reflexivity.
    rewrite student_pair; [|lra|exact H|apply (pair_inv_unique rho cov); assumption]. cbn [lprod]. rewrite Rmult_1_r. reflexivity.
  Qed.
End Student.
