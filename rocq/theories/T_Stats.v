(** Properties C50, C51: logarithmic series draws and the multivariate t distribution (/repo/copulae/stats). *)
From Verif Require Import Base RSumLib Ext M_Linalg S_Matrix S_Linalg P_Linalg M_Stats S_Stats.
Open Scope R_scope.

Lemma q_range alpha u2 : alpha < 0 -> 0 <= u2 < 1 -> 0 <= 1 - exp (u2 * alpha) < 1 - exp alpha.
Proof.
  intros Ha Hu. assert (alpha < u2 * alpha <= 0) by nra. pose proof (exp_increasing alpha (u2 * alpha) ltac:(lra)).
  assert (exp (u2 * alpha) <= 1); [|lra]. rewrite <- exp_0. destruct (Req_dec (u2 * alpha) 0) as [->|]; [lra|]. left. apply exp_increasing. lra.
Qed.
Lemma log_q_value h : 0 < 1 - exp h -> (if Rltb (- (69314718055994530942 / 100000000000000000000)) h then elog (Fin (- (exp h - 1))) else elog (Fin (1 + - exp h))) = Fin (ln (1 - exp h)).
Proof.
  intros H. replace (- (exp h - 1)) with (1 - exp h) by ring. replace (1 + - exp h) with (1 - exp h) by ring.
  destruct (Rltb _ h); apply elog_pos; exact H.
Qed.

(** C50: for -3 <= alpha < 0 the draw is right unless it falls under u1 < q^2 *)
Theorem C50_small_partial : forall fuel alpha u1 u2, -3 <= alpha < 0 -> length u1 = length u2 ->
  Forall2 (fun a b => 0 <= a < 1 /\ 0 <= b < 1 /\ (1 - exp (b * alpha)) * (1 - exp (b * alpha)) <= a) u1 u2 ->
  exists r, random_log_series fuel alpha u1 u2 = Some r /\ Forall positive_integer r /\
    r = map (fun p => Fin (kemp alpha (fst p) (snd p))) (combine u1 u2).
Proof.
  intros fuel alpha u1 u2 Ha _ H. unfold random_log_series. rewrite (proj2 (Rltb_false alpha (-3))) by lra. eexists. split; [reflexivity|].
  assert (K : forall a b, 0 <= a < 1 -> 0 <= b < 1 -> (1 - exp (b * alpha)) * (1 - exp (b * alpha)) <= a ->
    log_series_small alpha a b = Fin (kemp alpha a b) /\ (kemp alpha a b = 1 \/ kemp alpha a b = 2)).
  { intros a b A B Q. pose proof (q_range alpha b ltac:(lra) B) as QR. unfold log_series_small, kemp. cbv zeta.
    replace (- (exp alpha - 1)) with (1 - exp alpha) by ring. replace (- (exp (b * alpha) - 1)) with (1 - exp (b * alpha)) by ring.
    set (q := 1 - exp (b * alpha)) in *. rewrite (proj2 (Rltb_false a (q * q)) Q). cbn [andb negb].
    destruct (Rlt_dec (1 - exp alpha) a) as [D1|D1].
    - rewrite (proj2 (Rltb_true _ _) D1). cbn [orb]. auto.
    - rewrite (proj2 (Rltb_false _ _)) by lra. cbn [orb]. destruct (Rlt_dec a (q * q)) as [D|_]; [lra|].
      destruct (Rlt_dec q a) as [D2|D2].
      + rewrite (proj2 (Rltb_true _ _) D2). auto.
      + rewrite (proj2 (Rltb_false q a)) by lra. rewrite (proj2 (Rleb_true a q)) by lra. auto. }
  split.
  - induction H as [|a b l l' [A [B Q]] _ IH]; cbn [combine map]; constructor; auto. cbn [fst snd].
    destruct (K a b A B Q) as [-> [->| ->]]; [exists 1%nat|exists 2%nat]; split; cbn; try lia; f_equal; ring.
  - induction H as [|a b l l' [A [B Q]] _ IH]; [reflexivity|]. cbn [combine map]. f_equal; [|exact IH]. cbn [fst snd]. apply K; assumption.
Qed.
Print Assumptions C50_small_partial.
(** under u1 < q^2 it never is: the code takes log(u1 / log q) of a negative number instead of log(u1) / log(q) *)
Theorem C50_small_refuted : forall alpha u1 u2, -3 <= alpha < 0 -> 0 <= u2 < 1 -> 0 <= u1 < (1 - exp (u2 * alpha)) * (1 - exp (u2 * alpha)) ->
  forall fuel, random_log_series fuel alpha [u1] [u2] = Some [if Reqb u1 0 then Ninf else Nan] /\ ~ positive_integer (if Reqb u1 0 then Ninf else Nan).
Proof.
  intros alpha u1 u2 Ha H2 H1 fuel. split; [|intros [n [_ E]]; destruct (Reqb u1 0); discriminate].
  unfold random_log_series. rewrite (proj2 (Rltb_false alpha (-3))) by lra. cbn [combine map fst snd]. do 2 f_equal.
  pose proof (q_range alpha u2 ltac:(lra) H2) as QR. unfold log_series_small. cbv zeta.
  pose proof (exp_pos alpha) as Ea.
  assert (Hq : 0 < 1 - exp (u2 * alpha)) by nra. rewrite (log_q_value _ Hq).
  replace (- (exp alpha - 1)) with (1 - exp alpha) by ring. replace (- (exp (u2 * alpha) - 1)) with (1 - exp (u2 * alpha)) by ring.
  set (q := 1 - exp (u2 * alpha)) in *.
  assert (Hl : ln q < 0) by (rewrite <- ln_1; apply ln_increasing; lra).
  rewrite (proj2 (Rltb_true u1 (q * q))) by lra. rewrite (proj2 (Rltb_false (1 - exp alpha) u1)) by nra. cbn [ezero negb andb orb].
  rewrite (proj2 (Reqb_false (ln q) 0)) by lra. cbn [negb andb]. unfold edivide. rewrite (proj2 (Reqb_false (ln q) 0)) by lra.
  destruct (Reqb u1 0) eqn:E.
  - apply Reqb_true in E. subst u1. unfold Rdiv. rewrite Rmult_0_l, elog_0. reflexivity.
  - apply Reqb_false in E. assert (u1 / ln q < 0).
    { unfold Rdiv. assert (/ ln q < 0) by (apply Rinv_lt_0_compat; exact Hl). nra. }
    unfold elog. rewrite (proj2 (Rltb_false 0 (u1 / ln q))) by lra. rewrite (proj2 (Reqb_false (u1 / ln q) 0)) by lra. reflexivity.
Qed.
Print Assumptions C50_small_refuted.
(** for alpha < -3 the loop never runs and the uniform draws themselves come back: none is a positive integer *)
Theorem C50_large_refuted : forall fuel alpha u1 u2, alpha < -3 -> Forall (fun a => 0 <= a < 1) u1 ->
  random_log_series (S fuel) alpha u1 u2 = Some (map Fin u1) /\ Forall (fun v => ~ positive_integer v) (map Fin u1).
Proof.
  intros fuel alpha u1 u2 Ha Hu. split.
  - unfold random_log_series. rewrite (proj2 (Rltb_true alpha (-3)) Ha). cbn [log_series_loop].
    assert (Hp : 1 < - alpha / ln (1 - (exp alpha - 1))).
    { assert (E1 : 0 < exp alpha < 1) by (split; [apply exp_pos|rewrite <- exp_0; apply exp_increasing; lra]).
      assert (L0 : 0 < ln (1 - (exp alpha - 1))) by (rewrite <- ln_1; apply ln_increasing; lra).
      assert (L1 : ln (1 - (exp alpha - 1)) < 1).
      { apply exp_lt_inv. rewrite exp_ln by lra. pose proof (exp_ineq1 1 ltac:(lra)). lra. }
      apply (Rmult_lt_reg_r (ln (1 - (exp alpha - 1)))); [exact L0|]. unfold Rdiv. rewrite Rmult_assoc, Rinv_l by lra. lra. }
    set (p := - alpha / ln (1 - (exp alpha - 1))) in *.
    assert (E : existsb (fun v => Rltb p v) u1 = false).
    { destruct (existsb _ u1) eqn:E; [|reflexivity]. apply existsb_exists in E. destruct E as [v [Hv E]]. apply Rltb_true in E.
      rewrite Forall_forall in Hu. specialize (Hu v Hv). lra. }
    rewrite E. reflexivity.
  - rewrite Forall_forall in *. intros v Hv. apply in_map_iff in Hv. destruct Hv as [a [<- Ha']]. intros [n [Hn E]]. injection E as E.
    specialize (Hu a Ha'). assert (1 <= INR n) by (change 1 with (INR 1); apply le_INR; exact Hn). lra.
Qed.
Print Assumptions C50_large_refuted.
Example C50_case : exists u1 u2, -3 <= -1 < 0 /\ 0 <= u2 < 1 /\ 0 <= u1 < (1 - exp (u2 * -1)) * (1 - exp (u2 * -1)) /\ u1 <> 0.
Proof.
  assert (H : 0 < (1 - exp (/ 2 * -1)) * (1 - exp (/ 2 * -1))).
  { assert (exp (/ 2 * -1) < 1) by (rewrite <- exp_0; apply exp_increasing; lra). nra. }
  exists ((1 - exp (/ 2 * -1)) * (1 - exp (/ 2 * -1)) / 2), (/ 2). lra.
Qed.
Example C50_partial_case : Forall2 (fun a b => 0 <= a < 1 /\ 0 <= b < 1 /\ (1 - exp (b * -2)) * (1 - exp (b * -2)) <= a) [/ 2; 9 / 10] [0; 0].
Proof. repeat constructor; rewrite ?Rmult_0_l, ?exp_0; lra. Qed.

(** C51 *)
Section MVT.
  Variable eig : mat R -> list R.
  Variable det : mat R -> R.
  Variable inv : mat R -> result (mat R).
  Variable gamma : R -> R.
  Variable beta : R -> R -> R.
  Variable mvn_pdf : xin -> list R -> mat R -> result (list ext).
  Notation pdf := (mvt_pdf eig det inv gamma beta mvn_pdf).
  Notation logpdf := (mvt_logpdf eig det inv gamma beta mvn_pdf).

  Lemma inverse_quad n m im x : pos_semidef n m -> inverse n m im -> 0 <= quad n im x.
  Proof.
    intros P H. set (y := fun k => rsum n (fun j => im k j * x j)).
    assert (E : quad n im x = quad n m y).
    { unfold quad. transitivity (rsum n (fun i => x i * y i)).
      - apply rsum_ext. intros i Hi. unfold y. rewrite <- rsum_scal. apply rsum_ext. intros j Hj. ring.
      - assert (Ex : forall i, (i < n)%nat -> rsum n (fun k => m i k * y k) = x i).
        { intros i Hi. unfold y. transitivity (rsum n (fun k => rsum n (fun j => m i k * im k j * x j))).
          - apply rsum_ext. intros k Hk. rewrite <- rsum_scal. apply rsum_ext. intros; ring.
          - rewrite rsum_swap. transitivity (rsum n (fun j => if Nat.eqb j i then x j else 0)).
            + apply rsum_ext. intros j Hj. rewrite rsum_scal_r, (H i j Hi Hj), (Nat.eqb_sym j i). destruct (Nat.eqb i j); ring.
            + apply (rsum_delta n i x Hi). }
        apply rsum_ext. intros i Hi. rewrite <- (Ex i Hi), Rmult_comm, <- rsum_scal. apply rsum_ext. intros; ring. }
    rewrite E. apply P.
  Qed.
  Lemma density_value nu d dt q : 0 < nu -> (1 <= d)%nat -> 0 < dt -> 0 <= q -> gamma_beta gamma beta ->
    edivide (gamma (INR d / 2)) (escal (beta (nu / 2) (INR d / 2) * Rpower (nu * PI) (INR d / 2) * Rpower dt (1 / 2)) (epow (Fin (1 + q / nu)) ((INR d + nu) / 2)))
    = Fin (gamma ((nu + INR d) / 2) / (gamma (nu / 2) * Rpower (nu * PI) (INR d / 2) * sqrt dt) * Rpower (1 + q / nu) (- ((nu + INR d) / 2))).
  Proof.
    intros Hn Hd Hdt Hq [Gp Gb].
    assert (Hd' : 0 < INR d) by (apply lt_0_INR; lia).
    assert (Hq' : 0 < 1 + q / nu). { unfold Rdiv. assert (0 < / nu) by (apply Rinv_0_lt_compat; exact Hn). nra. }
    rewrite epow_pos by exact Hq'. cbn [escal edivide]. rewrite (Gb (nu / 2) (INR d / 2)) by lra.
    replace (nu / 2 + INR d / 2) with ((nu + INR d) / 2) by lra. replace ((INR d + nu) / 2) with ((nu + INR d) / 2) by lra.
    assert (G1 := Gp (nu / 2) ltac:(lra)). assert (G2 := Gp (INR d / 2) ltac:(lra)). assert (G3 := Gp ((nu + INR d) / 2) ltac:(lra)).
    replace (1 / 2) with (/ 2) by lra. rewrite Rpower_sqrt by exact Hdt. rewrite Rpower_Ropp.
    assert (S : 0 < sqrt dt) by (apply sqrt_lt_R0; exact Hdt).
    assert (P1 : 0 < Rpower (nu * PI) (INR d / 2)) by apply exp_pos. assert (P2 : 0 < Rpower (1 + q / nu) ((nu + INR d) / 2)) by apply exp_pos.
    set (A := gamma (nu / 2)) in *. set (B := gamma (INR d / 2)) in *. set (C := gamma ((nu + INR d) / 2)) in *. set (D := Rpower (nu * PI) (INR d / 2)) in *.
    set (E := Rpower (1 + q / nu) ((nu + INR d) / 2)) in *. set (F := sqrt dt) in *.
    assert (Hpos : 0 < A * B / C * D * F * E).
    { repeat apply Rmult_lt_0_compat; auto. apply Rinv_0_lt_compat. exact G3. }
    rewrite (proj2 (Reqb_false (A * B / C * D * F * E) 0)) by lra. f_equal. field. repeat split; lra.
  Qed.

  (** the density is the textbook formula at every row, for every dimension, location, scale matrix and df <= 10000 *)
  Theorem C51_density : forall d rows xs mu df ic, gamma_beta gamma beta ->
    (1 <= d)%nat -> length rows = d -> length mu = d -> Forall (fun x => length x = d) xs -> 0 < df <= 10000 ->
    let cov := rows_mat d rows in
    is_psd eig false psd_tol (AMat cov) = true -> pos_semidef d (get cov) -> 0 < det cov -> inv cov = Ok ic -> inverse d (get cov) (get ic) ->
    pdf (XMat d xs) (MVec mu) (CRows d rows) (Some df) =
      Ok (map (fun x => Fin (student_density gamma df d (det cov) (get ic) (fun i => nth i x 0) (fun i => nth i mu 0))) xs) /\
    logpdf (XMat d xs) (MVec mu) (CRows d rows) (Some df) =
      Ok (map (fun x => Fin (student_log_density gamma df d (det cov) (get ic) (fun i => nth i x 0) (fun i => nth i mu 0))) xs).
  Proof.
    intros d rows xs mu df ic GB Hd HL HM HX Hdf cov Hpsd Hp Hdet Hinv Hi.
    assert (K : pdf (XMat d xs) (MVec mu) (CRows d rows) (Some df) =
      Ok (map (fun x => Fin (student_density gamma df d (det cov) (get ic) (fun i => nth i x 0) (fun i => nth i mu 0))) xs)).
    { unfold mvt_pdf, process_parameters. rewrite HL, Nat.eqb_refl. cbn [bind]. fold cov. change (nr cov) with d. rewrite HM, Nat.eqb_refl. cbn [bind].
      rewrite Hpsd. cbn [negb]. rewrite (proj2 (Rleb_false df 0)) by lra. cbn [bind]. unfold t_limit. rewrite (proj2 (Rltb_false 10000 df)) by lra.
      cbn [process_input]. rewrite Nat.eqb_refl. cbn [orb]. rewrite Hinv. cbn [bind]. f_equal. apply map_ext_in. intros x Hx.
      rewrite Forall_forall in HX. specialize (HX x Hx). cbv zeta. rewrite (epow_pos (det cov) (1 / 2) Hdet). cbn [escal].
      assert (Q : quadratic d ic (centre d d mu x) = student_quad d (get ic) (fun i => nth i x 0) (fun i => nth i mu 0)).
      { unfold quadratic, student_quad, quad, centre. rewrite Nat.eqb_refl.
        assert (Ec : forall i, (i < d)%nat -> nth i (map (fun p => fst p - snd p) (combine x mu)) 0 = nth i x 0 - nth i mu 0).
        { intros i Hi'. rewrite (nth_indep _ 0 ((fun p => fst p - snd p) (0, 0))) by (rewrite map_length, combine_length; lia).
          rewrite (map_nth (fun p => fst p - snd p)), combine_nth by congruence. reflexivity. }
        apply rsum_ext. intros i Hi'. apply rsum_ext. intros j Hj. rewrite (Ec i Hi'), (Ec j Hj). reflexivity. }
      rewrite Q. apply density_value; auto; [lra|]. apply (inverse_quad d (get cov)); assumption. }
    split; [exact K|]. unfold mvt_logpdf. rewrite K. cbn [rmap bind]. f_equal. rewrite map_map. apply map_ext_in. intros x Hx.
    unfold student_density, student_log_density.
    assert (Hq := inverse_quad d (get cov) (get ic) (fun i => nth i x 0 - nth i mu 0) Hp Hi). fold (student_quad d (get ic) (fun i => nth i x 0) (fun i => nth i mu 0)) in Hq.
    set (q := student_quad _ _ _ _) in *. destruct GB as [Gp _].
    assert (Hd' : 0 < INR d) by (apply lt_0_INR; lia).
    assert (G1 := Gp (df / 2) ltac:(lra)). assert (G3 := Gp ((df + INR d) / 2) ltac:(lra)).
    assert (S : 0 < sqrt (det cov)) by (apply sqrt_lt_R0; exact Hdet).
    assert (P1 : 0 < Rpower (df * PI) (INR d / 2)) by apply exp_pos.
    assert (D : 0 < gamma (df / 2) * Rpower (df * PI) (INR d / 2) * sqrt (det cov)) by (repeat apply Rmult_lt_0_compat; auto).
    rewrite elog_pos.
    2:{ apply Rmult_lt_0_compat; [|apply exp_pos]. apply Rmult_lt_0_compat; [exact G3|]. apply Rinv_0_lt_compat. exact D. }
    f_equal. rewrite ln_mult; [|apply Rmult_lt_0_compat; [exact G3|apply Rinv_0_lt_compat; exact D]|apply exp_pos].
    unfold Rdiv at 1. rewrite ln_mult, ln_Rinv by (auto; apply Rinv_0_lt_compat; exact D).
    rewrite !ln_mult by (auto; apply Rmult_lt_0_compat; auto). unfold Rpower. rewrite !ln_exp.
    assert (Es : ln (sqrt (det cov)) = ln (det cov) / 2).
    { rewrite <- (Rpower_sqrt (det cov) Hdet). unfold Rpower. rewrite ln_exp. lra. }
    rewrite Es. unfold Rdiv. rewrite ?ln_mult by (try exact PI_RGT_0; lra). ring.
  Qed.

  (** the logarithm is taken of the density, whatever the arguments *)
  Theorem C51_log : forall x mean cov df, logpdf x mean cov df = rmap (map elog) (pdf x mean cov df).
  Proof. reflexivity. Qed.

  (** argument checks *)
  Theorem C51_validation : forall x mean w rows df,
    (w <> length rows -> pdf x mean (CRows w rows) df = Err ValueError) /\
    (forall mu, length mu <> length rows -> pdf x (MVec mu) (CRows w rows) df = Err ValueError) /\
    (is_psd eig false psd_tol (AMat (rows_mat (length rows) rows)) = false -> pdf x mean (CRows w rows) df = Err ValueError) /\
    (forall nu, nu <= 0 -> pdf x mean (CRows w rows) (Some nu) = Err ValueError).
  Proof.
    intros x mean w rows df. unfold mvt_pdf, process_parameters.
    split; [|split; [|split]].
    - intros H. apply Nat.eqb_neq in H. rewrite H. reflexivity.
    - intros mu H. destruct (Nat.eqb w (length rows)); [|reflexivity]. cbn [bind rows_mat nr]. apply Nat.eqb_neq in H. rewrite H. reflexivity.
    - intros H. destruct (Nat.eqb w (length rows)); [|reflexivity]. cbn [bind rows_mat nr]. cbn [rows_mat] in H.
      destruct mean as [|r|l|n]; cbn [bind]; try reflexivity; try (rewrite H; reflexivity).
      destruct (Nat.eqb (length l) (length rows)); [|reflexivity]. cbn [bind]. rewrite H. reflexivity.
    - intros nu H. destruct (Nat.eqb w (length rows)); [|reflexivity]. cbn [bind rows_mat nr]. apply Rleb_true in H. rewrite H.
      destruct mean as [|r|l|n]; cbn [bind]; try reflexivity; try (destruct (negb _); reflexivity).
      destruct (Nat.eqb (length l) (length rows)); [|reflexivity]. cbn [bind]. destruct (negb _); reflexivity.
  Qed.
  (** beyond 10000 degrees of freedom the normal density is used *)
  Theorem C51_normal_limit : forall x mean cov df d mu c, process_parameters eig mean cov (Some df) = Ok (d, mu, c, df) -> 10000 < df ->
    pdf x mean cov (Some df) = mvn_pdf x mu c.
  Proof.
    intros x mean cov df d mu c H Hdf. unfold mvt_pdf. rewrite H. cbn [bind]. unfold t_limit. rewrite (proj2 (Rltb_true 10000 df) Hdf). reflexivity.
  Qed.
  (** defaults: location 0, scale 1, 4.6692 degrees of freedom *)
  Theorem C51_defaults : forall x df rows,
    pdf x MNone (CRows (length rows) rows) df = pdf x (MVec (repeat 0 (length rows))) (CRows (length rows) rows) df /\
    pdf x MNone CNone df = pdf x (MVec [0]) (CRows 1 [[1]]) df /\
    pdf x MNone (CScalar 1) df = pdf x (MVec [0]) (CRows 1 [[1]]) df /\
    pdf x MNone (CRows (length rows) rows) None = pdf x MNone (CRows (length rows) rows) (Some (46692 / 10000)).
  Proof.
    intros x df rows. unfold mvt_pdf, process_parameters. split; [|split; [|split]].
    - rewrite Nat.eqb_refl. cbn [bind rows_mat nr]. rewrite repeat_length, Nat.eqb_refl. reflexivity.
    - reflexivity.
    - reflexivity.
    - rewrite Nat.eqb_refl. cbn [bind rows_mat nr]. rewrite (proj2 (Rleb_false (46692 / 10000) 0)) by lra. reflexivity.
  Qed.
  (** the dimension of the points is not checked: a scalar point always fails (even in one dimension), and a column of numbers in a
      d-dimensional distribution is evaluated as if every coordinate were that number *)
  Theorem C51_scalar_point_refuted : forall r mean cov df, (forall d, df = Some d -> d <= 10000) -> exists e, pdf (XScalar r) mean cov df = Err e.
  Proof.
    intros r mean cov df Hdf. unfold mvt_pdf. destruct (process_parameters eig mean cov df) as [[[[d mu] c] nu]|e] eqn:P; cbn [bind]; [|eauto].
    assert (Hn : nu <= 10000).
    { unfold process_parameters in P. destruct cov as [|rc|w rows]; [| |destruct (Nat.eqb w (length rows)); [|discriminate]];
        cbn [bind rows_mat nr] in P; (destruct mean as [|rm|l|n]; cbn [bind] in P; try discriminate;
          [| |match type of P with context [Nat.eqb ?a ?b] => destruct (Nat.eqb a b) end; cbn [bind] in P; try discriminate]);
        (destruct (negb _) in P; [discriminate|]); (destruct df as [d0|]; [destruct (Rleb d0 0); [discriminate|]|]); injection P as <- <- <- <-; try (apply Hdf; reflexivity); lra. }
    unfold t_limit. rewrite (proj2 (Rltb_false 10000 nu)) by lra. cbn [process_input]. destruct (inv c); cbn [bind]; eauto.
  Qed.
  Theorem C51_width_refuted : forall d rows mu df v, (2 <= d)%nat -> length rows = d -> length mu = d ->
    pdf (XMat 1 [[v]]) (MVec mu) (CRows d rows) (Some df) = pdf (XMat d [repeat v d]) (MVec mu) (CRows d rows) (Some df) \/ 10000 < df.
  Proof.
    intros d rows mu df v Hd HL HM. destruct (Rlt_dec 10000 df) as [|Hdf]; [auto|]. left. unfold mvt_pdf, process_parameters.
    rewrite HL, Nat.eqb_refl. cbn [bind rows_mat nr]. rewrite HM, Nat.eqb_refl. cbn [bind]. destruct (negb _); [reflexivity|].
    destruct (Rleb df 0) eqn:E0; [reflexivity|]. cbn [bind]. unfold t_limit. rewrite (proj2 (Rltb_false 10000 df)) by lra. cbn [process_input].
    rewrite !Nat.eqb_refl, orb_true_r. cbn [orb]. destruct (inv _) as [ic|e]; cbn [bind map]; [|reflexivity].
    assert (C : centre d 1 mu [v] = centre d d mu (repeat v d)).
    { unfold centre. rewrite Nat.eqb_refl. destruct (Nat.eqb_spec 1 d) as [H|_]; [lia|]. cbn [nth]. rewrite <- HM. clear. induction mu as [|m mu IH]; [reflexivity|].
      cbn [map length repeat combine fst snd]. f_equal. exact IH. }
    rewrite C. reflexivity.
  Qed.
End MVT.

(** the shape of samples: n x d in two or more dimensions, but one dimension fails for n > 1 *)
Theorem C51_sample_shape : forall k n, (2 <= k)%nat -> (2 <= n)%nat -> rvs_shape k n = Ok [n; k] /\ rvs_shape k 1 = Ok [k].
Proof.
  intros k n Hk Hn. unfold rvs_shape, idiv_shape, normal_shape, chi_shape. destruct k as [|[|k]]; [lia|lia|]. destruct n as [|[|n]]; [lia|lia|]. split.
  - change (1 <? S (S n))%nat with true. cbv iota. cbn [rev app bcast]. rewrite Nat.eqb_refl. change (Nat.eqb (S (S k)) 1) with false. cbn [Nat.eqb rev app].
    destruct (list_eq_dec _ _ _) as [_|H]; [|contradiction]. cbn [bind fold_right].
    destruct (Nat.eqb_spec (S (S n) * (S (S k) * 1)) 1) as [H|_]; [lia|reflexivity].
  - cbn [Nat.ltb Nat.leb rev app bcast]. change (Nat.eqb (S (S k)) 1) with false. cbn [Nat.eqb rev app].
    destruct (list_eq_dec _ _ _) as [_|H]; [|contradiction]. cbn [bind fold_right]. rewrite Nat.mul_1_r. reflexivity.
Qed.
Print Assumptions C51_sample_shape.
Theorem C51_sample_one_dimension_refuted : forall n, (2 <= n)%nat -> rvs_shape 1 n = Err ValueError.
Proof.
  intros n Hn. unfold rvs_shape, idiv_shape, normal_shape, chi_shape. destruct n as [|[|n]]; [lia|lia|].
  change (1 <? S (S n))%nat with true. cbv iota. cbn [rev app bcast]. change (Nat.eqb (S (S n)) 1) with false. cbn [Nat.eqb rev app].
  destruct (list_eq_dec _ _ _) as [H|_]; [discriminate|reflexivity].
Qed.
Print Assumptions C51_sample_one_dimension_refuted.

(** the hypotheses can be met: two dimensions, correlation 1/2, the gamma function replaced by the constant 1 *)
Definition mvt_case_cov : list (list R) := [[1; / 2]; [/ 2; 1]].
Definition mvt_case_inv : mat R := rows_mat 2 [[4 / 3; - (2 / 3)]; [- (2 / 3); 4 / 3]].
Example C51_case : gamma_beta (fun _ => 1) (fun _ _ => 1) /\ pos_semidef 2 (get (rows_mat 2 mvt_case_cov)) /\
  is_psd (fun _ => [/ 2; 3 / 2]) false psd_tol (AMat (rows_mat 2 mvt_case_cov)) = true /\
  inverse 2 (get (rows_mat 2 mvt_case_cov)) (get mvt_case_inv).
Proof.
  split; [split; intros; lra|]. split; [|split].
  - intros x. unfold quad. cbn. set (a := x 0%nat). set (b := x 1%nat). pose proof (Rle_0_sqr (a + b)). pose proof (Rle_0_sqr a). pose proof (Rle_0_sqr b). unfold Rsqr in *. lra.
  - assert (S : symmetric (rows_mat 2 mvt_case_cov)) by (intros [|[|i]] [|[|j]] Hi Hj; cbn in *; try lia; reflexivity).
    unfold is_psd. rewrite is_symmetric_exact; [|unfold psd_tol; lra|reflexivity|exact S]. cbn [negb forallb].
    unfold psd_tol. rewrite (proj2 (Rleb_true _ (/ 2))), (proj2 (Rleb_true _ (3 / 2))) by lra. reflexivity.
  - intros [|[|i]] [|[|j]] Hi Hj; try lia; cbn; lra.
Qed.
Print Assumptions C51_density.
Print Assumptions C51_log.
Print Assumptions C51_validation.
Print Assumptions C51_normal_limit.
Print Assumptions C51_defaults.
Print Assumptions C51_scalar_point_refuted.
Print Assumptions C51_width_refuted.
