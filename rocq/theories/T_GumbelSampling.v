(** C104: rows of the Gumbel sampler follow the Gumbel copula. *)
From Coquelicot Require Import Coquelicot.
From Verif Require Import Base RSumLib Ext S_Archimedean P_Gen P_Arch P_Arch2 P_ArchCode M_Archimedean M_Special M_Stable T_Stable M_GumbelSampling S_Sampling P_Sampling P_Kanter P_Kanter2 P_Kanter3.
From Coq Require Import Psatz.
Local Close Scope Z_scope. Open Scope R_scope.

(** Kanter's representation has the positive stable law: for a uniform u and an exponential w its Laplace transform at t is exp(- t ^ alpha).
    D u is the integral over w, and the integral of D over (0,1) is the transform. *)
Theorem C104_stable_law : forall al t, 0 < al < 1 -> 0 < t ->
  exists D : R -> R, (forall u, 0 < u < 1 -> half_line (fun w => exp (- w) * exp (- (t * kanter al (PI * u) w))) (D u)) /\
    is_RInt_gen D (at_right 0) (at_left 1) (exp (- Rpower t al)).
Proof.
  intros al t Hal Ht. pose proof PI_RGT_0 as PP. exists (fun u => DD al t (PI * u)). split.
  - intros u Hu. eapply half_ext; [|apply (DD_half al t Hal Ht (PI * u)); nra]. intros w Hw. unfold cond. ring.
  - intros P [e He]. pose proof (kanter_sum al t Hal Ht) as K. assert (E : 0 < e * PI) by (apply Rmult_lt_0_compat; [apply cond_pos|exact PP]).
    destruct (K (fun v => Rabs (v - PI * W0 al t) < e * PI)) as [Q1 Q2 H1 H2 H3]. { exists (mkposreal _ E). intros v Bv. exact Bv. }
    cbn [fst snd] in H3. apply (Filter_prod _ _ _ (fun a => Q1 (PI * a)) (fun b => Q2 (PI * b))).
    + destruct H1 as [d Hd]. assert (D : 0 < d / PI) by (apply Rdiv_lt_0_compat; [apply cond_pos|exact PP]). exists (mkposreal _ D). intros y By Py. apply Hd; [|nra]. change (Rabs (y - 0) < d / PI) in By. change (Rabs (PI * y - 0) < d). rewrite Rminus_0_r in *. rewrite Rabs_pos_eq in * by nra. apply Rmult_lt_compat_l with (r := PI) in By; [|exact PP]. replace (PI * (d / PI)) with (pos d) in By by (field; lra). exact By.
    + destruct H2 as [d Hd]. assert (D : 0 < d / PI) by (apply Rdiv_lt_0_compat; [apply cond_pos|exact PP]). exists (mkposreal _ D). intros y By Py. apply Hd; [|nra]. change (Rabs (y - 1) < d / PI) in By. change (Rabs (PI * y - PI) < d). rewrite Rabs_left in * by nra. apply Rmult_lt_compat_l with (r := PI) in By; [|exact PP]. replace (PI * (d / PI)) with (pos d) in By by (field; lra). lra.
    + intros a b Qa Qb. destruct (H3 _ _ Qa Qb) as [y [I Py]]. exists (y / PI). cbn [fst snd]. split.
      * replace (y / PI) with (scal (/ PI) y) by (unfold scal; cbn; unfold mult; cbn; field; lra).
        apply (is_RInt_ext (fun u => scal (/ PI) (scal PI (DD al t (PI * u + 0))))); [intros u _; rewrite Rplus_0_r; unfold scal; cbn; unfold mult; cbn; field; lra|].
        apply (is_RInt_scal (V := R_NormedModule)). apply (is_RInt_comp_lin (V := R_NormedModule) (DD al t) PI 0 a b y). rewrite !Rplus_0_r. exact I.
      * apply He. change (Rabs (y / PI - exp (- Rpower t al)) < e). replace (y / PI - exp (- Rpower t al)) with ((y - PI * W0 al t) * / PI) by (unfold W0; field; lra).
        rewrite Rabs_mult, (Rabs_pos_eq (/ PI)) by (left; apply Rinv_0_lt_compat, PP). apply Rmult_lt_reg_r with PI; [exact PP|]. rewrite Rmult_assoc, Rinv_l, Rmult_1_r by lra. exact Py.
Qed.
Print Assumptions C104_stable_law.
Example C104_stable_law_case : 0 < 1 / 2 < 1 /\ 0 < 4 /\ exp (- Rpower 4 (1 / 2)) = exp (- (2)).
Proof. split; [lra|]. split; [lra|]. do 2 f_equal. replace 4 with (Rpower 2 2). - rewrite Rpower_mult. replace (2 * (1 / 2)) with 1 by field. apply Rpower_1. lra. - replace 2 with (INR 2) at 2 by (cbn; lra). rewrite Rpower_pow by lra. lra. Qed.

(** A Gumbel row: given the draws u and w of the frailty, the row is below us with probability prod (b u w); the mean of that over an
    exponential w and a uniform u is the cdf of the copula at us. *)
Theorem C104_gumbel : forall theta, 1 + / 100000000 + / 100000 < theta -> forall us, us <> [] -> inside us ->
  exists (b : R -> R -> list R) (D : R -> R) (c : R), gumbel_cdf theta (map Fin us) = Ok (Fin c) /\
    (forall argmax cauchy u w, 0 < u < 1 -> 0 < w -> below_iff (gumbel_row argmax cauchy theta u w) us (b u w)) /\
    (forall u, 0 < u < 1 -> half_line (fun w => exp (- w) * prod (b u w)) (D u)) /\
    is_RInt_gen D (at_right 0) (at_left 1) c.
Proof.
  intros th Hth us Hne Hus. assert (T1 : 1 < th) by lra. pose proof (gu_gen th ltac:(lra)) as GEN.
  assert (I2 : forall s, 0 <= s -> 0 < gu_psi th s /\ gu_f th (gu_psi th s) = s) by (intros s Hs; destruct (gu_inv2 th s ltac:(lra) Hs) as [A B]; split; [lra|exact B]).
  assert (GP : forall s, 0 <= s -> gumbel_psi th (Fin s) = Ok (Fin (gu_psi th s))) by (intros s Hs; apply gumbel_psi_pos; lra).
  assert (Al : 0 < 1 / th < 1). { unfold Rdiv. rewrite Rmult_1_l. split; [apply Rinv_0_lt_compat; lra|]. rewrite <- Rinv_1. apply Rinv_lt_contravar; lra. }
  set (t := lsum (map (gu_f th) us)).
  assert (T : 0 < t). { unfold t. destruct us as [|x us]; [congruence|]. inversion_clear Hus as [|? ? Hx Hr]. cbn [map]. unfold lsum. cbn [fold_right]. pose proof (f_strict (gu_psi th) (gu_f th) GEN x Hx). pose proof (f_sum_pos _ _ GEN us Hr) as Q. unfold lsum in Q. lra. }
  destruct (C104_stable_law (1 / th) t Al T) as [D [D1 D2]].
  exists (fun u w => map (fun x => exp (- (kanter (1 / th) (PI * u) w * gu_f th x))) us), D, (exp (- Rpower t (1 / th))). split; [|split; [|split]].
  - rewrite gumbel_cdf_ok; [|lra|]. 2: { unfold unit_cube, inside in *. eapply Forall_impl; [|exact Hus]. cbv beta. intros; lra. }
    do 2 f_equal. unfold rcdf. destruct (existsb _ us) eqn:E0.
    + apply existsb_exists in E0. destruct E0 as [x [Ix Ex]]. apply Reqb_true in Ex. unfold inside in Hus. rewrite Forall_forall in Hus. specialize (Hus x Ix). lra.
    + fold t. unfold gu_psi. rewrite (proj2 (Rltb_true 0 t) T). reflexivity.
  - intros argmax cauchy u w Hu Hw. destruct (C71_kanter argmax cauchy th u w T1 Hu Hw) as [EK PK]. destruct (row_below (gu_psi th) (gu_f th) (gumbel_psi th) GEN I2 GP (kanter (1 / th) (PI * u) w) us PK Hus) as (B1 & B2 & B3).
    split; [exact B1|]. split; [exact B2|]. intros ws Iws Lws. destruct (B3 ws Iws Lws) as (r & R1 & R2 & R3). exists r. split; [|split; assumption].
    unfold gumbel_row. rewrite (proj2 (Rltb_false _ _)) by lra. rewrite (proj2 (Rleb_false _ _)) by (rewrite Rabs_R1, Rabs_pos_eq; lra). unfold gumbel_random_row. rewrite EK. cbn [bind]. rewrite <- R1.
    clear - Iws PK. induction Iws as [|x ws Hx _ IH]; [reflexivity|]. cbn [mapM]. rewrite IH. rewrite elog_pos by lra. replace (ediv (eopp (Fin (ln x))) (kanter (1 / th) (PI * u) w)) with (Fin (- ln x / kanter (1 / th) (PI * u) w)); [reflexivity|]. unfold ediv. cbn [eopp escal]. f_equal. unfold Rdiv. ring.
  - intros u Hu. eapply half_ext; [|exact (D1 u Hu)]. intros w Hw. cbv beta. rewrite (row_prod (gu_f th)). fold t. rewrite (Rmult_comm t). reflexivity.
  - exact D2.
Qed.
Print Assumptions C104_gumbel.
Example C104_gumbel_case : 1 + / 100000000 + / 100000 < 2 /\ [1 / 2; 1 / 3; 3 / 4] <> [] /\ inside [1 / 2; 1 / 3; 3 / 4].
Proof. split; [lra|]. split; [discriminate|repeat constructor; lra]. Qed.

(** Up to theta = 1 + 1e-5 + 1e-8 the rows are the independent uniforms, and for theta > 1 that is not the copula: at (x,x) the cdf is
    strictly above x * x. *)
Theorem C104_near_one_refuted : forall theta, 1 < theta <= 1 + / 100000000 + / 100000 ->
  (forall argmax cauchy u w us, inside us -> below_iff (gumbel_row argmax cauchy theta u w) us us) /\
  forall x, 0 < x < 1 -> exists c, gumbel_cdf theta (map Fin [x; x]) = Ok (Fin c) /\ prod [x; x] < c.
Proof.
  intros th Hth. split.
  - intros argmax cauchy u w us Hus. split; [reflexivity|]. split; [exact Hus|]. intros ws Iws Lws. exists ws. split; [|split; [exact Iws|reflexivity]].
    unfold gumbel_row. destruct (Rltb _ _); [reflexivity|]. rewrite (proj2 (Rleb_true _ _)) by (rewrite Rabs_R1, Rabs_pos_eq; lra). reflexivity.
  - intros x Hx. exists (rcdf (gu_psi th) (gu_f th) [x; x]). split; [apply gumbel_cdf_ok; [lra|repeat constructor; lra]|].
    unfold rcdf. cbn [existsb]. rewrite !Reqb_neq by lra. cbn [orb map]. unfold lsum, prod. cbn [fold_right]. unfold gu_f. rewrite !Reqb_neq by lra.
    set (l := - ln x). assert (L : 0 < l) by (unfold l; assert (ln x < 0) by (rewrite <- ln_1; apply ln_increasing; lra); lra). pose proof (exp_pos (th * ln l)) as Q. fold (Rpower l th) in Q.
    unfold gu_psi. rewrite (proj2 (Rltb_true _ _)) by lra. replace (Rpower l th + (Rpower l th + 0)) with (2 * Rpower l th) by ring.
    rewrite <- Rpower_mult_distr by lra. rewrite Rpower_mult. replace (th * (1 / th)) with 1 by (field; lra). rewrite Rpower_1 by exact L.
    assert (P2 : Rpower 2 (1 / th) < 2). { rewrite <- (Rpower_1 2) at 2 by lra. apply Rpower_lt; [lra|]. unfold Rdiv. rewrite Rmult_1_l, <- Rinv_1. apply Rinv_lt_contravar; lra. }
    replace (x * (x * 1)) with (exp (- (2 * l))). { apply exp_increasing. assert (Rpower 2 (1 / th) * l < 2 * l) by (apply Rmult_lt_compat_r; lra). lra. }
    unfold l. replace (- (2 * - ln x)) with (ln x + ln x) by ring. rewrite exp_plus, exp_ln by lra. ring.
Qed.
Print Assumptions C104_near_one_refuted.
Example C104_near_one_case : 1 < 1 + / 1000000 <= 1 + / 100000000 + / 100000 /\ 0 < 1 / 2 < 1.
Proof. lra. Qed.
