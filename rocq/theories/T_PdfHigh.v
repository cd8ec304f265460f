(** C25: the Frank density in 20 dimensions and more, the Gumbel density in 31 dimensions and more. *)
From Coquelicot Require Import Coquelicot.
From Verif Require Import Base RSumLib Ext S_Archimedean P_Gen M_Archimedean P_Arch P_Arch2 P_CM P_ArchCode M_Special S_Special P_Stirling P_Partitions P_Eulerian P_Polylog M_Gumbel S_Gumbel P_Gumbel P_GumbelPoly T_Gumbel M_Pdf S_Pdf P_Pdf T_Pdf.
Open Scope R_scope.

(** the row of [frank_log_ok] for any value of the polylogarithm *)
Lemma frank_log_gen gamma dilog th u F : 0 < th -> (1 <= length u)%nat -> open_cube u -> 0 < F ->
  poly_log gamma dilog (fr_z th (fr_s th u)) (- Z.of_nat (length u - 1)) "default" true = Ok (ln F) ->
  frank_log_pdf gamma dilog th (map Fin u) = Ok (Fin (ln (th ^ (length u - 1) * F * lprod (map (fun x => / (exp (x * th) - 1)) u)))).
Proof.
  intros H N A PF HP. pose proof (fr_s_pos th u H ltac:(lia) A) as Hs.
  pose proof (exp_lt_1 (- th) ltac:(lra)) as E1.
  assert (L0 : log1mexp (Fin th) = Fin (ln (1 - exp (- th)))). { unfold log1mexp, esub. cbn [eopp eexp eadd]. rewrite elog_pos by lra. reflexivity. }
  assert (Lu : forall x, In x u -> log1mexp (escal th (Fin x)) = Fin (ln (1 - exp (- (x * th))))).
  { intros x I. pose proof (open_cube_in _ _ A I). pose proof (exp_lt_1 (- (x * th)) ltac:(nra)). unfold log1mexp, esub. cbn [escal eopp eexp eadd]. replace (th * x) with (x * th) by ring. rewrite elog_pos by lra. reflexivity. }
  unfold frank_log_pdf. rewrite L0. rewrite !map_map.
  rewrite (esum_map_fin (fun x => esub (log1mexp (escal th (Fin x))) (Fin (ln (1 - exp (- th))))) (fun x => -1 * fr_f th x)).
  2:{ intros x I. rewrite Lu by exact I. unfold esub. cbn [eopp eadd]. f_equal. pose proof (open_cube_in _ _ A I). pose proof (exp_lt_1 (- (x * th)) ltac:(nra)). unfold fr_f.
      replace ((exp (- (x * th)) - 1) / (exp (- th) - 1)) with ((1 - exp (- (x * th))) / (1 - exp (- th))) by (field; lra). rewrite ln_div by lra. ring. }
  rewrite lsum_map_scal. fold (fr_s th u). cbn [eadd eexp].
  replace (exp (ln (1 - exp (- th)) + -1 * fr_s th u)) with (fr_z th (fr_s th u)) by (unfold fr_z; rewrite exp_plus, exp_ln by lra; do 2 f_equal; ring).
  pose proof (fr_z_01 th (fr_s th u) H ltac:(lra)) as Z. rewrite !Rltb_lt by lra. cbn [andb]. rewrite map_length.
  replace (1 - Z.of_nat (length u))%Z with (- Z.of_nat (length u - 1))%Z by lia.
  rewrite HP. cbn [rmap].
  rewrite elog_pos by exact H. rewrite esum_fin. rewrite (esum_map_fin (fun x => log1mexp (escal th (Fin x))) (fun x => ln (1 - exp (- (x * th))))) by exact Lu.
  unfold esub. cbn [escal eopp eadd]. do 2 f_equal.
  pose proof (pow_lt th (length u - 1) H) as PW.
  assert (PL : Forall (fun x => 0 < x) (map (fun x => / (exp (x * th) - 1)) u)).
  { rewrite Forall_map. eapply Forall_impl; [|exact A]. cbn. intros x Hx. apply Rinv_0_lt_compat. pose proof (exp_gt_1 (x * th) ltac:(nra)). lra. }
  rewrite ln_mult; [|apply Rmult_lt_0_compat; assumption|apply lprod_pos; exact PL]. rewrite ln_mult by assumption. rewrite ln_pow by exact H. rewrite minus_INR by lia. cbn [INR].
  rewrite ln_lprod by exact PL. rewrite map_map.
  rewrite (lsum_map_ext (fun x => ln (/ (exp (x * th) - 1))) (fun x => - th * x + -1 * ln (1 - exp (- (x * th)))) u).
  - rewrite lsum_map_plus, !lsum_map_scal, map_id. ring.
  - intros x I. pose proof (open_cube_in _ _ A I). pose proof (exp_gt_1 (x * th) ltac:(nra)). pose proof (exp_lt_1 (- (x * th)) ltac:(nra)). rewrite ln_Rinv by lra.
    replace (exp (x * th) - 1) with (exp (x * th) * (1 - exp (- (x * th)))) by (rewrite Rmult_minus_distr_l, <- exp_plus, Rplus_opp_r, exp_0; ring).
    rewrite ln_mult, ln_exp by (try apply exp_pos; lra). ring.
Qed.

Lemma s2_S1 n : s2 (S n) 1 = 1%Z.
Proof. induction n as [|n IH]; [reflexivity|]. rewrite s2_SS, IH. reflexivity. Qed.
Lemma pl_coef_0 n : pl_coef n 0 = 1%Z.
Proof. unfold pl_coef. rewrite s2_S1. destruct (pl_fits n); reflexivity. Qed.
(** the wrapped polynomial stays positive next to 0 *)
Lemma low_poly_pos n : exists eta, 0 < eta /\ forall r, 0 < r < eta -> 0 < rsum (S n) (fun k => IZR (pl_coef n k) * r ^ k).
Proof.
  set (p := fun r => rsum (S n) (fun k => IZR (pl_coef n k) * r ^ k)).
  assert (P0 : p 0 = 1).
  { unfold p. induction n as [|m IH]; [cbn [rsum pow]; rewrite pl_coef_0; ring|].
    assert (G : forall m', rsum (S m') (fun k => IZR (pl_coef (S m) k) * 0 ^ k) = 1).
    { intros m'. induction m' as [|m' IH']; [cbn [rsum pow]; rewrite pl_coef_0; ring|]. cbn [rsum] in *. rewrite IH'. cbn [pow]. ring. }
    apply G. }
  assert (D : exists dp, is_derive p 0 dp).
  { eexists. apply (is_derive_rsum (S n) (fun k r => IZR (pl_coef n k) * r ^ k) (fun k => IZR (pl_coef n k) * (INR k * 0 ^ pred k))).
    intros k _. auto_derive; [exact Logic.I|]. ring. }
  destruct D as [dp D]. assert (C : continuous p 0) by (apply (ex_derive_continuous (V := R_NormedModule)); exists dp; exact D).
  assert (L : locally 0 (fun r => 0 < p r)).
  { apply (C (fun y => 0 < y)). rewrite P0. apply (open_gt 0). lra. }
  destruct L as [eta L]. exists eta. split; [apply cond_pos|]. intros r Hr. apply L. change (Rabs (r - 0) < eta). rewrite Rminus_0_r, Rabs_pos_eq; lra.
Qed.
Lemma fr_z_le th u x : 0 < th -> open_cube u -> In x u -> fr_z th (fr_s th u) <= th * x.
Proof.
  intros H A I. pose proof (open_cube_in _ _ A I) as Hx. pose proof (exp_lt_1 (- th) ltac:(lra)) as E1.
  assert (L : fr_f th x <= fr_s th u).
  { unfold fr_s. clear Hx. induction A as [|y r Hy A IH]; [destruct I|]. cbn [map lsum]. pose proof (fr_f_pos th y H Hy).
    assert (0 <= lsum (map (fr_f th) r)).
    { clear IH I. induction A as [|w r Hw A IH]; [cbn; lra|]. cbn [map lsum]. pose proof (fr_f_pos th w H Hw). lra. }
    destruct I as [->|I]; [lra|]. specialize (IH I). lra. }
  pose proof (exp_lt_1 (- (x * th)) ltac:(nra)) as E2.
  assert (E : (1 - exp (- th)) * exp (- fr_f th x) = 1 - exp (- (x * th))).
  { unfold fr_f. replace ((exp (- (x * th)) - 1) / (exp (- th) - 1)) with ((1 - exp (- (x * th))) / (1 - exp (- th))) by (field; lra).
    rewrite Ropp_involutive, exp_ln by (apply Rdiv_lt_0_compat; lra). field. lra. }
  pose proof (exp_mono (- fr_s th u) (- fr_f th x) ltac:(lra)) as M. pose proof (exp_ineq1_le (- (x * th))).
  unfold fr_z. nra.
Qed.

(** Finding: in 20 dimensions and more the Frank density is too low at every point close to the border of the cube (one small
    coordinate is enough): the int64 products in the polylogarithm wrap around (C35). *)
Theorem C25_frank_dimensions_refuted : forall gamma dilog th d, 0 < th -> (20 <= d)%nat ->
  exists delta, 0 < delta /\ forall u, open_cube u -> length u = d -> Exists (fun x => x < delta) u ->
  exists v w, frank_pdf gamma dilog th false [map Fin u] = Ok [Fin v] /\ mixed_derivative (frank_copula th) u w /\ 0 < v < w.
Proof.
  intros gamma dilog th d H Hd. destruct (low_poly_pos (d - 1)) as [eta [He P]].
  set (delta := Rmin (1 / 2) (eta / 2) / th). assert (Hdel : 0 < delta) by (apply Rdiv_lt_0_compat; [apply Rmin_glb_lt; lra|exact H]).
  exists delta. split; [exact Hdel|]. intros u A N E. apply Exists_exists in E. destruct E as [x [I Hx]]. pose proof (open_cube_in _ _ A I) as Hx0.
  set (z := fr_z th (fr_s th u)). pose proof (fr_s_pos th u H ltac:(lia) A) as Hs. pose proof (fr_z_01 th (fr_s th u) H ltac:(lra)) as Z. fold z in Z.
  assert (Z2 : z < Rmin (1 / 2) (eta / 2)).
  { pose proof (fr_z_le th u x H A I) as L. fold z in L. apply Rle_lt_trans with (1 := L). unfold delta in Hx.
    apply (Rmult_lt_compat_l th) in Hx; [|exact H]. replace (th * (Rmin (1 / 2) (eta / 2) / th)) with (Rmin (1 / 2) (eta / 2)) in Hx by (field; lra). exact Hx. }
  pose proof (Rmin_l (1 / 2) (eta / 2)). pose proof (Rmin_r (1 / 2) (eta / 2)).
  pose proof (oddsr_pos z Z) as O. assert (O2 : oddsr z < eta).
  { unfold oddsr. apply (Rmult_lt_reg_r (1 - z)); [lra|]. unfold Rdiv. rewrite Rmult_assoc, Rinv_l, Rmult_1_r by lra. nra. }
  specialize (P (oddsr z) ltac:(lra)). pose proof (stirling_low_sum (d - 1) (oddsr z) ltac:(lia) O) as L.
  set (p := rsum (S (d - 1)) (fun k => IZR (pl_coef (d - 1) k) * oddsr z ^ k)) in *.
  assert (PL : 0 < lprod (map (fun x => / (exp (x * th) - 1)) u)).
  { apply lprod_pos. rewrite Forall_map. eapply Forall_impl; [|exact A]. cbn. intros y Hy. apply Rinv_0_lt_compat. pose proof (exp_gt_1 (y * th) ltac:(nra)). lra. }
  pose proof (pow_lt th (d - 1) H) as PW. assert (PP : 0 < oddsr z * p) by (apply Rmult_lt_0_compat; assumption).
  exists (th ^ (d - 1) * (oddsr z * p) * lprod (map (fun x => / (exp (x * th) - 1)) u)), (frank_density th u). split; [|split; [|split]].
  - unfold frank_pdf. cbn [mapM]. rewrite valid_open by exact A. rewrite (frank_log_gen gamma dilog th u (oddsr z * p)); auto; [|lia|].
    + rewrite N. cbn [bind rmap map out eexp]. rewrite exp_ln; [reflexivity|]. apply Rmult_lt_0_compat; [apply Rmult_lt_0_compat; assumption|exact PL].
    + fold z. rewrite N, poly_log_stirling by (left; reflexivity). fold p. rewrite ln_mult by assumption. f_equal. ring.
  - apply (frank_mixed_gen 0); auto; try lra; try lia. intros l Hl. apply frank_textbook; assumption.
  - apply Rmult_lt_0_compat; [apply Rmult_lt_0_compat; assumption|exact PL].
  - unfold frank_density. rewrite N. fold z. rewrite FS_factor. apply Rmult_lt_compat_r; [exact PL|]. apply Rmult_lt_compat_l; [exact PW|]. apply Rmult_lt_compat_l; assumption.
Qed.
Print Assumptions C25_frank_dimensions_refuted.
Lemma eadd_nan_r0 x : eadd x Nan = Nan.
Proof. destruct x; reflexivity. Qed.
(** Finding: in 31 to 50 dimensions and with weak dependence the Gumbel density is nan everywhere. *)
Theorem C25_gumbel_dimensions_refuted : forall gamma gammaln th log rows, gamma_function gamma -> log_gamma_function gamma gammaln -> 1 < th < 5 / 4 ->
  Forall (fun r : list ext => (31 <= length r <= 50)%nat) rows ->
  gumbel_pdf gamma gammaln th log rows = Ok (map (fun _ => Nan) rows).
Proof.
  intros gamma gammaln th log rows HG HL H F. assert (Ha : 8 / 10 < 1 / th < 1).
  { split; apply (Rmult_lt_reg_r th); try lra; replace (1 / th * th) with 1 by (field; lra); lra. }
  unfold gumbel_pdf. rewrite Reqb_neq by lra.
  assert (E : mapM (gumbel_log_pdf gamma gammaln th) rows = Ok (map (fun _ => Nan) rows)).
  { induction F as [|r rows N F IH]; [reflexivity|]. cbn [mapM map].
    assert (E : gumbel_log_pdf gamma gammaln th r = Ok Nan).
    { unfold gumbel_log_pdf. destruct (escal (1 / th) _) as [lx| | |]; try reflexivity. rewrite C29_default_log_refuted by auto. cbn [bind hd]. change (esub Nan (Fin (INR (length r) * lx / (1 / th)))) with Nan. rewrite eadd_nan_r0. reflexivity. }
    rewrite E. cbn [bind]. rewrite IH. reflexivity. }
  rewrite E. cbn [rmap]. rewrite map_map. f_equal. apply map_ext. intros _. destruct log; reflexivity.
Qed.
Print Assumptions C25_gumbel_dimensions_refuted.
(** Finding: in 91 to 120 dimensions and with strong dependence the Gumbel density raises a TypeError at every point of the open cube. *)
Theorem C25_gumbel_sort_refuted : forall gamma gammaln th log u rows, 1000 / 3 < th -> open_cube u -> (91 <= length u <= 120)%nat ->
  gumbel_pdf gamma gammaln th log (map Fin u :: rows) = Err TypeError.
Proof.
  intros gamma gammaln th log u rows H A N. assert (Ha : 0 < 1 / th < 3 / 1000).
  { split; [apply Rdiv_lt_0_compat; lra|]. apply (Rmult_lt_reg_r th); [lra|]. replace (1 / th * th) with 1 by (field; lra). lra. }
  unfold gumbel_pdf. rewrite Reqb_neq by lra. cbn [mapM].
  assert (E : gumbel_log_pdf gamma gammaln th (map Fin u) = Err TypeError).
  { unfold gumbel_log_pdf. rewrite (gumbel_ls_ok th u ltac:(lia) A). cbn [escal]. rewrite map_length, C29_default_sort_refuted by auto. reflexivity. }
  rewrite E. reflexivity.
Qed.
Print Assumptions C25_gumbel_sort_refuted.
(** the hypotheses are met: 20 coordinates, 31 coordinates, 91 coordinates *)
Example C25_dimensions_case : open_cube (repeat (1 / 2) 20) /\ 1 < 11 / 10 < 5 / 4 /\ length (repeat (Fin (1 / 2)) 31) = 31%nat
  /\ open_cube (repeat (1 / 2) 91) /\ length (repeat (1 / 2) 91) = 91%nat.
Proof. repeat split; try lra; apply Forall_forall; intros x I; apply repeat_spec in I; subst; lra. Qed.
