(** Properties C71, C72: stable variates and densities (/repo/copulae/stats/stable), Gumbel sampling. *)
From Coquelicot Require Import Coquelicot.
From Verif Require Import Base RSumLib Ext M_Archimedean M_Special M_Stable.
Open Scope R_scope.

(** Kanter's representation of the positive stable law with index alpha: phi uniform on (0, pi), w exponential *)
Definition kanter (alpha phi w : R) : R :=
  sin (alpha * phi) / Rpower (sin phi) (1 / alpha) * Rpower (sin ((1 - alpha) * phi) / w) ((1 - alpha) / alpha).

Lemma isclose_1_0 : Rleb (Rabs (1 - 0)) (/ 100000000 + / 100000 * Rabs 0) = false.
Proof. apply Rleb_false. rewrite Rabs_R0, Rabs_right; lra. Qed.
Lemma sec2 x : cos x <> 0 -> 1 + tan x ^ 2 = / (cos x * cos x).
Proof. intros H. unfold tan. pose proof (sin2_cos2 x) as S. unfold Rsqr in S. apply (Rmult_eq_reg_r (cos x * cos x)); [|nra]. rewrite Rinv_l by nra. field_simplify; [|exact H]. lra. Qed.

(** C71: the frailty of Gumbel sampling is exactly Kanter's formula, and positive *)
Theorem C71_kanter : forall argmax cauchy theta u w, 1 < theta -> 0 < u < 1 -> 0 < w ->
  gumbel_frailty argmax cauchy theta u w = Ok (Fin (kanter (1 / theta) (PI * u) w)) /\ 0 < kanter (1 / theta) (PI * u) w.
Proof.
  intros argmax cauchy theta u w Ht Hu Hw. pose proof PI_RGT_0 as Hpi. set (al := 1 / theta).
  assert (Ha : 0 < al < 1).
  { unfold al, Rdiv. rewrite Rmult_1_l. split; [apply Rinv_0_lt_compat; lra|]. rewrite <- Rinv_1. apply Rinv_lt_contravar; lra. }
  assert (Hth : theta = 1 / al) by (unfold al; field; lra).
  assert (Hx : 0 < al * PI / 2 < PI / 2) by nra.
  assert (Hc : 0 < cos (al * PI / 2)) by (apply cos_gt_0; lra).
  assert (Hphi : 0 < PI * u < PI) by nra.
  assert (Hs : 0 < sin (PI * u)) by (apply sin_gt_0; lra).
  assert (H1a : 0 < (1 - al) * (PI * u) < PI) by nra.
  assert (Hs2 : 0 < sin ((1 - al) * (PI * u))) by (apply sin_gt_0; lra).
  assert (H2a : 0 < al * (PI * u) < PI) by nra.
  assert (Hs3 : 0 < sin (al * (PI * u))) by (apply sin_gt_0; lra).
  assert (Hq : 0 < sin ((1 - al) * (PI * u)) / w) by (apply Rdiv_lt_0_compat; assumption).
  split.
  2:{ unfold kanter. apply Rmult_lt_0_compat; [|apply exp_pos]. apply Rdiv_lt_0_compat; [exact Hs3|apply exp_pos]. }
  unfold gumbel_frailty, stable_rvs, stable_check. fold al. cbn [Nat.leb]. rewrite Rabs_R1, (proj2 (Rleb_true 1 1)), (proj2 (Rltb_true 0 al)), (proj2 (Rleb_true al 2)) by lra.
  rewrite (proj2 (Rleb_true 0 (Rpower (cospi2 al) theta))) by (left; apply exp_pos). cbn [andb bind parameterize]. rewrite isclose_1_0, andb_false_r.
  unfold omega. rewrite (proj2 (Reqb_false al 1)), (proj2 (Reqb_false al 2)) by lra. cbn [orb negb].
  unfold stable_z. cbv zeta.
  assert (Eb : 1 * tanpi2 al = tan (al * PI / 2)) by (unfold tanpi2; ring). rewrite Eb.
  assert (Et : Rmin (Rmax (- (PI / 2)) (atan (tan (al * PI / 2)) / al)) (PI / 2) = PI / 2).
  { rewrite atan_tan by lra. replace (al * PI / 2 / al) with (PI / 2) by (field; lra). rewrite Rmax_right by lra. apply Rmin_left. lra. }
  rewrite Et. replace (PI * (u - 1 / 2) + PI / 2) with (PI * u) by field.
  assert (Ec : cos (PI * (u - 1 / 2)) = sin (PI * u)).
  { rewrite <- cos_shift. rewrite <- (cos_neg (PI / 2 - PI * u)). f_equal. field. }
  assert (Ec2 : cos (PI * (u - 1 / 2) - al * (PI * u)) = sin ((1 - al) * (PI * u))).
  { rewrite <- cos_shift. rewrite <- (cos_neg (PI / 2 - (1 - al) * (PI * u))). f_equal. field. }
  rewrite Ec, Ec2, !epow_pos by assumption. cbn [escal eadd]. do 2 f_equal. unfold kanter.
  rewrite (sec2 (al * PI / 2)) by lra. fold (tanpi2 al). fold (cospi2 al) in *. 
  assert (Eg : Rpower (cospi2 al) theta * Rpower (/ (cospi2 al * cospi2 al)) (1 / (2 * al)) = 1).
  { unfold Rpower. rewrite <- exp_plus, ln_Rinv, ln_mult by (try apply Rmult_lt_0_compat; assumption). rewrite Hth. rewrite <- exp_0. f_equal. field. lra. }
  replace (-1 / al) with (- (1 / al)) by (field; lra). rewrite Rpower_Ropp.
  set (g := Rpower (cospi2 al) theta) in *. set (c := Rpower (/ (cospi2 al * cospi2 al)) (1 / (2 * al))) in *.
  transitivity (g * c * (sin (al * (PI * u)) / Rpower (sin (PI * u)) (1 / al) * Rpower (sin ((1 - al) * (PI * u)) / w) ((1 - al) / al))); [unfold Rdiv; ring|].
  rewrite Eg. ring.
Qed.
Print Assumptions C71_kanter.
(** the sampled coordinates lie in (0,1) *)
Theorem C71_row_inside : forall argmax cauchy theta u w us, 1 < theta -> 0 < u < 1 -> 0 < w -> Forall (fun v => 0 < v < 1) us ->
  exists r, gumbel_random_row argmax cauchy theta u w us = Ok (map Fin r) /\ length r = length us /\ Forall (fun v => 0 < v < 1) r.
Proof.
  intros argmax cauchy theta u w us Ht Hu Hw HU. destruct (C71_kanter argmax cauchy theta u w Ht Hu Hw) as [E P]. unfold gumbel_random_row. rewrite E. cbn [bind].
  set (f := kanter (1 / theta) (PI * u) w) in *. induction HU as [|v us Hv _ [r [Er [Lr Fr]]]]; [exists []; auto|].
  assert (Hl : 0 < - ln v / f).
  { apply Rdiv_lt_0_compat; [|exact P]. assert (ln v < 0) by (rewrite <- ln_1; apply ln_increasing; lra). lra. }
  exists (exp (- Rpower (- ln v / f) (1 / theta)) :: r). cbn [mapM bind map length]. unfold gumbel_psi at 1. cbn [bind].
  rewrite epow_pos by exact Hl. cbn [eopp eexp]. rewrite Er. cbn [bind]. split; [reflexivity|]. split; [congruence|]. constructor; [|exact Fr].
  split; [apply exp_pos|]. assert (0 < Rpower (- ln v / f) (1 / theta)) by apply exp_pos. set (q := Rpower (- ln v / f) (1 / theta)) in *. assert (exp (- q) < exp 0) by (apply exp_increasing; lra). rewrite exp_0 in *. lra.
Qed.
Print Assumptions C71_row_inside.
(** rows are distributed as the Marshall-Olkin construction prescribes: psi(E_i / F) with E_i = -log u_i *)
Theorem C71_marshall_olkin : forall argmax cauchy theta u w us, 1 < theta -> 0 < u < 1 -> 0 < w -> Forall (fun v => 0 < v < 1) us ->
  gumbel_random_row argmax cauchy theta u w us =
    Ok (map (fun v => Fin (exp (- Rpower (- ln v / kanter (1 / theta) (PI * u) w) (1 / theta)))) us).
Proof.
  intros argmax cauchy theta u w us Ht Hu Hw HU. destruct (C71_kanter argmax cauchy theta u w Ht Hu Hw) as [E P]. unfold gumbel_random_row. rewrite E. cbn [bind].
  set (f := kanter (1 / theta) (PI * u) w) in *. induction HU as [|v us Hv _ IH]; [reflexivity|].
  assert (Hl : 0 < - ln v / f).
  { apply Rdiv_lt_0_compat; [|exact P]. assert (ln v < 0) by (rewrite <- ln_1; apply ln_increasing; lra). lra. }
  cbn [mapM map]. unfold gumbel_psi at 1. cbn [bind]. rewrite epow_pos by exact Hl. cbn [eopp eexp]. rewrite IH. reflexivity.
Qed.
Print Assumptions C71_marshall_olkin.
Example C71_case : 1 < 2 /\ 0 < / 2 < 1 /\ 0 < 1 /\ Forall (fun v => 0 < v < 1) [/ 3; / 2] /\ kanter (1 / 2) (PI * / 2) 1 = / 2.
Proof.
  split; [lra|]. split; [lra|]. split; [lra|]. split; [repeat constructor; lra|].
  unfold kanter. replace (PI * / 2) with (PI / 2) by field. rewrite sin_PI2. replace (1 / 2 * (PI / 2)) with (PI / 4) by field. replace ((1 - 1 / 2) * (PI / 2)) with (PI / 4) by field.
  replace ((1 - 1 / 2) / (1 / 2)) with 1 by field. replace (sin (PI / 4) / 1) with (sin (PI / 4)) by field.
  assert (S : 0 < sin (PI / 4)) by (rewrite sin_PI4; apply Rdiv_lt_0_compat; [lra|apply sqrt_lt_R0; lra]).
  rewrite Rpower_1 by exact S. replace (Rpower 1 (1 / (1 / 2))) with 1 by (unfold Rpower; rewrite ln_1, Rmult_0_r, exp_0; reflexivity).
  rewrite sin_PI4. assert (0 < sqrt 2) by (apply sqrt_lt_R0; lra). replace (1 / sqrt 2 / 1 * (1 / sqrt 2)) with (/ (sqrt 2 * sqrt 2)) by (field; lra). rewrite sqrt_sqrt by lra. reflexivity.
Qed.

(** C72: parameters *)
Theorem C72_validation : forall alpha beta gamma pm,
  (stable_check alpha beta gamma pm = Ok tt <-> (pm <= 2)%nat /\ -1 <= beta <= 1 /\ 0 < alpha <= 2 /\ 0 <= gamma) /\
  (stable_check alpha beta gamma pm <> Ok tt -> stable_check alpha beta gamma pm = Err AssertionError).
Proof.
  intros alpha beta gamma pm. unfold stable_check.
  assert (A : (pm <=? 2)%nat && Rleb (Rabs beta) 1 && (Rltb 0 alpha && Rleb alpha 2) && Rleb 0 gamma = true <-> (pm <= 2)%nat /\ -1 <= beta <= 1 /\ 0 < alpha <= 2 /\ 0 <= gamma).
  { rewrite !andb_true_iff, Nat.leb_le, !Rleb_true, Rltb_true. assert (Rabs beta <= 1 <-> -1 <= beta <= 1) by (unfold Rabs; destruct (Rcase_abs beta); lra). tauto. }
  destruct (_ && _ && _ && _).
  - split; [|intros H; congruence]. split; [intros _; apply A; reflexivity|reflexivity].
  - split; [|reflexivity]. split; [discriminate|]. intros H. apply A in H. discriminate.
Qed.
Print Assumptions C72_validation.
(** where every raw density is a positive number other than 1, the logarithmic version is the logarithm *)
Theorem C72_log_partial : forall gamma raw tails ltails, 0 < gamma -> length tails = length raw -> length ltails = length raw ->
  Forall (fun r => 0 < r /\ r <> 1) raw ->
  stable_post true gamma (map (fun r => elog (Fin r)) raw) ltails = map elog (stable_post false gamma (map Fin raw) tails).
Proof.
  intros gamma raw tails ltails Hg L1 L2 H. unfold stable_post. set (any := existsb _ _). set (any2 := existsb _ (map Fin raw)). clearbody any any2.
  rewrite map_map. revert tails ltails L1 L2. induction H as [|r raw [Hr Hr1] _ IH]; intros [|t tails] [|lt ltails] L1 L2; try discriminate; [reflexivity|].
  cbn [map combine fst snd]. injection L1 as L1. injection L2 as L2. f_equal; [|apply IH; assumption].
  rewrite (elog_pos r Hr). cbn [is_zero]. rewrite (proj2 (Reqb_false r 0)) by lra.
  assert (Hl : ln r <> 0). { intros E. apply Hr1. apply ln_inv; [lra|lra|]. rewrite ln_1. exact E. }
  rewrite (proj2 (Reqb_false (ln r) 0) Hl). cbn [rescale]. unfold rescale. rewrite (elog_pos gamma Hg). cbn [ediv escal esub eopp eadd].
  unfold ediv. cbn [escal]. rewrite elog_pos by (apply Rmult_lt_0_compat; [apply Rinv_0_lt_compat; exact Hg|exact Hr]).
  rewrite ln_mult, ln_Rinv by (auto; apply Rinv_0_lt_compat; exact Hg). f_equal. ring.
Qed.
Print Assumptions C72_log_partial.
(** a density that is exactly 1 is a logarithm 0, which logpdf takes for an underflow and replaces by the Pareto tail *)
Theorem C72_density_one_refuted : forall gamma l1 l2 t1 t2, 0 < gamma -> 0 < t1 -> t1 <> 1 -> l2 <> 0 ->
  nth 0 (stable_post false gamma [Fin 1; Fin l1] [Fin t1; Fin t2]) Nan = Fin (/ gamma) /\
  nth 0 (stable_post true gamma [elog (Fin 1); Fin l2] [elog (Fin t1); Fin t2]) Nan = Fin (ln (t1 / gamma)) /\ Fin (ln (t1 / gamma)) <> elog (Fin (/ gamma)).
Proof.
  intros gamma l1 l2 t1 t2 Hg Ht Ht1 Hl. assert (Hi : 0 < / gamma) by (apply Rinv_0_lt_compat; exact Hg). split; [|split].
  - cbn [stable_post combine map nth fst snd is_zero]. rewrite (proj2 (Reqb_false 1 0)) by lra. unfold rescale, ediv. cbn [escal]. f_equal. ring.
  - rewrite (elog_pos 1) by lra. rewrite ln_1, (elog_pos t1 Ht). unfold stable_post. cbn [existsb is_zero combine map nth fst snd].
    rewrite (proj2 (Reqb_true 0 0) eq_refl), (proj2 (Reqb_false l2 0) Hl). cbn [negb orb]. unfold rescale. rewrite (elog_pos gamma Hg). cbn [esub eopp eadd]. f_equal.
    unfold Rdiv. rewrite ln_mult, ln_Rinv by assumption. ring.
  - rewrite elog_pos by exact Hi. intros E. injection E as E. apply ln_inv in E; [|apply Rdiv_lt_0_compat; assumption|exact Hi].
    apply Ht1. apply (Rmult_eq_reg_r (/ gamma)); [|lra]. unfold Rdiv in E. lra.
Qed.
Print Assumptions C72_density_one_refuted.
(** and a density that underflows is replaced by the tail in pdf, but not in logpdf *)
Theorem C72_underflow_refuted : forall gamma r t1 t2, 0 < gamma -> 0 < r -> 0 < t1 ->
  nth 0 (stable_post false gamma [Fin 0; Fin r] [Fin t1; Fin t2]) Nan = Fin (t1 / gamma) /\ 0 < t1 / gamma /\
  nth 0 (stable_post true gamma [elog (Fin 0); elog (Fin r)] [elog (Fin t1); elog (Fin t2)]) Nan = Ninf.
Proof.
  intros gamma r t1 t2 Hg Hr Ht. split; [|split; [apply Rdiv_lt_0_compat; assumption|]].
  - unfold stable_post. cbn [existsb is_zero combine map nth fst snd]. rewrite (proj2 (Reqb_true 0 0) eq_refl), (proj2 (Reqb_false r 0)) by lra. cbn [negb orb].
    unfold rescale, ediv. cbn [escal]. f_equal. unfold Rdiv. ring.
  - rewrite elog_0. unfold stable_post. cbn [combine map nth fst snd is_zero]. unfold rescale. rewrite (elog_pos gamma Hg). reflexivity.
Qed.
Print Assumptions C72_underflow_refuted.
(** an entry's density depends on its neighbours: alone, an underflowed density stays 0 *)
Theorem C72_neighbours_refuted : forall gamma r t1 t2, 0 < gamma -> 0 < r -> 0 < t1 ->
  stable_post false gamma [Fin 0] [Fin t1] = [Fin 0] /\ nth 0 (stable_post false gamma [Fin 0; Fin r] [Fin t1; Fin t2]) Nan <> Fin 0.
Proof.
  intros gamma r t1 t2 Hg Hr Ht. split.
  - unfold stable_post. cbn. rewrite (proj2 (Reqb_true 0 0) eq_refl). reflexivity.
  - destruct (C72_underflow_refuted gamma r t1 t2 Hg Hr Ht) as [-> [H _]]. intros E. injection E as E. lra.
Qed.
Print Assumptions C72_neighbours_refuted.
(** the Pareto tail is positive and mirror symmetric in (x, beta), and it is the density whose tail probability is
    (1 + beta) tail x^-alpha *)
Theorem C72_pareto : forall tail alpha beta x, 0 < tail -> 0 < alpha -> -1 < beta < 1 -> x <> 0 ->
  pareto tail alpha beta x = pareto tail alpha (- beta) (- x) /\
  exists v, pareto tail alpha beta x = Fin v /\ 0 < v /\ (0 < x -> is_derive (fun y => 1 - (1 + beta) * tail * Rpower y (- alpha)) x v).
Proof.
  intros tail alpha beta x Ht Ha Hb Hx. unfold pareto. cbv zeta.
  assert (S : (Rltb x 0 = true /\ Rltb (- x) 0 = false) \/ (Rltb x 0 = false /\ Rltb (- x) 0 = true)).
  { destruct (Rlt_dec x 0); [left|right]; rewrite ?Rltb_true, ?Rltb_false; lra. }
  destruct S as [[E1 E2]|[E1 E2]]; rewrite E1, E2; [apply Rltb_true in E1|apply Rltb_false in E1]; rewrite ?Ropp_involutive; (split; [reflexivity|]);
    rewrite epow_pos by lra; cbn [escal]; eexists; (split; [reflexivity|]); (split; [repeat apply Rmult_lt_0_compat; try lra; apply exp_pos|]); intros Px; [lra|].
  unfold Rpower. auto_derive; [exact Px|]. replace (- (1 + alpha) * ln x) with (- alpha * ln x + - ln x) by ring. rewrite exp_plus, (exp_Ropp (ln x)), exp_ln by exact Px. field. lra.
Qed.
Print Assumptions C72_pareto.
(** the mode ignores beta: every beta in (0, beta_max] is replaced by beta_max, and so is every negative one *)
Theorem C72_mode_refuted : forall argmax alpha beta, 0 < alpha -> 0 < beta <= beta_max -> argmax alpha beta_max <> 0 ->
  stable_mode argmax alpha beta = argmax alpha beta_max /\ stable_mode argmax alpha (- beta) = argmax alpha beta_max /\
  stable_mode argmax alpha (- beta) <> - stable_mode argmax alpha beta.
Proof.
  intros argmax alpha beta Ha Hb Hm. assert (Bp : 0 < beta_max) by (unfold beta_max; lra). unfold stable_mode.
  rewrite (proj2 (Reqb_false (alpha * beta) 0)), (proj2 (Reqb_false (alpha * - beta) 0)) by nra. rewrite !Rmax_right by lra. split; [reflexivity|]. split; [reflexivity|lra].
Qed.
Print Assumptions C72_mode_refuted.
Example C72_case : 0 < / 2 <= beta_max /\ Forall (fun r => 0 < r /\ r <> 1) [/ 2; / 3] /\ stable_check 1 0 1 0 = Ok tt.
Proof.
  split; [unfold beta_max; lra|]. split; [repeat constructor; lra|]. apply C72_validation. split; [lia|lra].
Qed.
