(** Theorems: the stable laws of the code form location-scale families. *)
From Coq Require Import Reals.
From Verif Require Import Base RSumLib Ext M_Special M_Archimedean M_Stable M_StablePdf S_StableScale.
Local Close Scope Z_scope. Open Scope R_scope. Open Scope list_scope.

Lemma parameterize_scaled argmax alpha beta gamma delta s t pm : 0 < s -> 0 < gamma ->
  parameterize argmax alpha (new_location alpha beta gamma delta s t pm) (s * gamma) beta pm =
  (s * fst (parameterize argmax alpha delta gamma beta pm) + t, s * snd (parameterize argmax alpha delta gamma beta pm)).
Proof.
  intros Hs Hg. unfold new_location, parameterize. pose proof PI_RGT_0. destruct pm as [|[|[|pm]]]; cbn [Nat.eqb andb fst snd]; f_equal; try ring.
  unfold omega. destruct (Reqb alpha 1) eqn:E1; cbn [orb negb]; [rewrite ln_mult by assumption; field; lra|]. destruct (Reqb alpha 2); cbn [orb negb]; ring.
Qed.
Lemma check_scaled alpha beta gamma s pm : 0 < s -> 0 < gamma -> stable_check alpha beta (s * gamma) pm = stable_check alpha beta gamma pm.
Proof. intros Hs Hg. unfold stable_check. rewrite (proj2 (Rleb_true 0 gamma)), (proj2 (Rleb_true 0 (s * gamma))) by nra. reflexivity. Qed.
Lemma scale_pos argmax alpha delta gamma beta pm : 0 < gamma -> 0 < snd (parameterize argmax alpha delta gamma beta pm).
Proof. intros H. unfold parameterize. destruct pm as [|[|[|pm]]]; cbn [snd]; try exact H. apply Rmult_lt_0_compat; [exact H|apply exp_pos]. Qed.
Lemma rescale_density s g d : 0 < s -> 0 < g -> rescale false (s * g) d = ediv (rescale false g d) s.
Proof.
  intros Hs Hg. unfold rescale, ediv. assert (0 < / s) by (apply Rinv_0_lt_compat; exact Hs). assert (0 < / g) by (apply Rinv_0_lt_compat; exact Hg).
  assert (0 < / (s * g)) by (apply Rinv_0_lt_compat, Rmult_lt_0_compat; assumption).
  destruct d as [x| | |]; cbn [escal]; try reflexivity.
  - f_equal. field. lra.
  - rewrite (proj2 (Rltb_true 0 (/ (s * g)))), (proj2 (Rltb_true 0 (/ g))) by assumption. cbn [escal]. rewrite (proj2 (Rltb_true 0 (/ s))) by assumption. reflexivity.
  - rewrite (proj2 (Rltb_true 0 (/ (s * g)))), (proj2 (Rltb_true 0 (/ g))) by assumption. cbn [escal]. rewrite (proj2 (Rltb_true 0 (/ s))) by assumption. reflexivity.
Qed.
Lemma rescale_log s g d : 0 < s -> 0 < g -> rescale true (s * g) d = esub (rescale true g d) (Fin (ln s)).
Proof.
  intros Hs Hg. unfold rescale, elog. rewrite (proj2 (Rltb_true 0 (s * g))), (proj2 (Rltb_true 0 g)) by (try apply Rmult_lt_0_compat; assumption).
  rewrite ln_mult by assumption. destruct d; cbn; try reflexivity. f_equal. ring.
Qed.
Lemma zero_is r : is_zero r = true -> r = Fin 0.
Proof. destruct r; cbn; try discriminate. intros H. apply Reqb_true in H. congruence. Qed.
Lemma points_scaled s t d g xs : 0 < s -> 0 < g -> map (fun x => (x - (s * d + t)) / (s * g)) (map (fun x => s * x + t) xs) = map (fun x => (x - d) / g) xs.
Proof. intros Hs Hg. rewrite map_map. apply map_ext. intros x. field. lra. Qed.

Section Stable.
  Variables (gam : R -> R) (normal cauchy : bool -> R -> ext) (aux2 : R -> R -> bool -> option (result ext)) (aux : R -> R -> R -> bool -> option (result ext)) (argmax : R -> R -> R).
  Let pdf := stable_pdf gam normal cauchy aux2 aux argmax.

  (** The density: in S0 and S2 always, in S1 with the location above. *)
  Theorem C132_density : forall alpha beta gamma delta pm s t xs, 0 < s -> 0 < gamma ->
    pdf alpha beta (s * gamma) (new_location alpha beta gamma delta s t pm) pm false (map (fun x => s * x + t) xs) =
    match pdf alpha beta gamma delta pm false xs with Some (Ok r) => Some (Ok (map (fun d => ediv d s) r)) | o => o end.
  Proof.
    intros alpha beta gamma delta pm s t xs Hs Hg. unfold pdf, stable_pdf. rewrite check_scaled by assumption. destruct (stable_check _ _ _ _); [|reflexivity].
    rewrite parameterize_scaled by assumption. pose proof (scale_pos argmax alpha delta gamma beta pm Hg) as Hq.
    destruct (parameterize argmax alpha delta gamma beta pm) as [d g]. cbn [fst snd] in *. rewrite points_scaled by assumption.
    destruct (collect _) as [[raw|e]|]; [|reflexivity|reflexivity]. do 2 f_equal. unfold stable_post. rewrite (map_map _ (fun d0 => ediv d0 s)). apply map_ext. intros [a0 b]. cbn [fst snd].
    destruct (is_zero a0) eqn:Z; [destruct (existsb _ _)|]; try (apply rescale_density; assumption). apply zero_is in Z. subst a0. unfold ediv. cbn. f_equal. ring.
  Qed.
  (** The log density: moved by ln s.  Missing: the case in which every raw value is 0 (every density is 1 before scaling), where the code does not scale. *)
  Theorem C132_log_partial : forall alpha beta gamma delta pm s t xs, 0 < s -> 0 < gamma ->
    match pdf alpha beta gamma delta pm true xs with
    | Some (Ok r) => exists r', pdf alpha beta (s * gamma) (new_location alpha beta gamma delta s t pm) pm true (map (fun x => s * x + t) xs) = Some (Ok r') /\
        (r' = map (fun d => esub d (Fin (ln s))) r \/ (r' = r /\ Forall (fun d => d = Fin 0) r))
    | o => pdf alpha beta (s * gamma) (new_location alpha beta gamma delta s t pm) pm true (map (fun x => s * x + t) xs) = o
    end.
  Proof.
    intros alpha beta gamma delta pm s t xs Hs Hg. unfold pdf, stable_pdf. rewrite check_scaled by assumption. destruct (stable_check _ _ _ _); [|reflexivity].
    rewrite parameterize_scaled by assumption. pose proof (scale_pos argmax alpha delta gamma beta pm Hg) as Hq.
    destruct (parameterize argmax alpha delta gamma beta pm) as [d g]. cbn [fst snd] in *. rewrite points_scaled by assumption.
    destruct (collect _) as [[raw|e]|]; [|reflexivity|reflexivity]. eexists. split; [reflexivity|]. unfold stable_post. destruct (existsb (fun a => negb (is_zero a)) raw) eqn:Any.
    - left. rewrite (map_map _ (fun d0 => esub d0 (Fin (ln s)))). apply map_ext. intros [a0 b]. cbn [fst snd]. destruct (is_zero a0); apply rescale_log; assumption.
    - right. assert (Z : forall (p : ext * ext) l2, In p (combine raw l2) -> is_zero (fst p) = true).
      { intros [a0 b] l2 H. apply in_combine_l in H. cbn [fst]. destruct (is_zero a0) eqn:Za; [reflexivity|]. assert (X : existsb (fun a => negb (is_zero a)) raw = true); [|congruence]. apply existsb_exists. exists a0. split; [exact H|]. rewrite Za. reflexivity. }
      split.
      + apply map_ext_in. intros p Hp. rewrite (Z p _ Hp). reflexivity.
      + apply Forall_forall. intros x Hx. apply in_map_iff in Hx. destruct Hx as [p [<- Hp]]. rewrite (Z p _ Hp). apply zero_is, (Z p _ Hp).
  Qed.
  (** A single point at which the density before scaling is 1 has the log density 0 for every scale. *)
  Theorem C132_log_refuted : forall alpha beta gamma delta x, stable_check alpha beta gamma 0 = Ok tt -> 0 < gamma ->
    alpha <> 1 -> alpha <> 2 -> aux ((x - delta) / gamma) alpha beta true = Some (Ok (Fin 0)) ->
    pdf alpha beta gamma delta 0 true [x] = Some (Ok [Fin 0]) /\
    forall s t, 0 < s -> s <> 1 -> pdf alpha beta (s * gamma) (s * delta + t) 0 true [s * x + t] = Some (Ok [Fin 0]) /\ Fin 0 <> esub (Fin 0) (Fin (ln s)).
  Proof.
    intros alpha beta gamma delta x Hc Hg N1 N2 Ha.
    assert (G : forall g d y, stable_check alpha beta g 0 = Ok tt -> (y - d) / g = (x - delta) / gamma -> pdf alpha beta g d 0 true [y] = Some (Ok [Fin 0])).
    { intros g d y Hk Hy. unfold pdf, stable_pdf. rewrite Hk. cbn [parameterize map]. rewrite Hy, (proj2 (Reqb_false alpha 1) N1), (proj2 (Reqb_false alpha 2) N2). cbn [andb]. rewrite Ha. cbn [collect stable_post combine map existsb is_zero fst snd].
      rewrite (proj2 (Reqb_true 0 0) eq_refl). reflexivity. }
    split; [apply G; [exact Hc|reflexivity]|]. intros s t Hs Ns. split.
    - apply G; [rewrite check_scaled by assumption; exact Hc|]. field. lra.
    - cbn. intros E. injection E as E. assert (L : ln s = ln 1) by (rewrite ln_1; lra). apply ln_inv in L; lra.
  Qed.
End Stable.

(** Variates from the same draws. *)
Theorem C132_samples : forall argmax cauchy alpha beta gamma delta pm s t u w, 0 < s -> 0 < gamma ->
  stable_rvs argmax cauchy alpha beta (s * gamma) (new_location alpha beta gamma delta s t pm) pm u w =
  match stable_rvs argmax cauchy alpha beta gamma delta pm u w with Ok z => Ok (eadd (escal s z) (Fin t)) | Err e => Err e end.
Proof.
  intros argmax cauchy alpha beta gamma delta pm s t u w Hs Hg. unfold stable_rvs. rewrite check_scaled by assumption. destruct (stable_check _ _ _ _); [|reflexivity]. cbn [bind].
  rewrite parameterize_scaled by assumption. pose proof (scale_pos argmax alpha delta gamma beta pm Hg) as Hq.
  destruct (parameterize argmax alpha delta gamma beta pm) as [d g]. cbn [fst snd] in *. f_equal.
  set (z := if _ : bool then Fin cauchy else stable_z alpha beta u w). destruct z as [x| | |]; cbn [escal]; try reflexivity.
  - cbn. f_equal. ring.
  - rewrite (proj2 (Rltb_true 0 (s * g))), (proj2 (Rltb_true 0 g)) by (try apply Rmult_lt_0_compat; assumption). cbn [escal eadd]. rewrite (proj2 (Rltb_true 0 s)) by assumption. reflexivity.
  - rewrite (proj2 (Rltb_true 0 (s * g))), (proj2 (Rltb_true 0 g)) by (try apply Rmult_lt_0_compat; assumption). cbn [escal eadd]. rewrite (proj2 (Rltb_true 0 s)) by assumption. reflexivity.
Qed.
Print Assumptions C132_samples.

(** The Cauchy law in S1: scale 3 and location 1, doubled. *)
Example C132_case : forall gam normal aux2 aux argmax,
  new_location 1 0 3 1 2 5 1 = 7 /\
  stable_pdf gam normal (fun _ y => Fin (/ (PI * (1 + y * y)))) aux2 aux argmax 1 0 3 1 1 false [4] = Some (Ok [Fin (/ (PI * 2) / 3)]).
Proof.
  intros gam normal aux2 aux argmax. pose proof PI_RGT_0 as Hp. unfold new_location. cbn [Nat.eqb andb]. rewrite (proj2 (Reqb_true 1 1) eq_refl). split; [field; lra|].
  unfold stable_pdf. replace (stable_check 1 0 3 1) with (@Ok unit tt).
  2:{ symmetry. unfold stable_check. rewrite Rabs_R0. rewrite (proj2 (Rleb_true 0 1)), (proj2 (Rltb_true 0 1)), (proj2 (Rleb_true 1 2)), (proj2 (Rleb_true 0 3)) by lra. reflexivity. }
  cbn [parameterize map]. rewrite (proj2 (Reqb_true 1 1) eq_refl), (proj2 (Reqb_true 0 0) eq_refl), (proj2 (Reqb_false 1 2)) by lra. cbn [andb collect stable_post combine map fst snd].
  replace ((4 - (1 + 0 * 3 * omega 3 1)) / 3) with 1 by (field). assert (0 < / (PI * (1 + 1 * 1))) by (apply Rinv_0_lt_compat; lra).
  unfold is_zero. rewrite (proj2 (Reqb_false (/ (PI * (1 + 1 * 1))) 0)) by lra. unfold rescale, ediv. cbn [escal]. do 4 f_equal. field. lra.
Qed.

(** The code's own aux_f1 meets the hypothesis of [C132_log_refuted]: the symmetric law whose alpha has log Gamma(1 + 1/alpha) = log pi, at its centre. *)
Example C132_log_refuted_case : forall gamma gammaln brentq quad fuel alpha, 0 < alpha < 2 -> alpha <> 1 -> gammaln (1 + 1 / alpha) = ln PI ->
  stable_check alpha 0 3 0 = Ok tt /\ aux_f1 gamma gammaln brentq quad fuel ((5 - 5) / 3) alpha 0 true = Some (Ok (Fin 0)).
Proof.
  intros gamma gammaln brentq quad fuel alpha Ha N1 HG. pose proof PI_RGT_0 as Hp. split.
  - unfold stable_check. rewrite Rabs_R0. rewrite (proj2 (Rleb_true 0 1)), (proj2 (Rltb_true 0 alpha)), (proj2 (Rleb_true alpha 2)), (proj2 (Rleb_true 0 3)) by lra. reflexivity.
  - unfold aux_f1. rewrite Rmult_0_l, atan_0. replace ((5 - 5) / 3) with 0 by field. replace (0 / alpha) with 0 by (field; lra).
    assert (P2 : 0 < PI2) by (unfold PI2; lra).
    rewrite (Rmax_right (- PI2) 0) by lra. rewrite (Rmin_left 0 PI2) by lra. replace (0 - - 0) with 0 by ring. rewrite Ropp_0, Rabs_R0, cos_0, HG.
    rewrite (proj2 (Reqb_true 0 0) eq_refl). rewrite (Rmax_left 0 0) by lra.
    rewrite (proj2 (Rleb_true 0 _)). 2:{ apply Rmult_le_pos; lra. }
    unfold elog. rewrite (proj2 (Rltb_true 0 1)) by lra. cbn [eadd esub eopp]. do 3 f_equal.
    replace (1 + 0 ^ 2) with 1 by ring. rewrite ln_1. field. lra.
Qed.
Print Assumptions C132_density.
Print Assumptions C132_log_partial.
Print Assumptions C132_log_refuted.
