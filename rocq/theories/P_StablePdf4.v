(** From the parameters alpha, beta to the interval of integration; aux_f1 as a whole. *)
From Coquelicot Require Import Coquelicot.
From Coq Require Import Classical.
From Verif Require Import Base RSumLib Ext S_StablePdf P_StableInt M_Archimedean M_Special M_Specfunc M_Stable M_StablePdf P_StablePdf P_StablePdf2 P_StablePdf3.
Open Scope R_scope.

Lemma atan_bound b c : 0 <= c < PI / 2 -> Rabs b <= tan c -> Rabs (atan b) <= c.
Proof.
  intros C B. pose proof PI_RGT_0. assert (E : atan (tan c) = c) by (apply atan_tan; lra). apply Rabs_le_between in B. apply Rabs_le. split.
  - replace (- c) with (atan (- tan c)) by (rewrite atan_opp, E; reflexivity). destruct (proj1 B) as [D|D]; [left; apply atan_increasing, D|rewrite D; right; reflexivity].
  - rewrite <- E. destruct (proj2 B) as [D|D]; [left; apply atan_increasing, D|rewrite <- D; right; reflexivity].
Qed.
Lemma atan_bound_lt b c : 0 < c < PI / 2 -> Rabs b < tan c -> Rabs (atan b) < c.
Proof.
  intros C B. pose proof PI_RGT_0. assert (E : atan (tan c) = c) by (apply atan_tan; lra). apply Rabs_lt_between in B. apply Rabs_lt_between. split.
  - replace (- c) with (atan (- tan c)) by (rewrite atan_opp, E; reflexivity). apply atan_increasing. lra.
  - rewrite <- E. apply atan_increasing. lra.
Qed.
Definition half_angle (al : R) : R := if Rlt_dec al 1 then PI * al / 2 else PI - PI * al / 2.
Lemma half_angle_tan al : 0 < al < 2 -> al <> 1 -> 0 < half_angle al < PI / 2 /\ Rabs (tan (PI * al / 2)) = tan (half_angle al) /\ 0 < tan (half_angle al).
Proof.
  intros A N. pose proof PI_RGT_0 as PP. unfold half_angle. destruct (Rlt_dec al 1) as [L|L].
  - assert (H : 0 < PI * al / 2 < PI / 2) by nra. assert (T : 0 < tan (PI * al / 2)) by (apply tan_gt_0; lra). split; [exact H|]. split; [apply Rabs_pos_eq; lra|exact T].
  - assert (H : 0 < PI - PI * al / 2 < PI / 2) by nra. assert (T : 0 < tan (PI - PI * al / 2)) by (apply tan_gt_0; lra). split; [exact H|]. split; [|exact T].
    replace (tan (PI * al / 2)) with (- tan (PI - PI * al / 2)); [rewrite Rabs_Ropp; apply Rabs_pos_eq; lra|].
    unfold tan. rewrite sin_minus, cos_minus, sin_PI, cos_PI. assert (cos (PI * al / 2) <> 0). { assert (0 < cos (PI - PI * al / 2)) by (apply cos_gt_0; lra). rewrite cos_minus, sin_PI, cos_PI in H0. lra. } field. lra.
Qed.
Lemma theta0_bound al be : 0 < al < 2 -> al <> 1 -> -1 <= be <= 1 -> Rabs (atan (be * tan (PI * al / 2))) <= half_angle al.
Proof.
  intros A N B. destruct (half_angle_tan al A N) as (H & E & T). apply atan_bound; [lra|]. rewrite Rabs_mult, E. assert (Rabs be <= 1) by (apply Rabs_le; lra). pose proof (Rabs_pos be). nra.
Qed.
Lemma theta0_bound_lt al be : 0 < al < 2 -> al <> 1 -> -1 < be < 1 -> Rabs (atan (be * tan (PI * al / 2))) < half_angle al.
Proof.
  intros A N B. destruct (half_angle_tan al A N) as (H & E & T). apply atan_bound_lt; [lra|]. rewrite Rabs_mult, E. assert (Rabs be < 1) by (apply Rabs_lt_between; lra). pose proof (Rabs_pos be). nra.
Qed.
Lemma theta0_ok al be xm : 0 < al < 2 -> al <> 1 -> -1 <= be <= 1 -> (al < 1 -> -1 < be) -> 0 < xm -> ok al (nolan_theta0 al be) xm.
Proof.
  intros A N B NB X. pose proof PI_RGT_0 as PP. pose proof (theta0_bound al be A N B) as T. destruct (half_angle_tan al A N) as (H & _). unfold half_angle in *. unfold ok, nolan_theta0.
  set (z := atan (be * tan (PI * al / 2))) in *. assert (E : al * (z / al) = z) by (field; lra). rewrite Rmult_plus_distr_l, E.
  assert (Tz := T). apply Rabs_le_between in T. split; [exact A|]. split; [exact N|]. split; [|split; [|split; [|exact X]]].
  - destruct (Rlt_dec al 1) as [L|L].
    + assert (Z : - (PI * al / 2) < z). { destruct (Req_dec be 1) as [->|NE].
        - assert (0 < z); [|nra]. unfold z. rewrite <- atan_0. apply atan_increasing. rewrite Rmult_1_l. apply tan_gt_0; nra.
        - pose proof (theta0_bound_lt al be A N ltac:(specialize (NB L); lra)) as S. unfold half_angle in S. destruct (Rlt_dec al 1); [|lra]. fold z in S. apply Rabs_lt_between in S. lra. }
      split; [apply (Rmult_lt_reg_r al); [lra|]; unfold Rdiv at 2; rewrite (Rmult_assoc z), Rinv_l by lra; lra|].
      apply (Rmult_le_reg_r al); [lra|]. unfold Rdiv at 1. rewrite (Rmult_assoc z), Rinv_l by lra. lra.
    + split; [apply (Rmult_lt_reg_r al); [lra|]; unfold Rdiv at 2; rewrite (Rmult_assoc z), Rinv_l by lra; nra|].
      apply (Rmult_le_reg_r al); [lra|]. unfold Rdiv at 1. rewrite (Rmult_assoc z), Rinv_l by lra. nra.
  - destruct (Rlt_dec al 1); nra.
  - lra.
Qed.
(** the two constants as the code computes them *)
Lemma code_bt al be : be * tanpi2 al = be * tan (PI * al / 2).
Proof. unfold tanpi2. replace (al * PI / 2) with (PI * al / 2) by (unfold Rdiv; ring). reflexivity. Qed.
Lemma code_theta0 al be : 0 < al < 2 -> al <> 1 -> -1 <= be <= 1 ->
  Rmin (Rmax (- PI2) (atan (be * tan (PI * al / 2)) / al)) PI2 = nolan_theta0 al be.
Proof.
  intros A N B. unfold PI2. pose proof PI_RGT_0 as PP. pose proof (theta0_bound al be A N B) as T. fold (nolan_theta0 al be).
  assert (D : - (PI / 2) <= nolan_theta0 al be <= PI / 2).
  { unfold nolan_theta0. set (z := atan _) in *. unfold half_angle in T. apply Rabs_le_between in T. destruct (Rlt_dec al 1); (split; [apply (Rmult_le_reg_r al); [lra|]; unfold Rdiv at 2; rewrite (Rmult_assoc z), Rinv_l by lra; nra|apply (Rmult_le_reg_r al); [lra|]; unfold Rdiv at 1; rewrite (Rmult_assoc z), Rinv_l by lra; nra]). }
  rewrite Rmax_right by lra. apply Rmin_left. lra.
Qed.
Lemma theta0_opp al be : nolan_theta0 al (- be) = - nolan_theta0 al be.
Proof. unfold nolan_theta0. rewrite <- Ropp_mult_distr_l, atan_opp. unfold Rdiv. ring. Qed.
Lemma zeta_opp al be : nolan_zeta al (- be) = - nolan_zeta al be.
Proof. unfold nolan_zeta. ring. Qed.

Section Aux.
  Variables (gamma gammaln : R -> R) (brentq : (R -> ext) -> R -> R -> R) (quad : (R -> ext) -> R -> R -> ext) (x al be : R).
  Hypotheses (HB : exact_brentq brentq) (HQ : exact_quad quad) (A : / 10 ^ 17 <= al < 2) (N : al <> 1) (B : -1 <= be <= 1).
  Let zeta := nolan_zeta al be.
  Let t0 := if Rltb x zeta then - nolan_theta0 al be else nolan_theta0 al be.
  Let xm := Rabs (x - zeta).
  Hypotheses (Far : 1 / 100 <= xm) (Far2 : 5 / 10 ^ 5 * (5 / 10 ^ 5 + Rmax (Rabs x) (Rabs zeta)) < xm) (O : ok al t0 xm).

  Lemma A' : 0 < al < 2. Proof. split; [|apply A]. apply Rlt_le_trans with (/ 10 ^ 17); [apply Rinv_0_lt_compat, pow_lt; lra|apply A]. Qed.
  (** the code from line 65 on *)
  Definition rest (fuel : nat) (log : bool) : option (result ext) :=
    let g := g1 al t0 xm in
    match locate brentq fuel al t0 g with
    | None => None
    | Some (Err e) => Some (Err e)
    | Some (Ok Vanishes) => Some (Ok (if log then Ninf else Fin 0))
    | Some (Ok (Split theta2 mid)) =>
        Some (bind (pieces brentq quad g t0 theta2 mid) (fun r => let c := al / (PI * Rabs (al - 1) * xm) in Ok (if log then eadd (Fin (ln c)) (elog r) else escal c r)))
    end.
  Lemma aux_rest fuel log : (1 < al -> - t0 < PI / 2 - cut) -> (al < 1 -> g1 al t0 xm (- t0) = Fin 0) ->
    aux_f1 gamma gammaln brentq quad fuel x al be log = rest fuel log.
  Proof.
    intros Hh Hl. pose proof A' as A0. pose proof cut_small as CS. pose proof PI_RGT_0 as PP. unfold aux_f1. cbv zeta. rewrite !code_bt. rewrite code_theta0 by assumption.
    replace (- (be * tan (PI * al / 2))) with zeta by (unfold zeta, nolan_zeta; ring). fold xm.
    set (bt := be * tan (PI * al / 2)) in *.
    set (tol := if Reqb bt 0 then 4 / 10 ^ 16 else if Rltb (1 - Rabs be) (1 / 100) || Rltb al (1 / 100) then 2 / 10 ^ 15 else 5 / 10 ^ 5).
    assert (Tol : 0 < tol <= 5 / 10 ^ 5) by (unfold tol; destruct (Reqb bt 0), (Rltb (1 - Rabs be) (1 / 100) || Rltb al (1 / 100)); lra).
    assert (MP : 0 <= Rmax (Rabs x) (Rabs zeta)) by (eapply Rle_trans; [apply (Rabs_pos x)|apply Rmax_l]).
    rewrite (proj2 (Rleb_false xm _)) by nra. fold t0. rewrite (proj2 (Rltb_false al (/ 10 ^ 17))) by lra.
    assert (Guard : (Rleb 1 al && (eltb (Fin LARGE_EXP_POW) (g1 al t0 xm PI2) || isclose (g1 al t0 xm (- t0)) 0)) || (Rltb al 1 && (eltb (Fin LARGE_EXP_POW) (g1 al t0 xm (- t0)) || isclose (g1 al t0 xm PI2) 0)) = false).
    { destruct (Rlt_le_dec 1 al) as [H|H].
      - rewrite (proj2 (Rleb_true 1 al)), (proj2 (Rltb_false al 1)) by lra. rewrite g1_t0_high by auto. rewrite g1_pi_high by (try assumption; unfold PI2; lra). cbn. rewrite (proj2 (Rltb_false _ 0)) by (unfold LARGE_EXP_POW; lra). reflexivity.
      - assert (H1 : al < 1) by lra. rewrite (proj2 (Rleb_false 1 al)), (proj2 (Rltb_true al 1)) by lra. rewrite (Hl H1). change PI2 with (PI / 2). rewrite g1_pi_low by assumption. cbn. rewrite (proj2 (Rltb_false _ 0)) by (unfold LARGE_EXP_POW; lra). reflexivity. }
    cbv zeta. rewrite Guard.
    rewrite (proj2 (Rltb_false (Rmax xm (xm / Rabs x)) (1 / 100))). 2:{ eapply Rle_trans; [exact Far|apply Rmax_l]. }
    rewrite Bool.andb_false_r. reflexivity.
  Qed.
  Lemma aux_value t : inside t0 t -> W al t0 xm t = 0 -> (1 < al -> t < PI / 2 - cut) ->
    (al < 1 -> / 10 ^ 8 < PI / 2 - t0 /\ forall n, / 10 ^ 8 + / 10 ^ 5 < Rabs (exp (W al t0 xm (mids t0 (S n))) - 1)) ->
    exists I v N, integral_on (- t0) (PI / 2) (fN al t0 xm) I /\ 0 <= I - v <= 15 / 10 ^ 15 /\ 0 < v /\ (forall fuel, (N <= fuel)%nat ->
      aux_f1 gamma gammaln brentq quad fuel x al be false = Some (Ok (Fin (al / (PI * Rabs (al - 1) * xm) * v))) /\
      aux_f1 gamma gammaln brentq quad fuel x al be true = Some (Ok (Fin (ln (al / (PI * Rabs (al - 1) * xm) * v))))).
  Proof.
    intros J Wt Hh Hl. pose proof A' as A0. pose proof cut_small as CS. pose proof PI_RGT_0 as PP.
    assert (Hc : al < 1 -> cut < PI / 2 - t0) by (intros H; destruct (Hl H) as (K & _); lra).
    destruct (fN_primitive al t0 xm O) as (P & HP). destruct (code_integrand al t0 xm t P O J Wt Hh Hc HP) as (f' & P' & V & HP' & D & Pos).
    assert (L : exists N, forall fuel, (N <= fuel)%nat -> exists mid, locate brentq fuel al t0 (g1 al t0 xm) = Some (Ok (Split t mid))).
    { destruct (Rlt_le_dec 1 al) as [H|H].
      - exists 0%nat. intros fuel _. apply (locate_high al t0 xm t brentq); assumption.
      - assert (H1 : al < 1) by lra. destruct (Hl H1) as (K1 & K2). apply (locate_low al t0 xm t brentq); assumption. }
    destruct L as (N0 & L). exists (P (PI / 2) - P (- t0)), (P' (PI / 2) - P' (- t0)), N0.
    split; [apply (integral_of_primitive _ _ 1); [unfold inside in J; lra|exact HP]|]. split; [exact D|]. split; [exact Pos|].
    assert (C : 0 < al / (PI * Rabs (al - 1) * xm)). { apply Rdiv_lt_0_compat; [lra|]. apply Rmult_lt_0_compat; [apply Rmult_lt_0_compat; [exact PP|apply Rabs_pos_lt; lra]|lra]. }
    assert (G0 : al < 1 -> g1 al t0 xm (- t0) = Fin 0) by (intros H; apply g1_t0_low; auto).
    intros fuel Hf. destruct (L fuel Hf) as (mid & E). rewrite !aux_rest by (try assumption; intros H; specialize (Hh H); unfold inside in J; lra). unfold rest. cbv zeta. rewrite E.
    rewrite (pieces_sum al t0 xm t brentq quad HB HQ O J Wt Hh Hc f' P' mid V HP'). cbn [bind escal]. rewrite elog_pos by exact Pos. cbn [eadd]. split; [reflexivity|]. rewrite ln_mult by assumption. reflexivity.
  Qed.
End Aux.
