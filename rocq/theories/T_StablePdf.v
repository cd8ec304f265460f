(** C90-C92: the density of the skew stable law (stats/stable/pdf.py aux_f1, stable.py pdf). *)
From Coquelicot Require Import Coquelicot.
From Coq Require Import Classical ClassicalEpsilon.
From Verif Require Import Base RSumLib Ext S_StablePdf P_StableInt M_Archimedean M_Special M_Specfunc M_Stable M_StablePdf P_StablePdf P_StablePdf2 P_StablePdf3 P_StablePdf4 P_StablePdf5 P_StablePdf6.
From Verif Require T_Stable.
Open Scope R_scope.

(** * C90: aux_f1 computes Nolan's integral *)
(** the specification: there is exactly one density value, and it is positive, everywhere off zeta except on the empty side of a
    totally skewed law with alpha < 1 *)
Theorem C90_density_exists : forall alpha beta x, 0 < alpha < 2 -> alpha <> 1 -> -1 <= beta <= 1 -> x <> nolan_zeta alpha beta ->
  (alpha < 1 -> (beta = 1 -> nolan_zeta alpha beta < x) /\ (beta = -1 -> x < nolan_zeta alpha beta)) ->
  exists d, 0 < d /\ nolan_density alpha beta x d /\ forall d', nolan_density alpha beta x d' -> d' = d.
Proof.
  intros al be x A N B X Sd. set (t0 := if Rltb x (nolan_zeta al be) then - nolan_theta0 al be else nolan_theta0 al be). set (xm := Rabs (x - nolan_zeta al be)).
  assert (Xm : 0 < xm) by (apply Rabs_pos_lt; lra).
  assert (O : ok al t0 xm). { unfold t0. destruct (Rltb x (nolan_zeta al be)) eqn:E.
    - apply Rltb_true in E. rewrite <- theta0_opp. apply theta0_ok; try assumption; [lra|]. intros H. destruct (Req_dec be 1) as [->|]; [|lra]. pose proof (proj1 (Sd H) eq_refl). lra.
    - apply Rltb_false in E. apply theta0_ok; try assumption. intros H. destruct (Req_dec be (-1)) as [->|]; [|lra]. pose proof (proj2 (Sd H) eq_refl). lra. }
  destruct (fN_total al t0 xm O) as (I & HI & PI0). exists (al / (PI * Rabs (al - 1) * xm) * I).
  split; [apply Rmult_lt_0_compat; [exact (coef_pos al t0 xm O)|exact PI0]|]. pose proof (right_of_fN al t0 xm I O HI) as R. split; [apply density_side; assumption|].
  intros d' D. apply density_side in D; [|exact X]. fold t0 xm in D. apply (right_unique al t0 xm); [destruct O as (_ & _ & T & _); lra|exact D|exact R].
Qed.
Print Assumptions C90_density_exists.
(** the formula of lines 65-73 is Nolan's exponent wherever it is not cut off *)
Theorem C90_exponent : forall alpha beta xm th, 0 < alpha < 2 -> alpha <> 1 -> -1 <= beta <= 1 -> (alpha < 1 -> -1 < beta) -> 0 < xm ->
  - nolan_theta0 alpha beta < th < PI / 2 -> (1 < alpha -> th < PI / 2 - 14 / 10 ^ 15) -> (alpha < 1 -> - (PI / 2) + 14 / 10 ^ 15 < th) ->
  g1 alpha (nolan_theta0 alpha beta) xm th = Fin (nolan_g alpha (nolan_theta0 alpha beta) xm th) /\ 0 < nolan_g alpha (nolan_theta0 alpha beta) xm th.
Proof.
  intros al be xm th A N B Sd X I Hh Hl. pose proof (theta0_ok al be xm A N B Sd X) as O. rewrite (exp_W_nolan al _ xm th O I). split; [|apply exp_pos].
  apply g1_inside; [exact O|exact I|]. unfold PI2. destruct (Rlt_le_dec 1 al) as [H|H].
  - specialize (Hh H). rewrite sgn_pos by lra. rewrite Rabs_pos_eq; lra.
  - specialize (Hl ltac:(lra)). rewrite sgn_neg by lra. rewrite Rabs_pos_eq; lra.
Qed.
Print Assumptions C90_exponent.
(** it is strictly monotone in the angle, and takes the value 1 (the peak of the integrand) at exactly one angle *)
Theorem C90_peak : forall alpha beta xm, 0 < alpha < 2 -> alpha <> 1 -> -1 < beta < 1 -> 0 < xm ->
  let t0 := nolan_theta0 alpha beta in
  (forall u v, - t0 < u -> u < v -> v < PI / 2 ->
     (1 < alpha -> nolan_g alpha t0 xm v < nolan_g alpha t0 xm u) /\ (alpha < 1 -> nolan_g alpha t0 xm u < nolan_g alpha t0 xm v)) /\
  exists t, - t0 < t < PI / 2 /\ nolan_g alpha t0 xm t = 1 /\
    forall s, - t0 < s < PI / 2 -> s <> t -> nolan_g alpha t0 xm s * exp (- nolan_g alpha t0 xm s) < nolan_g alpha t0 xm t * exp (- nolan_g alpha t0 xm t).
Proof.
  intros al be xm A N B X t0. pose proof (theta0_ok al be xm A N ltac:(lra) ltac:(lra) X) as O. fold t0 in O. pose proof PI_RGT_0 as PP.
  assert (M : forall u v, - t0 < u -> u < v -> v < PI / 2 -> (1 < al -> nolan_g al t0 xm v < nolan_g al t0 xm u) /\ (al < 1 -> nolan_g al t0 xm u < nolan_g al t0 xm v)).
  { intros u v U UV V. assert (Iu : inside t0 u) by (unfold inside; lra). assert (Iv : inside t0 v) by (unfold inside; lra). rewrite !(exp_W_nolan al t0 xm _ O) by assumption.
    destruct (W_order al t0 xm u v O Iu Iv UV) as (H1 & H2). split; intros H; apply exp_increasing; auto. }
  split; [exact M|].
  pose proof (theta0_bound_lt al be A N B) as T. destruct (half_angle_tan al A N) as (Ha & _). unfold half_angle in *.
  assert (E : al * t0 = atan (be * tan (PI * al / 2))) by (unfold t0, nolan_theta0; field; lra). rewrite <- E in T. apply Rabs_lt_between in T.
  assert (L1 : t0 < PI / 2). { apply (Rmult_lt_reg_l al); [lra|]. destruct (Rlt_dec al 1); nra. }
  assert (L2 : al * (PI / 2 + t0) < PI). { destruct (Rlt_dec al 1); nra. }
  destruct (peak_ex al t0 xm O L1 L2) as (t & I & Wt). exists t. split; [exact I|].
  assert (Gt : nolan_g al t0 xm t = 1) by (rewrite (exp_W_nolan al t0 xm t O I), Wt; apply exp_0). split; [exact Gt|].
  intros s S Ne. rewrite Gt. assert (Gs : nolan_g al t0 xm s <> 1). { intros E1. destruct (Rtotal_order s t) as [L|[L|L]]; [|contradiction|].
      - destruct (M s t ltac:(lra) L ltac:(unfold inside in I; lra)) as (H1 & H2). destruct (Rlt_le_dec 1 al) as [H|H]; [specialize (H1 H); lra|specialize (H2 ltac:(lra)); lra].
      - destruct (M t s ltac:(unfold inside in I; lra) L ltac:(lra)) as (H1 & H2). destruct (Rlt_le_dec 1 al) as [H|H]; [specialize (H1 H); lra|specialize (H2 ltac:(lra)); lra]. }
  assert (P : 0 < nolan_g al t0 xm s) by (rewrite (exp_W_nolan al t0 xm s O S); apply exp_pos). set (g := nolan_g al t0 xm s) in *.
  assert (Q : g < exp (g - 1)). { pose proof (exp_ineq1 (g - 1) ltac:(lra)). lra. }
  replace (exp (- (1))) with (exp (g - 1) * exp (- g)) by (rewrite <- exp_plus; f_equal; ring). rewrite Rmult_1_l. apply Rmult_lt_compat_r; [apply exp_pos|exact Q].
Qed.
Print Assumptions C90_peak.
(** at alpha = 1/2, beta = 1 the specification is the Levy density *)
Theorem C90_levy : forall x, -1 < x -> nolan_density (1 / 2) 1 x (exp (- / (2 * (x + 1))) / sqrt (2 * PI * (x + 1) ^ 3)).
Proof.
  intros x X. pose proof PI_RGT_0 as PP. assert (Z : nolan_zeta (1 / 2) 1 = -1). { unfold nolan_zeta. replace (PI * (1 / 2) / 2) with (PI / 4) by field. rewrite tan_PI4. ring. }
  assert (T : nolan_theta0 (1 / 2) 1 = PI / 2). { unfold nolan_theta0. replace (PI * (1 / 2) / 2) with (PI / 4) by field. rewrite tan_PI4, Rmult_1_r, atan_1. field. }
  left. rewrite Z, T. split; [exact X|]. replace (x - -1) with (x + 1) by ring. set (xm := x + 1). assert (Xm : 0 < xm) by (unfold xm; lra).
  exists (/ sqrt xm * exp (- / (2 * xm)) * sqrt (PI / 2)). split; [apply levy_integral, Xm|].
  rewrite (Rabs_left (1 / 2 - 1)) by lra. replace (2 * PI * xm ^ 3) with (2 * PI * xm * (xm * xm)) by ring. rewrite (sqrt_mult (2 * PI * xm)) by nra. rewrite (sqrt_square xm) by lra.
  replace (2 * PI * xm) with ((2 * PI) * xm) by ring. rewrite (sqrt_mult (2 * PI) xm) by lra.
  replace (2 * PI) with (PI / 2 * (2 * 2)) by field. rewrite (sqrt_mult (PI / 2)) by lra. rewrite (sqrt_square 2) by lra.
  assert (S1 : 0 < sqrt (PI / 2)) by (apply sqrt_lt_R0; lra). assert (S2 : 0 < sqrt xm) by (apply sqrt_lt_R0; lra). pose proof (sqrt_sqrt (PI / 2) ltac:(lra)) as S3.
  apply (Rmult_eq_reg_r (sqrt (PI / 2) * (4 * xm * sqrt xm))); [|apply Rgt_not_eq; repeat apply Rmult_lt_0_compat; lra].
  symmetry. transitivity (exp (- / (2 * xm)) * (sqrt (PI / 2) * sqrt (PI / 2)) * 4 / PI); [field; lra|]. rewrite S3. field. repeat split; lra.
Qed.
Print Assumptions C90_levy.
(** aux_f1 (both the value and, with log, its logarithm): at least 1/100 and the code's own tolerance away from zeta, with the peak
    inside the angles the code keeps, and for alpha < 1 when no midpoint of the bisection of lines 97-102 hits the peak within the
    tolerance of np.isclose.  The value is below the true one by at most the integral of what is cut off. *)
Theorem C90_aux_f1_partial : forall gamma gammaln brentq quad x alpha beta t, exact_brentq brentq -> exact_quad quad ->
  / 10 ^ 17 <= alpha < 2 -> alpha <> 1 -> -1 <= beta <= 1 -> (alpha < 1 -> -1 < beta < 1) ->
  let zeta := nolan_zeta alpha beta in
  let t0 := nolan_theta0 alpha (if Rlt_dec x zeta then - beta else beta) in
  let xm := Rabs (x - zeta) in
  1 / 100 <= xm -> 5 / 10 ^ 5 * (5 / 10 ^ 5 + Rmax (Rabs x) (Rabs zeta)) < xm ->
  - t0 < t < PI / 2 -> nolan_g alpha t0 xm t = 1 ->
  (1 < alpha -> t < PI / 2 - 14 / 10 ^ 15) ->
  (alpha < 1 -> / 10 ^ 8 < PI / 2 - t0 /\ forall n, / 10 ^ 8 + / 10 ^ 5 < Rabs (nolan_g alpha t0 xm (PI / 2 - (PI / 2 + t0) / 2 ^ S n) - 1)) ->
  exists d v N, nolan_density alpha beta x d /\ 0 < v /\ 0 <= d - v <= alpha / (PI * Rabs (alpha - 1) * xm) * (15 / 10 ^ 15) /\
    forall fuel, (N <= fuel)%nat ->
      aux_f1 gamma gammaln brentq quad fuel x alpha beta false = Some (Ok (Fin v)) /\
      aux_f1 gamma gammaln brentq quad fuel x alpha beta true = Some (Ok (Fin (ln v))).
Proof.
  intros gamma gammaln brentq quad x al be t HB HQ A N B Sd zeta t0 xm F1 F2 I Gt Hh Hl. pose proof (A' al A) as A0.
  assert (Et : t0 = if Rltb x zeta then - nolan_theta0 al be else nolan_theta0 al be).
  { unfold t0. destruct (Rlt_dec x zeta) as [H|H]; [rewrite (proj2 (Rltb_true x zeta) H); apply theta0_opp|rewrite (proj2 (Rltb_false x zeta)) by lra; reflexivity]. }
  assert (O : ok al t0 xm). { unfold t0. apply theta0_ok; [exact A0|exact N|destruct (Rlt_dec x zeta); lra| |lra]. intros H. specialize (Sd H). destruct (Rlt_dec x zeta); lra. }
  assert (Wt : W al t0 xm t = 0). { rewrite (exp_W_nolan al t0 xm t O I) in Gt. rewrite <- (ln_exp (W al t0 xm t)), Gt. apply ln_1. }
  assert (Hl' : al < 1 -> / 10 ^ 8 < PI / 2 - t0 /\ forall n, / 10 ^ 8 + / 10 ^ 5 < Rabs (exp (W al t0 xm (mids t0 (S n))) - 1)).
  { intros H. destruct (Hl H) as (K1 & K2). split; [exact K1|]. intros n. specialize (K2 n). rewrite (exp_W_nolan al t0 xm) in K2; [exact K2|exact O|exact (mids_in t0 t I n)]. }
  pose proof (aux_value gamma gammaln brentq quad x al be HB HQ A N B) as AV. cbv zeta in AV. fold zeta in AV. fold xm in AV. rewrite <- Et in AV.
  destruct (AV F1 F2 O t I Wt Hh Hl') as (J & v & N0 & HJ & D & V & E).
  assert (Cp := coef_pos _ _ _ O).
  exists (al / (PI * Rabs (al - 1) * xm) * J), (al / (PI * Rabs (al - 1) * xm) * v), N0. split; [|split; [apply Rmult_lt_0_compat; assumption|split; [|exact E]]].
  - apply density_side; [intros ->; unfold xm, zeta in F1; rewrite Rminus_eq_0, Rabs_R0 in F1; lra|]. fold zeta. fold xm. rewrite <- Et. apply right_of_fN; [exact O|exact HJ].
  - rewrite <- Rmult_minus_distr_l. split; [apply Rmult_le_pos; lra|]. apply Rmult_le_compat_l; lra.
Qed.
Print Assumptions C90_aux_f1_partial.
(** skew_stable.pdf for one point: the density of the standardised point over gamma *)
Theorem C90_pdf : forall gamma normal cauchy aux_f2 aux argmax alpha beta gam delta log x v, 0 < alpha < 2 -> alpha <> 1 -> -1 <= beta <= 1 -> 0 < gam -> 0 < v ->
  aux ((x - delta) / gam) alpha beta log = Some (Ok (if log : bool then Fin (ln v) else Fin v)) -> (log = true -> v <> 1) ->
  stable_pdf gamma normal cauchy aux_f2 aux argmax alpha beta gam delta 0 log [x] = Some (Ok [if log then Fin (ln (v / gam)) else Fin (v / gam)]).
Proof.
  intros gamma normal cauchy aux_f2 aux argmax al be gam delta log x v A N B G V E L. unfold stable_pdf. rewrite (proj2 (proj1 (T_Stable.C72_validation al be gam 0))) by (repeat split; try lra; lia).
  cbn [parameterize map]. rewrite (proj2 (Reqb_false al 2)), (proj2 (Reqb_false al 1)) by lra. cbn [andb]. rewrite E. cbn [collect]. do 2 f_equal. unfold stable_post. destruct log; cbn [existsb is_zero combine map fst snd].
  - assert (ln v <> 0). { intros H. apply (L eq_refl). apply ln_inv; [exact V|lra|]. rewrite ln_1. exact H. }
    rewrite (proj2 (Reqb_false (ln v) 0)) by assumption. unfold rescale. rewrite (elog_pos gam G). cbn. do 2 f_equal. unfold Rdiv. rewrite ln_mult, ln_Rinv; [reflexivity|exact G|exact V|apply Rinv_0_lt_compat, G].
  - rewrite (proj2 (Reqb_false v 0)) by lra. unfold rescale, ediv. cbn. do 2 f_equal. unfold Rdiv. ring.
Qed.
Print Assumptions C90_pdf.

(** * C91: reflection *)
Theorem C91_aux_f1 : forall gamma gammaln brentq quad fuel x alpha beta log,
  aux_f1 gamma gammaln brentq quad fuel (- x) alpha (- beta) log = aux_f1 gamma gammaln brentq quad fuel x alpha beta log.
Proof.
  intros gamma gammaln brentq quad fuel x al be log. unfold aux_f1. cbv zeta.
  set (bt := be * tanpi2 al). replace (- be * tanpi2 al) with (- bt) by (unfold bt; ring). rewrite atan_opp, !Rabs_Ropp.
  set (th := Rmin (Rmax (- PI2) (atan bt / al)) PI2).
  assert (Hth : Rmin (Rmax (- PI2) (- atan bt / al)) PI2 = - th). { unfold th, PI2. pose proof PI_RGT_0. replace (- atan bt / al) with (- (atan bt / al)) by (unfold Rdiv; ring). set (q := atan bt / al). unfold Rmin, Rmax. repeat destruct (Rle_dec _ _); lra. }
  rewrite Hth. replace (- x - - - bt) with (- (x - - bt)) by ring. rewrite !Rabs_Ropp. rewrite cos_neg.
  replace ((- - bt) ^ 2) with ((- bt) ^ 2) by ring.
  assert (Eb : Reqb (- bt) 0 = Reqb bt 0). { destruct (Reqb bt 0) eqn:E; [apply Reqb_true in E; apply Reqb_true; lra|apply Reqb_false in E; apply Reqb_false; lra]. }
  assert (Ex : Reqb (- x) 0 = Reqb x 0). { destruct (Reqb x 0) eqn:E; [apply Reqb_true in E; apply Reqb_true; lra|apply Reqb_false in E; apply Reqb_false; lra]. }
  rewrite Eb, Ex.
  set (tol := if Reqb bt 0 then 4 / 10 ^ 16 else if Rltb (1 - Rabs be) (1 / 100) || Rltb al (1 / 100) then 2 / 10 ^ 15 else 5 / 10 ^ 5).
  assert (Tol : 0 < tol) by (unfold tol; destruct (Reqb bt 0), (Rltb (1 - Rabs be) (1 / 100) || Rltb al (1 / 100)); lra).
  destruct (Rleb (Rabs (x - - bt)) (tol * (tol + Rmax (Rabs x) (Rabs bt)))) eqn:E; [reflexivity|].
  assert (Ne : x <> - bt). { intros ->. apply Rleb_false in E. rewrite Rminus_eq_0, Rabs_R0 in E. pose proof (Rabs_pos bt). pose proof (Rmax_r (Rabs (- bt)) (Rabs bt)). nra. }
  assert (S : forall A (a b : A), (if Rltb (- x) (- - bt) then a else b) = (if Rltb x (- bt) then b else a)).
  { intros T a b. destruct (Rltb x (- bt)) eqn:E1; [apply Rltb_true in E1; rewrite (proj2 (Rltb_false (- x) (- - bt))) by lra; reflexivity|apply Rltb_false in E1; rewrite (proj2 (Rltb_true (- x) (- - bt))) by lra; reflexivity]. }
  rewrite !S. rewrite !Ropp_involutive.
  assert (Th : (if Rltb x (- bt) then - th else th) = (if Rltb x (- bt) then - th else th)) by reflexivity.
  destruct (Rltb al (/ 10 ^ 17)); destruct (Rltb x (- bt)); reflexivity.
Qed.
Print Assumptions C91_aux_f1.
(** skew_stable.pdf, parametrisations S0 and S1: changing the sign of beta mirrors the density at delta *)
Definition mirror (delta : R) (xs : list R) : list R := map (fun x => 2 * delta - x) xs.
Theorem C91_pdf : forall gamma normal cauchy aux_f2 gammaln brentq quad fuel argmax alpha beta gam delta pm log xs,
  (alpha = 1 -> beta = 0) -> (forall b y, normal b (- y) = normal b y) -> (forall b y, cauchy b (- y) = cauchy b y) -> gam <> 0 -> (pm <= 1)%nat ->
  (length xs = 1%nat \/ Forall (fun x => x <> fst (parameterize argmax alpha delta gam (- beta) pm)) xs) ->
  stable_pdf gamma normal cauchy aux_f2 (aux_f1 gamma gammaln brentq quad fuel) argmax alpha (- beta) gam delta pm log xs =
  stable_pdf gamma normal cauchy aux_f2 (aux_f1 gamma gammaln brentq quad fuel) argmax alpha beta gam delta pm log (mirror delta xs).
Proof.
  intros gamma normal cauchy aux_f2 gammaln brentq quad fuel argmax al be gam delta pm log xs H1 Hn Hc G Hp Hx. unfold stable_pdf.
  assert (Ck : stable_check al (- be) gam pm = stable_check al be gam pm) by (unfold stable_check; rewrite Rabs_Ropp; reflexivity). rewrite Ck. destruct (stable_check al be gam pm) as [ck|]; [|reflexivity].
  assert (Pz : exists d g, g <> 0 /\ parameterize argmax al delta gam (- be) pm = (2 * delta - d, g) /\ parameterize argmax al delta gam be pm = (d, g)).
  { destruct pm as [|[|]]; [| |lia].
    - exists delta, gam. split; [exact G|]. cbn. split; [f_equal; ring|reflexivity].
    - exists (delta + be * gam * omega gam al), gam. split; [exact G|]. cbn. split; [f_equal; ring|reflexivity]. }
  destruct Pz as (d & g & Hg & E1 & E2). rewrite E1, E2 in *. cbn [fst] in Hx. clear E1 E2 Ck Hp G.
  unfold mirror. rewrite !map_map.
  assert (Rw : forall x, (2 * delta - x - d) / g = - ((x - (2 * delta - d)) / g)) by (intros x; field; exact Hg).
  assert (R0 : map (fun x => if Reqb al 2 then Some (Ok (normal log ((x - (2 * delta - d)) / g))) else if Reqb al 1 && Reqb (- be) 0 then Some (Ok (cauchy log ((x - (2 * delta - d)) / g))) else if Reqb al 1 then aux_f2 ((x - (2 * delta - d)) / g) (- be) log else aux_f1 gamma gammaln brentq quad fuel ((x - (2 * delta - d)) / g) al (- be) log) xs
             = map (fun x => if Reqb al 2 then Some (Ok (normal log ((2 * delta - x - d) / g))) else if Reqb al 1 && Reqb be 0 then Some (Ok (cauchy log ((2 * delta - x - d) / g))) else if Reqb al 1 then aux_f2 ((2 * delta - x - d) / g) be log else aux_f1 gamma gammaln brentq quad fuel ((2 * delta - x - d) / g) al be log) xs).
  { apply map_ext. intros x. rewrite Rw. rewrite Hn, Hc. set (y := (x - (2 * delta - d)) / g). rewrite <- (C91_aux_f1 gamma gammaln brentq quad fuel (- y) al be log), Ropp_involutive.
    destruct (Reqb al 2); [reflexivity|]. destruct (Reqb al 1) eqn:A; [|reflexivity]. apply Reqb_true in A. rewrite (H1 A), Ropp_0. rewrite (proj2 (Reqb_true 0 0) eq_refl). reflexivity. }
  rewrite R0.
  assert (Tl : forall x, x <> 2 * delta - d -> (if log then pareto_log gamma al (- be) ((x - (2 * delta - d)) / g) else pareto (stable_tail gamma al) al (- be) ((x - (2 * delta - d)) / g)) = (if log then pareto_log gamma al be ((2 * delta - x - d) / g) else pareto (stable_tail gamma al) al be ((2 * delta - x - d) / g))).
  { intros x Ne. rewrite Rw. set (y := (x - (2 * delta - d)) / g). assert (Y : y <> 0). { unfold y, Rdiv. apply Rmult_integral_contrapositive_currified; [lra|apply Rinv_neq_0_compat, Hg]. }
    assert (Sg : forall A (a b : A), (if Rltb (- y) 0 then a else b) = (if Rltb y 0 then b else a)).
    { intros T a b. destruct (Rltb y 0) eqn:E1; [apply Rltb_true in E1; rewrite (proj2 (Rltb_false (- y) 0)) by lra; reflexivity|apply Rltb_false in E1; rewrite (proj2 (Rltb_true (- y) 0)) by lra; reflexivity]. }
    unfold pareto_log, pareto. cbv zeta. rewrite !Sg, !Ropp_involutive. destruct (Rltb y 0); reflexivity. }
  destruct Hx as [Hx|Hx].
  - destruct xs as [|x [|]]; try discriminate. cbn [map]. match goal with |- context [collect [?o]] => destruct o as [[r|e]|] end; cbn [collect]; [|reflexivity|reflexivity].
    do 2 f_equal. unfold stable_post. cbn [combine map existsb fst snd]. destruct (is_zero r); reflexivity.
  - set (raw := map _ xs). destruct (collect raw) as [[raw'|]|]; [|reflexivity|reflexivity]. do 3 f_equal. clear R0 raw raw'. induction Hx as [|x xs Hx _ IH]; [reflexivity|]. cbn [map]. f_equal; [apply Tl, Hx|exact IH].
Qed.
Print Assumptions C91_pdf.

(** * C92: the test of lines 104-105 *)
(** for a totally skewed law with alpha < 1 the angles run over (-pi/2, pi/2), whose ends add up to 0: the code returns the density 0 on
    the whole side where the law lives (as long as the exponent at the angle 0 is above 1e-8 and not within 1e-5 of 1) *)
Theorem C92_vanishing_refuted : forall gamma gammaln brentq quad fuel x alpha,
  / 10 ^ 17 <= alpha < 1 -> let zeta := nolan_zeta alpha 1 in zeta + 1 / 100 <= x -> 5 / 10 ^ 5 * (5 / 10 ^ 5 + Rmax (Rabs x) (Rabs zeta)) < x - zeta ->
  let g0 := nolan_g alpha (PI / 2) (x - zeta) 0 in / 10 ^ 8 < g0 -> / 10 ^ 8 + / 10 ^ 5 < Rabs (g0 - 1) ->
  aux_f1 gamma gammaln brentq quad (S fuel) x alpha 1 false = Some (Ok (Fin 0)) /\
  aux_f1 gamma gammaln brentq quad (S fuel) x alpha 1 true = Some (Ok Ninf) /\
  exists d, nolan_density alpha 1 x d /\ 0 < d.
Proof.
  intros gamma gammaln brentq quad fuel x al A zeta Far Far2 g0 G0 G1. pose proof PI_RGT_0 as PP. pose proof cut_small as CS. assert (A2 : / 10 ^ 17 <= al < 2) by lra. pose proof (A' al A2) as A0.
  assert (T : nolan_theta0 al 1 = PI / 2). { unfold nolan_theta0. rewrite Rmult_1_l, atan_tan by nra. field. lra. }
  assert (Xm : Rabs (x - zeta) = x - zeta) by (apply Rabs_pos_eq; lra).
  assert (L : Rltb x zeta = false) by (apply Rltb_false; lra).
  assert (O : ok al (PI / 2) (x - zeta)). { rewrite <- T. apply theta0_ok; lra. }
  assert (E0 : g1 al (PI / 2) (x - zeta) (- (PI / 2)) = Fin 0). { unfold g1, PI2. rewrite sgn_neg by lra. replace (PI / 2 - -1 * - (PI / 2)) with 0 by ring. rewrite Rabs_R0. rewrite (proj2 (Rleb_true 0 (14 / 10 ^ 15))) by lra. reflexivity. }
  assert (Z : inside (PI / 2) 0) by (unfold inside; lra).
  assert (Eg : g1 al (PI / 2) (x - zeta) 0 = Fin g0). { unfold g0. rewrite (exp_W_nolan al (PI / 2) (x - zeta) 0 O Z). apply g1_inside; [exact O|exact Z|]. unfold PI2. rewrite Rmult_0_r, Rminus_0_r, Rabs_pos_eq by lra. unfold cut in CS. assert (1 < PI / 2) by apply PI2_1. lra. }
  assert (Lc : locate brentq (S fuel) al (PI / 2) (g1 al (PI / 2) (x - zeta)) = Some (Ok Vanishes)).
  { unfold locate. change PI2 with (PI / 2). rewrite (g1_pi_low al (PI / 2) (x - zeta) O) by lra. rewrite E0. rewrite (proj2 (Rleb_false 1 al)), (proj2 (Rltb_true al 1)) by lra. cbn [eltb andb orb]. rewrite (proj2 (Rltb_false 1 0)) by lra.
    cbn [raise_ll]. change PI2 with (PI / 2). replace ((- (PI / 2) + PI / 2) / 2) with 0 by field. rewrite Eg.
    replace (isclose (Fin g0) 0) with false by (symmetry; apply Rleb_false; rewrite Rminus_0_r, Rabs_R0, Rmult_0_r, Rplus_0_r; eapply Rlt_le_trans; [exact G0|apply Rle_abs]).
    replace ((- (PI / 2) + PI / 2) / 2) with 0 by field. rewrite Eg.
    replace (isclose (Fin g0) 1) with false by (symmetry; apply Rleb_false; rewrite Rabs_R1, Rmult_1_r; exact G1).
    replace (PI / 2 + - (PI / 2)) with 0 by ring. rewrite Rabs_R0, (proj2 (Rleb_true 0 (/ 10 ^ 8))) by lra. reflexivity. }
  assert (AR : forall log, aux_f1 gamma gammaln brentq quad (S fuel) x al 1 log = Some (Ok (if log then Ninf else Fin 0))).
  { intros log. pose proof (aux_rest gamma gammaln brentq quad x al 1 A2 ltac:(lra) ltac:(lra)) as AR. cbv zeta in AR. unfold rest in AR. cbv zeta in AR. fold zeta in AR. rewrite L, Xm, T in AR.
    rewrite AR; [rewrite Lc; reflexivity|lra|exact Far2|exact O|lra|intros _; exact E0]. }
  rewrite !AR. split; [reflexivity|]. split; [reflexivity|].
  destruct (C90_density_exists al 1 x A0 ltac:(lra) ltac:(lra)) as (d & D & HD & _); [fold zeta; lra|intros _; split; [fold zeta; lra|lra]|]. exists d. split; assumption.
Qed.
Print Assumptions C92_vanishing_refuted.
(** in particular the Levy law: pdf is 0 at every x in (-0.99, 10^7) except around x = 0, where it should be the Levy density *)
Theorem C92_levy_refuted : forall gamma normal cauchy aux_f2 gammaln brentq quad fuel argmax x, - (99 / 100) <= x -> x < 10 ^ 7 -> / 10 ^ 4 < Rabs x ->
  stable_pdf gamma normal cauchy aux_f2 (aux_f1 gamma gammaln brentq quad (S fuel)) argmax (1 / 2) 1 1 0 0 false [x] = Some (Ok [Fin 0]) /\
  nolan_density (1 / 2) 1 x (exp (- / (2 * (x + 1))) / sqrt (2 * PI * (x + 1) ^ 3)) /\ 0 < exp (- / (2 * (x + 1))) / sqrt (2 * PI * (x + 1) ^ 3).
Proof.
  intros gamma normal cauchy aux_f2 gammaln brentq quad fuel argmax x X1 X2 X3. pose proof PI_RGT_0 as PP.
  assert (Z : nolan_zeta (1 / 2) 1 = -1). { unfold nolan_zeta. replace (PI * (1 / 2) / 2) with (PI / 4) by field. rewrite tan_PI4. ring. }
  split; [|split; [apply C90_levy; lra|apply Rdiv_lt_0_compat; [apply exp_pos|apply sqrt_lt_R0, Rmult_lt_0_compat; [lra|apply pow_lt; lra]]]].
  destruct (C92_vanishing_refuted gamma gammaln brentq quad fuel x (1 / 2)) as (E & _).
  - split; [|lra]. left. apply Rlt_trans with (1 / 10); [|lra]. assert (1 < 10 ^ 16) by (apply Rlt_pow_R1; [lra|lia]). replace (/ 10 ^ 17) with (/ (10 * 10 ^ 16)) by (f_equal; ring). rewrite Rinv_mult. nra.
  - rewrite Z. lra.
  - rewrite Z. rewrite (Rabs_left (-1)) by lra. unfold Rabs, Rmax. destruct (Rcase_abs x); destruct (Rle_dec _ _); lra.
  - rewrite Z. rewrite levy_g; [|lra|unfold inside; lra]. replace (0 / 2 + PI / 4) with (PI / 4) by field. rewrite cos_PI4. pose proof (sqrt_sqrt 2 ltac:(lra)) as S2. assert (S2p : 0 < sqrt 2) by (apply sqrt_lt_R0; lra).
    replace (2 * (x - -1) * (1 / sqrt 2) ^ 2) with (x + 1). 2:{ replace ((1 / sqrt 2) ^ 2) with (/ (sqrt 2 * sqrt 2)) by (field; lra). rewrite S2. field. }
    apply Rinv_lt_contravar; [apply Rmult_lt_0_compat; [lra|apply pow_lt; lra]|]. assert (10 ^ 8 = 10 * 10 ^ 7) by ring. assert (1 < 10 ^ 7) by (apply Rlt_pow_R1; [lra|lia]). lra.
  - rewrite Z. rewrite levy_g; [|lra|unfold inside; lra]. replace (0 / 2 + PI / 4) with (PI / 4) by field. rewrite cos_PI4. pose proof (sqrt_sqrt 2 ltac:(lra)) as S2. assert (S2p : 0 < sqrt 2) by (apply sqrt_lt_R0; lra).
    replace (2 * (x - -1) * (1 / sqrt 2) ^ 2) with (x + 1). 2:{ replace ((1 / sqrt 2) ^ 2) with (/ (sqrt 2 * sqrt 2)) by (field; lra). rewrite S2. field. }
    replace (/ (x + 1) - 1) with (- x * / (x + 1)) by (field; lra). rewrite Rabs_mult, Rabs_Ropp, (Rabs_pos_eq (/ (x + 1))) by (left; apply Rinv_0_lt_compat; lra).
    apply (Rmult_lt_reg_r (x + 1)); [lra|]. rewrite Rmult_assoc, Rinv_l, Rmult_1_r by lra. unfold Rabs in *. destruct (Rcase_abs x); lra.
  - unfold stable_pdf. rewrite (proj2 (proj1 (T_Stable.C72_validation (1 / 2) 1 1 0))) by (repeat split; try lra; lia). cbn [parameterize map]. replace ((x - 0) / 1) with x by field.
    rewrite (proj2 (Reqb_false (1 / 2) 2)), (proj2 (Reqb_false (1 / 2) 1)) by lra. cbn [andb]. rewrite E. cbn [collect]. do 2 f_equal. unfold stable_post. cbn [existsb is_zero combine map fst snd]. rewrite (proj2 (Reqb_true 0 0) eq_refl). reflexivity.
Qed.
Print Assumptions C92_levy_refuted.

(** * Cases *)
(** there are functions with the two properties asked of scipy *)
Example C90_case_tools : exists brentq quad, exact_brentq brentq /\ exact_quad quad.
Proof.
  exists (fun f a b => epsilon (inhabits 0) (fun c => a <= c <= b /\ ((exists c', a < c' < b /\ f c' = Fin 0) -> a < c < b /\ f c = Fin 0))).
  exists (fun f a b => if Reqb a b then Fin 0 else Fin (epsilon (inhabits 0) (fun l => exists h, (forall x, a < x < b -> f x = Fin (h x)) /\ integral_on a b h l))). split.
  - intros f a b ab _. apply epsilon_spec. destruct (classic (exists c, a < c < b /\ f c = Fin 0)) as [(c & C & F)|H].
    + exists c. split; [lra|]. intros _. split; assumption.
    + exists a. split; [lra|]. intros H2. contradiction.
  - split; [intros f a; rewrite (proj2 (Reqb_true a a) eq_refl); reflexivity|]. intros f h a b l ab E I. rewrite (proj2 (Reqb_false a b)) by lra. f_equal.
    assert (Sp : exists l, exists h, (forall x, a < x < b -> f x = Fin (h x)) /\ integral_on a b h l) by (exists l, h; split; assumption).
    pose proof (epsilon_spec (inhabits 0) _ Sp) as (h' & E' & I'). cbv beta in I'. apply (integral_unique a b h _ _ ab); [|exact I]. apply (integral_on_ext a b h' h); [exact ab| |exact I'].
    intros y Y. specialize (E y Y). specialize (E' y Y). congruence.
Qed.
Lemma zeta_sym al : nolan_zeta al 0 = 0. Proof. unfold nolan_zeta. ring. Qed.
Lemma theta0_sym al : nolan_theta0 al 0 = 0. Proof. unfold nolan_theta0. rewrite Rmult_0_l, atan_0. unfold Rdiv. apply Rmult_0_l. Qed.
(** alpha = 3/2, beta = 0 at x = 1 *)
Example C90_case_high : forall gamma gammaln brentq quad, exact_brentq brentq -> exact_quad quad ->
  exists d v N, nolan_density (3 / 2) 0 1 d /\ 0 < v /\ 0 <= d - v <= 3 / 2 / (PI * Rabs (3 / 2 - 1) * Rabs (1 - nolan_zeta (3 / 2) 0)) * (15 / 10 ^ 15) /\
    forall fuel, (N <= fuel)%nat ->
      aux_f1 gamma gammaln brentq quad fuel 1 (3 / 2) 0 false = Some (Ok (Fin v)) /\ aux_f1 gamma gammaln brentq quad fuel 1 (3 / 2) 0 true = Some (Ok (Fin (ln v))).
Proof.
  intros gamma gammaln brentq quad HB HQ. pose proof PI_RGT_0 as PP.
  assert (O : ok (3 / 2) 0 1) by (unfold ok; repeat split; lra).
  assert (V : inside 0 (PI / 3)) by (unfold inside; lra).
  assert (Wv : W (3 / 2) 0 1 (PI / 3) < 0).
  { apply exp_lt_inv. rewrite exp_0, <- (exp_W_nolan (3 / 2) 0 1 _ O V). unfold nolan_g, nolan_V.
    replace (3 / 2 * (0 + PI / 3)) with (PI / 2) by field. replace (3 / 2 * 0 + (3 / 2 - 1) * (PI / 3)) with (PI / 6) by field. rewrite Rmult_0_r, cos_0, sin_PI2, cos_PI6, cos_PI3.
    replace (3 / 2 / (3 / 2 - 1)) with (INR 3) by (simpl; field). replace (1 / (3 / 2 - 1)) with (INR 2) by (simpl; field). rewrite !Rpower_pow by lra.
    assert (sqrt 3 < 2). { rewrite <- (sqrt_square 2) by lra. apply sqrt_lt_1; lra. } nra. }
  destruct (peak_left (3 / 2) 0 1 (PI / 3) O ltac:(lra) ltac:(lra) V Wv) as (t & I & Wt & Ht).
  assert (Et : nolan_theta0 (3 / 2) (if Rlt_dec 1 (nolan_zeta (3 / 2) 0) then - 0 else 0) = 0) by (destruct (Rlt_dec _ _); [rewrite Ropp_0|]; apply theta0_sym).
  assert (Ex : Rabs (1 - nolan_zeta (3 / 2) 0) = 1) by (rewrite zeta_sym, Rminus_0_r; apply Rabs_R1).
  apply (C90_aux_f1_partial gamma gammaln brentq quad 1 (3 / 2) 0 t HB HQ); try lra.
  - rewrite zeta_sym, Rminus_0_r, Rabs_R1, Rabs_R0, Rmax_left; lra.
  - rewrite Et. exact I.
  - rewrite Et, Ex, (exp_W_nolan (3 / 2) 0 1 t O I), Wt. apply exp_0.
  - intros _. pose proof PI2_1. unfold Rdiv in *. lra.
Qed.
(** alpha = 1/2, beta = 0 at x = 1/10 *)
Example C90_case_low : forall gamma gammaln brentq quad, exact_brentq brentq -> exact_quad quad ->
  exists d v N, nolan_density (1 / 2) 0 (1 / 10) d /\ 0 < v /\ 0 <= d - v <= 1 / 2 / (PI * Rabs (1 / 2 - 1) * Rabs (1 / 10 - nolan_zeta (1 / 2) 0)) * (15 / 10 ^ 15) /\
    forall fuel, (N <= fuel)%nat ->
      aux_f1 gamma gammaln brentq quad fuel (1 / 10) (1 / 2) 0 false = Some (Ok (Fin v)) /\ aux_f1 gamma gammaln brentq quad fuel (1 / 10) (1 / 2) 0 true = Some (Ok (Fin (ln v))).
Proof.
  intros gamma gammaln brentq quad HB HQ. pose proof PI_RGT_0 as PP.
  destruct (C90_peak (1 / 2) 0 (1 / 10) ltac:(lra) ltac:(lra) ltac:(lra) ltac:(lra)) as (M & t & I & Gt & _). rewrite theta0_sym in *.
  assert (Et : nolan_theta0 (1 / 2) (if Rlt_dec (1 / 10) (nolan_zeta (1 / 2) 0) then - 0 else 0) = 0) by (destruct (Rlt_dec _ _); [rewrite Ropp_0|]; apply theta0_sym).
  assert (Ex : Rabs (1 / 10 - nolan_zeta (1 / 2) 0) = 1 / 10) by (rewrite zeta_sym, Rminus_0_r; apply Rabs_pos_eq; lra).
  assert (G4 : nolan_g (1 / 2) 0 (1 / 10) (PI / 4) = 5 * sqrt 2).
  { unfold nolan_g, nolan_V. rewrite Rmult_0_r, cos_0. replace (1 / 2 / (1 / 2 - 1)) with (- (1)) by field. replace (1 / 2 * (0 + PI / 4)) with (PI / 8) by field. replace (0 + (1 / 2 - 1) * (PI / 4)) with (- (PI / 8)) by field. rewrite cos_neg.
    assert (C8 : 0 < cos (PI / 8)) by (apply cos_gt_0; lra). assert (S8 : 0 < sin (PI / 8)) by (apply sin_gt_0; lra). assert (S4 : sin (PI / 4) = 2 * sin (PI / 8) * cos (PI / 8)) by (rewrite <- sin_2a; f_equal; field).
    assert (S2p : 0 < sqrt 2) by (apply sqrt_lt_R0; lra). pose proof (sqrt_sqrt 2 ltac:(lra)) as S2. rewrite cos_PI4. rewrite sin_PI4 in S4.
    assert (P1 : Rpower 1 (1 / (1 / 2 - 1)) = 1) by (unfold Rpower; rewrite ln_1, Rmult_0_r; apply exp_0). rewrite P1.
    rewrite !Rpower_Ropp, !Rpower_1; [|apply Rdiv_lt_0_compat; [apply Rdiv_lt_0_compat; lra|exact S8]|lra].
    replace (/ (1 / 10) * (1 * / (1 / sqrt 2 / sin (PI / 8)) * (cos (PI / 8) / (1 / sqrt 2)))) with (5 * (sqrt 2 * sqrt 2) * (2 * sin (PI / 8) * cos (PI / 8))) by (field; lra). rewrite <- S4, S2. rewrite <- S2 at 1. field. lra. }
  assert (S5 : 5 <= 5 * sqrt 2). { assert (1 <= sqrt 2); [|lra]. rewrite <- sqrt_1 at 1. apply sqrt_le_1; lra. }
  apply (C90_aux_f1_partial gamma gammaln brentq quad (1 / 10) (1 / 2) 0 t HB HQ); try lra.
  - rewrite zeta_sym, Rminus_0_r, Rabs_R0, (Rabs_pos_eq (1 / 10)), Rmax_left; lra.
  - rewrite Et, Ex. exact Gt.
  - intros _. rewrite Et, Ex. pose proof PI2_1. split; [lra|]. intros n. rewrite Rplus_0_r.
    assert (B : 5 <= nolan_g (1 / 2) 0 (1 / 10) (PI / 2 - PI / 2 / 2 ^ S n)).
    { destruct n as [|n]; [replace (PI / 2 - PI / 2 / 2 ^ 1) with (PI / 4) by field; lra|].
      assert (P1 : 1 <= 2 ^ n) by (apply pow_R1_Rle; lra). assert (D : 0 < PI / 2 / 2 ^ S (S n) < PI / 4).
      { split; [apply Rdiv_lt_0_compat; [lra|apply pow_lt; lra]|]. cbn [pow]. apply (Rmult_lt_reg_r (2 * (2 * 2 ^ n))); [lra|]. unfold Rdiv at 1. rewrite Rmult_assoc, Rinv_l by lra. nra. }
      pose proof (proj2 (M (PI / 4) (PI / 2 - PI / 2 / 2 ^ S (S n)) ltac:(lra) ltac:(lra) ltac:(lra)) ltac:(lra)). lra. }
    rewrite Rabs_pos_eq; lra.
Qed.
Example C91_case : forall gamma gammaln brentq quad fuel log, aux_f1 gamma gammaln brentq quad fuel (-2) (3 / 2) (- / 2) log = aux_f1 gamma gammaln brentq quad fuel 2 (3 / 2) (/ 2) log.
Proof. intros. replace (-2) with (- (2)) by lra. apply C91_aux_f1. Qed.
Example C92_case : forall gamma normal cauchy aux_f2 gammaln brentq quad fuel argmax,
  stable_pdf gamma normal cauchy aux_f2 (aux_f1 gamma gammaln brentq quad (S fuel)) argmax (1 / 2) 1 1 0 0 false [1] = Some (Ok [Fin 0]).
Proof. intros. apply C92_levy_refuted; [lra|apply Rlt_pow_R1; [lra|lia]|]. rewrite Rabs_R1. lra. Qed.
