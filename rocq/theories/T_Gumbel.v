(** C28, C29, C68: coefficients and values of the Gumbel polynomial, Sibuya sums. *)
From Coquelicot Require Import Coquelicot.
From Verif Require Import Base RSumLib Ext M_Special S_Special P_Stirling P_Partitions P_Eulerian P_Polylog M_Gumbel S_Gumbel P_Gumbel P_GumbelCode P_Sibuya P_SibuyaSum P_GumbelPoly P_GumbelCases P_GumbelNan.
Open Scope R_scope.

(** ** C28 *)
Lemma coefficients_ext d f g : (forall i, (i < d)%nat -> f (S i) = g (S i)) -> coefficients d f = coefficients d g.
Proof. intros H. unfold coefficients. apply map_ext_in. intros i I. apply in_seq in I. rewrite H by lia. reflexivity. Qed.
Lemma log_coefficients_ext d f g : (forall i, (i < d)%nat -> f (S i) = g (S i)) -> log_coefficients d f = log_coefficients d g.
Proof. intros H. unfold log_coefficients. apply map_ext_in. intros i I. apply in_seq in I. rewrite H by lia. reflexivity. Qed.
Lemma to_a (r : result (list ext)) d alpha (log : bool) : (0 < d)%nat ->
  r = Ok (if log then log_coefficients d (ga alpha d) else coefficients d (ga alpha d)) ->
  r = Ok (if log then log_coefficients d (gumbel_a alpha d) else coefficients d (gumbel_a alpha d)).
Proof.
  intros Hd ->. f_equal. destruct log; [apply log_coefficients_ext|apply coefficients_ext]; intros i _; symmetry; apply gumbel_a_ga; exact Hd.
Qed.
Lemma coef_guard gamma gammaln d alpha method log (r : result (list ext)) : 0 < alpha <= 1 -> (0 < d)%nat ->
  (let m := lower method in
    if String.eqb m "sort" then gumbel_coef_sort d alpha log
    else if String.eqb m "horner" then gumbel_coef_horner d alpha log
    else if String.eqb m "direct" then gumbel_coef_direct d alpha log
    else if String.eqb m "log" then gumbel_coef_sibuya gamma gammaln d alpha SibLog log
    else if String.eqb m "ds.direct" then gumbel_coef_sibuya gamma gammaln d alpha SibDirect log
    else if String.eqb m "diff" then gumbel_coef_sibuya gamma gammaln d alpha SibDiff log
    else Err AssertionError) = r -> gumbel_coef gamma gammaln (Z.of_nat d) alpha method log = r.
Proof.
  intros Ha Hd E. unfold gumbel_coef. rewrite alpha_check by exact Ha. rewrite (proj2 (Z.leb_le 1 (Z.of_nat d))) by lia. cbn [negb]. rewrite Nat2Z.id. exact E.
Qed.
(** method direct: every degree, plain and logarithmic *)
Theorem C28_direct : forall gamma gammaln (d : nat) alpha method log, 0 < alpha <= 1 -> (1 <= d)%nat -> lower method = "direct"%string ->
  gumbel_coef gamma gammaln (Z.of_nat d) alpha method log = Ok (if log then log_coefficients d (gumbel_a alpha d) else coefficients d (gumbel_a alpha d)).
Proof.
  intros gamma gammaln d alpha method log Ha Hd Hm. apply coef_guard; [exact Ha|lia|]. cbv zeta. rewrite Hm. cbn [String.eqb Ascii.eqb Bool.eqb].
  apply to_a; [lia|]. apply coef_direct_ok; [exact Ha|lia].
Qed.
Print Assumptions C28_direct.
(** method horner: every degree but 20 *)
Theorem C28_horner_partial : forall gamma gammaln (d : nat) alpha method log, 0 < alpha <= 1 -> (1 <= d)%nat -> (d <> 20)%nat -> lower method = "horner"%string ->
  gumbel_coef gamma gammaln (Z.of_nat d) alpha method log = Ok (if log then log_coefficients d (gumbel_a alpha d) else coefficients d (gumbel_a alpha d)).
Proof.
  intros gamma gammaln d alpha method log Ha Hd Hn Hm. apply coef_guard; [exact Ha|lia|]. cbv zeta. rewrite Hm. cbn [String.eqb Ascii.eqb Bool.eqb].
  apply to_a; [lia|]. apply coef_horner_exact; [exact Ha|lia|apply horner_fits; exact Hn].
Qed.
Print Assumptions C28_horner_partial.
(** method sort: every degree up to 21 *)
Theorem C28_sort_partial : forall gamma gammaln (d : nat) alpha method log, 0 < alpha <= 1 -> (1 <= d <= 21)%nat -> lower method = "sort"%string ->
  gumbel_coef gamma gammaln (Z.of_nat d) alpha method log = Ok (if log then log_coefficients d (gumbel_a alpha d) else coefficients d (gumbel_a alpha d)).
Proof.
  intros gamma gammaln d alpha method log Ha Hd Hm. apply coef_guard; [exact Ha|lia|]. cbv zeta. rewrite Hm. cbn [String.eqb Ascii.eqb Bool.eqb].
  apply to_a; [lia|]. destruct (sort_small d) as [H1 H2]; [lia|]. apply coef_sort_ok; auto; lia.
Qed.
Print Assumptions C28_sort_partial.
(** the three Sibuya methods: degrees up to 20 *)
Theorem C28_sibuya_partial : forall gamma gammaln (d : nat) alpha method log,
  gamma_function gamma -> log_gamma_function gamma gammaln -> 0 < alpha < 1 -> (1 <= d <= 20)%nat ->
  (lower method = "log" /\ (2 <= d)%nat)%string \/ lower method = "ds.direct"%string \/ lower method = "diff"%string ->
  gumbel_coef gamma gammaln (Z.of_nat d) alpha method log = Ok (if log then log_coefficients d (gumbel_a alpha d) else coefficients d (gumbel_a alpha d)).
Proof.
  intros gamma gammaln d alpha method log HG HL Ha Hd Hm. apply coef_guard; [lra|lia|]. cbv zeta.
  destruct Hm as [[-> H2]|[->| ->]]; cbn [String.eqb Ascii.eqb Bool.eqb]; (apply to_a; [lia|]); apply coef_sibuya_ok; auto; try lia; discriminate.
Qed.
Print Assumptions C28_sibuya_partial.
(** the coefficients belong to the d-th derivative of the generator exp(-t^alpha) *)
Theorem C28_derivative : forall (d : nat) alpha t, (1 <= d)%nat -> 0 < t ->
  Derive_n (gumbel_generator alpha) d t = (-1) ^ d * gumbel_generator alpha t / t ^ d * polynomial d (gumbel_a alpha d) (Rpower t alpha).
Proof.
  intros d alpha t Hd Ht. rewrite gumbel_Derive_n, gsum_polynomial by (try lia; exact Ht).
  replace (polynomial d (gumbel_a alpha d) (Rpower t alpha)) with (polynomial d (ga alpha d) (Rpower t alpha)); [unfold Rdiv; ring|].
  unfold polynomial. apply rsum_ext. intros i _. rewrite gumbel_a_ga by lia. reflexivity.
Qed.
Print Assumptions C28_derivative.
(** every coefficient is positive below alpha = 1, and only the last one is not zero at alpha = 1 *)
Theorem C28_sign : forall (d k : nat) alpha, (1 <= k <= d)%nat ->
  (0 < alpha < 1 -> 0 < gumbel_a alpha d k) /\ gumbel_a 1 d k = (if Nat.eqb k d then 1 else 0) /\ gumbel_a alpha d d = alpha ^ d.
Proof.
  intros d k alpha H. rewrite !gumbel_a_ga by lia. split; [intros Ha; apply ga_pos; assumption|]. split; [|apply ga_diag].
  destruct (Nat.eqb_spec k d) as [->|N]; [rewrite ga_diag; apply pow1|apply ga_alpha1; lia].
Qed.
Print Assumptions C28_sign.
Theorem C28_bad_arguments : forall gamma gammaln d alpha method log,
  (~ 0 < alpha <= 1 \/ (d < 1)%Z \/ ~ In (lower method) ["sort"; "horner"; "direct"; "log"; "ds.direct"; "diff"]%string) ->
  gumbel_coef gamma gammaln d alpha method log = Err AssertionError.
Proof.
  intros gamma gammaln d alpha method log H. unfold gumbel_coef. destruct (negb (Rltb 0 alpha && Rleb alpha 1)) eqn:E; [reflexivity|].
  apply negb_false_iff, andb_true_iff in E. rewrite Rltb_true, Rleb_true in E. destruct H as [H|[H|H]]; [lra| |].
  - rewrite (proj2 (Z.leb_gt 1 d)) by lia. reflexivity.
  - destruct (negb (1 <=? d)%Z); [reflexivity|]. cbv zeta. revert H. generalize (lower method). intros m H.
    repeat match goal with |- (if String.eqb m ?s then _ else _) = _ => destruct (String.eqb_spec m s) as [->|]; [exfalso; apply H; cbn; tauto|] end. reflexivity.
Qed.
Print Assumptions C28_bad_arguments.
(** Finding: sort raises for every degree from 22 on. *)
Theorem C28_sort_refuted : forall gamma gammaln (d : nat) alpha method log, 0 < alpha <= 1 -> (22 <= d)%nat -> lower method = "sort"%string ->
  gumbel_coef gamma gammaln (Z.of_nat d) alpha method log = Err TypeError.
Proof.
  intros gamma gammaln d alpha method log Ha Hd Hm. apply coef_guard; [exact Ha|lia|]. cbv zeta. rewrite Hm. cbn [String.eqb Ascii.eqb Bool.eqb]. apply sort_large. exact Hd.
Qed.
Print Assumptions C28_sort_refuted.
(** Finding: the third coefficient of horner at degree 20 is wrong, for every alpha below 1. *)
Theorem C28_horner_refuted : forall gamma gammaln alpha, 0 < alpha < 1 ->
  exists l v, gumbel_coef gamma gammaln 20 alpha "horner" false = Ok l /\ nth 2 l Nan = Fin v /\ v <> gumbel_a alpha 20 3.
Proof.
  intros gamma gammaln alpha Ha. destruct (horner_20 alpha) as [l [E1 E2]]. exists l. eexists. split; [|split; [exact E2|]].
  - apply (coef_guard gamma gammaln 20); [lra|lia|]. exact E1.
  - rewrite gumbel_a_ga by lia. apply horner_20_gap. exact Ha.
Qed.
Print Assumptions C28_horner_refuted.
(** Finding: the first coefficient of the Sibuya methods is wrong for every degree from 21 on. *)
Theorem C28_sibuya_refuted : forall gamma gammaln (d : nat) alpha method,
  gamma_function gamma -> log_gamma_function gamma gammaln -> 0 < alpha < 1 -> (21 <= d)%nat ->
  In (lower method) ["log"; "ds.direct"; "diff"]%string ->
  exists l v, gumbel_coef gamma gammaln (Z.of_nat d) alpha method false = Ok l /\ nth 0 l Nan = Fin v /\ v <> gumbel_a alpha d 1.
Proof.
  intros gamma gammaln d alpha method HG HL Ha Hd Hm. rewrite gumbel_a_ga by lia.
  assert (X : exists m, gumbel_coef gamma gammaln (Z.of_nat d) alpha method false = gumbel_coef_sibuya gamma gammaln d alpha m false).
  { cbn [In] in Hm. destruct Hm as [Hm|[Hm|[Hm|[]]]]; symmetry in Hm; [exists SibLog|exists SibDirect|exists SibDiff]; (apply coef_guard; [lra|lia|]); cbv zeta; rewrite Hm; reflexivity. }
  destruct X as [m ->]. apply coef_sibuya_wrong; assumption.
Qed.
Print Assumptions C28_sibuya_refuted.
(** Finding: at alpha = 1 the logarithm of the last coefficient, 0, is answered as 1 by the Sibuya methods. *)
Theorem C28_alpha_one_refuted : forall gamma gammaln (d : nat) method, (1 <= d)%nat -> In (lower method) ["log"; "ds.direct"; "diff"]%string ->
  exists l, gumbel_coef gamma gammaln (Z.of_nat d) 1 method true = Ok l /\ nth (d - 1) l Nan = Fin 1 /\ elog (Fin (gumbel_a 1 d d)) = Fin 0.
Proof.
  intros gamma gammaln d method Hd Hm.
  assert (X : exists m, gumbel_coef gamma gammaln (Z.of_nat d) 1 method true = gumbel_coef_sibuya gamma gammaln d 1 m true).
  { cbn [In] in Hm. destruct Hm as [Hm|[Hm|[Hm|[]]]]; symmetry in Hm; [exists SibLog|exists SibDirect|exists SibDiff]; (apply coef_guard; [lra|lia|]); cbv zeta; rewrite Hm; reflexivity. }
  destruct X as [m ->]. destruct (coef_sibuya_one_log gamma gammaln d m) as [l [E1 E2]]; [lia|]. exists l. split; [exact E1|]. split; [exact E2|].
  rewrite gumbel_a_ga, ga_diag, pow1, elog_pos, ln_1 by (try lia; lra). reflexivity.
Qed.
Print Assumptions C28_alpha_one_refuted.
(** Finding: method log raises for degree 1. *)
Theorem C28_log_degree_one_refuted : forall gamma gammaln alpha log, 0 < alpha < 1 -> gumbel_coef gamma gammaln 1 alpha "log" log = Err TypeError.
Proof. intros gamma gammaln alpha log Ha. apply (coef_guard gamma gammaln 1); [lra|lia|]. apply coef_sibuya_log_1. exact Ha. Qed.
Print Assumptions C28_log_degree_one_refuted.
(** degree 2: alpha (1 - alpha) x + alpha^2 x^2; and the assumptions on gamma can be met *)
Example C28_case : gumbel_a (1 / 2) 2 1 = 1 / 4 /\ gumbel_a (1 / 2) 2 2 = 1 / 4 /\ gamma_function wgamma /\ log_gamma_function wgamma wgammaln /\
  (forall m, In m ["sort"; "horner"; "direct"; "log"; "ds.direct"; "diff"]%string -> gumbel_coef wgamma wgammaln 2 (1 / 2) m false = Ok [Fin (1 / 4); Fin (1 / 4)]).
Proof.
  assert (A1 : gumbel_a (1 / 2) 2 1 = 1 / 4) by (rewrite gumbel_a_ga by lia; cbn; lra).
  assert (A2 : gumbel_a (1 / 2) 2 2 = 1 / 4) by (rewrite gumbel_a_ga by lia; cbn; lra).
  split; [exact A1|]. split; [exact A2|]. split; [apply wgamma_ok|]. split; [apply wgammaln_ok|].
  assert (C : coefficients 2 (gumbel_a (1 / 2) 2) = [Fin (1 / 4); Fin (1 / 4)]) by (unfold coefficients; cbn [seq map]; rewrite A1, A2; reflexivity).
  intros m H. rewrite <- C. cbn [In] in H.
  destruct H as [<-|[<-|[<-|[<-|[<-|[<-|[]]]]]]].
  - apply (C28_sort_partial wgamma wgammaln 2 _ _ false); [lra|lia|reflexivity].
  - apply (C28_horner_partial wgamma wgammaln 2 _ _ false); [lra|lia|lia|reflexivity].
  - apply (C28_direct wgamma wgammaln 2 _ _ false); [lra|lia|reflexivity].
  - apply (C28_sibuya_partial wgamma wgammaln 2 _ _ false); [apply wgamma_ok|apply wgammaln_ok|lra|lia|left; split; [reflexivity|lia]].
  - apply (C28_sibuya_partial wgamma wgammaln 2 _ _ false); [apply wgamma_ok|apply wgammaln_ok|lra|lia|right; left; reflexivity].
  - apply (C28_sibuya_partial wgamma wgammaln 2 _ _ false); [apply wgamma_ok|apply wgammaln_ok|lra|lia|right; right; reflexivity].
Qed.

(** ** C29 *)
Lemma poly_guard gamma gammaln lxs (d : nat) alpha method log : 0 < alpha <= 1 -> (0 < d)%nat ->
  gumbel_poly gamma gammaln lxs alpha (Z.of_nat d) method log
  = mapM (fun lx => calculate_gumbel_poly gamma gammaln lx alpha d (if String.eqb (lower method) "default" then get_poly_method lx alpha d else lower method) log) lxs.
Proof.
  intros Ha Hd. unfold gumbel_poly. rewrite alpha_check by exact Ha. rewrite (proj2 (Z.leb_le 1 (Z.of_nat d))) by lia. cbn [negb]. rewrite Nat2Z.id. reflexivity.
Qed.
Lemma polynomial_a d alpha x : (0 < d)%nat -> polynomial d (ga alpha d) x = polynomial d (gumbel_a alpha d) x.
Proof. intros Hd. unfold polynomial. apply rsum_ext. intros i _. rewrite gumbel_a_ga by exact Hd. reflexivity. Qed.
Lemma calc_from_logs gamma gammaln lx alpha d m log : 0 < alpha <= 1 -> (0 < d)%nat -> In m ["direct"; "log"; "sort"]%string ->
  gumbel_coef gamma gammaln (Z.of_nat d) alpha m true = Ok (log_coefficients d (gumbel_a alpha d)) ->
  calculate_gumbel_poly gamma gammaln lx alpha d m log = Ok (logged log (polynomial d (gumbel_a alpha d) (exp lx))).
Proof.
  intros Ha Hd Hm E. unfold calculate_gumbel_poly.
  assert (X : lower m = m /\ String.eqb m "pois" = false /\ (String.eqb m "direct" || String.eqb m "log" || String.eqb m "sort")%bool = true).
  { cbn [In] in Hm. destruct Hm as [<-|[<-|[<-|[]]]]; repeat split. }
  destruct X as [-> [-> ->]]. rewrite E. cbn [bind]. rewrite (log_coefficients_ext d (gumbel_a alpha d) (ga alpha d)) by (intros i _; apply gumbel_a_ga; exact Hd).
  rewrite poly_from_logs by assumption. rewrite polynomial_a by exact Hd. destruct log; reflexivity.
Qed.
Definition is_method_of (d : nat) (alpha : R) (m : string) : Prop :=
  (m = "direct" \/ (m = "sort" /\ (d <= 21)%nat) \/ (m = "log" /\ alpha < 1 /\ (2 <= d <= 20)%nat) \/ (m = "pois" /\ (2 <= d)%nat) \/ (m = "default" /\ (d <= 30)%nat))%string.
(** Every method gives, point by point, the value of the polynomial, or its logarithm; the value is positive. *)
Theorem C29_methods_partial : forall gamma gammaln lxs (d : nat) alpha method log,
  gamma_function gamma -> log_gamma_function gamma gammaln -> 0 < alpha <= 1 -> (1 <= d)%nat -> is_method_of d alpha (lower method) ->
  gumbel_poly gamma gammaln lxs alpha (Z.of_nat d) method log
  = Ok (map (fun lx => let v := polynomial d (gumbel_a alpha d) (exp lx) in Fin (if log then ln v else v)) lxs) /\
  forall x, 0 < x -> 0 < polynomial d (gumbel_a alpha d) x.
Proof.
  intros gamma gammaln lxs d alpha method log HG HL Ha Hd Hm.
  assert (P : forall x, 0 < x -> 0 < polynomial d (gumbel_a alpha d) x). { intros x Hx. rewrite <- polynomial_a by lia. apply polynomial_nonneg; [exact Ha|exact Hx|lia]. }
  split; [|exact P]. rewrite poly_guard by (try lia; exact Ha). apply mapM_ok. intros lx _. cbv zeta.
  replace (Fin (if log then ln (polynomial d (gumbel_a alpha d) (exp lx)) else polynomial d (gumbel_a alpha d) (exp lx))) with (logged log (polynomial d (gumbel_a alpha d) (exp lx))).
  2:{ unfold logged. destruct log; [apply elog_pos, P, exp_pos|reflexivity]. }
  assert (D : calculate_gumbel_poly gamma gammaln lx alpha d "direct" log = Ok (logged log (polynomial d (gumbel_a alpha d) (exp lx)))).
  { apply calc_from_logs; [exact Ha|lia|cbn; tauto|]. apply (C28_direct gamma gammaln d alpha _ true); [exact Ha|lia|reflexivity]. }
  destruct Hm as [->|[[-> H]|[[-> [Hl H]]|[[-> H]|[-> H]]]]]; cbn [String.eqb Ascii.eqb Bool.eqb].
  - exact D.
  - apply calc_from_logs; [exact Ha|lia|cbn; tauto|]. apply (C28_sort_partial gamma gammaln d alpha _ true); [exact Ha|lia|reflexivity].
  - apply calc_from_logs; [exact Ha|lia|cbn; tauto|]. apply (C28_sibuya_partial gamma gammaln d alpha _ true); auto; [lra|lia|left; split; [reflexivity|lia]].
  - rewrite <- polynomial_a by lia. apply (pois_ok gamma gammaln HG HL); [exact Ha|exact H].
  - unfold get_poly_method. rewrite (proj2 (Nat.leb_le d 30)) by exact H. exact D.
Qed.
Print Assumptions C29_methods_partial.
(** Finding: with the default method and a small alpha the degrees 91 to 120 always raise. *)
Theorem C29_default_sort_refuted : forall gamma gammaln lx lxs (d : nat) alpha log, 0 < alpha < 3 / 1000 -> (91 <= d <= 120)%nat ->
  gumbel_poly gamma gammaln (lx :: lxs) alpha (Z.of_nat d) "default" log = Err TypeError.
Proof.
  intros gamma gammaln lx lxs d alpha log Ha Hd. rewrite poly_guard by (try lia; lra). cbn [mapM]. change (String.eqb (lower "default") "default") with true. cbn [bind].
  assert (E : get_poly_method lx alpha d = "sort"%string).
  { unfold get_poly_method. rewrite !(proj2 (Nat.leb_gt d _)) by lia. rewrite (proj2 (Nat.leb_le d 120)) by lia. rewrite (proj2 (Rltb_true alpha (3 / 1000))) by lra. reflexivity. }
  rewrite E. unfold calculate_gumbel_poly. change (lower "sort") with "sort"%string. cbn [String.eqb Ascii.eqb Bool.eqb orb].
  rewrite (C28_sort_refuted gamma gammaln d alpha "sort" true) by (try lia; try lra; reflexivity). reflexivity.
Qed.
Print Assumptions C29_default_sort_refuted.
(** Finding: with the default method and a large alpha (weak dependence) the degrees 31 to 50 give nan at every point. *)
Theorem C29_default_log_refuted : forall gamma gammaln lx (d : nat) alpha log, gamma_function gamma -> log_gamma_function gamma gammaln -> 8 / 10 < alpha < 1 -> (31 <= d <= 50)%nat ->
  gumbel_poly gamma gammaln [lx] alpha (Z.of_nat d) "default" log = Ok [Nan].
Proof.
  intros gamma gammaln lx d alpha log HG HL Ha Hd. rewrite poly_guard by (try lia; lra). cbn [mapM]. change (String.eqb (lower "default") "default") with true. cbn [bind].
  assert (E : get_poly_method lx alpha d = "log"%string).
  { unfold get_poly_method. rewrite (proj2 (Nat.leb_gt d 30)) by lia. rewrite (proj2 (Nat.leb_le d 50)) by lia. rewrite (proj2 (Rleb_false alpha (8 / 10))) by lra. reflexivity. }
  rewrite E, poly_log_nan by (auto; try lia; lra). reflexivity.
Qed.
Print Assumptions C29_default_log_refuted.
(** Finding: at alpha = 1 the log method answers at least e x^d instead of x^d. *)
Theorem C29_alpha_one_refuted : forall gamma gammaln lx (d : nat), (1 <= d <= 20)%nat ->
  exists v, gumbel_poly gamma gammaln [lx] 1 (Z.of_nat d) "log" false = Ok [Fin v] /\ polynomial d (gumbel_a 1 d) (exp lx) = exp lx ^ d /\ exp lx ^ d < v.
Proof.
  intros gamma gammaln lx d Hd. destruct (poly_log_one gamma gammaln d lx) as [v [E L]]; [lia|]. exists v. rewrite poly_guard by (try lia; lra). cbn [mapM].
  change (String.eqb (lower "log") "default") with false. cbn [bind]. change (lower "log") with "log"%string. rewrite E. cbn [bind]. split; [reflexivity|]. rewrite <- polynomial_a, polynomial_one by lia. split; [reflexivity|].
  pose proof (exp_ineq1 1 ltac:(lra)). pose proof (pow_lt (exp lx) d (exp_pos lx)). nra.
Qed.
Print Assumptions C29_alpha_one_refuted.
(** Finding: methods pois and log raise for degree 1. *)
Theorem C29_degree_one_refuted : forall gamma gammaln lx alpha log, 0 < alpha < 1 ->
  gumbel_poly gamma gammaln [lx] alpha 1 "pois" log = Err TypeError /\ gumbel_poly gamma gammaln [lx] alpha 1 "log" log = Err TypeError.
Proof.
  intros gamma gammaln lx alpha log Ha. split.
  - rewrite (poly_guard gamma gammaln [lx] 1) by (try lia; lra). cbn [mapM]. change (String.eqb (lower "pois") "default") with false. cbn [bind]. change (lower "pois") with "pois"%string.
    unfold calculate_gumbel_poly. change (lower "pois") with "pois"%string. cbn [String.eqb Ascii.eqb Bool.eqb]. unfold gumbel_poly_pois. cbn [seq map]. unfold sign_ff. rewrite alpha_check by lra.
    cbn. rewrite (proj2 (Reqb_false alpha 1)) by lra. reflexivity.
  - rewrite (poly_guard gamma gammaln [lx] 1) by (try lia; lra). cbn [mapM]. change (String.eqb (lower "log") "default") with false. cbn [bind]. change (lower "log") with "log"%string.
    unfold calculate_gumbel_poly. change (lower "log") with "log"%string. cbn [String.eqb Ascii.eqb Bool.eqb orb]. change (Z.of_nat 1) with 1%Z. rewrite C28_log_degree_one_refuted by exact Ha. reflexivity.
Qed.
Print Assumptions C29_degree_one_refuted.
Example C29_case : polynomial 2 (gumbel_a (1 / 2) 2) (exp 0) = 1 / 2 /\ is_method_of 2 (1 / 2) "log" /\ is_method_of 2 (1 / 2) "pois" /\
  (forall m, In m ["direct"; "sort"; "log"; "pois"; "default"]%string -> gumbel_poly wgamma wgammaln [0] (1 / 2) 2 m false = Ok [Fin (1 / 2)]).
Proof.
  assert (V : polynomial 2 (gumbel_a (1 / 2) 2) (exp 0) = 1 / 2).
  { rewrite <- polynomial_a by lia. rewrite exp_0. unfold polynomial. cbn. lra. }
  assert (L : is_method_of 2 (1 / 2) "log") by (right; right; left; split; [reflexivity|split; [lra|lia]]).
  assert (P : is_method_of 2 (1 / 2) "pois") by (right; right; right; left; split; [reflexivity|lia]).
  split; [exact V|]. split; [exact L|]. split; [exact P|]. intros m Hm.
  assert (K : is_method_of 2 (1 / 2) (lower m)).
  { cbn [In] in Hm. destruct Hm as [<-|[<-|[<-|[<-|[<-|[]]]]]]; [left; reflexivity|right; left; split; [reflexivity|lia]|exact L|exact P|right; right; right; right; split; [reflexivity|lia]]. }
  pose proof (C29_methods_partial wgamma wgammaln [0] 2 (1 / 2) m false wgamma_ok wgammaln_ok ltac:(lra) ltac:(lia) K) as [E _]. change (Z.of_nat 2) with 2%Z in E. rewrite E.
  cbn [map]. cbv zeta. rewrite V. reflexivity.
Qed.

(** ** C68 *)
(** All three methods give the Sibuya sum for one x and any list of positive n. *)
Theorem C68_methods_agree : forall gamma gammaln x ns alpha m log,
  gamma_function gamma -> log_gamma_function gamma gammaln -> 0 < alpha < 1 -> (1 <= x)%nat -> ns <> [] -> (forall n, In n ns -> (1 <= n)%nat) ->
  (m = SibLog -> ns <> [1%nat]) ->
  dsum_sibuya gamma gammaln [x] ns alpha m log = Ok (map (fun n => if log then elog (Fin (sibuya_sum alpha x n)) else Fin (sibuya_sum alpha x n)) ns).
Proof. intros gamma gammaln x ns alpha m log HG HL Ha Hx Hn H1 H2. exact (dsum_sibuya_ok gamma gammaln HG HL x ns alpha m log Ha Hx Hn H1 H2). Qed.
Print Assumptions C68_methods_agree.
(** The Sibuya sum is the n-fold convolution of the Sibuya mass function, non-negative, and zero below n. *)
Theorem C68_convolution : forall alpha n x, 0 < alpha <= 1 -> (1 <= x)%nat -> (1 <= n)%nat ->
  sibuya_sum alpha x 1 = (-1) ^ (x - 1) * rbinom alpha x /\
  sibuya_sum alpha (S x) (S n) = rsum x (fun i => sibuya_sum alpha (S i) 1 * sibuya_sum alpha (x - i) n) /\
  0 <= sibuya_sum alpha x n /\ ((x < n)%nat -> sibuya_sum alpha x n = 0) /\ ((n <= x)%nat -> alpha < 1 -> 0 < sibuya_sum alpha x n).
Proof.
  intros alpha n x Ha Hx Hn. split; [apply sibuya_one; exact Hx|]. split; [apply sibuya_convolution; lia|]. split; [apply sibuya_sum_nonneg; [exact Ha|lia]|].
  split; [intros L; apply sibuya_sum_big; lia|]. intros L La. rewrite sibuya_gumbel by lia. apply Rmult_lt_0_compat; [apply Rdiv_lt_0_compat; apply INR_fact_lt_0|apply ga_pos; [lra|lia]].
Qed.
Print Assumptions C68_convolution.
(** Finding: for x = n = 0 the methods disagree (0, 1 and an exception). *)
Theorem C68_zero_refuted : forall gamma gammaln alpha, gamma_function gamma -> 0 < alpha < 1 ->
  dsum_sibuya gamma gammaln [0%nat] [0%nat] alpha SibDirect false = Ok [Fin 0] /\
  dsum_sibuya gamma gammaln [0%nat] [0%nat] alpha SibDiff false = Ok [Fin 1] /\
  dsum_sibuya gamma gammaln [0%nat] [0%nat] alpha SibLog false = Err ZeroDivisionError.
Proof.
  intros gamma gammaln alpha HG Ha. unfold dsum_sibuya. rewrite alpha_check by lra. cbn [length Nat.eqb]. rewrite (proj2 (Reqb_false alpha 1)) by lra. cbn [combine map]. split; [reflexivity|]. split; [|reflexivity].
  unfold sib_diff1. cbn [seq rev app map]. change (INR 0) with 0. rewrite Rmult_0_l. unfold np_diff. cbn [Nat.iter nat_rect hd].
  change (ecomb gamma 0 0) with (ecomb gamma 0 (INR 0)). rewrite (ecomb_ok gamma HG 0 0) by lra. cbn [emul escal]. unfold rbinom. cbn. do 3 f_equal. field.
Qed.
Print Assumptions C68_zero_refuted.
(** Finding: at alpha = 1 the logarithmic form returns 1 and 0 instead of 0 and -inf. *)
Theorem C68_alpha_one_refuted : forall gamma gammaln m, dsum_sibuya gamma gammaln [2%nat] [1%nat; 2%nat] 1 m true = Ok [Fin 0; Fin 1] /\
  elog (Fin (sibuya_sum 1 2 1)) = Ninf /\ elog (Fin (sibuya_sum 1 2 2)) = Fin 0.
Proof.
  intros gamma gammaln m. split; [exact (dsum_sibuya_one gamma gammaln 2 m true ltac:(lia))|].
  assert (A : sibuya_sum 1 2 1 = 0) by (rewrite sibuya_gumbel by lia; cbn; field). assert (B : sibuya_sum 1 2 2 = 1) by (rewrite sibuya_gumbel by lia; cbn; field).
  rewrite A, B. split; [apply elog_0|]. rewrite elog_pos, ln_1 by lra. reflexivity.
Qed.
Print Assumptions C68_alpha_one_refuted.
Example C68_case : sibuya_sum (1 / 2) 2 1 = 1 / 8 /\ sibuya_sum (1 / 2) 2 2 = 1 / 4 /\
  dsum_sibuya wgamma wgammaln [2%nat] [1%nat; 2%nat] (1 / 2) SibLog false = Ok [Fin (1 / 8); Fin (1 / 4)].
Proof.
  assert (A : sibuya_sum (1 / 2) 2 1 = 1 / 8) by (rewrite sibuya_gumbel by lia; cbn; field).
  assert (B : sibuya_sum (1 / 2) 2 2 = 1 / 4) by (rewrite sibuya_gumbel by lia; cbn; field).
  split; [exact A|]. split; [exact B|]. rewrite (C68_methods_agree wgamma wgammaln 2 [1%nat; 2%nat]).
  - cbn [map]. rewrite A, B. reflexivity.
  - apply wgamma_ok.
  - apply wgammaln_ok.
  - lra.
  - lia.
  - discriminate.
  - intros n [<-|[<-|[]]]; lia.
  - discriminate.
Qed.
