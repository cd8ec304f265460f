(** Properties C41-C45: fitting (/repo/copulae/copula/base.py, copula/estimator/). *)
From Verif Require Import Base RSumLib Ext M_Matrix S_Matrix P_Matrix M_Linalg S_Linalg P_Linalg M_Elliptical S_Elliptical P_Elliptical
  M_Dict M_Fit S_Fit P_Fit.
Open Scope R_scope.
Ltac case_exists E := match goal with |- context [existsb ?f ?l] => destruct (existsb f l) eqn:E end.
Ltac case_neg := match goal with |- context [negb ?b] => destruct b; cbn [negb] end.

(** ** C44: validation *)
(** wrong number of axes, wrong number of columns, or a value outside [0,1]: InputDataError, and the copula is untouched *)
Theorem C44_rejects : forall F opt fuel pobs opts d d' x0 m tp sc c, worked_on pobs tp d d' ->
  d_ndim d' <> 2%nat \/ d_cols d' <> f_dim F \/ (exists v, In v (d_vals d') /\ outside_unit v) ->
  fit F opt fuel pobs opts d x0 m tp sc c = Some (Err InputDataError, c).
Proof.
  intros F opt fuel pobs opts d d' x0 m tp sc c W H. unfold fit.
  assert (E : (if tp then pobs d else Ok d) = Ok d') by (destruct tp; cbn in W; congruence). rewrite E.
  destruct (Nat.eqb_spec (d_ndim d') 2); cbn [negb]; [|reflexivity].
  destruct (Nat.eqb_spec (f_dim F) (d_cols d')); cbn [negb]; [|reflexivity].
  destruct H as [H|[H|[v [Hv H]]]]; [congruence|congruence|].
  case_exists Ex; [reflexivity|]. exfalso. exact (proj2 (not_outside_check (d_vals d')) Ex v Hv H).
Qed.
Print Assumptions C44_rejects.
(** fewer rows than columns: ValueError (or the error of malformed options), the copula is untouched *)
Theorem C44_too_few_rows : forall F opt fuel pobs opts d d' x0 m tp sc c, worked_on pobs tp d d' -> well_shaped F d' -> in_unit d' ->
  (d_rows d' < f_dim F)%nat ->
  fit F opt fuel pobs opts d x0 m tp sc c = Some (Err (match opts with Ok _ => ValueError | Err e => e end), c).
Proof.
  intros F opt fuel pobs opts d d' x0 m tp sc c W S U H. rewrite (fit_valid F opt fuel pobs opts d d' x0 m tp sc c W S U).
  unfold fit_copula. destruct opts; [|destruct c; reflexivity]. cbv zeta. rewrite any_ok.
  destruct (Nat.ltb_spec (d_rows d') (f_dim F)); [|lia]. destruct c; reflexivity.
Qed.
Print Assumptions C44_too_few_rows.
(** data whose ranks cannot be computed: the error of the transform, the copula is untouched *)
Theorem C44_pobs_error : forall F opt fuel pobs opts d x0 m sc c e, pobs d = Err e ->
  fit F opt fuel pobs opts d x0 m true sc c = Some (Err e, c).
Proof. intros F opt fuel pobs opts d x0 m sc c e E. unfold fit. rewrite E. reflexivity. Qed.
Print Assumptions C44_pobs_error.
(** unknown method names raise and leave the copula *)
Theorem C44_unknown_method : forall F opt fuel pobs d d' x0 m tp sc c, worked_on pobs tp d d' -> fittable F d' ->
  lower m <> "ml"%string -> lower m <> "itau"%string -> lower m <> "irho"%string ->
  fit F opt fuel pobs (Ok tt) d x0 m tp sc c = Some (Err NotImplementedError, c).
Proof.
  intros F opt fuel pobs d d' x0 m tp sc c W [S [U R]] H1 H2 H3. rewrite (fit_valid F opt fuel pobs (Ok tt) d d' x0 m tp sc c W S U).
  rewrite (fit_copula_rows F opt fuel d' x0 m sc (c_params c) R). cbv zeta.
  destruct (String.eqb_spec (lower m) "ml"); [congruence|]. destruct (String.eqb_spec (lower m) "itau"); [congruence|].
  destruct (String.eqb_spec (lower m) "irho"); [congruence|]. destruct c; reflexivity.
Qed.
Print Assumptions C44_unknown_method.
(** the case of the method's name does not matter *)
Theorem C44_case_insensitive : forall F opt fuel pobs opts d x0 m m' tp sc c, lower m = lower m' ->
  fit F opt fuel pobs opts d x0 m tp sc c = fit F opt fuel pobs opts d x0 m' tp sc c.
Proof. intros F opt fuel pobs opts d x0 m m' tp sc c E. unfold fit, fit_copula. rewrite E. reflexivity. Qed.
Print Assumptions C44_case_insensitive.
(** a method that is known is not rejected for its name: on fittable data the fit is exactly the estimation of that name *)
Theorem C44_known_methods : forall F opt fuel pobs d d' x0 m tp sc c, worked_on pobs tp d d' -> fittable F d' ->
  lower m = "itau"%string \/ lower m = "irho"%string ->
  fit F opt fuel pobs (Ok tt) d x0 m tp sc c =
  Some (match estimate_inverse F d' (lower m) (c_params c) with
        | (Err e, s) => (Err e, mkCop s (c_smry c) (c_columns c))
        | (Ok smry, s) => (Ok tt, mkCop s (Some smry) (match d_labels d' with Some l => Some l | None => c_columns c end))
        end).
Proof.
  intros F opt fuel pobs d d' x0 m tp sc c W [S [U R]] H. rewrite (fit_valid F opt fuel pobs (Ok tt) d d' x0 m tp sc c W S U).
  rewrite (fit_copula_rows F opt fuel d' x0 m sc (c_params c) R). cbv zeta.
  assert (E : String.eqb (lower m) "ml" = false /\ (String.eqb (lower m) "itau" || String.eqb (lower m) "irho") = true) by
    (destruct H as [->| ->]; split; reflexivity). destruct E as [-> ->].
  destruct (estimate_inverse F d' (lower m) (c_params c)) as [[smry|e] s]; reflexivity.
Qed.
Print Assumptions C44_known_methods.
(** what is not rejected: nan.  Data with a missing value passes the range check, and a likelihood fit of it can succeed. *)
Definition quiet (x : sarr) : optimiser := Ask x (fun v => Report true x v).
Theorem C44_nan_accepted : forall F opt fuel pobs d th x ll c, fittable F d -> In None (d_vals d) -> c_params c = PArch th ->
  f_theta_ok F x = true -> f_log_lik F (PArch (Some x)) d false = Ok ll ->
  opt = quiet -> exists c', fit F opt fuel pobs (Ok tt) d (Some (SVec [Some x])) "ml" false 1 c = Some (Ok tt, c').
Proof.
  intros F opt fuel pobs d th x ll c [S [U R]] Hn Hc Ht Hl ->.
  rewrite (fit_valid F quiet fuel pobs (Ok tt) d d _ "ml" false 1 c eq_refl S U).
  rewrite (fit_copula_rows F quiet fuel d _ "ml" 1 (c_params c) R). cbv zeta. change (lower "ml") with "ml"%string. cbn [String.eqb Ascii.eqb Bool.eqb].
  rewrite initial_user by (cbn; intros v [<-|[]]; discriminate).
  unfold estimate_ml, quiet. cbn [run]. unfold calc_log_lik. cbn [existsb is_nan sarr_list orb]. rewrite Hc. cbn [set_params sarr_list]. rewrite Ht, Hl.
  cbn [run]. cbn [set_params sarr_list]. rewrite Ht. eauto.
Qed.
Print Assumptions C44_nan_accepted.

(** ** C41: failing fits *)
(** whatever goes wrong, an exception leaves the stored summary and the stored column labels *)
Theorem C41_exception_keeps_summary_partial : forall F opt fuel pobs opts d x0 m tp sc c e c',
  fit F opt fuel pobs opts d x0 m tp sc c = Some (Err e, c') -> c_smry c' = c_smry c /\ c_columns c' = c_columns c.
Proof.
  intros F opt fuel pobs opts d x0 m tp sc c e c'. unfold fit. destruct (if tp then pobs d else Ok d) as [d'|e']; [|intros H; injection H as _ <-; auto].
  case_neg; [|intros H; injection H as _ <-; auto]. case_neg; [|intros H; injection H as _ <-; auto].
  case_exists Ex; [intros H; injection H as _ <-; auto|].
  destruct (fit_copula F opt fuel opts d' x0 m sc (c_params c)) as [[[smry|e'] s]|]; intros H; [|injection H as _ <-; auto|]; discriminate.
Qed.
Print Assumptions C41_exception_keeps_summary_partial.
(** a maximum likelihood fit that raises, or whose optimiser does not converge, leaves the copula with parameters that came from
    assigning points of the search, one after the other: if it never got to assign one, the parameters are the old ones *)
Theorem C41_parameters_partial : forall F opt fuel pobs d d' x m tp sc c r c', worked_on pobs tp d d' -> fittable F d' -> lower m = "ml"%string ->
  (forall v, In v (numbers x) -> v <> None) -> (forall z, never_converges (opt z)) \/ (exists e, r = Err e) ->
  fit F opt fuel pobs (Ok tt) d (Some x) m tp sc c = Some (r, c') ->
  exists l, assigned F (c_params c) l (c_params c').
Proof.
  intros F opt fuel pobs d d' x m tp sc c r c' W [S [U R]] Em Hx Hn H.
  rewrite (fit_valid F opt fuel pobs (Ok tt) d d' (Some x) m tp sc c W S U) in H.
  rewrite (fit_copula_rows F opt fuel d' (Some x) m sc (c_params c) R) in H. cbv zeta in H. rewrite Em in H. cbn [String.eqb Ascii.eqb Bool.eqb] in H.
  rewrite (initial_user F fuel d' x (c_params c) Hx) in H. unfold estimate_ml in H.
  destruct (run F d' sc (opt x) (c_params c) []) as [[[[[b y] f]|e] s'] tr] eqn:Er.
  - destruct b.
    + destruct Hn as [Hn|[e Hn]]; [pose proof (run_never F d' sc (opt x) (Hn x) _ _ _ _ _ _ _ Er); discriminate|].
      destruct (set_params F s' y) as [s2 [u|e2]] eqn:Es; [congruence|]. pose proof (set_params_err F s' y s2 e2 Es) as ->.
      injection H as _ <-. cbn [c_params]. eapply run_assigned; exact Er.
    + injection H as _ <-. cbn [c_params]. eapply run_assigned; exact Er.
  - injection H as _ <-. cbn [c_params]. eapply run_assigned; exact Er.
Qed.
Print Assumptions C41_parameters_partial.
(** refuted: an optimiser that tries an admissible point and then gives up leaves the copula at that point and replaces the stored
    summary by one full of nan *)
Theorem C41_nonconvergence_refuted : forall F fuel pobs d th x ll c, fittable F d -> c_params c = PArch th ->
  f_theta_ok F x = true -> f_log_lik F (PArch (Some x)) d false = Ok ll ->
  exists c' smry, fit F (fun z => Ask z (fun v => Report false z v)) fuel pobs (Ok tt) d (Some (SVec [Some x])) "ml" false 1 c = Some (Ok tt, c') /\
    parameters (c_params c') = [Some x] /\ c_smry c' = Some smry /\ numbers (fs_params smry) = [None].
Proof.
  intros F fuel pobs d th x ll c [S [U R]] Hc Ht Hl. set (opt := fun z => Ask z (fun v => Report false z v)).
  rewrite (fit_valid F opt fuel pobs (Ok tt) d d _ "ml" false 1 c eq_refl S U).
  rewrite (fit_copula_rows F opt fuel d _ "ml" 1 (c_params c) R). cbv zeta. change (lower "ml") with "ml"%string. cbn [String.eqb Ascii.eqb Bool.eqb].
  rewrite initial_user by (cbn; intros v [<-|[]]; discriminate).
  unfold estimate_ml, opt. cbn [run]. unfold calc_log_lik. cbn [existsb is_nan sarr_list orb]. rewrite Hc. cbn [set_params sarr_list]. rewrite Ht, Hl.
  cbn [run]. eexists; eexists. split; [reflexivity|]. cbn [c_params c_smry]. split; [reflexivity|]. split; reflexivity.
Qed.
Print Assumptions C41_nonconvergence_refuted.
(** refuted: an exception during the search leaves the last point tried in the copula *)
Theorem C41_exception_refuted : forall F fuel pobs d th x ll c e, fittable F d -> c_params c = PArch th ->
  f_theta_ok F x = true -> f_log_lik F (PArch (Some x)) d false = Ok ll ->
  exists c', fit F (fun z => Ask z (fun v => Crash e)) fuel pobs (Ok tt) d (Some (SVec [Some x])) "ml" false 1 c = Some (Err e, c') /\
    parameters (c_params c') = [Some x].
Proof.
  intros F fuel pobs d th x ll c e [S [U R]] Hc Ht Hl. set (opt := fun z => Ask z (fun v => Crash e)).
  rewrite (fit_valid F opt fuel pobs (Ok tt) d d _ "ml" false 1 c eq_refl S U).
  rewrite (fit_copula_rows F opt fuel d _ "ml" 1 (c_params c) R). cbv zeta. change (lower "ml") with "ml"%string. cbn [String.eqb Ascii.eqb Bool.eqb].
  rewrite initial_user by (cbn; intros v [<-|[]]; discriminate).
  unfold estimate_ml, opt. cbn [run]. unfold calc_log_lik. cbn [existsb is_nan sarr_list orb]. rewrite Hc. cbn [set_params sarr_list]. rewrite Ht, Hl.
  cbn [run]. eexists. split; [reflexivity|]. reflexivity.
Qed.
Print Assumptions C41_exception_refuted.
(** an inversion fit that fails before the assignment leaves everything *)
Theorem C41_inversion_partial : forall F opt fuel pobs d d' x0 m tp sc c e, worked_on pobs tp d d' -> fittable F d' ->
  (lower m = "itau"%string /\ f_ktau F d' = Err e) \/ (lower m = "irho"%string /\ f_srho F d' = Err e) ->
  fit F opt fuel pobs (Ok tt) d x0 m tp sc c = Some (Err e, c).
Proof.
  intros F opt fuel pobs d d' x0 m tp sc c e W HF H.
  rewrite (C44_known_methods F opt fuel pobs d d' x0 m tp sc c W HF) by (destruct H as [[H _]|[H _]]; auto).
  assert (Ef : fit_cor F d' (lower m) = Err e).
  { unfold fit_cor. destruct (tri_idx (f_dim F)) as [idx ->]. cbn [bind]. destruct H as [[-> E]|[-> E]]; cbn [String.eqb Ascii.eqb Bool.eqb]; rewrite E; reflexivity. }
  unfold estimate_inverse. cbv zeta. rewrite lower_idem.
  replace (String.eqb (lower m) "itau" || String.eqb (lower m) "irho") with true by (destruct H as [[-> _]|[-> _]]; reflexivity).
  cbn [negb]. rewrite Ef. destruct c; reflexivity.
Qed.
Print Assumptions C41_inversion_partial.
(** refuted: an inversion fit whose final log-likelihood raises has already overwritten the parameter *)
Theorem C41_inversion_refuted : forall F opt fuel pobs d T l x th c e, fittable F d -> is_archimedean (f_name F) = true -> (2 <= f_dim F)%nat ->
  c_params c = PArch th -> f_ktau F d = Ok T -> square (f_dim F) T -> f_itau F (below_diag T) = Ok (map Some l) -> average l x ->
  f_theta_ok F x = true -> f_log_lik F (PArch (Some x)) d true = Err e ->
  exists c', fit F opt fuel pobs (Ok tt) d None "itau" false 1 c = Some (Err e, c') /\ parameters (c_params c') = [Some x].
Proof.
  intros F opt fuel pobs d T l x th c e HF Ha Hd Hc ET ST El Av Ht Hl.
  rewrite (C44_known_methods F opt fuel pobs d d None "itau" false 1 c eq_refl HF) by (left; reflexivity).
  change (lower "itau") with "itau"%string. rewrite Hc, (inverse_arch F d T (map Some l) th Ha Hd ET ST El).
  rewrite (proj2 (fl_mean_spec l x (proj1 Av)) Av). cbn [set_params sarr_list]. rewrite Ht, Hl. eexists. split; reflexivity.
Qed.
Print Assumptions C41_inversion_refuted.

(** ** C42: maximum likelihood *)
(** after a likelihood fit: either everything recorded as estimate is nan (no convergence), or the copula's parameters are the estimate *)
Theorem C42_parameters : forall F opt fuel pobs opts d d' x0 m tp sc c c', worked_on pobs tp d d' -> lower m = "ml"%string ->
  (forall z, uses_vectors (opt z)) ->
  fit F opt fuel pobs opts d x0 m tp sc c = Some (Ok tt, c') ->
  exists smry, c_smry c' = Some smry /\ fs_nsample smry = d_rows d' /\
    ((forall v, In v (numbers (fs_params smry)) -> v = None) \/ parameters (c_params c') = numbers (fs_params smry)).
Proof.
  intros F opt fuel pobs opts d d' x0 m tp sc c c' W Em Hv. unfold fit.
  assert (E : (if tp then pobs d else Ok d) = Ok d') by (destruct tp; cbn in W; congruence). rewrite E.
  case_neg; [|discriminate]. case_neg; [|discriminate]. case_exists Ex; [discriminate|].
  unfold fit_copula. destruct opts as [u|e]; [|discriminate]. cbv zeta. rewrite any_ok. destruct (d_rows d' <? f_dim F)%nat; [discriminate|].
  rewrite Em. cbn [String.eqb Ascii.eqb Bool.eqb].
  destruct (initial_params F fuel d' x0 (c_params c)) as [[[z|e] s']|]; [|discriminate|discriminate].
  unfold estimate_ml. destruct (run F d' sc (opt z) s' []) as [[[[[b y] f]|e] s''] tr] eqn:Er; [|discriminate].
  destruct (run_vectors F d' sc (opt z) (Hv z) _ _ _ _ _ _ _ Er) as [l ->].
  destruct b.
  - destruct (set_params F s'' (SVec l)) as [s3 [[]|e]] eqn:Es; [|discriminate]. intros H. injection H as <-. cbn [c_smry c_params].
    eexists. split; [reflexivity|]. split; [reflexivity|]. right. cbn [fs_params numbers]. eapply set_params_parameters; exact Es.
  - intros H. injection H as <-. cbn [c_smry c_params]. eexists. split; [reflexivity|]. split; [reflexivity|]. left. cbn [fs_params].
    destruct z as [v0|l0]; cbn [numbers]; intros v Hin; [destruct Hin as [<-|[]]; reflexivity|].
    apply in_map_iff in Hin. destruct Hin as [w [<- _]]. reflexivity.
Qed.
Print Assumptions C42_parameters.
(** an optimiser that reports a point it evaluated, with the value found there: the recorded log-likelihood is the scale factor
    times the log-likelihood of the data at the copula's parameters *)
Theorem C42_log_lik_partial : forall F opt fuel pobs opts d d' x0 m tp sc c c' smry r, worked_on pobs tp d d' -> lower m = "ml"%string ->
  (forall z, uses_vectors (opt z)) -> (forall z, honest [] (opt z)) ->
  fit F opt fuel pobs opts d x0 m tp sc c = Some (Ok tt, c') -> c_smry c' = Some smry ->
  (exists v, In (Some v) (numbers (fs_params smry))) -> fs_log_lik smry = Fin r ->
  exists ll, f_log_lik F (c_params c') d' false = Ok (Fin ll) /\ r = sc * ll /\ (sc = 1 -> fs_log_lik smry = Fin ll).
Proof.
  intros F opt fuel pobs opts d d' x0 m tp sc c c' smry r W Em Hv Hh. unfold fit.
  assert (E : (if tp then pobs d else Ok d) = Ok d') by (destruct tp; cbn in W; congruence). rewrite E.
  case_neg; [|discriminate]. case_neg; [|discriminate]. case_exists Ex; [discriminate|].
  unfold fit_copula. destruct opts as [u|e]; [|discriminate]. cbv zeta. rewrite any_ok. destruct (d_rows d' <? f_dim F)%nat; [discriminate|].
  rewrite Em. cbn [String.eqb Ascii.eqb Bool.eqb].
  destruct (initial_params F fuel d' x0 (c_params c)) as [[[z|e] s']|]; [|discriminate|discriminate].
  unfold estimate_ml. destruct (run F d' sc (opt z) s' []) as [[[[[b y] f]|e] s''] tr] eqn:Er; [|discriminate].
  destruct (run_vectors F d' sc (opt z) (Hv z) _ _ _ _ _ _ _ Er) as [l ->].
  destruct b.
  - destruct (set_params F s'' (SVec l)) as [s3 [[]|e]] eqn:Es; [|discriminate]. intros H Hs _ Hf. injection H as <-. cbn [c_smry c_params] in *.
    injection Hs as <-. cbn [fs_log_lik] in Hf. destruct f as [f| | |]; cbn [eopp] in Hf; try discriminate. injection Hf as Hf.
    pose proof (run_honest F d' sc (opt z) [] (Hh z) _ _ _ _ _ _ _ (fun q H => H) Er) as Hin.
    destruct (run_trace F d' sc (opt z) s' s' [] _ _ _ (same_object_refl s') (fun q (H : In q []) => match H with end) Er _ Hin) as [s1 [K1 E1]].
    cbn [fst snd] in E1. destruct (calc_finite F d' sc (SVec l) s1 f E1) as [s2 [ll [A1 [A2 A3]]]].
    assert (s2 = s3).
    { eapply set_params_vec; [|exact A1|exact Es]. pose proof (run_same F d' sc (opt z) _ _ _ _ _ Er) as K2.
      eapply same_object_trans; [|exact K2]. destruct s1, s'; cbn in *; auto. }
    subst s2. exists ll. split; [exact A2|]. assert (Hr : r = sc * ll) by lra. split; [exact Hr|].
    intros Hsc. cbn [fs_log_lik eopp]. f_equal. rewrite <- Hf in Hr. rewrite Hr, Hsc. ring.
  - intros H Hs [v Hin] _. injection H as <-. cbn [c_smry] in Hs. injection Hs as <-. exfalso. cbn [fs_params] in Hin.
    destruct z as [v0|l0]; cbn [numbers] in Hin; [destruct Hin as [Hin|[]]; discriminate|].
    apply in_map_iff in Hin. destruct Hin as [w [Hw _]]. discriminate.
Qed.
Print Assumptions C42_log_lik_partial.
(** refuted: with another scale factor the recorded log-likelihood is not the log-likelihood *)
Theorem C42_scale_refuted : forall F fuel pobs d th x ll sc c, fittable F d -> c_params c = PArch th -> f_theta_ok F x = true ->
  f_log_lik F (PArch (Some x)) d false = Ok (Fin ll) -> ll <> 0 -> sc <> 1 ->
  exists c' smry, fit F quiet fuel pobs (Ok tt) d (Some (SVec [Some x])) "ml" false sc c = Some (Ok tt, c') /\ c_smry c' = Some smry /\
    f_log_lik F (c_params c') d false = Ok (Fin ll) /\ fs_log_lik smry <> Fin ll.
Proof.
  intros F fuel pobs d th x ll sc c [S [U R]] Hc Ht Hl Hz Hsc.
  rewrite (fit_valid F quiet fuel pobs (Ok tt) d d _ "ml" false sc c eq_refl S U).
  rewrite (fit_copula_rows F quiet fuel d _ "ml" sc (c_params c) R). cbv zeta. change (lower "ml") with "ml"%string. cbn [String.eqb Ascii.eqb Bool.eqb].
  rewrite initial_user by (cbn; intros v [<-|[]]; discriminate).
  unfold estimate_ml, quiet. cbn [run]. unfold calc_log_lik. cbn [existsb is_nan sarr_list orb]. rewrite Hc. cbn [set_params sarr_list]. rewrite Ht, Hl.
  cbn [run]. cbn [set_params sarr_list]. rewrite Ht. eexists; eexists. split; [reflexivity|]. cbn [c_smry c_params]. split; [reflexivity|].
  split; [exact Hl|]. cbn [fs_log_lik eopp escal]. intros C. injection C as C. apply Hsc. apply (Rmult_eq_reg_r ll); [|exact Hz]. lra.
Qed.
Print Assumptions C42_scale_refuted.
(** points where the likelihood cannot be computed or is nan are never better than any other point *)
Theorem C42_failed_points : forall F d sc p s,
  (exists v, In v (numbers p) /\ v = None) \/ (exists s', set_params F s p = (s', Err ValueError)) \/
  (exists s', set_params F s p = (s', Ok tt) /\ (f_log_lik F s' d false = Err ValueError \/ f_log_lik F s' d false = Ok Nan)) \/
  (exists s', set_params F s p = (s', Ok tt) /\ f_log_lik F s' d false = Ok Ninf /\ 0 < sc) ->
  exists v, fst (calc_log_lik F d sc p s) = Ok v /\ forall w, ~ better v w.
Proof.
  intros F d sc p s H. unfold calc_log_lik. destruct (existsb is_nan (sarr_list p)) eqn:En.
  - exists Pinf. split; [reflexivity|apply better_pinf_l].
  - destruct H as [[v [Hv ->]]|[[s' E]|[[s' [E [El|El]]]|[s' [E [El Hs]]]]]].
    + exfalso. rewrite numbers_list in Hv. rewrite <- Bool.not_true_iff_false, existsb_exists in En. apply En. exists None. auto.
    + rewrite E. exists Pinf. split; [reflexivity|apply better_pinf_l].
    + rewrite E, El. exists Pinf. split; [reflexivity|apply better_pinf_l].
    + rewrite E, El. exists Nan. split; [reflexivity|apply better_nan_l].
    + rewrite E, El. cbn [fst eopp escal]. rewrite (proj2 (Rltb_true 0 sc) Hs). exists Pinf. split; [reflexivity|apply better_pinf_l].
Qed.
Print Assumptions C42_failed_points.

(** ** C43: inversion of Kendall's tau *)
Theorem C43_elliptical : forall F opt fuel pobs d d' x0 m tp sc c T tau, worked_on pobs tp d d' -> fittable F d' -> lower m = "itau"%string ->
  eig_ok (f_eig F) -> (3 <= f_dim F)%nat -> elliptical_object F (c_params c) -> elliptical_itau F ->
  f_ktau F d' = Ok T -> mat_eq T (enfl tau) -> corr_shape 1 (f_dim F) tau ->
  (forall i j, (i < f_dim F)%nat -> (j < f_dim F)%nat -> -1 <= get tau i j <= 1) ->
  pos_semidef (f_dim F) (get (sine_matrix tau)) -> (forall s, exists v, f_log_lik F s d' true = Ok v) ->
  exists c' M, fit F opt fuel pobs (Ok tt) d x0 m tp sc c = Some (Ok tt, c') /\ object_shows (c_params c') M /\
    same_object (c_params c) (c_params c') /\
    (forall i j, (i < f_dim F)%nat -> (j < f_dim F)%nat -> 2 * asin (get M i j) / PI = get tau i j).
Proof.
  intros F opt fuel pobs d d' x0 m tp sc c T tau W HF Em He Hd Ho Hi ET Et CS Hr P Hl.
  rewrite (C44_known_methods F opt fuel pobs d d' x0 m tp sc c W HF) by auto. rewrite Em.
  assert (G1 : (fun t => sin (t * PI / 2)) 1 = 1) by (cbn beta; replace (1 * PI / 2) with (PI / 2) by field; apply sin_PI2).
  destruct (inverse_ell_ok F d' "itau" (f_ktau F) (fun t => sin (t * PI / 2)) T tau (c_params c)) as [s' [Sh [K [_ E]]]]; auto.
  rewrite E. destruct (Hl s') as [v ->]. eexists; exists (g_matrix (fun t => sin (t * PI / 2)) tau). split; [reflexivity|]. cbn [c_params].
  split; [exact Sh|]. split; [exact K|]. intros i j Hi' Hj. cbn [g_matrix get]. exact (ell_tau_itau (get tau i j) (Hr i j Hi' Hj)).
Qed.
Print Assumptions C43_elliptical.
(** the same for Spearman's rho of the Gaussian copula: the rho of the fitted copula is the empirical one *)
Theorem C43_gaussian_irho : forall F opt fuel pobs d d' x0 m tp sc c e T rho, worked_on pobs tp d d' -> fittable F d' -> lower m = "irho"%string ->
  eig_ok (f_eig F) -> (3 <= f_dim F)%nat -> c_params c = PGauss e -> elliptical_object F (c_params c) ->
  (forall l, f_irho F (map Some l) = Ok (map (fun r => Some (2 * sin (r * PI / 6))) l)) ->
  f_srho F d' = Ok T -> mat_eq T (enfl rho) -> corr_shape 1 (f_dim F) rho ->
  (forall i j, (i < f_dim F)%nat -> (j < f_dim F)%nat -> -1 <= get rho i j <= 1) ->
  pos_semidef (f_dim F) (fun i j => 2 * sin (get rho i j * PI / 6)) -> (forall s, exists v, f_log_lik F s d' true = Ok v) ->
  exists c' M, fit F opt fuel pobs (Ok tt) d x0 m tp sc c = Some (Ok tt, c') /\ object_shows (c_params c') M /\
    (forall i j, (i < f_dim F)%nat -> (j < f_dim F)%nat -> 6 * asin (get M i j / 2) / PI = get rho i j).
Proof.
  intros F opt fuel pobs d d' x0 m tp sc c e T rho W HF Em He Hd _ Ho Hi ET Et CS Hr P Hl.
  rewrite (C44_known_methods F opt fuel pobs d d' x0 m tp sc c W HF) by auto. rewrite Em.
  assert (G1 : (fun t => 2 * sin (t * PI / 6)) 1 = 1).
  { cbn beta. replace (1 * PI / 6) with (PI / 6) by field. rewrite sin_PI6. field. }
  destruct (inverse_ell_ok F d' "irho" (f_srho F) (fun t => 2 * sin (t * PI / 6)) T rho (c_params c)) as [s' [Sh [K [_ E]]]]; auto.
  rewrite E. destruct (Hl s') as [v ->]. eexists; exists (g_matrix (fun t => 2 * sin (t * PI / 6)) rho). split; [reflexivity|]. cbn [c_params].
  split; [exact Sh|]. intros i j Hi' Hj. cbn [g_matrix get].
  transitivity (ell_rho (gauss_irho (get rho i j))); [|exact (gauss_rho_irho (get rho i j) (Hr i j Hi' Hj))].
  unfold ell_rho, gauss_irho. rewrite (Rmult_comm (sin _) 2). field. apply PI_neq0.
Qed.
Print Assumptions C43_gaussian_irho.
(** an Archimedean copula's theta is the average of the inversions of all pairs *)
Theorem C43_archimedean : forall F opt fuel pobs d d' x0 m tp sc c T l x th, worked_on pobs tp d d' -> fittable F d' -> lower m = "itau"%string ->
  is_archimedean (f_name F) = true -> (2 <= f_dim F)%nat -> c_params c = PArch th ->
  f_ktau F d' = Ok T -> square (f_dim F) T -> f_itau F (below_diag T) = Ok (map Some l) -> average l x ->
  f_theta_ok F x = true -> (forall s, exists v, f_log_lik F s d' true = Ok v) ->
  exists c' smry, fit F opt fuel pobs (Ok tt) d x0 m tp sc c = Some (Ok tt, c') /\ parameters (c_params c') = [Some x] /\
    c_smry c' = Some smry /\ numbers (fs_params smry) = [Some x] /\ f_log_lik F (c_params c') d' true = Ok (fs_log_lik smry).
Proof.
  intros F opt fuel pobs d d' x0 m tp sc c T l x th W HF Em Ha Hd Hc ET ST El Av Ht Hl.
  rewrite (C44_known_methods F opt fuel pobs d d' x0 m tp sc c W HF) by auto. rewrite Em, Hc, (inverse_arch F d' T (map Some l) th Ha Hd ET ST El).
  rewrite (proj2 (fl_mean_spec l x (proj1 Av)) Av). cbn [set_params sarr_list]. rewrite Ht.
  destruct (Hl (PArch (Some x))) as [v Ev]. rewrite Ev. eexists; eexists. split; [reflexivity|]. cbn [c_params c_smry].
  split; [reflexivity|]. split; [reflexivity|]. split; [reflexivity|exact Ev].
Qed.
Print Assumptions C43_archimedean.
(** refuted for bivariate elliptical copulas: itau squeezes the single tau to a float, on which create_cov_matrix fails *)
Theorem C43_bivariate_refuted : forall F opt fuel pobs d x0 c T v w, fittable F d -> f_dim F = 2%nat -> elliptical_object F (c_params c) ->
  f_ktau F d = Ok T -> square 2 T -> get T 1%nat 0%nat = v -> f_itau F [v] = Ok [w] ->
  fit F opt fuel pobs (Ok tt) d x0 "itau" false 1 c = Some (Err TypeError, c).
Proof.
  intros F opt fuel pobs d x0 c T v w HF Hd Ho ET ST Ev Ei.
  rewrite (C44_known_methods F opt fuel pobs d d x0 "itau" false 1 c eq_refl HF) by (left; reflexivity).
  change (lower "itau") with "itau"%string.
  assert (Ef : fit_cor F d "itau" = Err TypeError).
  { unfold fit_cor. destruct (tri_idx (f_dim F)) as [idx Eix]. rewrite Eix. cbn [bind String.eqb Ascii.eqb Bool.eqb]. rewrite ET. cbn [bind].
    rewrite Hd in Eix. rewrite (take_idx T 2 idx Eix ltac:(lia) ST). cbn [bind].
    assert (Eb : below_diag T = [v]) by (rewrite (below_diag_tri T 2 (proj1 ST)); cbn; congruence).
    rewrite Eb, Ei. cbn [bind squeeze]. rewrite (elliptical_name F (c_params c) Ho). reflexivity. }
  unfold estimate_inverse. cbv zeta. change (lower "itau") with "itau"%string. cbn [String.eqb Ascii.eqb Bool.eqb orb negb]. rewrite Ef.
  destruct c; reflexivity.
Qed.
Print Assumptions C43_bivariate_refuted.
(** refuted for a Gaussian copula whose parameters were last assigned as integers: the stores into the integer array truncate, and
    correlations strictly between -1 and 1 all become 0, while the summary records the untruncated estimate *)
Theorem C43_integer_array_refuted : forall F opt fuel pobs d x0 c e T tau, fittable F d -> eig_ok (f_eig F) -> (3 <= f_dim F)%nat ->
  lower (f_name F) = "gaussian"%string -> c_params c = PGauss e -> e_int e = true -> consistent e -> e_dim e = f_dim F -> elliptical_itau F ->
  f_ktau F d = Ok T -> mat_eq T (enfl tau) -> corr_shape 1 (f_dim F) tau ->
  Forall (fun t => -1 < sin (t * PI / 2) < 1) (below_diag tau) ->
  pos_semidef (f_dim F) (get (sine_matrix tau)) -> (forall s, exists v, f_log_lik F s d true = Ok v) ->
  exists c' smry, fit F opt fuel pobs (Ok tt) d x0 "itau" false 1 c = Some (Ok tt, c') /\
    parameters (c_params c') = map (fun _ => Some 0) (below_diag tau) /\ c_smry c' = Some smry /\
    numbers (fs_params smry) = map (fun t => Some (sin (t * PI / 2))) (below_diag tau).
Proof.
  intros F opt fuel pobs d x0 c e T tau HF He Hd Hn Hc Hint [_ Ce] Hdim Hi ET Et CS Hr P Hl.
  rewrite (C44_known_methods F opt fuel pobs d d x0 "itau" false 1 c eq_refl HF) by (left; reflexivity). rewrite Hc.
  change (lower "itau") with "itau"%string.
  assert (Hell : is_elliptical (f_name F) = true) by (unfold is_elliptical; rewrite Hn; reflexivity).
  assert (G1 : (fun t => sin (t * PI / 2)) 1 = 1) by (cbn beta; replace (1 * PI / 2) with (PI / 2) by field; apply sin_PI2).
  destruct (fit_cor_ell F d "itau" (f_ktau F) (fun t => sin (t * PI / 2)) T tau) as [A [[_ B] C]]; auto.
  set (L := map (fun t => Some (sin (t * PI / 2))) (below_diag tau) : list fl) in *.
  unfold estimate_inverse. cbv zeta. change (lower "itau") with "itau"%string. cbn [String.eqb Ascii.eqb Bool.eqb orb negb]. rewrite A, Hell. cbn [sarr_list].
  assert (HlL : length L = length (e_rhos e)).
  { rewrite Hdim in Ce. cbn [e_rhos e_dim] in B. apply (Nat.mul_cancel_l _ _ 2); [lia|]. etransitivity; [exact B|symmetry; exact Ce]. }
  rewrite HlL, Nat.eqb_refl.
  assert (EL : L = map Some (map (fun t => sin (t * PI / 2)) (below_diag tau))) by (unfold L; rewrite map_map; reflexivity).
  pose proof (store_all_int e Hint (map (fun t => sin (t * PI / 2)) (below_diag tau)) [] (e_rhos e) eq_refl) as K.
  cbn [length app] in K. rewrite <- EL, map_map in K. rewrite K.
  - destruct (Hl (PGauss (mkEll (e_dim e) true (map (fun _ => Some 0) (below_diag tau))))) as [v ->].
    eexists; eexists. split; [reflexivity|]. cbn [c_params c_smry]. split; [reflexivity|]. split; reflexivity.
  - rewrite <- HlL. unfold L. rewrite !map_length. reflexivity.
  - apply Forall_forall. intros y Hy. apply in_map_iff in Hy. destruct Hy as [t [<- Ht]]. rewrite Forall_forall in Hr. apply Hr. exact Ht.
Qed.
Print Assumptions C43_integer_array_refuted.

(** ** C45: starting values *)
(** the search ends, after at most five rounds if the setter accepts no theta below -1 (as Clayton's does) *)
Theorem C45_terminates : forall F d x0 th, (forall x, f_theta_ok F x = true -> -1 <= x) ->
  forall fuel, (5 <= fuel)%nat -> initial_params F fuel d x0 (PArch th) <> None.
Proof.
  intros F d x0 th H fuel Hf. apply initial_ends. intros [x|] Hx; [|exact I]. cbn in Hx. specialize (H x Hx).
  apply le_INR in Hf. replace (INR 5) with 5 in Hf by (cbn; lra). lra.
Qed.
Print Assumptions C45_terminates.
(** and in general after a number of rounds proportional to the distance of the start from 0 *)
Theorem C45_loop_terminates : forall F d x s, exists fuel, forall n, (fuel <= n)%nat -> clayton_loop F n d (Some x) s <> None.
Proof.
  intros F d x s. exists (Z.to_nat (up (- 5 * x))). intros n Hn. apply clayton_loop_ends.
  pose proof (archimed (-5 * x)) as [A _]. destruct (Z_lt_le_dec (up (-5 * x)) 0) as [C|C].
  - apply IZR_lt in C. pose proof (pos_INR n). lra.
  - apply le_INR in Hn. rewrite INR_IZR_INZ, Z2Nat.id in Hn by exact C. lra.
Qed.
Print Assumptions C45_loop_terminates.
(** elliptical copulas and starts given by the user need no search at all *)
Theorem C45_user_start : forall F fuel d x s, (forall v, In v (numbers x) -> v <> None) -> initial_params F fuel d (Some x) s = Some (Ok x, s).
Proof. exact initial_user. Qed.
Print Assumptions C45_user_start.
(** an Archimedean start passes the copula's range check, unless it is nan; so does the parameter left in the copula *)
Theorem C45_archimedean_partial : forall F fuel d th r s', is_elliptical (f_name F) = false -> admissible F th ->
  initial_params F fuel d None (PArch th) = Some (r, s') ->
  (forall a, r = Ok a -> exists v, numbers a = [v] /\ admissible F v) /\ exists w, parameters s' = [w] /\ admissible F w.
Proof.
  intros F fuel d th r s' He Ad H. destruct (initial_arch F fuel d th r s' He Ad H) as [[w [-> Aw]] Hr]. split.
  - intros a Ea. destruct (Hr a Ea) as [v [-> Av]]. exists v. auto.
  - exists w. auto.
Qed.
Print Assumptions C45_archimedean_partial.
(** an elliptical start is the vector of Pearson correlations, with 4.669 degrees of freedom in front for the Student copula *)
Theorem C45_elliptical : forall F fuel d s T rho, elliptical_object F s -> (2 <= f_dim F)%nat -> f_prho F d = Ok T -> mat_eq T (enfl rho) ->
  square (f_dim F) rho -> (forall i j, (i < f_dim F)%nat -> (j < f_dim F)%nat -> -1 <= get rho i j <= 1) ->
  exists start rhos, initial_params F fuel d None s = Some (Ok start, s) /\ Forall (fun r => -1 <= r <= 1) rhos /\ rhos = below_diag rho /\
    numbers start = match s with PStudent _ => Some 4.669 :: map Some rhos | _ => map Some rhos end.
Proof.
  intros F fuel d s T rho Ho Hd ET Em Sq Hr. pose proof (elliptical_name F s Ho) as Hell.
  assert (ST : square (f_dim F) T) by (destruct Em as [E1 [E2 _]], Sq as [S1 S2]; cbn in E1, E2; split; congruence).
  destruct (tri_idx (f_dim F)) as [idx Ei]. unfold initial_params. rewrite Hell, Ei. cbn [bind]. rewrite ET. cbn [bind].
  rewrite (take_idx T (f_dim F) idx Ei Hd ST), (below_diag_eq T (enfl rho) (f_dim F) ST Em). cbn [rmap].
  assert (Eb : below_diag (enfl rho) = map Some (below_diag rho)) by exact (below_diag_map Some rho). rewrite Eb.
  eexists; exists (below_diag rho). split; [reflexivity|]. split; [|split; [reflexivity|]].
  - rewrite (below_diag_tri rho (f_dim F) (proj1 Sq)). apply Forall_forall. intros r Hin. apply in_map_iff in Hin.
    destruct Hin as [[i j] [<- Hin]]. apply tri_loop_in in Hin. cbn [fst snd]. apply Hr; lia.
  - cbn [numbers]. destruct s as [e|t|th|v]; try contradiction Ho; destruct Ho as [-> _]; cbn [String.eqb Ascii.eqb Bool.eqb]; [reflexivity|].
    repeat f_equal.
Qed.
Print Assumptions C45_elliptical.
(** refuted: in more than two dimensions a negative average inversion is refused by the setter, and this ValueError escapes: no
    starting point is produced, although the copula's present parameter is one *)
Theorem C45_negative_average_refuted : forall F fuel d T l x th, is_archimedean (f_name F) = true -> (2 <= f_dim F)%nat ->
  f_ktau F d = Ok T -> square (f_dim F) T -> f_itau F (below_diag T) = Ok (map Some l) -> average l x -> f_theta_ok F x = false ->
  initial_params F fuel d None (PArch th) = Some (Err ValueError, PArch th).
Proof.
  intros F fuel d T l x th Ha Hd ET ST El Av Ht. unfold initial_params. rewrite (archimedean_not_elliptical _ Ha).
  rewrite (inverse_arch F d T (map Some l) th Ha Hd ET ST El), (proj2 (fl_mean_spec l x (proj1 Av)) Av). cbn [set_params sarr_list]. rewrite Ht. reflexivity.
Qed.
Print Assumptions C45_negative_average_refuted.
(** refuted: one undefined rank correlation (a constant column) makes the start nan; the nan passes the setter's check, so the
    copula's own admissible parameter is lost as well *)
Theorem C45_nan_refuted : forall F fuel d T l th, is_archimedean (f_name F) = true -> (2 <= f_dim F)%nat ->
  f_ktau F d = Ok T -> square (f_dim F) T -> f_itau F (below_diag T) = Ok l -> In None l -> f_log_lik F (PArch None) d true = Ok Nan ->
  exists start, initial_params F fuel d None (PArch th) = Some (Ok start, PArch None) /\ numbers start = [None].
Proof.
  intros F fuel d T l th Ha Hd ET ST El Hn Hl. unfold initial_params. rewrite (archimedean_not_elliptical _ Ha).
  rewrite (inverse_arch F d T l th Ha Hd ET ST El), (fl_mean_nan l Hn). cbn [set_params sarr_list]. rewrite Hl. cbn [fs_params]. rewrite Hl. cbn [finite].
  cbv zeta. destruct (String.eqb (lower (f_name F)) "clayton" && Nat.eqb (f_dim F) 2).
  - destruct fuel; cbn [clayton_loop]; cbn [infinite]; eexists; split; reflexivity.
  - cbn [infinite]. eexists; split; reflexivity.
Qed.
Print Assumptions C45_nan_refuted.

(** ** Concrete cases *)
(** a bivariate Clayton copula with three observations of Kendall's tau 1/3 *)
Definition tau3 (n : nat) (t : R) : mat R := mkMat n n (fun i j => if Nat.eqb i j then 1 else t).
Definition clayton (n : nat) (t ll : R) : family := mkFamily "Clayton" n (fun x => if Nat.eqb n 2 then Rleb (-1) x else Rleb 0 x)
  (fun l => Ok (map (option_map (fun t => 2 * t / (1 - t))) l)) (fun _ => Err NotImplementedError)
  (fun s d _ => match s with PArch (Some _) => Ok (Fin ll) | _ => Ok Nan end)
  (fun _ => Ok (enfl (tau3 n t))) (fun _ => Ok (enfl (tau3 n t))) (fun _ => Ok (enfl (tau3 n t))) some_eig (fun m => m).
Definition gaussian (n : nat) (t ll : R) : family := mkFamily "Gaussian" n (fun _ => true)
  (fun l => Ok (map (option_map (fun t => sin (t * PI / 2))) l)) (fun l => Ok (map (option_map (fun r => 2 * sin (r * PI / 6))) l))
  (fun s d _ => Ok (Fin ll))
  (fun _ => Ok (enfl (tau3 n t))) (fun _ => Ok (enfl (tau3 n t))) (fun _ => Ok (enfl (tau3 n t))) some_eig (fun m => m).
Definition sample (n : nat) : data := mkData 2 4 n (repeat (Some (1/2)) (4 * n)) None.
Lemma sample_fittable F n : f_dim F = n -> (n <= 4)%nat -> fittable F (sample n).
Proof.
  intros <- H. split; [split; reflexivity|]. split; [|exact H]. intros v Hv [r [-> Hr]]. apply repeat_spec in Hv. injection Hv as ->. lra.
Qed.
Lemma tau3_square n t : square n (enfl (tau3 n t)). Proof. split; reflexivity. Qed.

Example C44_case : fittable (clayton 2 (1/3) 5) (sample 2) /\ lower "ML" = "ml"%string /\ ~ fittable (clayton 3 (1/3) 5) (sample 2) /\
  worked_on (fun d => Ok d) true (sample 2) (sample 2).
Proof.
  split; [apply sample_fittable; [reflexivity|lia]|]. split; [reflexivity|]. split; [|reflexivity]. intros [[_ H] _]. discriminate.
Qed.
(** a failed search really changes the parameter: 1 becomes 3 *)
Example C41_case : let c := mkCop (PArch (Some 1)) None None in
  exists c', fit (clayton 2 (1/3) 5) (fun z => Ask z (fun v => Report false z v)) 0 (fun d => Ok d) (Ok tt) (sample 2) (Some (SVec [Some 3])) "ml" false 1 c
    = Some (Ok tt, c') /\ parameters (c_params c') = [Some 3] /\ parameters (c_params c) = [Some 1].
Proof.
  intros c. destruct (C41_nonconvergence_refuted (clayton 2 (1/3) 5) 0 (fun d => Ok d) (sample 2) (Some 1) 3 (Fin 5) c) as [c' [smry [A [B _]]]].
  - apply sample_fittable; [reflexivity|lia].
  - reflexivity.
  - cbn. apply Rleb_true. lra.
  - reflexivity.
  - exists c'. auto.
Qed.
(** the hypotheses of the likelihood theorems: an optimiser that tries its start and a second point and reports the better one *)
Definition two_points (z : sarr) : optimiser :=
  match z with
  | SVec _ => Ask z (fun a => Ask (SVec [Some 2]) (fun b => match a, b with Fin x, Fin y => if Rltb y x then Report true (SVec [Some 2]) b else Report true z a | _, _ => Report true z a end))
  | _ => Crash TypeError
  end.
Example C42_case : (forall z, uses_vectors (two_points z)) /\ (forall z, honest [] (two_points z)).
Proof.
  split; intros [v|l]; cbn [two_points]; try (constructor; fail).
  - constructor. intros [x| | |]; constructor; intros [y| | |]; try (constructor; fail). destruct (Rltb y x); constructor.
  - constructor. intros [x| | |]; constructor; intros [y| | |]; try (constructor; cbn; tauto).
    destruct (Rltb y x); constructor; cbn; tauto.
Qed.
(** three Gaussian variables with all taus 0, and a two-dimensional one *)
Example C43_case : let F := gaussian 3 0 5 in let c := mkCop (PGauss (new_ell 3)) None None in
  eig_ok (f_eig F) /\ elliptical_object F (c_params c) /\ elliptical_itau F /\ f_ktau F (sample 3) = Ok (enfl (tau3 3 0)) /\
  corr_shape 1 3 (tau3 3 0) /\ pos_semidef 3 (get (sine_matrix (tau3 3 0))) /\ elliptical_object (gaussian 2 (1/3) 5) (PGauss (new_ell 2)) /\
  average [1; 2] (3/2).
Proof.
  intros F c. split; [exact some_eig_ok|]. split.
  { split; [reflexivity|]. split; [reflexivity|]. split; [apply consistent_new; lia|reflexivity]. }
  split; [intros l; cbn; f_equal; rewrite map_map; reflexivity|]. split; [reflexivity|]. split.
  { split; [split; reflexivity|]. split.
    - intros i j _ _. cbn. rewrite Nat.eqb_sym. reflexivity.
    - intros i _. cbn. rewrite Nat.eqb_refl. reflexivity. }
  split.
  { intros x. unfold quad. cbn. replace (1 * PI / 2) with (PI / 2) by field. replace (0 * PI / 2) with 0 by field. rewrite sin_PI2, sin_0. nra. }
  split; [|split; [discriminate|cbn; lra]].
  split; [reflexivity|]. split; [reflexivity|]. split; [apply consistent_new; lia|reflexivity].
Qed.
Example C45_case : (forall x, f_theta_ok (clayton 2 (1/3) 5) x = true -> -1 <= x) /\ admissible (clayton 2 (1/3) 5) (Some 1) /\
  initial_params (clayton 3 (-1/3) 5) 5 (sample 3) None (PArch (Some 1)) = Some (Err ValueError, PArch (Some 1)).
Proof.
  split; [intros x H; cbn in H; apply Rleb_true in H; exact H|]. split; [cbn; apply Rleb_true; lra|].
  apply (C45_negative_average_refuted (clayton 3 (-1/3) 5) 5 (sample 3) (enfl (tau3 3 (-1/3))) [-1/2; -1/2; -1/2] (-1/2)).
  - reflexivity.
  - cbn. lia.
  - reflexivity.
  - apply tau3_square.
  - cbn. replace (2 * (-1 / 3) / (1 - -1 / 3)) with (-1/2) by field. reflexivity.
  - split; [discriminate|]. cbn. lra.
  - cbn. apply Rleb_false. lra.
Qed.
