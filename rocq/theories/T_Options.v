(** C108: the options of a fit with margins. *)
From Verif Require Import Base RSumLib Ext M_Gmc M_Options.
From Coq Require Import Psatz.
Local Close Scope Z_scope. Open Scope R_scope. Open Scope string_scope.

(** What the caller of MarginalCopula.fit chose for an option: the value given, or the default of marginal.py:103-104 *)
Definition chosen (given : options) (name : string) (default : value) : value :=
  match find (fun p => String.eqb (fst p) name) given with Some p => snd p | None => default end.
Definition known (given : options) : Prop := Forall (fun p => In (fst p) ["x0"; "method"; "verbose"; "optim_options"; "ties"; "to_pobs"; "scale"]) given.

Lemma known_all given : known given -> forallb (fun p => existsb (fun q : string * value => String.eqb (fst q) (fst p)) sig_marginal) given = true.
Proof.
  intros H. apply forallb_forall. intros [n v] Hp. unfold known in H. rewrite Forall_forall in H. specialize (H (n, v) Hp). cbn [fst In] in *.
  repeat (destruct H as [<-|H]; [reflexivity|]). contradiction.
Qed.
Lemma inner_ok sig given : known given -> inner_options sig given = by_position sig
  [chosen given "x0" VNone; chosen given "method" (VStr "ml"); chosen given "optim_options" VNone; chosen given "ties" (VStr "average"); chosen given "verbose" (VNum 1);
   chosen given "to_pobs" (VBool true); chosen given "scale" (VNum 1)].
Proof. intros H. unfold inner_options, by_name. rewrite (known_all given H). reflexivity. Qed.

(** Every option reaches the option of the same name of the joint copula, for all classes but the Gaussian mixture; Student's degrees of
    freedom are always fitted too. *)
Theorem C108_options : forall given, known given ->
  (exists o, inner_options sig_base given = Ok o /\ map fst o = map fst sig_base /\ Forall (fun p => snd p = chosen given (fst p) (opt sig_marginal (fst p))) o) /\
  (exists o, inner_options sig_student given = Ok (o ++ [("fix_df", VBool false)])%list /\ map fst o = map fst sig_base /\ Forall (fun p => snd p = chosen given (fst p) (opt sig_marginal (fst p))) o).
Proof.
  intros given H. rewrite !inner_ok by exact H. split; eexists; (split; [unfold sig_base, sig_student; cbn [app by_position rmap bind fst]; try reflexivity|]).
  - split; [reflexivity|]. repeat constructor.
  - instantiate (1 := [("x0", _); ("method", _); ("optim_options", _); ("ties", _); ("verbose", _); ("to_pobs", _); ("scale", _)]). reflexivity.
  - split; [reflexivity|]. repeat constructor.
Qed.
Print Assumptions C108_options.
(** An option MarginalCopula.fit does not know is refused. *)
Theorem C108_unknown : forall sig given, ~ known given -> inner_options sig given = Err TypeError.
Proof.
  intros sig given H. unfold inner_options, by_name. destruct (forallb _ given) eqn:E; [|reflexivity]. exfalso. apply H. apply Forall_forall. intros p Hp. rewrite forallb_forall in E. specialize (E p Hp).
  apply existsb_exists in E. destruct E as [q [H1 H2]]. apply String.eqb_eq in H2. rewrite <- H2. cbn in H1. repeat (destruct H1 as [<-|H1]; [cbn; tauto|]). contradiction.
Qed.
Print Assumptions C108_unknown.
(** For a Gaussian mixture copula to_pobs arrives as max_iter and scale as the stopping criterion. *)
Theorem C108_mixture_options_refuted : forall given, known given -> exists o, inner_options sig_gmc given = Ok o /\
  opt o "max_iter" = chosen given "to_pobs" (VBool true) /\ opt o "criteria" = chosen given "scale" (VNum 1) /\ opt o "eps" = VNum (/ 10000) /\
  opt o "method" = chosen given "method" (VStr "ml") /\ opt o "x0" = chosen given "x0" VNone.
Proof. intros given H. rewrite inner_ok by exact H. eexists. split; [reflexivity|]. repeat split; reflexivity. Qed.
Print Assumptions C108_mixture_options_refuted.

Section Mixture.
  Variables (eigvalsh : mat R -> list R) (cov_nearest : mat R -> mat R) (start : value -> params_in) (k_means : result gmc) (ppf : gmc -> result unit).
  Variables (em : value -> string -> value -> gmc -> result gmc) (sgd : value -> gmc -> result gmc).
  Hypothesis S0 : start VNone = PNone.
  Notation fit_o := (mixture_fit eigvalsh cov_nearest start k_means ppf em sgd).

  (** With the default options the fit of the joint copula fails after its parameters have been replaced by those of k-means. *)
  Theorem C108_default_refuted : forall c o p, inner_options sig_gmc [] = Ok o -> k_means = Ok p -> n_dim p = c_dim c -> n_clusters p = c_clusters c ->
    fit_o c o = (mkCop (c_clusters c) (c_dim c) (Some p) (c_method c), Err GMCFitMethodError).
  Proof.
    intros c o p E K D N. rewrite (inner_ok sig_gmc []) in E by constructor. injection E as <-. unfold mixture_fit. change (opt _ "method") with (VStr "ml"). change (opt _ "x0") with VNone. cbv beta iota. unfold fit.
    rewrite S0, K. cbn [bind set_params]. rewrite D, N, !Nat.eqb_refl. reflexivity.
  Qed.
  (** With expectation maximisation, the default of the mixture itself, it always fails unless scale is given as the name of a
      stopping criterion: a number has no method upper. *)
  Theorem C108_pem_refuted : forall c o x, inner_options sig_gmc [("method", VStr "pem"); ("scale", VNum x)] = Ok o ->
    (exists e, snd (fit_o c o) = Err e) /\
    (forall p, k_means = Ok p -> n_dim p = c_dim c -> n_clusters p = c_clusters c -> ppf p = Ok tt -> snd (fit_o c o) = Err AttributeError).
  Proof.
    intros c o x E. rewrite inner_ok in E by (repeat constructor; cbn; tauto). injection E as <-. unfold mixture_fit. change (opt _ "method") with (VStr "pem"). change (opt _ "x0") with VNone. change (opt _ "criteria") with (VNum x).
    cbv beta iota. unfold fit. rewrite S0. split.
    - destruct k_means as [p|e]; cbn [bind set_params]; [|eexists; reflexivity]. destruct (_ && _); [|eexists; reflexivity]. cbn. destruct (ppf p); eexists; reflexivity.
    - intros p -> D N P. cbn [bind set_params]. rewrite D, N, !Nat.eqb_refl. cbn. rewrite P. reflexivity.
  Qed.
  (** K-means needs neither option: it works. *)
  Theorem C108_kmeans : forall c o p, inner_options sig_gmc [("method", VStr "kmeans")] = Ok o -> k_means = Ok p -> n_dim p = c_dim c -> n_clusters p = c_clusters c ->
    fit_o c o = (mkCop (c_clusters c) (c_dim c) (Some p) (Some "kmeans"), Ok tt).
  Proof.
    intros c o p E K D N. rewrite inner_ok in E by (repeat constructor; cbn; tauto). injection E as <-. unfold mixture_fit. change (opt _ "method") with (VStr "kmeans"). change (opt _ "x0") with VNone. cbv beta iota. unfold fit.
    rewrite S0, K. cbn [bind set_params]. rewrite D, N, !Nat.eqb_refl. cbn [with_param c_param andb]. change (lower "kmeans") with "kmeans".
    cbn [String.eqb Ascii.eqb Bool.eqb bind set_params with_param c_dim c_clusters]. rewrite ?D, ?N, !Nat.eqb_refl. reflexivity.
  Qed.
  (** Called directly, with its own defaults, the mixture is fitted by at most 3000 steps under the criterion GMCM. *)
  Theorem C108_direct : forall c p q, k_means = Ok p -> n_dim p = c_dim c -> n_clusters p = c_clusters c -> ppf p = Ok tt ->
    em (VNum 3000) "GMCM" (VNum (/ 10000)) p = Ok q -> n_dim q = c_dim c -> n_clusters q = c_clusters c ->
    fit_o c sig_gmc = (mkCop (c_clusters c) (c_dim c) (Some q) (Some "pem"), Ok tt).
  Proof.
    intros c p q K D N P E D' N'. unfold mixture_fit. change (opt sig_gmc "method") with (VStr "pem"). change (opt sig_gmc "x0") with VNone. change (opt sig_gmc "criteria") with (VStr "GMCM").
    change (opt sig_gmc "max_iter") with (VNum 3000). change (opt sig_gmc "eps") with (VNum (/ 10000)). cbv beta iota. unfold fit. rewrite S0, K. cbn [bind set_params]. rewrite D, N, !Nat.eqb_refl. change (lower "pem") with "pem".
    cbn [String.eqb Ascii.eqb Bool.eqb bind set_params with_param c_param andb]. rewrite P. cbn [bind]. rewrite E. cbn [bind set_params with_param c_dim c_clusters]. rewrite D', N', !Nat.eqb_refl. reflexivity.
  Qed.
End Mixture.

(** Cases *)
Example C108_case : known [("method", VStr "mpl"); ("scale", VNum 2)] /\ chosen [("method", VStr "mpl"); ("scale", VNum 2)] "scale" (VNum 1) = VNum 2.
Proof. split; [repeat constructor; cbn; tauto|reflexivity]. Qed.
Example C108_mixture_case : exists o, inner_options sig_gmc [] = Ok o /\ opt o "max_iter" = VBool true.
Proof. eexists. split; reflexivity. Qed.
Print Assumptions C108_default_refuted.
Print Assumptions C108_pem_refuted.
Print Assumptions C108_kmeans.
Print Assumptions C108_direct.
