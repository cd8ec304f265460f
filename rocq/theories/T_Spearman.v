(** C113: fits by inversion of Spearman's rho; C114: the labels of a copula. *)
From Verif Require Import Base RSumLib Ext M_Matrix M_Linalg M_Elliptical M_Fit S_Fit P_Fit T_Fit M_Spearman M_Annot.
Open Scope R_scope.

(** ** C113 *)
(** Spearman's rho is no number for Clayton and Gumbel copulas, and it has no derivative there. *)
Theorem C113_rho_refuted : forall fr sr d th, rho_ fr sr Clayton th = NotImpl /\ rho_ fr sr Gumbel th = NotImpl /\
  drho d Clayton th = Err AttributeError /\ drho d Gumbel th = Ok NotImpl.
Proof. intros. repeat split. Qed.
Print Assumptions C113_rho_refuted.
(** No class but the Gaussian copula inverts Spearman's rho, whatever the root finder would do. *)
Theorem C113_irho_refuted : forall fr sr root lo c rho x, irho fr sr root lo c rho <> Ok (Number x).
Proof. intros. destruct c; discriminate. Qed.
Print Assumptions C113_irho_refuted.
(** Every fit with method 'irho', in any spelling, of a Clayton, Gumbel, Frank or Student copula fails; the copula stays as it was. *)
Theorem C113_fit_refuted : forall fr sr root lo k F opt fuel pobs d d' x0 m tp sc c, f_irho F = irho_in_fit fr sr root lo k ->
  worked_on pobs tp d d' -> fittable F d' -> lower m = "irho"%string ->
  exists e, fit F opt fuel pobs (Ok tt) d x0 m tp sc c = Some (Err e, c) /\
    (forall T l idx, f_srho F d' = Ok T -> tri_indices (f_dim F) 1 "lower" = Ok idx -> take T idx = Ok l -> e = TypeError).
Proof.
  intros fr sr root lo k F opt fuel pobs d d' x0 m tp sc c Hi W HF Em. rewrite (C44_known_methods F opt fuel pobs d d' x0 m tp sc c W HF) by auto.
  rewrite Em.
  assert (I : forall l, f_irho F l = Err TypeError) by (intros l; rewrite Hi; destruct k; reflexivity).
  assert (Z : exists e, fit_cor F d' "irho" = Err e /\
    (forall T l idx, f_srho F d' = Ok T -> tri_indices (f_dim F) 1 "lower" = Ok idx -> take T idx = Ok l -> e = TypeError)).
  { unfold fit_cor. change (String.eqb "irho" "itau") with false. cbv iota.
    destruct (tri_indices (f_dim F) 1 "lower") as [idx|e] eqn:E1; cbn [bind]; [|eexists; split; [reflexivity|discriminate]].
    destruct (f_srho F d') as [T|e] eqn:E2; cbn [bind]; [|eexists; split; [reflexivity|discriminate]].
    destruct (take T idx) as [l|e] eqn:E3; cbn [bind].
    - rewrite I. cbn [bind]. exists TypeError. split; [reflexivity|auto].
    - eexists. split; [reflexivity|]. intros T0 l0 i0 A B C. injection A as <-. injection B as <-. congruence. }
  destruct Z as (e & Z & P). exists e. split; [|exact P]. unfold estimate_inverse. change (lower "irho") with "irho"%string.
  change (negb (String.eqb "irho" "itau" || String.eqb "irho" "irho")) with false. cbv iota zeta. rewrite Z. destruct c; reflexivity.
Qed.
Print Assumptions C113_fit_refuted.

(** ** C114 *)
(** one call of fit with all its arguments *)
Record call := mkCall { k_opt : sarr -> optimiser; k_fuel : nat; k_options : result unit; k_data : data; k_x0 : option sarr; k_method : string; k_pobs : bool; k_scale : R }.
(** the copula after a sequence of calls (those whose search for a start value does not end are left out) *)
Fixpoint after (F : family) (pobs : data -> result data) (ks : list call) (c : copula) : copula :=
  match ks with
  | [] => c
  | k :: r => match fit F (k_opt k) (k_fuel k) pobs (k_options k) (k_data k) (k_x0 k) (k_method k) (k_pobs k) (k_scale k) c with
              | Some (_, c') => after F pobs r c'
              | None => after F pobs r c
              end
  end.
Definition labels_kept (pobs : data -> result data) : Prop := forall d d', pobs d = Ok d' -> d_labels d' = d_labels d.
(** what one call does to the labels: only a successful fit of labelled data sets them *)
Lemma fit_labels F pobs k c r c' : labels_kept pobs ->
  fit F (k_opt k) (k_fuel k) pobs (k_options k) (k_data k) (k_x0 k) (k_method k) (k_pobs k) (k_scale k) c = Some (r, c') ->
  c_columns c' = match r, d_labels (k_data k) with Ok _, Some l => Some l | _, _ => c_columns c end.
Proof.
  intros K. unfold fit. destruct (if k_pobs k then pobs (k_data k) else Ok (k_data k)) as [d|e] eqn:E; [|intros H; injection H as <- <-; reflexivity].
  assert (L : d_labels d = d_labels (k_data k)) by (destruct (k_pobs k); [exact (K _ _ E)|injection E as <-; reflexivity]).
  destruct (negb _); [intros H; injection H as <- <-; reflexivity|]. destruct (negb _); [intros H; injection H as <- <-; reflexivity|].
  destruct (existsb _ _); [intros H; injection H as <- <-; reflexivity|]. destruct (fit_copula _ _ _ _ _ _ _ _ _) as [[[sm|e] s]|]; [| |discriminate].
  - intros H; injection H as <- <-. rewrite L. destruct (d_labels (k_data k)); reflexivity.
  - intros H; injection H as <- <-. reflexivity.
Qed.
(** A successful fit to a DataFrame sets its names. *)
Theorem C114_frame : forall F pobs k c c' l, labels_kept pobs -> d_labels (k_data k) = Some l ->
  fit F (k_opt k) (k_fuel k) pobs (k_options k) (k_data k) (k_x0 k) (k_method k) (k_pobs k) (k_scale k) c = Some (Ok tt, c') -> c_columns c' = Some l.
Proof. intros F pobs k c c' l K L E. rewrite (fit_labels F pobs k c _ _ K E), L. reflexivity. Qed.
Print Assumptions C114_frame.
(** Fits to arrays, however many and whether they succeed or not, never remove the names of an earlier DataFrame. *)
Theorem C114_stale_refuted : forall F pobs ks c l, labels_kept pobs -> (forall k, In k ks -> d_labels (k_data k) = None) ->
  c_columns c = Some l -> c_columns (after F pobs ks c) = Some l.
Proof.
  intros F pobs ks. induction ks as [|k ks IH]; intros c l K N E; [exact E|]. cbn [after]. pose proof (N k (or_introl eq_refl)) as Nk.
  destruct (fit _ _ _ _ _ _ _ _ _ _ _) as [[r c']|] eqn:Ef; apply IH; auto; try (intros; apply N; right; assumption).
  rewrite (fit_labels F pobs k c r c' K Ef), Nk. destruct r; exact E.
Qed.
Print Assumptions C114_stale_refuted.
(** Samples then carry those names, and a DataFrame with the columns of the array in another order is read in the old one. *)
Theorem C114_samples_refuted : forall F pobs ks c l t, labels_kept pobs -> (forall k, In k ks -> d_labels (k_data k) = None) ->
  c_columns c = Some l -> length l = t_width t -> cast_output (c_columns (after F pobs ks c)) t = Ok (IFrame l t).
Proof.
  intros F pobs ks c l t K N E L. rewrite (C114_stale_refuted F pobs ks c l K N E). unfold cast_output. rewrite L, Nat.eqb_refl. reflexivity.
Qed.
Print Assumptions C114_samples_refuted.
(** A copula fitted to arrays only has no names. *)
Theorem C114_arrays : forall F pobs ks c, labels_kept pobs -> (forall k, In k ks -> d_labels (k_data k) = None) -> c_columns c = None -> c_columns (after F pobs ks c) = None.
Proof.
  intros F pobs ks. induction ks as [|k ks IH]; intros c K N E; [exact E|]. cbn [after]. pose proof (N k (or_introl eq_refl)) as Nk.
  destruct (fit _ _ _ _ _ _ _ _ _ _ _) as [[r c']|] eqn:Ef; apply IH; auto; try (intros; apply N; right; assumption).
  rewrite (fit_labels F pobs k c r c' K Ef), Nk. destruct r; exact E.
Qed.
Print Assumptions C114_arrays.
(** Cases: a Clayton copula with data fit for it; a copula with the names a and b that is fitted to an array. *)
Definition clayton_irho (n : nat) (t ll : R) : family :=
  mkFamily "Clayton" n (f_theta_ok (clayton n t ll)) (f_itau (clayton n t ll)) (irho_in_fit (fun x => x) (fun x => x) (fun f => f 1) 0 Clayton)
    (f_log_lik (clayton n t ll)) (f_ktau (clayton n t ll)) (f_srho (clayton n t ll)) (f_prho (clayton n t ll)) (f_eig (clayton n t ll)) (f_nearest (clayton n t ll)).
Example C113_case : fittable (clayton_irho 2 (1/3) 5) (sample 2) /\
  fit (clayton_irho 2 (1/3) 5) (fun z => Report true z (Fin 0)) 0 (fun d => Ok d) (Ok tt) (sample 2) None "irho" false 1 (mkCop (PArch (Some 1)) None None)
    = Some (Err TypeError, mkCop (PArch (Some 1)) None None).
Proof.
  assert (Fi : fittable (clayton_irho 2 (1/3) 5) (sample 2)) by (apply sample_fittable; [reflexivity|lia]). split; [exact Fi|].
  destruct (C113_fit_refuted (fun x => x) (fun x => x) (fun f => f 1) 0 Clayton (clayton_irho 2 (1/3) 5) (fun z => Report true z (Fin 0)) 0 (fun d => Ok d) (sample 2) (sample 2) None "irho" false 1
    (mkCop (PArch (Some 1)) None None) eq_refl eq_refl Fi eq_refl) as (e & E & P). rewrite E. rewrite (P _ _ _ eq_refl eq_refl eq_refl). reflexivity.
Qed.
Example C114_case : let c := mkCop (PArch (Some 1)) None (Some ["a"; "b"]%string) in
  let k := mkCall (fun z => Ask z (fun v => Report true z v)) 0 (Ok tt) (sample 2) (Some (SVec [Some 3])) "itau" false 1 in
  labels_kept (fun d => Ok d) /\ d_labels (k_data k) = None /\ c_columns (after (clayton 2 (1/3) 5) (fun d => Ok d) [k; k] c) = Some ["a"; "b"]%string.
Proof.
  intros c k. assert (K : labels_kept (fun d => Ok d)) by (intros d d' E; injection E as <-; reflexivity). split; [exact K|]. split; [reflexivity|].
  apply C114_stale_refuted; [exact K| |reflexivity]. intros x [<-|[<-|[]]]; reflexivity.
Qed.
