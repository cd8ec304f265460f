(** C102: fitting a Student copula with fixed degrees of freedom. *)
From Verif Require Import Base RSumLib Ext M_Matrix S_Matrix P_Matrix M_Linalg S_Linalg P_Linalg M_Elliptical S_Elliptical M_Dict M_Fit S_Fit P_Fit T_Fit M_StudentFit S_StudentFit.
Open Scope R_scope.

Lemma no_nan_vec p : (forall v, In v p -> v <> None) -> existsb is_nan p = false.
Proof. intros H. apply Bool.not_true_is_false. intros E. apply existsb_exists in E. destruct E as [v [Iv Ev]]. destruct v; [discriminate|]. exact (H None Iv eq_refl). Qed.
Lemma student_store d t p : e_dim (s_ell t) = d -> student_vector d p ->
  exists x r, p = Some x :: r /\ student_set_params t (SArr (mkParr false p)) = (mkStudent (Some x) (mkEll d false r), Ok tt).
Proof.
  intros Hd [HL [Hn [x [r [-> Hx]]]]]. exists x, r. split; [reflexivity|]. unfold student_set_params. cbn [pa_vals pa_int].
  rewrite Hd. change (1 + n_rhos d)%nat with (S (n_rhos d)). rewrite HL, Nat.eqb_refl. cbn [negb]. rewrite (proj2 (Rleb_false x 0)) by lra. reflexivity.
Qed.
Lemma ask_student F d sc t p r s' : student_vector (e_dim (s_ell t)) p -> calc_log_lik F d sc (SVec p) (PStudent t) = (r, s') ->
  exists x q, p = Some x :: q /\ s' = PStudent (mkStudent (Some x) (mkEll (e_dim (s_ell t)) false q)).
Proof.
  intros V. destruct (student_store _ t p eq_refl V) as [x [q [Ep Es]]]. unfold calc_log_lik. cbn [sarr_list]. rewrite (no_nan_vec p (proj1 (proj2 V))). cbn [set_params]. rewrite Es.
  intros H. exists x, q. split; [exact Ep|]. destruct (f_log_lik F _ d false) as [v|[]]; injection H as _ <-; reflexivity.
Qed.
(** After the objective has been evaluated at a point, the constraint is satisfied at that point, whatever its degrees of freedom: the
    attribute it compares with has just been overwritten. *)
Theorem C102_satisfied_everywhere_refuted : forall F d sc t p r s', student_vector (e_dim (s_ell t)) p ->
  calc_log_lik F d sc (SVec p) (PStudent t) = (r, s') -> eval_con Df p s' = Ok (Some 0).
Proof.
  intros F d sc t p r s' V H. destruct (ask_student F d sc t p r s' V H) as [x [q [-> ->]]]. cbn. do 2 f_equal. ring.
Qed.
Print Assumptions C102_satisfied_everywhere_refuted.
Definition df_zero (cs : list con) (e : event) : Prop := match e with Checked i p v => nth_error cs i = Some Df -> v = Some 0 | _ => True end.
(** So a minimiser that looks at the constraints where it has just evaluated the objective never sees the constraint violated. *)
Theorem C102_never_violated_refuted : forall F cs d sc dim o t, e_dim (s_ell t) = dim -> checks_after dim None o ->
  forall res s' tr, crun F cs d sc o (PStudent t) [] = (res, s', tr) ->
  forall i p v, In (Checked i p v) tr -> nth_error cs i = Some Df -> v = Some 0.
Proof.
  intros F cs d sc dim o t Hd Ho.
  assert (G : forall o last, checks_after dim last o -> forall s tr, (exists t, s = PStudent t /\ e_dim (s_ell t) = dim /\ match last with Some p => eval_con Df p s = Ok (Some 0) | None => True end) ->
    Forall (df_zero cs) tr -> forall res s' tr', crun F cs d sc o s tr = (res, s', tr') -> Forall (df_zero cs) tr').
  { clear. induction 1 as [last p k V _ IH|p i k _ IH|last b x f|last e]; intros s tr [t [-> [Hd HL]]] HT res s' tr' E; cbn [crun] in E.
    - destruct (calc_log_lik F d sc (SVec p) (PStudent t)) as [[v|e] s1] eqn:Ec; [|injection E as _ _ <-; exact HT]. rewrite <- Hd in V.
      destruct (ask_student F d sc t p _ s1 V Ec) as [x [q [Ep Es]]]. refine (IH v s1 _ _ _ _ _ _ E); [|apply Forall_app; split; [exact HT|constructor; [exact Logic.I|constructor]]].
      exists (mkStudent (Some x) (mkEll (e_dim (s_ell t)) false q)). split; [exact Es|]. split; [exact Hd|]. eapply C102_satisfied_everywhere_refuted; eassumption.
    - destruct (nth_error cs i) as [c|] eqn:En; [|injection E as _ _ <-; exact HT]. destruct (eval_con c p (PStudent t)) as [v|e] eqn:Ev; [|injection E as _ _ <-; exact HT].
      refine (IH v _ _ _ _ _ _ _ E); [exists t; split; [reflexivity|split; assumption]|]. apply Forall_app. split; [exact HT|]. constructor; [|constructor]. cbn. rewrite En. intros Q. injection Q as ->. rewrite HL in Ev. congruence.
    - injection E as _ _ <-. exact HT.
    - injection E as _ _ <-. exact HT. }
  intros res s' tr E i p v Iv En. pose proof (G o None Ho (PStudent t) [] ltac:(exists t; auto) ltac:(constructor) res s' tr E) as Q. rewrite Forall_forall in Q. exact (Q _ Iv En).
Qed.
Print Assumptions C102_never_violated_refuted.

Lemma student_fit_ml F opt fuel pobs o d d' x0 tp sc fix_df c o' m : add_constraint fix_df o = Ok o' -> worked_on pobs tp d d' -> fittable F d' -> lower m = "ml"%string ->
  student_fit F opt fuel pobs (Ok tt) o d x0 m tp sc fix_df c =
  match initial_params F fuel d' x0 (c_params c) with
  | None => None
  | Some (Err e, s) => Some (Err e, mkCop s (c_smry c) (c_columns c), o')
  | Some (Ok x0, s) => match estimate_ml_c F opt (constraints o') d' x0 sc s with
      | (Err e, s') => Some (Err e, mkCop s' (c_smry c) (c_columns c), o')
      | (Ok smry, s') => Some (Ok tt, mkCop s' (Some smry) (match d_labels d' with Some l => Some l | None => c_columns c end), o')
      end
  end.
Proof.
  intros Ea W [[D1 D2] [U R]] Em. unfold student_fit. rewrite Ea, Em. cbn [String.eqb Ascii.eqb Bool.eqb negb].
  assert (E : (if tp then pobs d else Ok d) = Ok d') by (destruct tp; cbn in W; congruence). rewrite E, D1, D2, !Nat.eqb_refl. cbn [negb].
  rewrite (proj1 (not_outside_check (d_vals d'))) by exact U. destruct (Nat.ltb_spec (d_rows d') (f_dim F)); [lia|]. reflexivity.
Qed.
(** With fix_df=True and the default start, a minimiser that keeps its promise ends with 4.669 degrees of freedom, whatever the copula
    had before: it evaluates the objective at the start and finds the constraint satisfied there. *)
Definition at_start (x : sarr) : coptimiser := CAsk x (fun f => CCheck 0 (numbers x) (fun v => match v, x with
  | Some z, SVec l => if Reqb z 0 then CReport true (SVec l) f else CReport false (SVec l) f | _, _ => CCrash ValueError end)).
Theorem C102_fixed_refuted : forall F fuel pobs d d' tp sc m t smry cols T rho ll, worked_on pobs tp d d' -> fittable F d' -> lower m = "ml"%string ->
  elliptical_object F (PStudent t) -> (2 <= f_dim F)%nat -> f_prho F d' = Ok T -> mat_eq T (enfl rho) -> square (f_dim F) rho ->
  (forall i j, (i < f_dim F)%nat -> (j < f_dim F)%nat -> -1 <= get rho i j <= 1) ->
  (forall s, f_log_lik F s d' false = Ok ll) ->
  (forall x, numbers x <> [] -> (exists l, x = SVec l) -> feasible 1 [] (at_start x)) /\
  exists c' o', student_fit F at_start fuel pobs (Ok tt) NoDict d None m tp sc true (mkCop (PStudent t) smry cols) = Some (Ok tt, c', o') /\
    degrees (c_params c') = Some (4669 / 1000).
Proof.
  intros F fuel pobs d d' tp sc m t smry cols T rho ll W HF Em Ho Hd ET EM Sq Hr HL. split.
  - intros x _ [l ->]. unfold at_start. constructor. intros f. constructor; [lia|]. intros v. destruct v as [z|]; [|constructor]. cbn [numbers]. destruct (Reqb z 0) eqn:E; [|constructor].
    apply Reqb_true in E. subst z. constructor; [right; left; reflexivity|]. intros i Hi. left. f_equal. lia.
  - destruct (C45_elliptical F fuel d' (PStudent t) T rho Ho Hd ET EM Sq Hr) as [start [rhos [Ei [_ [Eb En]]]]].
    destruct start as [v|l].
    { exfalso. cbn in En. injection En as _ En. symmetry in En. apply map_eq_nil in En. assert (length (below_diag rho) = 0%nat) as L0 by (rewrite <- Eb, En; reflexivity). pose proof (below_diag_length rho) as L1. rewrite L0, (proj1 Sq) in L1. nia. }
    cbn [numbers] in En. subst l.
    rewrite (student_fit_ml F at_start fuel pobs NoDict d d' None tp sc true _ (Cons [Df]) m eq_refl W HF Em). cbn [c_params]. rewrite Ei.
    assert (V : student_vector (e_dim (s_ell t)) (Some 4.669 :: map Some rhos)).
    { split; [|split]. - cbn [length]. f_equal. rewrite map_length, Eb. pose proof (below_diag_length rho) as L1. rewrite (proj1 Sq) in L1. rewrite (proj2 Ho). unfold n_rhos. rewrite <- L1, (Nat.mul_comm 2), Nat.div_mul by lia. reflexivity.
      - intros v [<-|Iv]; [discriminate|]. apply in_map_iff in Iv. destruct Iv as [y [<- _]]. discriminate. - exists 4.669, (map Some rhos). split; [reflexivity|lra]. }
    destruct (student_store _ t _ eq_refl V) as [x [q [Ep Es]]]. injection Ep as <- <-.
    unfold estimate_ml_c, at_start. cbn [crun constraints nth_error numbers]. unfold calc_log_lik. cbn [sarr_list]. rewrite (no_nan_vec _ (proj1 (proj2 V))). cbn [set_params]. rewrite Es, HL.
    cbn [eval_con s_df fl_minus]. rewrite Rminus_diag_eq by reflexivity. rewrite Reqb_refl. cbn [crun set_params].
    destruct (student_store (e_dim (s_ell t)) (mkStudent (Some 4.669) (mkEll (e_dim (s_ell t)) false (map Some rhos))) _ eq_refl V) as [x2 [q2 [Ep2 Es2]]]. injection Ep2 as <- <-. rewrite Es2.
    eexists; eexists. split; reflexivity.
Qed.
Print Assumptions C102_fixed_refuted.
(** What does hold: a minimiser that moves in the other coordinates only and starts at the degrees of freedom of the copula keeps them. *)
Lemma set_student_first F t x r s' res : degrees (PStudent t) = x -> set_params F (PStudent t) (SVec (x :: r)) = (s', res) -> exists t', s' = PStudent t' /\ degrees s' = x.
Proof.
  intros E. cbn [set_params]. unfold student_set_params. cbn [pa_vals]. destruct (negb _); [intros H; injection H as <- _; eauto|].
  destruct (match x with Some r0 => Rleb r0 0 | None => false end); intros H; injection H as <- _; [eauto|]. eexists. split; reflexivity.
Qed.
Lemma run_keeps F cs d sc x o : keeps_first x o -> forall t tr res s' tr', s_df t = x -> crun F cs d sc o (PStudent t) tr = (res, s', tr') ->
  (exists t', s' = PStudent t' /\ s_df t' = x) /\ (forall b p f, res = Ok (b, p, f) -> exists r, p = SVec (x :: r)).
Proof.
  induction 1 as [r k _ IH|i p k _ IH|b r f|e]; intros t tr res s' tr' Ht E; cbn [crun] in E.
  - destruct (calc_log_lik F d sc (SVec (x :: r)) (PStudent t)) as [q s1] eqn:Ec.
    assert (K : exists t1, s1 = PStudent t1 /\ s_df t1 = x).
    { unfold calc_log_lik in Ec. destruct (existsb is_nan _); [injection Ec as _ <-; eauto|]. destruct (set_params F (PStudent t) (SVec (x :: r))) as [s2 r2] eqn:Es.
      destruct (set_student_first F t x r s2 r2 Ht Es) as [t2 [-> D2]]. exists t2. split; [|exact D2]. destruct r2 as [u|e2]; [destruct (f_log_lik F (PStudent t2) d false) as [v|[]]|destruct e2]; injection Ec as _ <-; reflexivity. }
    destruct K as [t1 [-> D1]]. destruct q as [v|e]; [exact (IH v t1 _ _ _ _ D1 E)|]. injection E as <- <- _. split; [eauto|]. discriminate.
  - destruct (nth_error cs i) as [c|]; [|injection E as <- <- _; split; [eauto|discriminate]]. destruct (eval_con c p (PStudent t)) as [v|e]; [exact (IH v t _ _ _ _ Ht E)|]. injection E as <- <- _. split; [eauto|discriminate].
  - injection E as <- <- _. split; [eauto|]. intros b' p f' Q. injection Q as _ <- _. eauto.
  - injection E as <- <- _. split; [eauto|discriminate].
Qed.
Theorem C102_kept_partial : forall F opt fuel pobs o d x l m tp sc fix_df t smry cols r c' o', s_df t = x -> x <> None ->
  (forall v, In v l -> v <> None) -> keeps_first x (opt (SVec (x :: l))) ->
  lower m = "ml"%string ->
  student_fit F opt fuel pobs (Ok tt) o d (Some (SVec (x :: l))) m tp sc fix_df (mkCop (PStudent t) smry cols) = Some (r, c', o') -> degrees (c_params c') = x.
Proof.
  intros F opt fuel pobs o d x l m tp sc fix_df t smry cols r c' o' Ht Hx Hl Hk Em. unfold student_fit. rewrite Em. cbn [String.eqb Ascii.eqb Bool.eqb negb].
  destruct (add_constraint fix_df o) as [o1|e]; [|intros H; injection H as _ <- _; exact Ht]. destruct (if tp then pobs d else Ok d) as [d'|e]; [|intros H; injection H as _ <- _; exact Ht].
  case_neg; [|intros H; injection H as _ <- _; exact Ht]. case_neg; [|intros H; injection H as _ <- _; exact Ht]. case_exists Ex; [intros H; injection H as _ <- _; exact Ht|].
  destruct (d_rows d' <? f_dim F)%nat; [intros H; injection H as _ <- _; exact Ht|]. rewrite initial_user by (cbn [numbers]; intros v [<-|Iv]; [exact Hx|exact (Hl v Iv)]). cbn [c_params].
  unfold estimate_ml_c. destruct (crun F (constraints o1) d' sc (opt (SVec (x :: l))) (PStudent t) []) as [[[[[b p] f]|e] s'] tr] eqn:Er; destruct (run_keeps _ _ _ _ _ _ Hk t _ _ _ _ Ht Er) as [[t' [-> D]] P].
  - destruct (P b p f eq_refl) as [q ->]. destruct b; [|intros H; injection H as _ <- _; exact D]. destruct (set_params F (PStudent t') (SVec (x :: q))) as [s2 r2] eqn:Es.
    destruct (set_student_first F t' x q s2 r2 D Es) as [t2 [-> D2]]. destruct r2; intros H; injection H as _ <- _; exact D2.
  - intros H; injection H as _ <- _. exact D.
Qed.
Print Assumptions C102_kept_partial.
(** the inversion methods leave the degrees of freedom alone, whatever happens *)
Theorem C102_inversion : forall F opt fuel pobs opts o d x0 m tp sc fix_df t smry cols r c' o', lower m = "itau"%string \/ lower m = "irho"%string -> lower (f_name F) = "student"%string ->
  student_fit F opt fuel pobs opts o d x0 m tp sc fix_df (mkCop (PStudent t) smry cols) = Some (r, c', o') -> degrees (c_params c') = s_df t.
Proof.
  intros F opt fuel pobs opts o d x0 m tp sc fix_df t smry cols r c' o' Hm Hn. unfold student_fit.
  destruct (add_constraint fix_df o) as [o1|e]; [|intros H; injection H as _ <- _; reflexivity].
  assert (M : String.eqb (lower m) "ml" = false /\ (String.eqb (lower m) "itau" || String.eqb (lower m) "irho") = true) by (destruct Hm as [-> | ->]; split; reflexivity).
  destruct M as [M1 M2]. rewrite M1. cbn [negb]. destruct (fit F _ fuel pobs opts d x0 m tp sc _) as [[r1 c1]|] eqn:E; cbn [option_map]; [|discriminate]. intros H. injection H as _ <- _. revert E.
  unfold fit. destruct (if tp then pobs d else Ok d) as [d'|e]; [|intros H; injection H as _ <-; reflexivity].
  case_neg; [|intros H; injection H as _ <-; reflexivity]. case_neg; [|intros H; injection H as _ <-; reflexivity]. case_exists Ex; [intros H; injection H as _ <-; reflexivity|].
  unfold fit_copula. destruct opts as [u|e]; [|intros H; injection H as _ <-; reflexivity]. cbv zeta. rewrite any_ok. destruct (d_rows d' <? f_dim F)%nat; [intros H; injection H as _ <-; reflexivity|].
  rewrite M1, M2. cbn [c_params]. destruct (estimate_inverse F d' (lower m) (PStudent t)) as [q s] eqn:Eq.
  assert (K : degrees s = s_df t).
  { unfold estimate_inverse in Eq. cbv zeta in Eq. rewrite lower_idem, M2 in Eq. cbn [negb] in Eq. destruct (fit_cor F d' (lower m)) as [icor|e]; [|injection Eq as _ <-; reflexivity].
    unfold is_elliptical in Eq. rewrite Hn in Eq. cbn [String.eqb Ascii.eqb Bool.eqb orb] in Eq. cbn [student_set_params fst] in Eq. destruct (f_log_lik F _ d' true) as [v|e]; injection Eq as _ <-; reflexivity. }
  destruct q; intros H; injection H as _ <-; exact K.
Qed.
Print Assumptions C102_inversion.
(** options without a list of constraints: KeyError before anything is done *)
Theorem C102_missing_key_refuted : forall F opt fuel pobs opts d x0 m tp sc c,
  student_fit F opt fuel pobs opts NoKey d x0 m tp sc true c = Some (Err KeyError, c, NoKey).
Proof. reflexivity. Qed.
Print Assumptions C102_missing_key_refuted.
(** a list of constraints given by the user is extended by every call, also by one that fails *)
Theorem C102_list_grows_refuted : forall F opt fuel pobs opts l d x0 m tp sc c r c' o',
  student_fit F opt fuel pobs opts (Cons l) d x0 m tp sc true c = Some (r, c', o') -> o' = Cons (l ++ [Df]).
Proof.
  intros F opt fuel pobs opts l d x0 m tp sc c r c' o'. unfold student_fit. cbn [add_constraint].
  repeat match goal with
  | |- option_map _ ?x = _ -> _ => destruct x; cbn [option_map]
  | |- (if ?b then _ else _) = _ -> _ => destruct b
  | |- match ?x with _ => _ end = _ -> _ => destruct x
  end; intros H; try discriminate; inversion H; reflexivity.
Qed.
Print Assumptions C102_list_grows_refuted.

(** a Student copula with 10 degrees of freedom, three observations, a sample correlation of 1/2 *)
Definition toy_rho : mat R := mkMat 2 2 (fun i j => if Nat.eqb i j then 1 else / 2).
Definition toy_family : family := mkFamily "Student" 2 (fun _ => true) (fun l => Ok l) (fun l => Ok l) (fun _ _ _ => Ok (Fin 1))
  (fun _ => Ok (enfl toy_rho)) (fun _ => Ok (enfl toy_rho)) (fun _ => Ok (enfl toy_rho)) (fun _ => []) (fun m => m).
Definition toy_data : data := mkData 2 3 2 [Some (/ 4); Some (/ 4); Some (/ 2); Some (3 / 4); Some (3 / 4); Some (/ 2)] None.
Definition toy_student : student := mkStudent (Some 10) (mkEll 2 false [Some 0]).
Example C102_case : fittable toy_family toy_data /\ elliptical_object toy_family (PStudent toy_student) /\ f_prho toy_family toy_data = Ok (enfl toy_rho) /\
  square 2 toy_rho /\ (forall i j, (i < 2)%nat -> (j < 2)%nat -> -1 <= get toy_rho i j <= 1) /\ degrees (PStudent toy_student) = Some 10 /\
  student_vector 2 [Some 5; Some (/ 3)] /\ checks_after 2 None (at_start (SVec [Some 5; Some (/ 3)])) /\
  keeps_first (Some 10) (at_start (SVec [Some 10; Some (/ 3)])).
Proof.
  split; [|split; [|split; [|split; [|split; [|split; [|split; [|split]]]]]]].
  - split; [split; reflexivity|]. split; [|cbn; lia]. intros v Iv [r [-> Hr]]. cbn in Iv. decompose [or] Iv; try contradiction; match goal with H : Some _ = Some r |- _ => injection H as <- end; lra.
  - split; reflexivity.
  - reflexivity.
  - split; reflexivity.
  - intros i j Hi Hj. cbn. destruct (Nat.eqb i j); lra.
  - reflexivity.
  - split; [reflexivity|]. split; [intros v [<-|[<-|[]]]; discriminate|]. exists 5, [Some (/ 3)]. split; [reflexivity|lra].
  - constructor; [split; [reflexivity|]; split; [intros v [<-|[<-|[]]]; discriminate|exists 5, [Some (/ 3)]; split; [reflexivity|lra]]|]. intros f. constructor. intros [z|]; [cbn; destruct (Reqb z 0)|]; constructor.
  - constructor. intros f. constructor. intros [z|]; [cbn; destruct (Reqb z 0)|]; constructor.
Qed.
