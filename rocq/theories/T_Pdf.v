(** C25, C69: the Archimedean densities. *)
From Coquelicot Require Import Coquelicot.
From Verif Require Import Base RSumLib Ext S_Archimedean P_Gen M_Archimedean P_Arch P_Arch2 P_CM P_ArchCode M_Special S_Special P_Stirling P_Partitions P_Eulerian P_Polylog M_Gumbel S_Gumbel P_Gumbel P_GumbelPoly T_Gumbel M_Pdf S_Pdf P_Pdf.
Open Scope R_scope.

(** [pdf], called on an array of rows, answers the mixed derivative of [C] at every row, and with log=True its logarithm;
    the density is positive *)
Definition density_of (C : list R -> R) (pdf : bool -> list (list ext) -> result (list ext)) (rows : list (list R)) : Prop :=
  exists vs, pdf false (map (map Fin) rows) = Ok (map Fin vs) /\ pdf true (map (map Fin) rows) = Ok (map (fun v => Fin (ln v)) vs) /\
             Forall2 (fun u v => 0 < v /\ mixed_derivative C u v) rows vs.

Lemma density_from (C : list R -> R) pdf (dens : list R -> R) rows :
  (forall log, pdf log (map (map Fin) rows) = Ok (map (fun u => out log (Fin (ln (dens u)))) rows)) ->
  Forall (fun u => 0 < dens u /\ mixed_derivative C u (dens u)) rows -> density_of C pdf rows.
Proof.
  intros E F. exists (map dens rows). rewrite !map_map. split; [|split].
  - rewrite E. f_equal. apply map_ext_in. intros u I. rewrite Forall_forall in F. destruct (F u I) as [P _]. cbn. rewrite exp_ln by exact P. reflexivity.
  - rewrite E. reflexivity.
  - clear E. induction F as [|u rows [P M] F IH]; cbn; constructor; auto.
Qed.

(** ** C25 *)
(** Clayton, theta > 0, any dimension *)
Theorem C25_clayton : forall th rows, 0 < th -> Forall (fun u => open_cube u /\ (1 <= length u)%nat) rows ->
  density_of (fun l => val (clayton_cdf th (map Fin l))) (clayton_pdf th) rows.
Proof.
  intros th rows H F. apply (density_from _ _ (clayton_density th)).
  - intros log. unfold clayton_pdf. destruct rows as [|r rows]; [reflexivity|]. 
    assert (E : existsb valid_row (map (map Fin) (r :: rows)) = true). { cbn [map existsb]. inversion F as [|? ? [A _] _]; subst. rewrite valid_open by exact A. reflexivity. }
    rewrite E. cbn [negb]. rewrite Reqb_neq by lra. f_equal. rewrite map_map. apply map_ext_in. intros u I. rewrite Forall_forall in F. destruct (F u I) as [A N].
    rewrite clayton_log_pos by (auto; lia). reflexivity.
  - eapply Forall_impl; [|exact F]. cbn. intros u [A N]. split; [apply clayton_density_pos_dim; exact H|apply clayton_mixed_pos; auto; lia].
Qed.
Print Assumptions C25_clayton.
(** Clayton, -1 <= theta < 0, two dimensions, off the curve u^-theta + v^-theta = 1 (where the cdf has a kink) *)
Theorem C25_clayton_negative_partial : forall th u v, -1 <= th < 0 -> 0 < u < 1 -> 0 < v < 1 -> Rpower u (- th) + Rpower v (- th) <> 1 ->
  exists w, 0 <= w /\ mixed_derivative (fun l => val (clayton_cdf th (map Fin l))) [u; v] w /\
    clayton_pdf th false [[Fin u; Fin v]] = Ok [Fin w] /\ clayton_pdf th true [[Fin u; Fin v]] = Ok [elog (Fin w)].
Proof.
  intros th u v H Hu Hv N. exists (clayton_density2 th u v).
  assert (P : 0 <= clayton_density2 th u v).
  { unfold clayton_density2. destruct (Rltb 1 _); [|lra]. unfold clayton_density. cbn [length seq Nat.sub map lprod INR].
    pose proof (Rpower_pos (1 + lsum [Rpower u (- th) - 1; Rpower v (- th) - 1]) (-1 / th - INR 2)). pose proof (Rpower_pos u (- th - 1)). pose proof (Rpower_pos v (- th - 1)).
    repeat apply Rmult_le_pos; try lra; try (left; assumption). }
  assert (V : valid_row [Fin u; Fin v] = true) by (apply (valid_open [u; v]); repeat constructor; lra).
  split; [exact P|]. split; [apply clayton_mixed_neg; auto; lra|].
  unfold clayton_pdf. cbn [existsb map]. rewrite V. cbn [orb negb]. rewrite Reqb_neq by lra. rewrite clayton_log_neg by assumption. cbn [out]. split; [|reflexivity].
  do 2 f_equal. destruct P as [P|P].
  - rewrite elog_pos by exact P. cbn. rewrite exp_ln by exact P. reflexivity.
  - rewrite <- P, elog_0. reflexivity.
Qed.
Print Assumptions C25_clayton_negative_partial.
Lemma gumbel_rows gamma gammaln th rows : gamma_function gamma -> log_gamma_function gamma gammaln -> 1 < th ->
  Forall (fun u => open_cube u /\ (1 <= length u <= 30)%nat) rows -> forall u, In u rows ->
  gumbel_log_pdf gamma gammaln th (map Fin u) = Ok (Fin (ln (gumbel_density th u))) /\ 0 < gumbel_density th u.
Proof.
  intros HG HL H F u I. rewrite Forall_forall in F. destruct (F u I) as [A N].
  assert (Ha : 0 < 1 / th <= 1) by (apply inv_01; lra).
  assert (M : is_method_of (length u) (1 / th) (lower "default")) by (right; right; right; right; split; [reflexivity|lia]).
  apply gumbel_log_ok; auto; [lia| |].
  - intros lx. apply (C29_methods_partial gamma gammaln [lx] (length u) (1 / th) "default" true HG HL Ha ltac:(lia) M).
  - apply (C29_methods_partial gamma gammaln [] (length u) (1 / th) "default" true HG HL Ha ltac:(lia) M).
Qed.
(** Gumbel, theta > 1, up to 30 dimensions.  Missing: more dimensions, where the default evaluation of the polynomial raises or
    answers nan ([C29_default_log_refuted], [C29_default_sort_refuted]). *)
Theorem C25_gumbel_partial : forall gamma gammaln th rows, gamma_function gamma -> log_gamma_function gamma gammaln -> 1 < th ->
  Forall (fun u => open_cube u /\ (1 <= length u <= 30)%nat) rows ->
  density_of (fun l => val (gumbel_cdf th (map Fin l))) (gumbel_pdf gamma gammaln th) rows.
Proof.
  intros gamma gammaln th rows HG HL H F. pose proof (gumbel_rows gamma gammaln th rows HG HL H F) as R. apply (density_from _ _ (gumbel_density th)).
  - intros log. unfold gumbel_pdf. rewrite Reqb_neq by lra.
    assert (E : mapM (gumbel_log_pdf gamma gammaln th) (map (map Fin) rows) = Ok (map (fun u => Fin (ln (gumbel_density th u))) rows)).
    { clear F. induction rows as [|u rows IH]; [reflexivity|]. cbn [map mapM]. destruct (R u (or_introl eq_refl)) as [-> _]. cbn [bind]. rewrite IH by (intros w I; apply R; right; exact I). reflexivity. }
    rewrite E. cbn [rmap]. rewrite map_map. reflexivity.
  - rewrite Forall_forall in F |- *. intros u I. destruct (F u I) as [A N]. split; [apply R; exact I|apply gumbel_mixed; [lra|lia|exact A]].
Qed.
Print Assumptions C25_gumbel_partial.
(** Gumbel, theta = 1: the independence copula, any dimension *)
Theorem C25_gumbel_one : forall gamma gammaln rows, Forall (fun u => open_cube u /\ (1 <= length u)%nat) rows ->
  density_of (fun l => val (gumbel_cdf 1 (map Fin l))) (gumbel_pdf gamma gammaln 1) rows.
Proof.
  intros gamma gammaln rows F. apply (density_from _ _ (fun _ => 1)).
  - intros log. unfold gumbel_pdf. rewrite Reqb_refl, map_map. f_equal. apply map_ext_in. intros u I. rewrite Forall_forall in F. destruct (F u I) as [A N]. rewrite valid_open by exact A.
    rewrite ln_1. destruct log; cbn; [reflexivity|rewrite exp_0; reflexivity].
  - rewrite Forall_forall in F |- *. intros u I. destruct (F u I) as [A N]. split; [lra|].
    match goal with |- mixed_derivative ?F u _ => assert (K : mixed_derivative F u (exp (- (0 + lsum (map (fun x => - ln x) u))) * (-1) ^ length u * lprod (map (fun x => - / x) u))) end;
      [|match type of K with mixed_derivative _ _ ?v => replace v with 1 in K end; [exact K|symmetry]].
    + apply (mixed_ext 0 (fun l => (fun k t => (-1) ^ k * exp (- t)) 0%nat (0 + lsum (map (fun x => - ln x) l)))); [exact A| |].
      * intros l Hl E. assert (N' : (0 < length l)%nat) by lia. rewrite gumbel_cdf_val by (auto; lra). pose proof (gu_s_pos 1 l N' Hl). rewrite Rplus_0_l, Rplus_0_l, gu_k_0 by assumption. unfold gumbel_generator.
        cbn [pow]. rewrite Rmult_1_l. f_equal. f_equal. replace (1 / 1) with 1 by field. rewrite Rpower_1 by assumption. unfold gu_s. apply lsum_map_ext. intros x Ix. unfold gu_g. rewrite Rpower_1; [reflexivity|].
        pose proof (ln_neg x (open_cube_in _ _ Hl Ix)). lra.
      * rewrite (Rmult_comm (exp _)). apply (mixed_sum 0 (fun x => - ln x) (fun x => - / x) (fun k t => (-1) ^ k * exp (- t)) (fun _ => True)); auto.
        -- intros x Hx. apply nln_derive. lra.
        -- intros t _. apply filter_true.
        -- intros k t _. auto_derive; [exact Logic.I|]. rewrite <- tech_pow_Rmult. ring.
    + rewrite Rplus_0_l, (lprod_opp (fun x => / x)). 
      transitivity (((-1) ^ length u * (-1) ^ length u) * (exp (- lsum (map (fun x => - ln x) u)) * lprod (map (fun x => / x) u))); [ring|]. rewrite pow_m1_sq, Rmult_1_l. clear K F I N.
      induction A as [|x r Hx A IH]; [cbn; rewrite Ropp_0, exp_0; ring|]. cbn [map lsum lprod]. rewrite Ropp_plus_distr, exp_plus, Ropp_involutive, exp_ln by lra.
      transitivity (x * / x * (exp (- lsum (map (fun x => - ln x) r)) * lprod (map (fun x => / x) r))); [ring|]. rewrite IH, Rinv_r by lra. ring.
Qed.
Print Assumptions C25_gumbel_one.
Lemma frank_rows gamma dilog th log rows : (forall m, gamma (INR m + 1)%R = INR (fact m)) -> 0 < th ->
  Forall (fun u => open_cube u /\ (1 <= length u <= 19)%nat) rows ->
  frank_pdf gamma dilog th log (map (map Fin) rows) = Ok (map (fun u => out log (Fin (ln (frank_density th u)))) rows).
Proof.
  intros G H F. unfold frank_pdf.
  assert (E : mapM (fun r => if valid_row r then frank_log_pdf gamma dilog th r else Ok Nan) (map (map Fin) rows) = Ok (map (fun u => Fin (ln (frank_density th u))) rows)).
  { induction F as [|u rows [A N] F IH]; [reflexivity|]. cbn [map mapM]. rewrite valid_open by exact A. rewrite frank_log_ok by assumption. cbn [bind]. rewrite IH. reflexivity. }
  rewrite E. cbn [rmap]. rewrite map_map. reflexivity.
Qed.
(** Frank, theta > 0, up to 19 dimensions, coordinates above 1/100 (below, the cdf itself is wrong: C16).
    Missing: theta < 0 (refuted below) and more dimensions (the polylogarithm overflows, C35). *)
Theorem C25_frank_partial : forall gamma dilog th rows, (forall m, gamma (INR m + 1)%R = INR (fact m)) -> 0 < th ->
  Forall (fun u => Forall (fun x => 1 / 100 < x < 1) u /\ (1 <= length u <= 19)%nat) rows ->
  density_of (fun l => val (frank_cdf th (map Fin l))) (frank_pdf gamma dilog th) rows.
Proof.
  intros gamma dilog th rows G H F. assert (F' : Forall (fun u => open_cube u /\ (1 <= length u <= 19)%nat) rows).
  { eapply Forall_impl; [|exact F]. cbn. intros u [A N]. split; [|exact N]. eapply Forall_impl; [|exact A]. cbn. intros; lra. }
  apply (density_from _ _ (frank_density th)); [intros log; apply frank_rows; assumption|].
  rewrite Forall_forall in F, F' |- *. intros u I. destruct (F u I) as [A N], (F' u I) as [A' _]. split; [apply frank_density_pos|apply frank_mixed]; auto; lia.
Qed.
Print Assumptions C25_frank_partial.
(** and on the whole open cube it is the density of the textbook Frank copula *)
Theorem C25_frank_textbook_partial : forall gamma dilog th rows, (forall m, gamma (INR m + 1)%R = INR (fact m)) -> 0 < th ->
  Forall (fun u => open_cube u /\ (1 <= length u <= 19)%nat) rows ->
  density_of (frank_copula th) (frank_pdf gamma dilog th) rows.
Proof.
  intros gamma dilog th rows G H F. apply (density_from _ _ (frank_density th)); [intros log; apply frank_rows; assumption|].
  rewrite Forall_forall in F |- *. intros u I. destruct (F u I) as [A N]. split; [apply frank_density_pos; auto; lia|].
  apply (frank_mixed_gen 0); auto; try lra; try lia. intros l Hl. apply frank_textbook; assumption.
Qed.
Print Assumptions C25_frank_textbook_partial.
(** Finding: for a negative theta the Frank density is nan at every point *)
Theorem C25_frank_negative_refuted : forall gamma dilog th log rows, th < 0 ->
  frank_pdf gamma dilog th log rows = Ok (map (fun _ => Nan) rows).
Proof.
  intros gamma dilog th log rows H. unfold frank_pdf.
  assert (E : mapM (fun r => if valid_row r then frank_log_pdf gamma dilog th r else Ok Nan) rows = Ok (map (fun _ => Nan) rows)).
  { induction rows as [|r rows IH]; [reflexivity|]. cbn [map mapM]. rewrite IH. destruct (valid_row r); [|reflexivity].
    unfold frank_log_pdf. assert (L : log1mexp (Fin th) = Nan). { unfold log1mexp, esub. cbn [eopp eexp eadd elog]. pose proof (exp_gt_1 (- th) ltac:(lra)). rewrite Rltb_ge, Reqb_neq by lra. reflexivity. }
    rewrite L. reflexivity. }
  rewrite E. cbn [rmap]. rewrite map_map. f_equal. apply map_ext. intros _. destruct log; reflexivity.
Qed.
Print Assumptions C25_frank_negative_refuted.
(** Finding: for theta = 0 the Clayton density is 0 instead of 1 (the density of the independence copula) *)
Theorem C25_clayton_zero_refuted : forall u, open_cube u ->
  clayton_pdf 0 false [map Fin u] = Ok [Fin 0] /\ mixed_derivative lprod u 1.
Proof.
  intros u A. split.
  - unfold clayton_pdf. cbn [existsb map]. rewrite valid_open by exact A. cbn [orb negb]. rewrite Reqb_refl. reflexivity.
  - assert (P : forall c, mixed_derivative (fun l => c * lprod l) u c).
    { clear A. induction u as [|x r IH]; intros c; [cbn; ring|]. cbn [mixed_derivative]. exists (fun y => c * y). split.
      - apply filter_forall. intros y. assert (Q : forall F G v, (forall l, F l = G l) -> mixed_derivative F r v -> mixed_derivative G r v).
        { clear. induction r as [|z r IH]; intros F G v E H; cbn [mixed_derivative] in *; [rewrite <- E; exact H|]. destruct H as [g [L D]]. exists g. split; [|exact D].
          generalize L. apply filter_imp. intros y. apply IH. intros l. apply E. }
        apply (Q (fun l => c * y * lprod l)); [intros l; cbn; ring|apply IH].
      - auto_derive; [exact Logic.I|ring]. }
    specialize (P 1). revert P. assert (Q : forall F G v r, (forall l, F l = G l) -> mixed_derivative F r v -> mixed_derivative G r v).
    { clear. intros F G v r. revert F G v. induction r as [|z r IH]; intros F G v E H; cbn [mixed_derivative] in *; [rewrite <- E; exact H|]. destruct H as [g [L D]]. exists g. split; [|exact D].
      generalize L. apply filter_imp. intros y. apply IH. intros l. apply E. }
    apply Q. intros. ring.
Qed.
Print Assumptions C25_clayton_zero_refuted.
Example C25_case : density_of (fun l => val (clayton_cdf 2 (map Fin l))) (clayton_pdf 2) [[1 / 2; 1 / 3; 1 / 4]; [9 / 10; 1 / 10; 1 / 2]].
Proof. apply C25_clayton; [lra|]. repeat constructor; cbn; lra || lia. Qed.
(** the mixed derivative determines the density *)
Theorem C25_density_unique : forall F u v w, mixed_derivative F u v -> mixed_derivative F u w -> v = w.
Proof. intros F u v w. apply mixed_unique. Qed.
Print Assumptions C25_density_unique.

(** ** C69 *)
Definition outside (row : list ext) : Prop := exists x, In x row /\ ~ exists u, x = Fin u /\ 0 <= u <= 1.
Lemma outside_invalid row : outside row <-> valid_row row = false.
Proof.
  unfold outside, valid_row. split.
  - intros [x [I N]]. apply not_true_is_false. rewrite forallb_forall. intros F. specialize (F x I). destruct x as [u| | |]; try discriminate. apply N. exists u. split; [reflexivity|].
    apply andb_true_iff in F. destruct F as [F1 F2]. apply Rleb_true in F1. apply Rleb_true in F2. lra.
  - intros F. induction row as [|x row IH]; [discriminate|]. cbn in F. apply andb_false_iff in F. destruct F as [F|F].
    + exists x. split; [left; reflexivity|]. intros [u [-> H]]. rewrite !(proj2 (Rleb_true _ _)) in F by lra. discriminate.
    + destruct (IH F) as [y [I N]]. exists y. split; [right; exact I|exact N].
Qed.
(** every row outside the unit cube gets nan: Frank for every theta *)
Theorem C69_frank_masks : forall gamma dilog th log rows out, frank_pdf gamma dilog th log rows = Ok out ->
  length out = length rows /\ forall i, (i < length rows)%nat -> outside (nth i rows []) -> nth i out (Fin 0) = Nan.
Proof.
  intros gamma dilog th log rows. unfold frank_pdf. induction rows as [|r rows IH]; intros o E.
  - cbn in E. injection E as <-. split; [reflexivity|]. cbn. lia.
  - cbn [mapM] in E. destruct (if valid_row r then _ else _) as [v|e] eqn:V; [|discriminate]. cbn [bind] in E.
    destruct (mapM _ rows) as [vs|e]; [|discriminate]. cbn in E. injection E as <-. destruct (IH _ eq_refl) as [L N]. split; [cbn; congruence|].
    intros [|i] Hi O; cbn [nth] in *.
    + apply outside_invalid in O. rewrite O in V. injection V as <-. destruct log; reflexivity.
    + apply N; [cbn in Hi; lia|exact O].
Qed.
Print Assumptions C69_frank_masks.
Lemma esum_nan_in l : In Nan l -> esum l = Nan.
Proof. induction l as [|x l IH]; [intros []|]. intros [->|I]; cbn; [reflexivity|]. fold (esum l). rewrite (IH I). destruct x; reflexivity. Qed.
(** Gumbel, theta >= 1 *)
Theorem C69_gumbel_masks : forall gamma gammaln th log rows out, 1 <= th -> gumbel_pdf gamma gammaln th log rows = Ok out ->
  length out = length rows /\ forall i, (i < length rows)%nat -> outside (nth i rows []) -> ~ In Pinf (nth i rows []) -> nth i out (Fin 0) = Nan.
Proof.
  intros gamma gammaln th log rows o H. unfold gumbel_pdf. destruct (Reqb th 1) eqn:E1.
  - intros E. injection E as <-. rewrite map_length. split; [reflexivity|]. intros i Hi O _. apply outside_invalid in O.
    rewrite (nth_indep _ _ ((fun r => if valid_row r then Fin (if log then 0 else 1) else Nan) [])) by (rewrite map_length; exact Hi).
    rewrite (map_nth (fun r => if valid_row r then Fin (if log then 0 else 1) else Nan)). rewrite O. reflexivity.
  - apply Reqb_false in E1. revert o. induction rows as [|r rows IH]; intros o E.
    + cbn in E. injection E as <-. split; [reflexivity|]. cbn. lia.
    + cbn [mapM] in E. destruct (gumbel_log_pdf gamma gammaln th r) as [v|e] eqn:V; [|discriminate]. cbn [bind] in E.
      destruct (mapM _ rows) as [vs|e]; [|discriminate]. cbn in E. injection E as <-. destruct (IH _ eq_refl) as [L N]. split; [cbn; congruence|].
      intros [|i] Hi O P; cbn [nth] in *; [|apply N; [cbn in Hi; lia|exact O|exact P]].
      replace v with Nan; [destruct log; reflexivity|].
      destruct O as [x [I O]]. revert V. unfold gumbel_log_pdf.
      assert (X : elog (gumbel_ipsi th x) = Nan).
      { unfold gumbel_ipsi. destruct x as [u| | |]; cbn [elog eopp]; try reflexivity.
        - destruct (Rltb 0 u) eqn:P0.
          + apply Rltb_true in P0. assert (1 < u). { apply Rnot_le_lt. intros Q. apply O. exists u. split; [reflexivity|lra]. }
            assert (0 < ln u) by (rewrite <- ln_1; apply ln_increasing; lra). cbn [eopp]. unfold epow. rewrite Reqb_neq by lra. rewrite Rltb_ge, Reqb_neq by lra. reflexivity.
          + apply Rltb_false in P0. assert (u < 0). { apply Rnot_le_lt. intros Q. apply O. exists u. split; [reflexivity|lra]. } rewrite Reqb_neq by lra. cbn [eopp epow].
            unfold epow. rewrite Reqb_neq by lra. reflexivity.
        - contradiction.
        - cbn. unfold epow. rewrite Reqb_neq by lra. reflexivity.
        - cbn. unfold epow. rewrite Reqb_neq by lra. reflexivity. }
      assert (S : esum (map (fun l => eexp (esub l (row_max r))) (map (fun u => elog (gumbel_ipsi th u)) r)) = Nan).
      { apply esum_nan_in. rewrite map_map. apply in_map_iff. exists x. rewrite X. split; [reflexivity|exact I]. }
      rewrite S. cbn [elog]. replace (eadd (row_max r) Nan) with Nan by (destruct (row_max r); reflexivity). cbn [escal]. congruence.
Qed.
Print Assumptions C69_gumbel_masks.
(** Clayton, theta <= 0 *)
Theorem C69_clayton_masks : forall th log rows out, th <= 0 -> clayton_pdf th log rows = Ok out ->
  length out = length rows /\ forall i, (i < length rows)%nat -> outside (nth i rows []) -> nth i out (Fin 0) = Nan.
Proof.
  intros th log rows o H. unfold clayton_pdf.
  assert (G : forall f, (forall r, valid_row r = false -> f r = Nan) -> Ok (map f rows) = Ok o ->
    length o = length rows /\ forall i, (i < length rows)%nat -> outside (nth i rows []) -> nth i o (Fin 0) = Nan).
  { intros f Hf E. injection E as <-. rewrite map_length. split; [reflexivity|]. intros i Hi O. apply outside_invalid in O.
    rewrite (nth_indep _ _ (f [])) by (rewrite map_length; exact Hi). rewrite map_nth. apply Hf. exact O. }
  destruct (negb _); [apply (G (fun _ => Nan)); reflexivity|]. destruct (Reqb th 0) eqn:E0.
  - apply G. intros r ->. reflexivity.
  - apply Reqb_false in E0. apply G. intros r V. unfold clayton_log_pdf. rewrite (Rltb_lt th 0) by lra. rewrite V. destruct log; reflexivity.
Qed.
Print Assumptions C69_clayton_masks.
(** Finding: with theta > 0 a row above 1 gets a finite number as soon as some other row is valid *)
Theorem C69_clayton_refuted : forall th x, 0 < th -> 1 < x -> 1 < Rpower x (- th) + Rpower x (- th) ->
  outside [Fin x; Fin x] /\ exists w, clayton_pdf th true [[Fin (1 / 2); Fin (1 / 2)]; [Fin x; Fin x]] = Ok [Fin (ln (clayton_density th [1 / 2; 1 / 2])); Fin w].
Proof.
  intros th x H Hx P. split; [exists (Fin x); split; [left; reflexivity|intros [u [E Hu]]; injection E as <-; lra]|].
  assert (A : open_cube [1 / 2; 1 / 2]) by (repeat constructor; lra).
  unfold clayton_pdf. cbn [existsb map]. rewrite (valid_open _ A : valid_row [Fin (1 / 2); Fin (1 / 2)] = true). cbn [orb negb]. rewrite Reqb_neq by lra. cbn [out].
  rewrite (clayton_log_pos th [1 / 2; 1 / 2] H ltac:(cbn; lia) A : clayton_log_pdf th [Fin (1 / 2); Fin (1 / 2)] = _).
  unfold clayton_log_pdf. rewrite (Rltb_ge th 0) by lra. cbn [map length seq Nat.sub INR]. rewrite !elog_pos by lra. rewrite !clayton_ipsi_pos by lra. cbn [esum fold_right eadd].
  unfold cp_f. rewrite elog_pos by lra. unfold esub. cbn [escal eopp eadd]. eexists. reflexivity.
Qed.
Print Assumptions C69_clayton_refuted.
Example C69_case : 1 < Rpower 2 (- (1 / 2)) + Rpower 2 (- (1 / 2)).
Proof.
  assert (E : Rpower 2 (- (1 / 2)) * Rpower 2 (- (1 / 2)) = / 2).
  { rewrite <- Rpower_plus. replace (- (1 / 2) + - (1 / 2)) with (- (1)) by field. rewrite Rpower_Ropp, Rpower_1; lra. }
  pose proof (Rpower_pos 2 (- (1 / 2))). nra.
Qed.
