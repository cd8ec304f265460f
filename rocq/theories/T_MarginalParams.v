(** Property C121: the reported parameters of a copula with margins describe it (/repo/copulae/marginal). *)
From Coquelicot Require Import Coquelicot.
From Verif Require Import Base RSumLib Ext M_Annot M_Special M_Marginal S_Marginal T_Marginal M_MarginalParams.
Open Scope R_scope.

(** the arguments of a frozen distribution fit its parameters, as for every object scipy makes *)
Definition usable (f : frozen) : Prop := exists l, bind_arguments (fz_dist f) (fz_args f) (fz_kwds f) = Ok l.
(** scipy.stats has the distribution under the name of its class without "_gen", a name that is no alias *)
Definition found_by_class (stats : string -> option attribute) (d : dist) : Prop :=
  stats (type_name d) = Some (AContinuous d) /\ strip (lower (type_name d)) = type_name d /\
  ~ In (type_name d) ["normal"; "gaussian"; "student"; "exp"]%string.
(** the same family with the same parameters *)
Definition same_law (f g : frozen) : Prop := fz_dist f = fz_dist g /\ frozen_params f = frozen_params g.

Lemma reported_values_aux kwds : forall sig args l,
  M_Special.mapM (fun s : string * option R => match lookup kwds (fst s) with Some v => Ok v | None => match snd s with Some v => Ok v | None => Err TypeError end end) (skipn (length args) sig) = Ok l ->
  (length args <= length sig)%nat ->
  map (fun i => let s := nth i sig (EmptyString, None) in
      (fst s, match nth_error args i with Some v => v | None => match lookup kwds (fst s) with Some v => v | None => match snd s with Some v => v | None => 0 end end end)) (seq 0 (length sig))
  = combine (map fst sig) (args ++ l).
Proof.
  induction sig as [|s sig IH]; intros args l H L.
  - destruct args; [|cbn in L; lia]. reflexivity.
  - cbn [length seq map combine]. rewrite <- seq_shift, map_map. destruct args as [|a args].
    + cbn [length skipn M_Special.mapM bind] in H. cbn [app nth nth_error].
      destruct (match lookup kwds (fst s) with Some v => Ok v | None => match snd s with Some v => Ok v | None => Err TypeError end end) as [v|e] eqn:E; cbn [bind] in H; [|discriminate].
      destruct (M_Special.mapM _ sig) as [r|] eqn:M; cbn [bind] in H; [|discriminate]. injection H as <-. cbn [combine]. f_equal.
      * f_equal. destruct (lookup kwds (fst s)); [congruence|]. destruct (snd s); congruence.
      * pose proof (IH [] r M ltac:(cbn; lia)) as IH'. cbn [app] in IH'. rewrite <- IH'. apply map_ext. intros i. destruct i; reflexivity.
    + cbn [length skipn] in H. cbn [app combine nth nth_error]. f_equal. rewrite <- (IH args l H) by (cbn in L; lia). reflexivity.
Qed.
Lemma reported_values f : usable f -> marginal_parameters f = combine (parameter_names (fz_dist f)) (frozen_params f) /\
  length (frozen_params f) = length (parameter_names (fz_dist f)).
Proof.
  intros [l H]. unfold frozen_params. rewrite H. rewrite <- signature_names. unfold bind_arguments in H. cbv zeta in H.
  destruct (length (signature (fz_dist f)) <? length (fz_args f))%nat eqn:E; [discriminate|]. apply Nat.ltb_ge in E.
  destruct (negb _); [discriminate|]. destruct (M_Special.mapM _ _) as [r|] eqn:M; [|discriminate]. cbn [rmap] in H. injection H as <-.
  split; [exact (reported_values_aux (fz_kwds f) (signature (fz_dist f)) (fz_args f) r M E)|].
  rewrite app_length, map_length. assert (K : forall A B (g : A -> result B) s r, M_Special.mapM g s = Ok r -> length r = length s).
  { clear. intros A B g. induction s as [|a s IH]; intros r H; cbn in H; [injection H as <-; reflexivity|]. destruct (g a); cbn in H; [|discriminate].
    destruct (M_Special.mapM g s); cbn in H; [|discriminate]. injection H as <-. cbn. f_equal. apply IH. reflexivity. }
  rewrite (K _ _ _ _ _ M), skipn_length. lia.
Qed.
Lemma value_combine names : forall vs, NoDup names -> length vs = length names -> map (value (combine names vs)) names = vs.
Proof.
  induction names as [|n names IH]; intros [|v vs] N L; try discriminate; [reflexivity|]. inversion N as [|? ? N1 N2]; subst. cbn [combine map]. f_equal.
  - unfold value. cbn [find fst]. rewrite String.eqb_refl. reflexivity.
  - rewrite <- (IH vs) at 2 by (auto; cbn in L; lia). apply map_ext_in. intros m Hm. unfold value. cbn [find fst].
    destruct (String.eqb_spec n m) as [->|D]; [contradiction|reflexivity].
Qed.
Lemma completed_full d p : (forall s, In s (dd_shapes d) -> has p s = true) -> completed d p = p.
Proof.
  rewrite completed_shapes. induction (dd_shapes d) as [|s l IH]; intros H; [reflexivity|]. cbn [fold_left]. rewrite (H s (or_introl eq_refl)).
  apply IH. intros s' H'. apply H. right. exact H'.
Qed.
Lemma set_dict_same (h : heap) : forall r, (r < length h)%nat -> set_dict h r (nth r h []) = h.
Proof. induction h as [|p h IH]; intros [|r] H; cbn in H; try lia; [reflexivity|]. unfold set_dict in *. cbn. f_equal. apply IH. lia. Qed.
Lemma found_class stats d : found_by_class stats d -> get_marginal_class stats (Some (TStr (type_name d))) = Ok d.
Proof.
  intros [A [B C]]. unfold get_marginal_class. cbv zeta. rewrite B. cbn [existsb].
  destruct (String.eqb_spec (type_name d) "normal") as [E|E]; [exfalso; apply C; cbn; auto|].
  destruct (String.eqb_spec (type_name d) "gaussian") as [E1|E1]; [exfalso; apply C; cbn; auto|].
  destruct (String.eqb_spec (type_name d) "student") as [E2|E2]; [exfalso; apply C; cbn; auto|].
  destruct (String.eqb_spec (type_name d) "exp") as [E3|E3]; [exfalso; apply C; cbn; auto|]. cbn. rewrite A. reflexivity.
Qed.
(** one margin: the reported dictionary is complete, is left alone, and gives the same law *)
Lemma recreate stats (h : heap) f r : usable f -> well_named (fz_dist f) -> found_by_class stats (fz_dist f) -> (r < length h)%nat -> @nth dict r h [] = marginal_parameters f ->
  exists g, create_univariate stats h (mkDetails (Some (TStr (type_name (fz_dist f)))) (Some r)) = (h, Ok g) /\ same_law f g /\ usable g.
Proof.
  intros U W F Hr E. set (dt := mkDetails (Some (TStr (type_name (fz_dist f)))) (Some r)).
  pose proof (found_class stats _ F) as Hc. destruct (reported_values f U) as [R1 R2].
  assert (G : given h dt = combine (parameter_names (fz_dist f)) (frozen_params f)) by (unfold given; cbn [dt dt_params]; rewrite E; exact R1).
  assert (K : forall e, In e (given h dt) -> In (fst e) (parameter_names (fz_dist f))).
  { rewrite G. intros [a b] He. apply in_combine_l in He. exact He. }
  destruct (C57_defaults stats h dt (fz_dist f) Hc W) as [D1 [D2 _]].
  destruct (proj2 D2 K) as [g Hg]. exists g.
  destruct (create_univariate stats h dt) as [h' res] eqn:Cr. cbn [snd] in Hg. subst res. destruct (D1 g h' eq_refl) as [X1 [X2 X3]].
  assert (h' = h).
  { unfold create_univariate in Cr. cbn [dt dt_type dt_params] in Cr. rewrite Hc in Cr. injection Cr as <- _.
    change (fold_left _ (signature (fz_dist f)) (nth r h [])) with (completed (fz_dist f) (nth r h [])).
    rewrite completed_full; [apply set_dict_same; exact Hr|]. intros s Hs. apply has_find.
    rewrite E, R1. assert (In s (parameter_names (fz_dist f))) by (unfold parameter_names; apply in_app_iff; left; exact Hs).
    revert H. clear -R2. revert R2. generalize (frozen_params f). induction (parameter_names (fz_dist f)) as [|n l IH]; intros [|v vs] L H; try destruct H; try discriminate; cbn [combine find fst].
    - subst. rewrite String.eqb_refl. eauto.
    - destruct (String.eqb n s); [eauto|]. apply IH; [cbn in L; lia|assumption]. }
  subst h'. split; [reflexivity|]. split; [split; [congruence|]|].
  - rewrite X2, G. symmetry. apply value_combine; [exact W|exact R2].
  - unfold create_univariate in Cr. cbn [dt dt_type dt_params] in Cr. rewrite Hc in Cr. injection Cr as _ Hf. unfold freeze in Hf.
    destruct (bind_arguments _ _ _) as [l|] eqn:B in Hf; [|discriminate]. cbn [rmap] in Hf. injection Hf as <-. exists l. exact B.
Qed.

Lemma fold_same {S} (F G : S -> nat * frozen -> S) : (forall s i f g, same_law f g -> F s (i, f) = G s (i, g)) ->
  forall l m, Forall2 same_law l m -> forall k s, fold_left F (combine (seq k (length l)) l) s = fold_left G (combine (seq k (length m)) m) s.
Proof. intros H l m A. induction A as [|f g l m E A IH]; intros k s; [reflexivity|]. cbn. rewrite (H s k f g E). apply IH. Qed.

(** copulas whose margins have the same laws agree in every function *)
Lemma same_functions j l m cl cm : Forall2 same_law l m ->
  (forall t junk x log, marg_cdf (mkMarginal j l cl) t junk x log = marg_cdf (mkMarginal j m cm) t junk x log /\
                        marg_pdf (mkMarginal j l cl) t junk x log = marg_pdf (mkMarginal j m cm) t junk x log) /\
  (forall u, marg_random (mkMarginal j l cl) u = marg_random (mkMarginal j m cm) u).
Proof.
  intros A. split.
  - intros t junk x log. unfold marg_cdf, marg_pdf, enumerate. cbn [mc_joint mc_margins]. cbv zeta. split.
    + f_equal. apply fold_same; [|exact A]. intros s i f g [E1 E2]. cbn [fst snd]. unfold m_cdf. rewrite E1, E2. reflexivity.
    + match goal with |- (let '(_, _) := ?a in _) = (let '(_, _) := ?b in _) => replace a with b; [reflexivity|] end.
      symmetry. apply fold_same; [|exact A]. intros [[u sm] pr] i f g [E1 E2]. cbn [fst snd]. unfold m_cdf, m_pdf, m_logpdf. rewrite E1, E2. reflexivity.
  - intros u. unfold marg_random. cbn [mc_joint mc_margins].
    assert (K : forall r, map (fun im => m_ppf (snd im) (get u r (fst im))) (enumerate l) = map (fun im => m_ppf (snd im) (get u r (fst im))) (enumerate m)).
    { intros r. unfold enumerate. generalize 0%nat. induction A as [|f g l m [E1 E2] A IH]; intros k; [reflexivity|]. cbn. f_equal; [unfold m_ppf; rewrite E1, E2; reflexivity|apply IH]. }
    destruct (j_columns j), A; try reflexivity; f_equal; apply map_ext; intros r; apply K.
Qed.

(** a new copula made from the reported margins has margins of the same families with the same parameters, reports the same, gives the
    same values of cdf, pdf and random, and leaves the reported dictionaries as they are *)
Theorem C121_round_trip : forall stats h c,
  (forall f, In f (mc_margins c) -> usable f /\ well_named (fz_dist f) /\ found_by_class stats (fz_dist f)) ->
  length (mc_margins c) = j_dim (mc_joint c) ->
  exists c', made_from_reported stats h (mc_joint c) c = (h ++ map snd (reported c), Ok c') /\
    Forall2 same_law (mc_margins c) (mc_margins c') /\ reported c' = reported c /\
    (forall t junk x log, marg_cdf c' t junk x log = marg_cdf c t junk x log /\ marg_pdf c' t junk x log = marg_pdf c t junk x log) /\
    (forall u, marg_random c' u = marg_random c u).
Proof.
  intros stats h [j ms cl] H L. cbn [mc_margins mc_joint] in *. unfold made_from_reported, described, reported. cbn [mc_margins].
  rewrite map_length, map_map.
  set (H0 := h ++ map (fun f => snd (get_marginal_detail f)) ms). 
  assert (K : forall done rest, ms = done ++ rest ->
    exists gs, collect (create_item stats) H0 (map (fun k => ItDict (mkDetails (Some (TStr (fst (nth k (map get_marginal_detail ms) (EmptyString, []))))) (Some (length h + k)%nat))) (seq (length done) (length rest))) = (H0, Ok gs) /\
      Forall2 same_law rest gs /\ Forall usable gs).
  { intros done rest. revert done. induction rest as [|f rest IH]; intros done E; [exists []; split; [reflexivity|split; constructor]|].
    cbn [length seq map collect].
    assert (Nf : nth (length done) (map get_marginal_detail ms) (EmptyString, []) = get_marginal_detail f).
    { rewrite E, map_app, app_nth2; rewrite map_length; [|lia]. rewrite Nat.sub_diag. reflexivity. }
    rewrite Nf. cbn [get_marginal_detail fst create_item].
    destruct (H f) as [U [W F]]; [rewrite E; apply in_app_iff; right; left; reflexivity|].
    destruct (recreate stats H0 f (length h + length done)%nat U W F) as [g [Cg [Sg Ug]]].
    { unfold H0. rewrite app_length, map_length, E, app_length. cbn [length]. lia. }
    { unfold H0. rewrite app_nth2 by lia. replace (length h + length done - length h)%nat with (length done) by lia.
      rewrite E, map_app, app_nth2; rewrite map_length; [|lia]. rewrite Nat.sub_diag. reflexivity. }
    rewrite Cg. destruct (IH (done ++ [f])) as [gs [Cgs [Sgs Ugs]]]; [rewrite <- app_assoc; exact E|].
    rewrite app_length in Cgs. cbn [length] in Cgs. rewrite Nat.add_1_r in Cgs. rewrite Cgs. exists (g :: gs). split; [reflexivity|]. split; constructor; assumption. }
  destruct (K [] ms eq_refl) as [gs [Cg [Sg Ug]]]. cbn [length] in Cg.
  exists (mkMarginal j gs None). split.
  { unfold new_marginal. cbn [process_margins_input]. rewrite map_length, seq_length, L, Nat.eqb_refl. rewrite <- L. rewrite Cg. reflexivity. }
  cbn [mc_margins]. split; [exact Sg|]. split.
  - clear -Sg Ug H. revert gs Sg Ug. induction ms as [|f ms IH]; intros gs Sg Ug; inversion Sg as [|? g ? gs' [E1 E2] S']; subst; [reflexivity|]. inversion Ug; subst. cbn [map]. f_equal.
    + unfold get_marginal_detail. destruct (H f (or_introl eq_refl)) as [U _].
      rewrite (proj1 (reported_values f U)), (proj1 (reported_values g ltac:(assumption))), E1, E2. reflexivity.
    + apply IH; try assumption. intros f' H'. apply H. right. exact H'.
  - destruct (same_functions j ms gs cl None Sg) as [A B]. split.
    + intros t junk x log. destruct (A t junk x log) as [A1 A2]. split; symmetry; assumption.
    + intros u. symmetry. apply B.
Qed.
Print Assumptions C121_round_trip.

(** but two distributions of one class are told apart by nothing in the report.  scipy.stats.vonmises and vonmises_line are of the class
    vonmises_gen: a margin made as "vonmises_line" is reported as "vonmises", and the copula made from the report has the other margin *)
Theorem C121_class_refuted : forall stats circle line h j,
  stats "vonmises"%string = Some (AContinuous circle) -> stats "vonmises_line"%string = Some (AContinuous line) ->
  dd_class circle = "vonmises_gen"%string -> dd_class line = "vonmises_gen"%string -> dd_shapes circle = ["kappa"%string] -> dd_shapes line = ["kappa"%string] ->
  j_dim j = 1%nat ->
  exists c, new_marginal stats h j (MStr "vonmises_line") = (h, Ok c) /\ map fz_dist (mc_margins c) = [line] /\
    exists h' c', made_from_reported stats h j c = (h', Ok c') /\ map fz_dist (mc_margins c') = [circle] /\
      map frozen_params (mc_margins c') = map frozen_params (mc_margins c).
Proof.
  intros stats circle line h j A B C D E F G.
  assert (N1 : strip (lower "vonmises_line") = "vonmises_line"%string) by reflexivity.
  assert (N2 : strip (lower "vonmises") = "vonmises"%string) by reflexivity.
  exists (mkMarginal j [mkFrozen line [] [("kappa"%string, / 2)]] None). split.
  { unfold new_marginal. cbn [process_margins_input]. rewrite G. cbn [repeat collect]. unfold create_univariate. cbn [dt_type dt_params]. unfold get_marginal_class. cbv zeta.
    rewrite N1. cbn. rewrite B. unfold freeze, bind_arguments, signature. rewrite F. cbn. reflexivity. }
  split; [reflexivity|]. unfold made_from_reported, described, reported. unfold get_marginal_detail. cbn [mc_margins map fz_dist snd fst length seq nth].
  assert (M : marginal_parameters (mkFrozen line [] [("kappa"%string, / 2)]) = [("kappa"%string, / 2); ("loc"%string, 0); ("scale"%string, 1)]).
  { unfold marginal_parameters, signature. cbn [fz_dist]. rewrite F. reflexivity. }
  rewrite M. assert (T : type_name line = "vonmises"%string) by (unfold type_name; rewrite D; reflexivity). rewrite T.
  unfold new_marginal. cbn [process_margins_input length]. rewrite G. cbn [Nat.eqb collect create_item]. unfold create_univariate. cbn [dt_type dt_params]. unfold get_marginal_class. cbv zeta.
  cbn [nth fst]. rewrite N2. cbn [existsb String.eqb orb]. cbn. rewrite A.
  rewrite Nat.add_0_r. rewrite app_nth2 by lia. rewrite Nat.sub_diag. cbn [nth]. unfold signature. rewrite E. cbn [map app fold_left fst snd has existsb String.eqb orb].
  unfold freeze, bind_arguments, signature. rewrite E. cbn. eexists _, _. split; [reflexivity|]. split; [reflexivity|].
  cbn [map mc_margins]. unfold frozen_params, bind_arguments, signature. cbn [fz_dist fz_args fz_kwds]. rewrite ?E, ?F. reflexivity.
Qed.
Print Assumptions C121_class_refuted.

Example C121_case :
  let f := mkFrozen student_t [3] [("scale"%string, 2)] in let g := mkFrozen logistic [] [] in
  let c := mkMarginal (mkJoint 2 (fun _ _ => []) (fun _ _ => []) None) [f; g] None in
  (forall m, In m (mc_margins c) -> usable m /\ well_named (fz_dist m) /\ found_by_class two_laws (fz_dist m)) /\
  length (mc_margins c) = j_dim (mc_joint c) /\
  reported c = [("t"%string, [("df"%string, 3); ("loc"%string, 0); ("scale"%string, 2)]); ("logistic"%string, [("loc"%string, 0); ("scale"%string, 1)])].
Proof.
  cbv zeta. split; [|split; reflexivity]. intros m [<-|[<-|[]]]; (split; [eexists; reflexivity|split; [|split; [reflexivity|split; [reflexivity|]]]]).
  - unfold well_named. cbn. repeat constructor; cbn; intuition discriminate.
  - cbn. intuition discriminate.
  - unfold well_named. cbn. repeat constructor; cbn; intuition discriminate.
  - cbn. intuition discriminate.
Qed.
