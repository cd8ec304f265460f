(** Property C129, continued: correlation tables of data with columns turned round (/repo/copulae/stats/correlation.py:125-142, 235-297). *)
From Verif Require Import Base RSumLib Ext M_Corr S_Corr P_Corr.
Open Scope nat_scope.

(** the entries of the marked columns change sign; nan stays nan *)
Definition turn (b : bool) (v : ext) : ext := if b then eopp v else v.
Definition turned_row (flip : nat -> bool) (r : list ext) : list ext := map (fun j => turn (flip j) (nth j r Nan)) (seq 0 (length r)).
(** assumption on scipy: the coefficient changes its sign with either vector *)
Definition scipy_odd (scipy : cmethod -> list R -> list R -> result ext) : Prop :=
  forall m a b, scipy m (map Ropp a) b = rmap eopp (scipy m a b) /\ scipy m a (map Ropp b) = rmap eopp (scipy m a b).

Lemma turned_nth flip r j : nth j (turned_row flip r) Nan = turn (flip j) (nth j r Nan).
Proof.
  unfold turned_row. destruct (Nat.lt_ge_cases j (length r)) as [H|H].
  - rewrite (nth_indep _ Nan ((fun j => turn (flip j) (nth j r Nan)) 0)) by (rewrite map_length, seq_length; exact H).
    rewrite (map_nth (fun j => turn (flip j) (nth j r Nan))), seq_nth by exact H. reflexivity.
  - rewrite !nth_overflow by (rewrite ?map_length, ?seq_length; exact H). destruct (flip j); reflexivity.
Qed.
Lemma turn_nan b v : isnan (turn b v) = isnan v. Proof. destruct b, v; reflexivity. Qed.
Lemma column_turned flip rows j : column (map (turned_row flip) rows) j = map (turn (flip j)) (column rows j).
Proof. unfold column. rewrite !map_map. apply map_ext. intros r. apply turned_nth. Qed.
Lemma filter_map_same {A B} (g : A -> B) f f' l : (forall a, f (g a) = f' a) -> filter f (map g l) = map g (filter f' l).
Proof. intros H. induction l as [|a l IH]; [reflexivity|]. cbn. rewrite H. destruct (f' a); cbn; rewrite IH; reflexivity. Qed.
Lemma complete_turned flip r : forallb (fun v => negb (isnan v)) (turned_row flip r) = forallb (fun v => negb (isnan v)) r.
Proof.
  apply eq_true_iff_eq. rewrite !forallb_forall. split; intros H v Hv.
  - apply (In_nth _ _ Nan) in Hv. destruct Hv as [j [Hj <-]]. rewrite <- (turn_nan (flip j)), <- turned_nth. apply H. apply nth_In.
    unfold turned_row. rewrite map_length, seq_length. exact Hj.
  - unfold turned_row in Hv. apply in_map_iff in Hv. destruct Hv as [j [<- Hj]]. rewrite turn_nan. apply H, nth_In. apply in_seq in Hj. lia.
Qed.
Lemma vectors_turned flip rows u i j : pair_vectors (map (turned_row flip) rows) u i j =
  (map (turn (flip i)) (fst (pair_vectors rows u i j)), map (turn (flip j)) (snd (pair_vectors rows u i j))).
Proof.
  destruct u; cbn [pair_vectors fst snd].
  - rewrite !column_turned. reflexivity.
  - replace (drop_pair (map (turned_row flip) rows) i j) with (map (turned_row flip) (drop_pair rows i j)).
    + rewrite !column_turned. reflexivity.
    + symmetry. apply filter_map_same. intros r. rewrite !turned_nth, !turn_nan. reflexivity.
  - replace (drop_rows (map (turned_row flip) rows)) with (map (turned_row flip) (drop_rows rows)).
    + rewrite !column_turned. reflexivity.
    + symmetry. apply filter_map_same. intros r. apply complete_turned.
Qed.
Lemma all_finite_opp l : all_finite (map eopp l) = option_map (map Ropp) (all_finite l).
Proof. induction l as [|v l IH]; [reflexivity|]. cbn [map all_finite]. rewrite IH. destruct v, (all_finite l); reflexivity. Qed.
Section Turn.
  Variable scipy : cmethod -> list R -> list R -> result ext.
  Hypothesis Odd : scipy_odd scipy.
  Lemma compute_turned m a b s t : compute_corr scipy m (map (turn s) a) (map (turn t) b) = rmap (turn (xorb s t)) (compute_corr scipy m a b).
  Proof.
    assert (I : forall l, map (turn false) l = l) by (intros l; rewrite (map_ext (turn false) (fun v => v)) by reflexivity; apply map_id).
    assert (J : forall r : result ext, rmap (turn false) r = r) by (intros [v|e]; reflexivity).
    assert (K : forall r : result ext, rmap eopp (rmap eopp r) = r) by (intros [[x| | |]|e]; cbn; rewrite ?Ropp_involutive; reflexivity).
    unfold compute_corr. destruct s, t; cbn [xorb]; rewrite ?I, ?J; try (change (turn true) with eopp; rewrite ?all_finite_opp);
      destruct (all_finite a) as [x|], (all_finite b) as [y|]; cbn [option_map rmap]; try reflexivity.
    - rewrite (proj1 (Odd m x (map Ropp y))), (proj2 (Odd m x y)). apply K.
    - apply (proj1 (Odd m x y)).
    - apply (proj2 (Odd m x y)).
  Qed.
  Lemma fill_turned flip m u rows l : forall c, fill scipy m u (map (turned_row flip) rows) l (mkMat (nr c) (nc c) (fun a b => turn (xorb (flip a) (flip b)) (get c a b))) =
    rmap (fun c => mkMat (nr c) (nc c) (fun a b => turn (xorb (flip a) (flip b)) (get c a b))) (fill scipy m u rows l c).
  Proof.
    induction l as [|[i j] l IH]; intros c; [reflexivity|]. cbn [fill]. rewrite vectors_turned. destruct (pair_vectors rows u i j) as [a b]. cbn [fst snd].
    rewrite compute_turned. destruct (compute_corr scipy m a b) as [v|e]; [|reflexivity]. cbn [rmap bind].
    rewrite <- IH. f_equal. unfold set2. cbn [nr nc get]. f_equal. apply FunctionalExtensionality.functional_extensionality. intros p.
    apply FunctionalExtensionality.functional_extensionality. intros q.
    destruct (((p =? i) && (q =? j) || (p =? j) && (q =? i))%bool) eqn:E; [|reflexivity].
    apply orb_true_iff in E. destruct E as [E|E]; apply andb_true_iff in E; destruct E as [E1 E2]; apply Nat.eqb_eq in E1, E2; subst; [reflexivity|].
    rewrite xorb_comm. reflexivity.
  Qed.
End Turn.

(** turning columns round changes the sign of the coefficients of the pairs of which one column is turned, for every method and every
    treatment of missing values, and raises for the same data *)
Theorem C129_correlations : forall scipy, scipy_odd scipy -> forall flip n rows method use,
  match corr scipy n rows method use with
  | Ok c => exists c', corr scipy n (map (turned_row flip) rows) method use = Ok c' /\ nr c' = n /\ nc c' = n /\
      forall i j, get c' i j = if Bool.eqb (flip i) (flip j) then get c i j else eopp (get c i j)
  | Err e => corr scipy n (map (turned_row flip) rows) method use = Err e
  end.
Proof.
  intros scipy Odd flip n rows method use. unfold corr. destruct (validate_use use) as [u|e]; cbn [bind]; [|reflexivity].
  destruct (corr_method method) as [m|e]; cbn [bind]; [|reflexivity].
  assert (E : identity n = mkMat n n (fun a b => turn (xorb (flip a) (flip b)) (get (identity n) a b))).
  { unfold identity. cbn [get]. f_equal. apply FunctionalExtensionality.functional_extensionality. intros p. apply FunctionalExtensionality.functional_extensionality. intros q.
    destruct (Nat.eqb_spec p q) as [->|N]; [rewrite xorb_nilpotent; reflexivity|]. unfold turn. destruct (xorb (flip p) (flip q)); cbn; rewrite ?Ropp_0; reflexivity. }
  pose proof (fill_turned scipy Odd flip m u rows (pairs n) (identity n)) as F. cbn [nr nc identity] in F. rewrite E.
  change (mkMat n n (fun a b => turn (xorb (flip a) (flip b)) (get (mkMat n n (fun i j => if i =? j then Fin 1 else Fin 0)) a b)))
    with (mkMat n n (fun a b => turn (xorb (flip a) (flip b)) (get (identity n) a b))) in F.
  rewrite F. rewrite <- E. destruct (fill scipy m u rows (pairs n) (identity n)) as [c|e] eqn:Ef; [|reflexivity]. cbn [rmap].
  destruct (fill_shape scipy m u rows _ _ _ Ef) as [S1 S2]. eexists. split; [reflexivity|]. cbn [nr nc get]. split; [exact S1|]. split; [exact S2|].
  intros i j. unfold turn. destruct (flip i), (flip j); reflexivity.
Qed.
Print Assumptions C129_correlations.

(** Pearson's formula meets the assumption *)
Open Scope R_scope.
Lemma mean_opp l : mean (map Ropp l) = - mean l.
Proof.
  unfold mean. rewrite map_length. assert (E : fold_right Rplus 0 (map Ropp l) = - fold_right Rplus 0 l) by (induction l as [|x l IH]; cbn; [ring|rewrite IH; ring]).
  rewrite E. unfold Rdiv. ring.
Qed.
Lemma centred_opp l : centred (map Ropp l) = map Ropp (centred l).
Proof. unfold centred. rewrite mean_opp, !map_map. apply map_ext. intros x. ring. Qed.
Lemma dot_opp_l a : forall b, dot (map Ropp a) b = - dot a b.
Proof. induction a as [|x a IH]; intros [|y b]; cbn; try ring. rewrite IH. ring. Qed.
Lemma dot_comm a : forall b, dot a b = dot b a.
Proof. induction a as [|x a IH]; intros [|y b]; cbn; try ring. rewrite IH. ring. Qed.
Example C129_correlations_case : scipy_odd (fun _ a b => Ok (pearson a b)).
Proof.
  assert (L : forall a b, pearson (map Ropp a) b = eopp (pearson a b)).
  { intros a b. unfold pearson. rewrite centred_opp. cbv zeta. rewrite (dot_opp_l _ (map Ropp _)), (dot_comm (centred a) (map Ropp _)), dot_opp_l, Ropp_involutive.
    destruct (Rltb 0 _); [|reflexivity]. rewrite dot_opp_l. cbn [eopp]. f_equal. unfold Rdiv. ring. }
  assert (S : forall a b, pearson a b = pearson b a).
  { intros a b. unfold pearson. cbv zeta. rewrite (Rmult_comm (dot (centred a) (centred a))), (dot_comm (centred a) (centred b)). reflexivity. }
  intros m a b. cbn [rmap]. rewrite L, (S a (map Ropp b)), L, (S b a). auto.
Qed.
