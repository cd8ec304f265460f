(** Lemmas about labelled selection. *)
From Verif Require Import Base RSumLib M_Elliptical M_Fit M_Annot S_Annot.
Open Scope nat_scope.

Lemma having_absent {V} labels : forall (vals : list V) c, ~ In c labels -> having labels vals c = [].
Proof.
  unfold having. induction labels as [|a l IH]; intros vals c H; [reflexivity|]. destruct vals as [|v vals]; [reflexivity|].
  cbn [combine filter fst]. destruct (String.eqb_spec a c) as [->|_]; [exfalso; apply H; left; reflexivity|].
  apply IH. intros K. apply H. right. exact K.
Qed.
Lemma having_unique {V} labels : NoDup labels -> forall (vals : list V) c j v, nth_error labels j = Some c -> nth_error vals j = Some v ->
  having labels vals c = [v].
Proof.
  induction 1 as [|a l Ha Hl IH]; intros vals c j v E1 E2; [destruct j; discriminate|].
  destruct vals as [|w vals]; [destruct j; discriminate|].
  destruct j as [|j]; cbn in E1, E2.
  - injection E1 as <-. injection E2 as <-. unfold having. cbn [combine filter fst]. rewrite String.eqb_refl. cbn [map snd]. f_equal.
    exact (having_absent l vals a Ha).
  - unfold having. cbn [combine filter fst]. destruct (String.eqb_spec a c) as [->|_]; [exfalso; apply Ha; eapply nth_error_In; exact E1|].
    exact (IH vals c j v E1 E2).
Qed.
Lemma existsb_str c l : existsb (String.eqb c) l = true <-> In c l.
Proof.
  rewrite existsb_exists. split; [intros [x [H E]]; apply String.eqb_eq in E; subst; exact H|intros H; exists c; split; [exact H|apply String.eqb_refl]].
Qed.
Lemma all_in cols labels : forallb (fun c => existsb (String.eqb c) labels) cols = true <-> incl cols labels.
Proof.
  rewrite forallb_forall. split; intros H c Hc; [apply existsb_str|apply existsb_str]; auto.
Qed.
Lemma same_set_iff a b : same_set a b = true <-> (incl a b /\ incl b a).
Proof. unfold same_set. rewrite andb_true_iff, !all_in. reflexivity. Qed.

(** selection in the order of the columns *)
Lemma flat_reordered {V} labels cols : NoDup labels -> incl cols labels -> forall (row row' : list V), length row = length labels ->
  reordered labels cols row row' -> flat_map (having labels row) cols = row'.
Proof.
  intros Hnd. induction cols as [|c cols IH]; intros Hi row row' HL [L R].
  - destruct row'; [reflexivity|discriminate].
  - destruct row' as [|v row']; [discriminate|]. cbn [flat_map].
    destruct (In_nth_error labels c (Hi c (or_introl eq_refl))) as [j Ej].
    assert (Ev : nth_error row j = Some v) by (symmetry; exact (R 0 j c eq_refl Ej)).
    rewrite (having_unique labels Hnd row c j v Ej Ev). cbn [app]. f_equal.
    apply IH; [intros x Hx; apply Hi; right; exact Hx|exact HL|].
    split; [cbn in L; lia|]. intros k j' c' E1 E2. exact (R (S k) j' c' E1 E2).
Qed.
Lemma flat_labels labels cols : NoDup labels -> incl cols labels -> flat_map (having labels labels) cols = cols.
Proof.
  intros Hnd Hi. apply flat_reordered; auto. split; [reflexivity|]. intros k j c E1 E2. congruence.
Qed.
Lemma map_reordered {V} labels cols : NoDup labels -> incl cols labels -> forall (rows rows' : list (list V)), Forall (fun r => length r = length labels) rows ->
  Forall2 (reordered labels cols) rows rows' -> map (fun row => flat_map (having labels row) cols) rows = rows'.
Proof.
  intros Hnd Hi rows rows' HL H. induction H as [|r r' l l' Hr _ IH]; [reflexivity|]. inversion HL; subst. cbn [map]. f_equal; [|auto].
  apply flat_reordered; auto.
Qed.
(** a reordering exists *)
Lemma reordered_exists {V} labels cols : NoDup labels -> incl cols labels -> forall row : list V, length row = length labels -> exists row', reordered labels cols row row'.
Proof.
  intros Hnd Hi row HL. induction cols as [|c cols IH].
  - exists []. split; [reflexivity|]. intros [|k] j c E; discriminate.
  - destruct IH as [row' [L R]]; [intros x Hx; apply Hi; right; exact Hx|].
    destruct (In_nth_error labels c (Hi c (or_introl eq_refl))) as [j Ej].
    assert (Hj : j < length labels) by (apply nth_error_Some; congruence).
    destruct (nth_error row j) as [v|] eqn:Ev; [|apply nth_error_None in Ev; lia].
    exists (v :: row'). split; [cbn; lia|]. intros [|k] j' c' E1 E2; cbn in *; [|exact (R k j' c' E1 E2)].
    injection E1 as <-. assert (j = j') by (apply (proj1 (NoDup_nth_error labels) Hnd); congruence). congruence.
Qed.
