(** Properties C46, C47: shaping of inputs and selection of summaries (/repo/copulae/utility/annotations). *)
From Verif Require Import Base RSumLib M_Elliptical M_Fit M_Annot S_Annot P_Annot.
Open Scope nat_scope.

(** C46: a DataFrame whose labels include the fitted ones, in any order, is evaluated as the array with its columns in fitted order *)
Theorem C46_frame : forall dim cols body labels t rows', NoDup labels -> incl cols labels -> table (length labels) t ->
  Forall2 (reordered labels cols) (t_rows t) rows' ->
  call dim (Some cols) body true (IFrame labels t) = call dim (Some cols) body true (ITab (mkTab (length cols) rows')).
Proof.
  intros dim cols body labels t rows' Hnd Hi [Hw HL] H. unfold call, validate_data_dim. cbn [ndim existsb Nat.eqb orb bind negb].
  unfold shape_input. rewrite (proj2 (all_in cols labels) Hi), (flat_labels labels cols Hnd Hi), (map_reordered labels cols Hnd Hi (t_rows t) rows' HL H). reflexivity.
Qed.
Print Assumptions C46_frame.
(** the same for a Series with exactly the fitted labels *)
Theorem C46_series : forall dim cols body labels vals vals', NoDup labels -> incl cols labels -> incl labels cols -> length vals = length labels ->
  reordered labels cols vals vals' ->
  call dim (Some cols) body true (ISeries labels vals) = call dim (Some cols) body true (IVec vals').
Proof.
  intros dim cols body labels vals vals' Hnd H1 H2 HL H. unfold call, validate_data_dim. cbn [ndim existsb Nat.eqb orb bind negb].
  unfold shape_input, select. rewrite (proj2 (same_set_iff labels cols) (conj H2 H1)), (proj2 (all_in cols labels) H1).
  assert (E : flat_map (having labels vals) cols = vals') by (apply flat_reordered; assumption). rewrite E. reflexivity.
Qed.
Print Assumptions C46_series.
(** two frames with the same labelled data in different column orders give the same result *)
Theorem C46_permutation : forall dim cols body labels labels' t t', NoDup labels -> NoDup labels' -> incl cols labels -> incl cols labels' ->
  table (length labels) t -> table (length labels') t' -> incl labels' labels ->
  Forall2 (reordered labels labels') (t_rows t) (t_rows t') ->
  call dim (Some cols) body true (IFrame labels t) = call dim (Some cols) body true (IFrame labels' t').
Proof.
  intros dim cols body labels labels' t t' N1 N2 I1 I2 T1 T2 I3 H.
  assert (K : exists rows', Forall2 (reordered labels cols) (t_rows t) rows' /\ Forall2 (reordered labels' cols) (t_rows t') rows').
  { destruct T1 as [_ L1], T2 as [_ L2]. revert L1 L2. induction H as [|r r' l l' Hr _ IH]; intros L1 L2; [exists []; split; constructor|].
    inversion L1; inversion L2; subst. destruct IH as [rows' [A B]]; auto.
    destruct (reordered_exists labels cols N1 I1 r ltac:(assumption)) as [x Hx]. exists (x :: rows'). split; constructor; auto.
    destruct Hx as [Lx Rx], Hr as [_ Rr]. split; [exact Lx|]. intros k j c E1 E2.
    destruct (In_nth_error labels c (I1 c ltac:(eapply nth_error_In; exact E1))) as [i Ei].
    rewrite (Rx k i c E1 Ei). symmetry. exact (Rr j i c E2 Ei). }
  destruct K as [rows' [A B]]. rewrite (C46_frame dim cols body labels t rows'), (C46_frame dim cols body labels' t' rows'); auto.
Qed.
Print Assumptions C46_permutation.
(** a frame without one of the fitted columns is refused *)
Theorem C46_missing_column : forall dim cols body labels t, ~ incl cols labels ->
  call dim (Some cols) body true (IFrame labels t) = Err KeyError.
Proof.
  intros dim cols body labels t H. unfold call, validate_data_dim, shape_input. cbn [ndim existsb Nat.eqb orb bind negb].
  destruct (forallb _ cols) eqn:E; [|reflexivity]. apply all_in in E. contradiction.
Qed.
Print Assumptions C46_missing_column.
(** but a Series with other labels is evaluated by position: nothing tells the user *)
Theorem C46_series_other_labels : forall dim cols body labels vals, ~ (incl labels cols /\ incl cols labels) ->
  call dim (Some cols) body true (ISeries labels vals) = call dim None body true (IVec vals).
Proof.
  intros dim cols body labels vals H. unfold call, validate_data_dim, shape_input. cbn [ndim existsb Nat.eqb orb bind negb].
  destruct (same_set labels cols) eqn:E; [apply same_set_iff in E; contradiction|]. reflexivity.
Qed.
Print Assumptions C46_series_other_labels.
(** without fitted labels, labels are ignored *)
Theorem C46_unlabelled : forall dim body labels t vals,
  call dim None body true (IFrame labels t) = call dim None body true (ITab t) /\
  call dim None body true (ISeries labels vals) = call dim None body true (IVec vals).
Proof. split; reflexivity. Qed.
Print Assumptions C46_unlabelled.
(** wrong widths and wrong numbers of axes are refused before the method runs *)
Theorem C46_wrong_width : forall dim columns body,
  (forall t, t_width t <> dim -> call dim columns body true (ITab t) = Err ValueError) /\
  (forall l, length l <> dim -> call dim columns body true (IVec l) = Err ValueError) /\
  (forall n pos, n <> 1 -> n <> 2 -> call dim columns body pos (IOther n) = Err ValueError).
Proof.
  intros dim columns body. unfold call, validate_data_dim, shape_input. split; [|split].
  - intros t H. cbn [ndim existsb Nat.eqb orb bind negb]. apply Nat.eqb_neq in H. rewrite H. reflexivity.
  - intros l H. cbn [ndim existsb Nat.eqb orb bind negb t_width]. apply Nat.eqb_neq in H. rewrite H. reflexivity.
  - intros n pos H1 H2. cbn [ndim existsb]. apply Nat.eqb_neq in H1, H2. rewrite H1, H2. reflexivity.
Qed.
Print Assumptions C46_wrong_width.
(** an array of the right width reaches the method unchanged, and one value per row comes back *)
Theorem C46_right_width : forall dim columns body t, t_width t = dim ->
  call dim columns body true (ITab t) = rmap squeeze (body t).
Proof.
  intros dim columns body t H. unfold call, validate_data_dim, shape_input. cbn [ndim existsb Nat.eqb orb bind negb]. rewrite H, Nat.eqb_refl. reflexivity.
Qed.
Print Assumptions C46_right_width.
(** one observation and the one-row matrix give the same number *)
Theorem C46_one_observation : forall dim columns body l, length l = dim ->
  call dim columns body true (IVec l) = call dim columns body true (ITab (mkTab dim [l])) /\
  forall v, body (mkTab dim [l]) = Ok [v] -> call dim columns body true (IVec l) = Ok (SScalar v).
Proof.
  intros dim columns body l H. rewrite (C46_right_width dim columns body (mkTab dim [l]) eq_refl). unfold call, validate_data_dim, shape_input.
  cbn [ndim existsb Nat.eqb orb bind negb t_width]. rewrite H, Nat.eqb_refl. cbn [bind]. split; [reflexivity|]. intros v E. rewrite E. reflexivity.
Qed.
Print Assumptions C46_one_observation.
(** the log-likelihood of two or more observations is the sum of the log-densities; of one observation it fails *)
Theorem C46_log_lik : forall dim columns log_pdf t l, t_width t = dim -> log_pdf t = Ok l -> length l <> 1 ->
  base_log_lik dim columns log_pdf (ITab t) = Ok (fl_sum l).
Proof.
  intros dim columns log_pdf t l H E HL. unfold base_log_lik. rewrite C46_right_width by exact H. rewrite E. cbn [rmap bind].
  destruct l as [|a [|b l]]; [reflexivity|cbn in HL; lia|reflexivity].
Qed.
Print Assumptions C46_log_lik.
Theorem C46_log_lik_single_refuted : forall dim columns log_pdf r v, length r = dim -> log_pdf (mkTab dim [r]) = Ok [v] ->
  base_log_lik dim columns log_pdf (ITab (mkTab dim [r])) = Err AttributeError /\ base_log_lik dim columns log_pdf (IVec r) = Err AttributeError.
Proof.
  intros dim columns log_pdf r v H E. unfold base_log_lik. rewrite (proj1 (C46_one_observation dim columns log_pdf r H)), C46_right_width by reflexivity.
  rewrite E. split; reflexivity.
Qed.
Print Assumptions C46_log_lik_single_refuted.
(** passing the data by keyword fails whatever it is *)
Theorem C46_keyword_refuted : forall dim columns body x, exists e, call dim columns body false x = Err e.
Proof.
  intros dim columns body x. unfold call, validate_data_dim. destruct (existsb _ _); cbn [bind negb]; eauto.
Qed.
Print Assumptions C46_keyword_refuted.
(** samples are labelled with the fitted names, in fitted order, and then evaluated as they stand *)
Theorem C46_round_trip : forall dim cols body t, NoDup cols -> length cols = dim -> table dim t ->
  exists x, cast_output (Some cols) t = Ok x /\ call dim (Some cols) body true x = rmap squeeze (body t).
Proof.
  intros dim cols body t Hnd HL [Hw Hr]. exists (IFrame cols t). split.
  - unfold cast_output. rewrite HL, Hw, Nat.eqb_refl. reflexivity.
  - rewrite (C46_frame dim cols body cols t (t_rows t)).
    + rewrite C46_right_width by exact HL. destruct t as [w rows]; cbn in *. rewrite HL, Hw. reflexivity.
    + exact Hnd.
    + intros c Hc; exact Hc.
    + rewrite HL. split; assumption.
    + rewrite <- HL in Hr. clear -Hr Hnd. induction Hr as [|r l Hr _ IH]; constructor; auto. split; [exact Hr|].
      intros k j c E1 E2. f_equal. apply (proj1 (NoDup_nth_error cols) Hnd); [apply nth_error_Some; congruence|congruence].
Qed.
Print Assumptions C46_round_trip.

(** C47 *)
Theorem C47_exact_names_partial : forall S (s : S) (fs : option S),
  select_summary ["copula"] None fs = Ok None /\ select_summary [] None fs = Ok None /\ select_summary [] (Some "copula") fs = Ok None /\
  select_summary ["fit"] None (Some s) = Ok (Some s) /\ select_summary [] (Some "fit") (Some s) = Ok (Some s) /\
  select_summary (S := S) ["fit"] None None = Err NotFittedError /\ select_summary (S := S) [] (Some "fit") None = Err NotFittedError.
Proof. intros S s fs. do 6 (split; [reflexivity|]). reflexivity. Qed.
Print Assumptions C47_exact_names_partial.
Theorem C47_other_names : forall S c k (fs : option S), c <> "copula"%string -> c <> "fit"%string ->
  select_summary [c] k fs = Err ValueError /\ select_summary [] (Some c) fs = Err ValueError.
Proof.
  intros S c k fs H1 H2. apply String.eqb_neq in H1, H2. unfold select_summary. cbv zeta. rewrite H1, H2. split; reflexivity.
Qed.
Print Assumptions C47_other_names.
(** the comparison is case sensitive: only the two lower-case spellings work *)
Theorem C47_case_refuted : forall S c (fs : option S), lower c = "fit"%string \/ lower c = "copula"%string -> c <> lower c ->
  select_summary [c] None fs = Err ValueError.
Proof.
  intros S c fs [H|H] Hne; apply (proj1 (C47_other_names S c None fs ltac:(intros ->; cbn in *; congruence) ltac:(intros ->; cbn in *; congruence))).
Qed.
Print Assumptions C47_case_refuted.

Example C46_case : exists t', NoDup ["b"; "x"; "a"]%string /\ incl ["a"; "b"]%string ["b"; "x"; "a"]%string /\
  table 3 (mkTab 3 [[Some 1%R; Some 2%R; Some 3%R]; [Some 4%R; None; Some 6%R]]) /\
  Forall2 (reordered ["b"; "x"; "a"]%string ["a"; "b"]%string) [[Some 1%R; Some 2%R; Some 3%R]; [Some 4%R; None; Some 6%R]] t' /\
  t' = [[Some 3%R; Some 1%R]; [Some 6%R; Some 4%R]].
Proof.
  eexists. split; [repeat constructor; cbn; intuition discriminate|]. split; [intros c [<-|[<-|[]]]; cbn; auto|].
  split; [split; [reflexivity|repeat constructor]|]. split; [|reflexivity].
  assert (K : forall a b c : option R, reordered ["b"; "x"; "a"]%string ["a"; "b"]%string [a; b; c] [c; a]).
  { intros a b c. split; [reflexivity|]. intros [|[|[|k]]] [|[|[|[|j]]]] x E1 E2; cbn in *; try discriminate; congruence. }
  repeat constructor; apply K.
Qed.
Example C47_case : lower "Fit" = "fit"%string /\ "Fit"%string <> lower "Fit" /\ "fitted"%string <> "copula"%string /\ "fitted"%string <> "fit"%string.
Proof. repeat split; discriminate. Qed.
