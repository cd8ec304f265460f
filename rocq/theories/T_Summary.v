(** C111, C112: texts of summaries and of mixture parameters. *)
From Verif Require Import Base RSumLib Ext M_Fit M_Gmc M_Summary.
Open Scope string_scope.

(** ** C111: summaries *)
(** Every parameter of every class is shown, in both forms, unless it is the degrees of freedom taken from an array of integers. *)
Theorem C111_copula : forall c, (forall z s, c <> CStudent (DfInts z) s) -> shown (summary_params c) = summary_params c.
Proof. intros c H. destruct c as [th|s|d s|d t o s|]; try reflexivity. destruct d; try reflexivity. exfalso. exact (H _ _ eq_refl). Qed.
Print Assumptions C111_copula.
Theorem C111_degrees_refuted : forall z s, summary_params (CStudent (DfInts z) s) = [("Degree of Freedom", VNpInt z); ("Correlation Matrix", VMatrix s)] /\
  forall k v, In (k, v) (shown (summary_params (CStudent (DfInts z) s))) -> k = "Correlation Matrix".
Proof. intros z s. split; [reflexivity|]. intros k v [E|[]]. injection E as <- <-. reflexivity. Qed.
Print Assumptions C111_degrees_refuted.
(** The text of a fit shows every setting and every result of a maximum likelihood fit but the final simplex; that of an inversion has none. *)
Theorem C111_fit_text : forall s o r k v,
  (In (k, v) o -> k <> "final_simplex" -> exists d, In ("Optimization Setup", d) (fit_str (ml_shown s o r)) /\ In (k, v) d) /\
  (In (k, v) r -> k <> "final_simplex" -> exists d, In ("Results", d) (fit_str (ml_shown s o r)) /\ In (k, v) d) /\
  (forall t d, In (t, d) (fit_str (ml_shown s o r)) -> In (k, v) d -> k <> "final_simplex" /\ (In (k, v) o \/ In (k, v) r)) /\
  fit_str (inverse_shown s) = [].
Proof.
  intros s o r k v. unfold fit_str, ml_shown, inverse_shown. cbn [sh_setup sh_results flat_map fst snd app].
  assert (F : forall l : entries, In (k, v) l -> k <> "final_simplex" -> In (k, v) (filter (fun kv => negb (String.eqb (fst kv) "final_simplex")) l)).
  { intros l I N. apply filter_In. split; [exact I|]. cbn [fst]. rewrite (proj2 (String.eqb_neq _ _) N). reflexivity. }
  split; [|split; [|split]].
  - intros I N. eexists. split; [left; reflexivity|]. apply F; assumption.
  - intros I N. eexists. split; [right; left; reflexivity|]. apply F; assumption.
  - intros t d [E|[E|[]]] I; injection E as <- <-; apply filter_In in I; destruct I as [I Q]; cbn [fst] in Q;
      apply negb_true_iff, String.eqb_neq in Q; auto.
  - reflexivity.
Qed.
Print Assumptions C111_fit_text.
Lemma zip_left {A B} (l : list A) (m : list B) a : In a l <-> exists b, In (Some a, b) (zip_longest l m).
Proof.
  revert m. induction l as [|x l IH]; intros m.
  - split; [contradiction|]. intros [b I]. exfalso. destruct m as [|y m]; [exact I|]. cbn in I. destruct I as [E|I]; [discriminate|].
    induction m as [|z m IHm]; [exact I|]. destruct I as [E|I]; [discriminate|exact (IHm I)].
  - destruct m as [|y m]; cbn [zip_longest].
    + split.
      * intros [->|I]; [eexists; left; reflexivity|]. apply (IH []) in I. destruct I as [b I]. exists b. right. exact I.
      * intros [b [E|I]]; [injection E as <- _; left; reflexivity|]. right. apply (IH []). exists b. exact I.
    + split.
      * intros [->|I]; [eexists; left; reflexivity|]. apply (IH m) in I. destruct I as [b I]. exists b. right. exact I.
      * intros [b [E|I]]; [injection E as <- _; left; reflexivity|]. right. apply (IH m). exists b. exact I.
Qed.
Lemma zip_right {A B} (l : list A) (m : list B) b : In b m <-> exists a, In (a, Some b) (zip_longest l m).
Proof.
  revert m. induction l as [|x l IH]; intros m.
  - induction m as [|y m IHm].
    + split; [contradiction|intros [a []]].
    + assert (Z : zip_longest (@nil A) (y :: m) = (None, Some y) :: zip_longest [] m) by (cbn; destruct m; reflexivity). rewrite Z. split.
      * intros [->|I]; [eexists; left; reflexivity|]. apply IHm in I. destruct I as [a I]. exists a. right. exact I.
      * intros [a [E|I]]; [injection E as _ <-; left; reflexivity|]. right. apply IHm. exists a. exact I.
  - destruct m as [|y m]; cbn [zip_longest].
    + split; [contradiction|]. intros [a [E|I]]; [discriminate|]. apply (IH []). exists a. exact I.
    + split.
      * intros [->|I]; [eexists; left; reflexivity|]. apply (IH m) in I. destruct I as [a I]. exists a. right. exact I.
      * intros [a [E|I]]; [injection E as _ <-; left; reflexivity|]. right. apply (IH m). exists a. exact I.
Qed.
(** The html of a maximum likelihood fit has a table with exactly the settings on the left and the results on the right... *)
Theorem C111_fit_html : forall s o r, exists t, fit_html (ml_shown s o r) = Ok t /\
  (forall kv, In kv o <-> exists x, In (Some kv, x) t) /\ (forall kv, In kv r <-> exists x, In (x, Some kv) t).
Proof. intros s o r. eexists. split; [reflexivity|]. split; intros kv; [apply zip_left|apply zip_right]. Qed.
Print Assumptions C111_fit_html.
(** ...while the summary of every fit by inversion has no html. *)
Theorem C111_inversion_html_refuted : forall F d typ s sm s', estimate_inverse F d typ s = (Ok sm, s') -> fit_html (inverse_shown sm) = Err AttributeError.
Proof. reflexivity. Qed.
Print Assumptions C111_inversion_html_refuted.
(** A mixture shows its weights, means and covariances once it has parameters; before, the text is None and the html raises. *)
Theorem C111_mixture : forall p, gmc_html (Some p) = Ok (prob p, means p, covs p) /\ gmc_str (Some p) = Ok (Some p).
Proof. intros. split; reflexivity. Qed.
Print Assumptions C111_mixture.
Theorem C111_mixture_unfitted_refuted : gmc_html None = Err AttributeError /\ gmc_str None = Ok None.
Proof. split; reflexivity. Qed.
Print Assumptions C111_mixture_unfitted_refuted.
Example C111_case : shown (summary_params (CStudent (DfFloats (Fin 4)) [[1; 1/2]; [1/2; 1]]%R)) = [("Degree of Freedom", VFloat (Fin 4)); ("Correlation Matrix", VMatrix [[1; 1/2]; [1/2; 1]]%R)] /\
  shown (summary_params (CStudent (DfInts 4) [[1; 0]; [0; 1]]%R)) = [("Correlation Matrix", VMatrix [[1; 0]; [0; 1]]%R)] /\
  fit_html (ml_shown (mkSummary (SScalar None) "Maximum likelihood" Nan 10) [("method", "SLSQP")] [("fun", "1"); ("nit", "7")]) =
    Ok [(Some ("method", "SLSQP"), Some ("fun", "1")); (None, Some ("nit", "7"))].
Proof. repeat split. Qed.

Open Scope list_scope.
(** ** C112: the text of a parameter can be read back *)
(** Python's notation for nested lists of numbers: items are separated by commas, a comma after the last one is allowed *)
Inductive tree := Leaf (x : R) | Node (l : list tree).
Inductive lit : list tok -> tree -> Prop :=
| lit_num x : lit [Num x] (Leaf x)
| lit_list ts l : items ts l -> lit (LB :: ts ++ [RB]) (Node l)
with items : list tok -> list tree -> Prop :=
| it_nil : items [] []
| it_one a t : lit a t -> items a [t]
| it_last a t : lit a t -> items (a ++ [Comma]) [t]
| it_cons a t b l : lit a t -> items b l -> l <> [] -> items (a ++ Comma :: b) (t :: l).
Scheme lit_ind2 := Induction for lit Sort Prop with items_ind2 := Induction for items Sort Prop.
Combined Scheme lit_items_ind from lit_ind2, items_ind2.
Definition vec (xs : list R) : tree := Node (map Leaf xs).
Definition matrix (m : list (list R)) : tree := Node (map vec m).
Definition cube (c : list (list (list R))) : tree := Node (map matrix c).

(** reading with a stack: every text denotes at most one list *)
Fixpoint run (ts : list tok) (st : list (list tree)) : option (list (list tree)) :=
  match ts with
  | [] => Some st
  | LB :: r => run r ([] :: st)
  | RB :: r => match st with l :: k :: st => run r ((Node (rev l) :: k) :: st) | _ => None end
  | Comma :: r => run r st
  | Num x :: r => match st with l :: st => run r ((Leaf x :: l) :: st) | [] => None end
  end.
Lemma run_lit : (forall ts t, lit ts t -> forall rest k st, run (ts ++ rest) (k :: st) = run rest ((t :: k) :: st)) /\
  (forall ts l, items ts l -> forall rest k st, run (ts ++ rest) (k :: st) = run rest ((rev l ++ k)%list :: st)).
Proof.
  apply lit_items_ind.
  - reflexivity.
  - intros ts l _ IH rest k st. cbn [app run]. rewrite <- app_assoc. rewrite IH. cbn [app run]. rewrite app_nil_r, rev_involutive. reflexivity.
  - reflexivity.
  - intros a t _ IH rest k st. rewrite IH. reflexivity.
  - intros a t _ IH rest k st. rewrite <- app_assoc, IH. reflexivity.
  - intros a t b l _ IH _ IH' _ rest k st. rewrite <- app_assoc, IH. cbn [app run]. rewrite IH'. cbn [rev]. rewrite <- app_assoc. reflexivity.
Qed.
Lemma lit_unique ts t t' : lit ts t -> lit ts t' -> t = t'.
Proof.
  intros A B. pose proof (proj1 run_lit ts t A [] [] []) as P. pose proof (proj1 run_lit ts t' B [] [] []) as Q. rewrite P in Q. cbn in Q. injection Q as Q. exact Q.
Qed.
Lemma sep_items l ts : (forall i a t, nth_error l i = Some a -> nth_error ts i = Some t -> lit a t) -> length l = length ts -> items (sep l) ts.
Proof.
  revert ts. induction l as [|a l IH]; intros [|t ts] H L; try discriminate; [constructor|]. pose proof (H 0%nat a t eq_refl eq_refl) as A.
  destruct l as [|b l].
  - destruct ts; [|discriminate]. apply it_one. exact A.
  - cbn [sep]. apply it_cons; [exact A| |destruct ts; discriminate]. apply IH; [|cbn in L |- *; lia]. intros i x y X Y. exact (H (S i) x y X Y).
Qed.
Lemma nth_map2 {A B C} (f : A -> B) (g : A -> C) l i b c : nth_error (map f l) i = Some b -> nth_error (map g l) i = Some c -> exists a, f a = b /\ g a = c.
Proof. rewrite !nth_error_map. destruct (nth_error l i); cbn; [|discriminate]. intros X Y. injection X as <-. injection Y as <-. eexists. split; reflexivity. Qed.
Lemma lit_vec xs : lit (t_list xs) (vec xs).
Proof.
  unfold t_list, vec. apply lit_list. apply sep_items; [|rewrite !map_length; reflexivity]. intros i a t X Y. destruct (nth_map2 _ _ _ _ _ _ X Y) as (x & <- & <-). constructor.
Qed.
Lemma lit_matrix m : lit (LB :: sep (map t_list m) ++ [RB]) (matrix m).
Proof.
  unfold matrix. apply lit_list. apply sep_items; [|rewrite !map_length; reflexivity]. intros i a t X Y. destruct (nth_map2 _ _ _ _ _ _ X Y) as (x & <- & <-). apply lit_vec.
Qed.
Lemma rows_tail n more j m : (1 <= j)%nat -> (j + length m = n)%nat -> m <> [] -> t_rows n more j m = sep (map t_list m) ++ RB :: (if more then [Comma] else []).
Proof.
  revert j. induction m as [|v m IH]; intros j J L N; [congruence|]. cbn [t_rows map]. rewrite (proj2 (Nat.eqb_neq j 0)) by lia. destruct m as [|w m].
  - cbn [length] in L. rewrite (proj2 (Nat.eqb_eq j (n - 1))) by lia. cbn [t_rows sep]. rewrite app_nil_r. reflexivity.
  - cbn [length] in L. rewrite (proj2 (Nat.eqb_neq j (n - 1))) by lia. rewrite (IH (S j)) by (cbn [length] in *; first [lia|discriminate]).
    rewrite <- app_assoc. cbn [map sep]. rewrite <- app_assoc. reflexivity.
Qed.
Lemma rows_text n more m : (2 <= n)%nat -> length m = n -> t_rows n more 0 m = (LB :: sep (map t_list m) ++ [RB]) ++ (if more then [Comma] else []).
Proof.
  intros N L. destruct m as [|v [|w m]]; cbn [length] in L; try lia.
  pose proof (rows_tail n more 1 (w :: m) ltac:(lia) ltac:(cbn [length]; lia) ltac:(discriminate)) as T.
  change (t_rows n more 0 (v :: w :: m)) with ((LB :: t_list v ++ [Comma]) ++ t_rows n more 1 (w :: m)). rewrite T.
  set (x := w :: m). cbn [map]. assert (E : sep (t_list v :: map t_list x) = t_list v ++ Comma :: sep (map t_list x)) by reflexivity. rewrite E.
  cbn [app]. f_equal. rewrite <- !app_assoc. reflexivity.
Qed.
Lemma covs_text K d i cs : (2 <= d)%nat -> (forall c, In c cs -> nr c = d) -> (i + length cs = K)%nat ->
  t_covs K d i cs = sep (map (fun c => LB :: sep (map t_list (rows d c)) ++ [RB]) cs).
Proof.
  intros D. revert i. induction cs as [|c cs IH]; intros i F L; [reflexivity|]. cbn [t_covs]. cbn [length] in L.
  rewrite rows_text; [|exact D|unfold rows; rewrite map_length, seq_length; apply F; left; reflexivity].
  rewrite (IH (S i)); [|intros; apply F; right; assumption|lia]. destruct cs as [|e cs].
  - rewrite (proj2 (Nat.ltb_ge i (K - 1))) by (cbn [length] in L; lia). cbn [map sep]. rewrite !app_nil_r. reflexivity.
  - rewrite (proj2 (Nat.ltb_lt i (K - 1))) by (cbn [length] in L; lia). cbn [map sep]. rewrite <- app_assoc. reflexivity.
Qed.
(** For two or more dimensions the text of a parameter denotes its weights, means and covariances, and nothing else. *)
Theorem C112_repr : forall p, (2 <= n_dim p)%nat -> length (covs p) = n_clusters p -> (forall c, In c (covs p) -> nr c = n_dim p) ->
  (forall t, lit (repr_prob p) t <-> t = vec (prob p)) /\
  (forall t, lit (repr_means p) t <-> t = matrix (rows (n_dim p) (means p))) /\
  (forall t, lit (repr_covs p) t <-> t = cube (map (rows (n_dim p)) (covs p))).
Proof.
  intros p D L F.
  assert (U : forall ts t0, lit ts t0 -> forall t, lit ts t <-> t = t0) by (intros ts t0 A t; split; [intros B; exact (lit_unique _ _ _ B A)|intros ->; exact A]).
  split; [|split]; apply U.
  - apply lit_vec.
  - apply lit_matrix.
  - unfold repr_covs, cube. apply lit_list. rewrite covs_text; [|exact D|exact F|cbn; exact L]. rewrite map_map.
    apply sep_items; [|rewrite !map_length; reflexivity]. intros i a t X Y. destruct (nth_map2 _ _ _ _ _ _ X Y) as (c & <- & <-). apply lit_matrix.
Qed.
Print Assumptions C112_repr.
(** the brackets a text opens minus those it closes *)
Fixpoint open (ts : list tok) : Z :=
  match ts with [] => 0 | LB :: r => 1 + open r | RB :: r => open r - 1 | _ :: r => open r end.
Lemma open_app a b : open (a ++ b) = (open a + open b)%Z.
Proof. induction a as [|[| | |x] a IH]; cbn [open app]; rewrite ?IH; lia. Qed.
Lemma open_lit : (forall ts t, lit ts t -> open ts = 0%Z) /\ (forall ts l, items ts l -> open ts = 0%Z).
Proof.
  apply lit_items_ind; intros; cbn [open]; rewrite ?open_app in *; cbn [open] in *; try rewrite ?open_app; cbn [open]; lia.
Qed.
Lemma open_list v : open (t_list v) = 0%Z.
Proof. exact (proj1 open_lit _ _ (lit_vec v)). Qed.
(** In one dimension the brackets of the covariances are never closed: the text denotes nothing. *)
Theorem C112_one_dimension_refuted : forall p, n_dim p = 1%nat -> covs p <> [] -> (forall c, In c (covs p) -> nr c = 1%nat) -> forall t, ~ lit (repr_covs p) t.
Proof.
  intros p D N F t A. apply (proj1 open_lit) in A. unfold repr_covs in A. cbn [open] in A. rewrite open_app in A. cbn [open] in A. rewrite D in A.
  assert (H : forall cs i, (forall c, In c cs -> nr c = 1%nat) -> open (t_covs (n_clusters p) 1 i cs) = Z.of_nat (length cs)).
  { clear. induction cs as [|c cs IH]; intros i F; [reflexivity|]. cbn [t_covs]. rewrite open_app, IH by (intros; apply F; right; assumption).
    unfold rows. rewrite (F c) by (left; reflexivity). cbn [seq map t_rows]. rewrite Nat.eqb_refl. rewrite open_app. cbn [open]. rewrite open_app, open_list. cbn [open length]. lia. }
  rewrite H in A by exact F. destruct (covs p); [congruence|]. cbn [length] in A. lia.
Qed.
Print Assumptions C112_one_dimension_refuted.
(** The shorter text behaves in the same way, with rounded numbers. *)
Lemma str_tail n rnd j m : (1 <= j)%nat -> (j + length m = n)%nat -> m <> [] -> str_rows n rnd j m = sep (map t_list (map (map rnd) m)) ++ [RB].
Proof.
  revert j. induction m as [|v m IH]; intros j J L N; [congruence|]. cbn [str_rows map]. rewrite (proj2 (Nat.eqb_neq j 0)) by lia. destruct m as [|w m].
  - cbn [length] in L. rewrite (proj2 (Nat.eqb_eq j (n - 1))) by lia. cbn [str_rows map sep]. rewrite app_nil_r. reflexivity.
  - cbn [length] in L. rewrite (proj2 (Nat.eqb_neq j (n - 1))) by lia. rewrite (IH (S j)) by (cbn [length] in *; first [lia|discriminate]).
    rewrite <- app_assoc. cbn [map sep]. rewrite <- app_assoc. reflexivity.
Qed.
Theorem C112_str : forall n rnd c, (2 <= n)%nat -> nr c = n -> forall t, lit (str_cov n rnd c) t <-> t = matrix (map (map rnd) (rows n c)).
Proof.
  intros n rnd c N D t.
  assert (A : lit (str_cov n rnd c) (matrix (map (map rnd) (rows n c)))).
  { unfold str_cov. assert (L : length (rows n c) = n) by (unfold rows; rewrite map_length, seq_length; exact D).
    destruct (rows n c) as [|v [|w m]]; cbn [length] in L; try lia.
    pose proof (str_tail n rnd 1 (w :: m) ltac:(lia) ltac:(cbn [length]; lia) ltac:(discriminate)) as T.
    assert (E : str_rows n rnd 0 (v :: w :: m) = LB :: sep (map t_list (map (map rnd) (v :: w :: m))) ++ [RB]).
    { change (str_rows n rnd 0 (v :: w :: m)) with ((LB :: t_list (map rnd v) ++ [Comma]) ++ str_rows n rnd 1 (w :: m)). rewrite T. cbn [map sep app]. f_equal. rewrite <- !app_assoc. cbn [app]. reflexivity. }
    rewrite E. apply lit_matrix. }
  split; [intros B; exact (lit_unique _ _ _ B A)|intros ->; exact A].
Qed.
Print Assumptions C112_str.
Theorem C112_str_one_dimension_refuted : forall rnd c, nr c = 1%nat -> forall t, ~ lit (str_cov 1 rnd c) t.
Proof.
  intros rnd c D t A. apply (proj1 open_lit) in A. unfold str_cov, rows in A. rewrite D in A. cbn [seq map str_rows] in A. rewrite Nat.eqb_refl, app_nil_r in A.
  cbn [open] in A. rewrite open_app, open_list in A. cbn [open] in A. lia.
Qed.
Print Assumptions C112_str_one_dimension_refuted.
Example C112_case : let p := mkGmc 1 2 [1%R] (mkMat 1 2 (fun _ j => INR j)) [mkMat 2 2 (fun i j => if Nat.eqb i j then 1 else 0)%R] in
  (forall t, lit (repr_covs p) t <-> t = cube [[[1; 0]; [0; 1]]]%R) /\
  repr_covs p = [LB; LB; LB; Num 1; Comma; Num 0; RB; Comma; LB; Num 0; Comma; Num 1; RB; RB; RB]%R /\
  (let q := mkGmc 1 1 [1%R] (mkMat 1 1 (fun _ _ => 0%R)) [mkMat 1 1 (fun _ _ => 1%R)] in
   repr_covs q = [LB; LB; LB; Num 1; RB; Comma; RB]%R /\ forall t, ~ lit (repr_covs q) t).
Proof.
  cbv zeta. split; [|split; [reflexivity|split; [reflexivity|]]].
  - apply (C112_repr (mkGmc 1 2 [1%R] (mkMat 1 2 (fun _ j => INR j)) [mkMat 2 2 (fun i j => if Nat.eqb i j then 1 else 0)%R])); [cbn; lia|reflexivity|]. intros c [<-|[]]. reflexivity.
  - apply C112_one_dimension_refuted; [reflexivity|discriminate|]. intros c [<-|[]]. reflexivity.
Qed.
