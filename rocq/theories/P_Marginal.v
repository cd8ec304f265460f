(** Lemmas about the independence copula and copulas with margins. *)
From Coquelicot Require Import Coquelicot.
From Verif Require Import Base RSumLib Ext S_Archimedean M_Special M_Marginal M_Empirical S_Empirical P_Empirical S_Marginal.
Local Close Scope Q_scope. Local Close Scope Z_scope. Open Scope R_scope.

Lemma set_nth_length k t (l : list R) : length (set_nth k t l) = length l.
Proof. unfold set_nth. rewrite map_length, seq_length. reflexivity. Qed.
Lemma nth_map_seq {A} (f : nat -> A) n j d : (j < n)%nat -> nth j (map f (seq 0 n)) d = f j.
Proof. intros H. rewrite (nth_indep _ d (f O)) by (rewrite map_length, seq_length; exact H). rewrite map_nth, seq_nth by exact H. reflexivity. Qed.
Lemma set_nth_nth k t (l : list R) j : (j < length l)%nat -> nth j (set_nth k t l) 0 = if Nat.eqb j k then t else nth j l 0.
Proof. intros H. unfold set_nth. apply nth_map_seq. exact H. Qed.
Lemma set_nth_same k (l : list R) : set_nth k (nth k l 0) l = l.
Proof.
  apply (nth_ext _ _ 0 0); [apply set_nth_length|]. intros j H. rewrite set_nth_length in H. rewrite set_nth_nth by exact H.
  destruct (Nat.eqb_spec j k); subst; reflexivity.
Qed.
Lemma lprod_split (f : nat -> R) m k : (k < m)%nat -> lprod (map f (seq 0 m)) = lprod (map f (seq 0 k)) * f k * lprod (map f (seq (Datatypes.S k) (m - Datatypes.S k))).
Proof.
  intros H. replace m with (k + Datatypes.S (m - Datatypes.S k))%nat at 1 by lia. rewrite seq_app, map_app, lprod_app. cbn [Nat.add seq map lprod]. ring.
Qed.
Lemma lprod_app1 l x : lprod (l ++ [x]) = lprod l * x.
Proof. rewrite lprod_app. cbn. ring. Qed.

(** * rows and points *)
Lemma row_length x i : length (row x i) = nc x.
Proof. unfold row. rewrite map_length, seq_length. reflexivity. Qed.
Lemma row_nth x i j : (j < nc x)%nat -> nth j (row x i) 0 = get x i j.
Proof. intros H. unfold row. apply nth_map_seq. exact H. Qed.
Lemma one_row_row l : row (one_row l) 0 = l.
Proof.
  apply (nth_ext _ _ 0 0); [apply row_length|]. intros j H. rewrite row_length in H. rewrite row_nth by exact H. reflexivity.
Qed.
Lemma one_row_points l : points (one_row l) = [l].
Proof. unfold points. cbn [one_row nr seq map]. rewrite one_row_row. reflexivity. Qed.

(** * the product *)
Lemma esum_elog l : Forall (fun x => 0 <= x) l -> esum (map (fun x => elog (Fin x)) l) = elog (Fin (lprod l)).
Proof.
  induction 1 as [|x l Hx F IH]; cbn [map esum fold_right lprod]; [rewrite elog_pos, ln_1 by lra; reflexivity|].
  unfold esum in IH. rewrite IH. assert (P : 0 <= lprod l). { clear -F. induction F as [|y l Hy F IH]; cbn; [lra|]. nra. }
  destruct (Rle_lt_or_eq_dec _ _ Hx) as [Lx|<-].
  - rewrite (elog_pos x Lx). destruct (Rle_lt_or_eq_dec _ _ P) as [L|<-].
    + rewrite !elog_pos by nra. cbn. rewrite ln_mult by assumption. reflexivity.
    + rewrite Rmult_0_r, elog_0. reflexivity.
  - rewrite Rmult_0_l, elog_0. destruct (Rle_lt_or_eq_dec _ _ P) as [L|<-]; [rewrite elog_pos by exact L|rewrite elog_0]; reflexivity.
Qed.
Lemma box_lprod sides : forall acc, box_mass lprod sides acc = lprod acc * lprod (map (fun s => snd s - fst s) sides).
Proof.
  induction sides as [|[a b] r IH]; intros acc; cbn [box_mass map lprod fst snd]; [ring|]. rewrite !IH, !lprod_app1. ring.
Qed.

(** * columns filled one after the other *)
Lemma zip_with_length {A B C} (f : A -> B -> C) l : forall m, length (zip_with f l m) = Nat.min (length l) (length m).
Proof. induction l as [|a l IH]; intros [|b m]; cbn; try reflexivity. rewrite IH. reflexivity. Qed.
Lemma zip_with_nth {A B C} (f : A -> B -> C) l : forall m i a b c, (i < length l)%nat -> (i < length m)%nat ->
  nth i (zip_with f l m) c = f (nth i l a) (nth i m b).
Proof.
  induction l as [|x l IH]; intros m i a b c Hl Hm; [cbn in Hl; lia|]. destruct m as [|y m]; [cbn in Hm; lia|].
  destruct i as [|i]; [reflexivity|]. cbn in *. apply IH; lia.
Qed.
Lemma fill_shape t (f : nat -> frozen -> nat -> R) l : forall u, nr (fold_left (fun u im => set_col t u (fst im) (f (fst im) (snd im))) l u) = nr u /\ nc (fold_left (fun u im => set_col t u (fst im) (f (fst im) (snd im))) l u) = nc u.
Proof. induction l as [|a l IH]; intros u; [split; reflexivity|]. cbn [fold_left]. destruct (IH (set_col t u (fst a) (f (fst a) (snd a)))) as [-> ->]. split; reflexivity. Qed.
Lemma fill_get t (f : nat -> frozen -> nat -> R) ms : forall s u r j dm,
  get (fold_left (fun u im => set_col t u (fst im) (f (fst im) (snd im))) (combine (seq s (length ms)) ms) u) r j =
  if (s <=? j)%nat && (j <? s + length ms)%nat then store t (f j (nth (j - s) ms dm) r) else get u r j.
Proof.
  induction ms as [|m ms IH]; intros s u r j dm; cbn [length seq combine fold_left].
  - replace ((s <=? j)%nat && (j <? s + 0)%nat) with false; [reflexivity|]. symmetry. apply andb_false_iff. destruct (Nat.leb_spec s j); [right; apply Nat.ltb_ge; lia|left; reflexivity].
  - rewrite (IH _ _ _ _ dm). cbn [fst snd set_col get]. destruct (Nat.eqb_spec j s) as [->|N].
    + rewrite (proj2 (Nat.leb_gt (Datatypes.S s) s)) by lia. rewrite Nat.leb_refl, (proj2 (Nat.ltb_lt s (s + Datatypes.S (length ms)))) by lia. cbn [andb]. rewrite Nat.sub_diag. reflexivity.
    + destruct (Nat.leb_spec s j).
      * rewrite (proj2 (Nat.leb_le (Datatypes.S s) j)) by lia. replace (s + Datatypes.S (length ms))%nat with (Datatypes.S s + length ms)%nat by lia.
        destruct (j <? Datatypes.S s + length ms)%nat; [|reflexivity]. cbn [andb]. replace (j - s)%nat with (Datatypes.S (j - Datatypes.S s)) by lia. reflexivity.
      * rewrite (proj2 (Nat.leb_gt (Datatypes.S s) j)) by lia. reflexivity.
Qed.
Definition filled (t : dtype) (junk : nat -> nat -> R) (ms : list frozen) (x : mat R) : mat R :=
  fold_left (fun u im => set_col t u (fst im) (fun r => m_cdf (snd im) (get x r (fst im)))) (enumerate ms) (mkMat (nr x) (nc x) junk).
Lemma filled_points t junk ms x : length ms = nc x -> points (filled t junk ms x) = map (fun l => map (store t) (probabilities ms l)) (points x).
Proof.
  intros L. unfold points. unfold filled. destruct (fill_shape t (fun i m r => m_cdf m (get x r i)) (enumerate ms) (mkMat (nr x) (nc x) junk)) as [E1 E2].
  cbn [nr nc] in *. rewrite E1, map_map. apply map_ext_in. intros r Hr. unfold row at 1. rewrite E2.
  assert (LP : length (map (store t) (probabilities ms (row x r))) = nc x). { rewrite map_length. unfold probabilities. rewrite zip_with_length, row_length, L. lia. }
  destruct ms as [|m0 ms0] eqn:EM.
  { cbn [length] in L. rewrite <- L. reflexivity. }
  rewrite <- EM in *. apply (nth_ext _ _ 0 0); [rewrite LP, map_length, seq_length; reflexivity|].
  intros j Hj. rewrite map_length, seq_length in Hj. rewrite nth_map_seq by exact Hj.
  unfold enumerate. rewrite (fill_get t (fun i m r => m_cdf m (get x r i)) ms 0 _ r j m0). cbn [Nat.leb andb Nat.add]. rewrite (proj2 (Nat.ltb_lt j (length ms))) by lia.
  rewrite (nth_indep _ 0 (store t 0)) by lia. rewrite map_nth. f_equal.
  unfold probabilities. rewrite (zip_with_nth m_cdf ms (row x r) j m0 0) by (rewrite ?row_length; lia). rewrite row_nth, Nat.sub_0_r by lia. reflexivity.
Qed.
Lemma pdf_fold (x : mat R) t ms : forall s u sum prod,
  fold_left (fun acc im => let '(u, sum, prod) := acc in let i := fst im in let m := snd im in
    (set_col t u i (fun r => m_cdf m (get x r i)), (fun r => eadd (sum r) (m_logpdf m (get x r i))), (fun r => prod r * m_pdf m (get x r i))))
    (combine (seq s (length ms)) ms) (u, sum, prod) =
  (fold_left (fun u im => set_col t u (fst im) (fun r => m_cdf (snd im) (get x r (fst im)))) (combine (seq s (length ms)) ms) u,
   (fold_left (fun sum im => fun r => eadd (sum r) (m_logpdf (snd im) (get x r (fst im)))) (combine (seq s (length ms)) ms) sum),
   (fold_left (fun prod im => fun r => prod r * m_pdf (snd im) (get x r (fst im))) (combine (seq s (length ms)) ms) prod)).
Proof. induction ms as [|m ms IH]; intros s u sum prod; [reflexivity|]. cbn [length seq combine fold_left fst snd]. apply IH. Qed.
Lemma sum_fold (x : mat R) ms r : forall s sum, (s + length ms = nc x)%nat ->
  fold_left (fun sum im => fun r => eadd (sum r) (m_logpdf (snd im) (get x r (fst im)))) (combine (seq s (length ms)) ms) sum r =
  eadd (sum r) (esum (log_densities ms (skipn s (row x r)))).
Proof.
  induction ms as [|m ms IH]; intros s sum L.
  - cbn. destruct (sum r); cbn; rewrite ?Rplus_0_r; reflexivity.
  - cbn [length seq combine fold_left fst snd]. rewrite IH by (cbn in L; lia). cbv beta.
    assert (E : skipn s (row x r) = get x r s :: skipn (Datatypes.S s) (row x r)).
    { cbn in L. rewrite <- row_nth by lia. assert (H : (s < length (row x r))%nat) by (rewrite row_length; lia). revert H. generalize (row x r). clear. induction s; intros [|a l] H; cbn in *; try lia; [reflexivity|]. apply IHs. lia. }
    rewrite E. unfold log_densities. cbn [zip_with esum fold_right]. rewrite eadd_assoc. reflexivity.
Qed.
Lemma prod_fold (x : mat R) ms r : forall s prod, (s + length ms = nc x)%nat ->
  fold_left (fun prod im => fun r => prod r * m_pdf (snd im) (get x r (fst im))) (combine (seq s (length ms)) ms) prod r =
  prod r * lprod (densities ms (skipn s (row x r))).
Proof.
  induction ms as [|m ms IH]; intros s prod L.
  - cbn. ring.
  - cbn [length seq combine fold_left fst snd]. rewrite IH by (cbn in L; lia). cbv beta.
    assert (E : skipn s (row x r) = get x r s :: skipn (Datatypes.S s) (row x r)).
    { cbn in L. rewrite <- row_nth by lia. assert (H : (s < length (row x r))%nat) by (rewrite row_length; lia). revert H. generalize (row x r). clear. induction s; intros [|a l] H; cbn in *; try lia; [reflexivity|]. apply IHs. lia. }
    rewrite E. unfold densities. cbn [zip_with lprod]. ring.
Qed.
Lemma enumerate_map_seq {A B} (f : nat -> A -> B) (g : nat -> A) n s : map (fun ia => f (fst ia) (snd ia)) (combine (seq s n) (map g (seq s n))) = map (fun i => f i (g i)) (seq s n).
Proof. revert s. induction n as [|n IH]; intros s; [reflexivity|]. cbn. f_equal. apply IH. Qed.

(** * strings *)
Lemma list_app s t : list_ascii_of_string (s ++ t)%string = list_ascii_of_string s ++ list_ascii_of_string t.
Proof. induction s as [|c s IH]; cbn; [reflexivity|]. rewrite IH. reflexivity. Qed.
Lemma lower_app s t : lower (s ++ t)%string = (lower s ++ lower t)%string.
Proof. induction s as [|c s IH]; cbn; [reflexivity|]. rewrite IH. reflexivity. Qed.
Lemma lower_space c : is_space c = true -> is_space (lower_ascii c) = true.
Proof. destruct c as [[] [] [] [] [] [] [] []]; vm_compute; intros; try reflexivity; discriminate. Qed.
Lemma lower_blank s : blank s -> blank (lower s).
Proof. unfold blank. induction s as [|c s IH]; intros H; cbn in *; [constructor|]. inversion H; subst. constructor; [apply lower_space; assumption|apply IH; assumption]. Qed.
Lemma trim_blank p l : Forall (fun c => is_space c = true) p -> trim (p ++ l) = trim l.
Proof. induction 1 as [|c p H _ IH]; [reflexivity|]. cbn. rewrite H. exact IH. Qed.
Lemma strip_visible p s q : blank p -> blank q -> visible s -> strip (p ++ (s ++ q))%string = s.
Proof.
  intros Hp Hq [a [l [E [Ha Hl]]]]. unfold strip. rewrite !list_app, trim_blank by exact Hp. rewrite E. cbn [app trim]. rewrite Ha.
  change (a :: l ++ list_ascii_of_string q) with ((a :: l) ++ list_ascii_of_string q). rewrite rev_app_distr, trim_blank by (apply Forall_rev; exact Hq).
  destruct (exists_last (l := a :: l) ltac:(discriminate)) as [m [b Em]]. rewrite Em in *. rewrite last_last in Hl. rewrite rev_app_distr. cbn [rev app trim]. rewrite Hl.
  change (b :: rev m) with ([b] ++ rev m). rewrite rev_app_distr, rev_involutive. cbn [rev app]. rewrite <- E. apply string_of_list_ascii_of_string.
Qed.
