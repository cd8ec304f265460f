(** C103: parameter arrays shared between copulas, callers and fit summaries. *)
From Verif Require Import Base RSumLib M_Matrix S_Matrix P_Matrix M_Linalg S_Linalg P_Linalg M_Elliptical S_Elliptical P_Elliptical T_Elliptical M_Share.
From Coq Require Import Psatz.
Open Scope R_scope.

Lemma plan_is_setitem eig nearest e ix v : setitem eig nearest e ix v =
  match plan_of eig nearest e ix v with
  | Refuse x => (e, Err x)
  | Rebind l => (mkEll (e_dim e) false l, Ok tt)
  | InPlace e' (Err x) => (e', Err x)
  | InPlace e' (Ok _) => force_psd eig nearest e'
  end.
Proof.
  assert (A : set_all eig nearest e v = match plan_all eig nearest e v with Refuse x => (e, Err x) | Rebind l => (mkEll (e_dim e) false l, Ok tt) | InPlace e' (Err x) => (e', Err x) | InPlace e' (Ok _) => force_psd eig nearest e' end).
  { unfold set_all, plan_all. destruct (near_psd_fl eig nearest v) as [m|x]; [|reflexivity]. destruct (_ && _); [|reflexivity]. destruct (bind _ _); reflexivity. }
  unfold setitem, plan_of. destruct (out_of_range v); [reflexivity|]. destruct ix as [|z|[|[|x] [|[|y] [|]]]]; try reflexivity; try exact A.
  - destruct (bind _ _) as [[k x]|ex]; [|reflexivity]. unfold and_then, in_place. destruct (store e k x) as [e' [u|ex]]; reflexivity.
  - destruct (line_values _ v); [|reflexivity]. unfold and_then, in_place. destruct (store_line _ _ _ _ _) as [e' [u|ex]]; reflexivity.
  - destruct (line_values _ v); [|reflexivity]. unfold and_then, in_place. destruct (store_line _ _ _ _ _) as [e' [u|ex]]; reflexivity.
  - destruct (get_rho_index _ _ _); [|reflexivity]. destruct (as_scalar _ v) as [w|]; [|reflexivity]. unfold and_then, in_place. destruct (store e _ w) as [e' [u|ex]]; reflexivity.
Qed.
Definition alike (e e' : ell) : Prop := e_dim e' = e_dim e /\ e_int e' = e_int e /\ length (e_rhos e') = length (e_rhos e).
Lemma alike_refl e : alike e e.
Proof. repeat split. Qed.
Lemma store_alike e k v : alike e (fst (store e k v)).
Proof. unfold store. destruct (to_dtype _ _); [|apply alike_refl]. destruct (_ <? _)%nat; [|apply alike_refl]. repeat split. cbn. apply set_nth_length. Qed.
Lemma store_line_alike vals : forall e rs f i, alike e (fst (store_line e rs f i vals)).
Proof.
  induction vals as [|v r IH]; intros e rs f i; [apply alike_refl|]. cbn [store_line].
  destruct rs; cbn match; (destruct (_ =? _)%Z; [apply IH|]); (destruct (get_rho_index _ _ _) as [k|]; [|apply alike_refl]);
  pose proof (store_alike e k v) as [A1 [A2 A3]]; destruct (store e k v) as [e' [u|ex]]; cbn [fst] in *; try (repeat split; assumption);
  match goal with |- context [store_line e' ?rs ?f ?i r] => destruct (IH e' rs f i) as [B1 [B2 B3]] end; repeat split; congruence.
Qed.
Lemma plan_alike eig nearest e ix v e' r : plan_of eig nearest e ix v = InPlace e' r -> alike e e'.
Proof.
  assert (A : plan_all eig nearest e v = InPlace e' r -> False). { unfold plan_all. destruct (near_psd_fl eig nearest v) as [m|x]; [|discriminate]. destruct (_ && _); [|discriminate]. destruct (bind _ _); discriminate. }
  unfold plan_of. destruct (out_of_range v); [discriminate|]. destruct ix as [|z|[|[|x] [|[|y] [|]]]]; try discriminate; try (intros H; destruct (A H)).
  - destruct (bind _ _) as [[k x]|ex]; [|discriminate]. intros H. injection H as <- _. apply store_alike.
  - destruct (line_values _ v); [|discriminate]. intros H. injection H as <- _. apply store_line_alike.
  - destruct (line_values _ v); [|discriminate]. intros H. injection H as <- _. apply store_line_alike.
  - destruct (get_rho_index _ _ _); [|discriminate]. destruct (as_scalar _ v) as [w|]; [|discriminate]. intros H. injection H as <- _. apply store_alike.
Qed.
Lemma upd_same {A} (f : nat -> A) i v : upd f i v i = v.
Proof. unfold upd. rewrite Nat.eqb_refl. reflexivity. Qed.
Lemma upd_other {A} (f : nat -> A) i v j : j <> i -> upd f i v j = f j.
Proof. intros H. unfold upd. destruct (Nat.eqb_spec j i); [contradiction|reflexivity]. Qed.
(** the view does not start behind the end of its array *)
Definition sound (w : world) (a : nat) : Prop := (o_off (w_obj w a) <= length (pa_vals (w_mem w (o_ref (w_obj w a)))))%nat.
Lemma view_write w a l : sound w a -> view (write w a l) a = mkEll (e_dim (view w a)) (e_int (view w a)) l.
Proof.
  intros H. unfold view, write. cbn [w_obj w_mem]. rewrite upd_same. cbn [pa_int pa_vals e_dim e_int]. f_equal. unfold sound in H.
  rewrite skipn_app, skipn_all2 by (rewrite firstn_length; lia). rewrite firstn_length, Nat.min_l by exact H. rewrite Nat.sub_diag. reflexivity.
Qed.
Lemma view_rebind w a l : view (rebind w a l) a = mkEll (e_dim (view w a)) false l.
Proof. unfold view, rebind. cbn [w_obj w_mem]. rewrite upd_same. cbn [o_ref o_off o_dim]. rewrite upd_same. reflexivity. Qed.
Lemma ell_eta e e' : alike e e' -> mkEll (e_dim e) (e_int e) (e_rhos e') = e'.
Proof. intros [A [B _]]. destruct e'; cbn in *. congruence. Qed.

(** An assignment in memory shows the object what the assignment of M_Elliptical says, and reports the same. *)
Theorem C103_refines : forall eig nearest w a ix v, sound w a ->
  let (w', r) := assign eig nearest w a ix v in (view w' a, r) = setitem eig nearest (view w a) ix v.
Proof.
  intros eig nearest w a ix v H. rewrite plan_is_setitem. unfold assign. destruct (plan_of eig nearest (view w a) ix v) as [x|l|e [u|x]] eqn:E.
  - reflexivity.
  - rewrite view_rebind. reflexivity.
  - rewrite (view_write w a _ H), (ell_eta _ _ (plan_alike _ _ _ _ _ _ _ E)). destruct (force_psd eig nearest e) as [e' [[]|x]] eqn:F.
    + rewrite view_rebind, (view_write w a _ H). rewrite (ell_eta _ _ (plan_alike _ _ _ _ _ _ _ E)).
      unfold force_psd in F. destruct (bind _ _); inversion F; reflexivity.
    + rewrite (view_write w a _ H), (ell_eta _ _ (plan_alike _ _ _ _ _ _ _ E)). unfold force_psd in F. destruct (bind _ _); [discriminate|]. injection F as <- <-. reflexivity.
  - rewrite (view_write w a _ H), (ell_eta _ _ (plan_alike _ _ _ _ _ _ _ E)). reflexivity.
Qed.
Print Assumptions C103_refines.
(** Only the object's own array is written to; no other object is rebound. *)
Theorem C103_frame : forall eig nearest w a ix v w' r, assign eig nearest w a ix v = (w', r) ->
  (forall id, (id < w_next w)%nat -> id <> o_ref (w_obj w a) -> w_mem w' id = w_mem w id) /\ (forall b, b <> a -> w_obj w' b = w_obj w b) /\
  (forall b, b <> a -> (o_ref (w_obj w b) < w_next w)%nat -> o_ref (w_obj w b) <> o_ref (w_obj w a) -> view w' b = view w b).
Proof.
  intros eig nearest w a ix v w' r H.
  assert (G : (forall id, (id < w_next w)%nat -> id <> o_ref (w_obj w a) -> w_mem w' id = w_mem w id) /\ (forall b, b <> a -> w_obj w' b = w_obj w b)).
  { unfold assign in H. destruct (plan_of eig nearest (view w a) ix v) as [x|l|e [u|x]].
    - injection H as <- _. split; reflexivity.
    - injection H as <- _. unfold rebind. cbn. split; [intros id Hid _; apply upd_other; lia|intros b Hb; apply upd_other, Hb].
    - destruct (force_psd eig nearest _) as [e' [u'|x]]; injection H as <- _; unfold rebind, write; cbn; split; intros.
      + rewrite upd_other by lia. apply upd_other. assumption. + apply upd_other. assumption. + apply upd_other. assumption. + reflexivity.
    - injection H as <- _. unfold write. cbn. split; [intros; apply upd_other; assumption|reflexivity]. }
  destruct G as [G1 G2]. split; [exact G1|]. split; [exact G2|]. intros b Hb Hl Hn. unfold view. rewrite (G2 b Hb), G1 by assumption. reflexivity.
Qed.
Print Assumptions C103_frame.
(** After an assignment that succeeds the object has an array of its own: nothing that existed before can be changed by later assignments
    to it. *)
Theorem C103_detached : forall eig nearest w a ix v w', (o_ref (w_obj w a) < w_next w)%nat -> assign eig nearest w a ix v = (w', Ok tt) ->
  (w_next w <= o_ref (w_obj w' a) < w_next w')%nat /\
  forall ops, let w2 := fold_left (fun u op => fst (assign eig nearest u a (fst op) (snd op))) ops w' in
    forall id, (id < w_next w)%nat -> w_mem w2 id = w_mem w' id.
Proof.
  intros eig nearest w a ix v w' Hr H.
  assert (D : (w_next w <= o_ref (w_obj w' a) < w_next w')%nat).
  { unfold assign in H. destruct (plan_of eig nearest (view w a) ix v) as [x|l|e [u|x]]; try discriminate.
    - injection H as <-. unfold rebind. cbn. rewrite upd_same. cbn. lia.
    - destruct (force_psd eig nearest _) as [e' [u'|x]]; [|discriminate]. injection H as <-. unfold rebind, write. cbn. rewrite upd_same. cbn. lia. }
  split; [exact D|]. intros ops. cbv zeta. clear H. revert w' D. induction ops as [|[ix' v'] ops IH]; intros w1 D id Hid; cbn [fold_left fst snd]; [reflexivity|].
  destruct (assign eig nearest w1 a ix' v') as [w2 r2] eqn:E. cbn [fst]. destruct (C103_frame _ _ _ _ _ _ _ _ E) as [F1 _].
  assert (D2 : (w_next w <= o_ref (w_obj w2 a) < w_next w2)%nat).
  { unfold assign in E. destruct (plan_of eig nearest (view w1 a) ix' v') as [x|l|e [u|x]].
    - injection E as <- _. exact D. - injection E as <- _. unfold rebind. cbn. rewrite upd_same. cbn. lia.
    - destruct (force_psd eig nearest _) as [e' [u'|x]]; injection E as <- _; unfold rebind, write; cbn; rewrite ?upd_same; cbn; lia.
    - injection E as <- _. unfold write. cbn. exact D. }
  rewrite (IH w2 D2 id Hid). apply F1; lia.
Qed.
Print Assumptions C103_detached.
(** a whole matrix is never written into an existing array *)
Theorem C103_matrix : forall eig nearest w a v w' r, assign eig nearest w a ISlice v = (w', r) -> forall id, (id < w_next w)%nat -> w_mem w' id = w_mem w id.
Proof.
  intros eig nearest w a v w' r H id Hid. unfold assign, plan_of, plan_all in H. destruct (out_of_range v); [injection H as <- _; reflexivity|].
  destruct (near_psd_fl eig nearest v) as [m|x]; [|injection H as <- _; reflexivity]. destruct (_ && _); [|injection H as <- _; reflexivity].
  destruct (bind _ _); injection H as <- _; [|reflexivity]. unfold rebind. cbn. apply upd_other. lia.
Qed.
Print Assumptions C103_matrix.

(** ** sharing *)
Lemma store_shows e m x y v k : consistent e -> e_int e = false -> shows e m -> (x < e_dim e)%nat -> (y < e_dim e)%nat -> x <> y ->
  get_rho_index (e_dim e) (Z.of_nat x) (Z.of_nat y) = Ok k ->
  store e k (Some v) = (mkEll (e_dim e) false (set_nth (e_rhos e) k (Some v)), Ok tt) /\ shows (mkEll (e_dim e) false (set_nth (e_rhos e) k (Some v))) (replaced m x y v).
Proof.
  intros C Hf Sh Hx Hy Hne Hk. destruct (shows_shape e m C Sh) as [R1 [R2 [Sy U]]]. destruct (store_entry e x y k (Some v) C Hx Hy Hne Hk) as [C' G].
  split; [apply store_float; [exact Hf|apply (rho_index_lt e x y k C Hne Hx Hy Hk)]|]. set (e' := mkEll (e_dim e) false (set_nth (e_rhos e) k (Some v))) in *.
  apply shows_of_entries; [exact C'|exact R1|exact R2| |].
  - intros i Hi. cbn [e' e_dim] in Hi. unfold replaced. cbn [get]. destruct (Nat.eqb_spec i x), (Nat.eqb_spec i y); subst; try lia; apply U; lia.
  - cbn [e' e_dim]. intros a b Ha Hb Hab. fold e'. rewrite (G a b Ha Hb Hab). unfold same_pair, replaced. cbn [get]. destruct (_ || _); [reflexivity|]. apply entries_of_shows; assumption.
Qed.
Lemma entry_assign eig nearest w b x y v k : get_rho_index (e_dim (view w b)) (Z.of_nat x) (Z.of_nat y) = Ok k -> -1 <= v <= 1 -> exists w' r,
  assign eig nearest w b (ITuple [CInt (Z.of_nat x); CInt (Z.of_nat y)]) (VScalar (Some v)) = (w', r) /\
  (snd (store (view w b) k (Some v)) = Ok tt -> forall id, (id < w_next w)%nat -> w_mem w' id = w_mem (write w b (e_rhos (fst (store (view w b) k (Some v))))) id).
Proof.
  intros Hk Hv. destruct (assign eig nearest w b (ITuple [CInt (Z.of_nat x); CInt (Z.of_nat y)]) (VScalar (Some v))) as [w' r] eqn:E. exists w', r. split; [reflexivity|].
  intros Hs id Hid. unfold assign, plan_of in E. cbn [out_of_range] in E. rewrite (proj2 (Rltb_false v (-1))), (proj2 (Rltb_false 1 v)) in E by lra. cbn [orb] in E. rewrite Hk in E. cbn [as_scalar] in E. unfold in_place in E. rewrite Hs in E.
  destruct (force_psd eig nearest _) as [e' [u'|z]]; injection E as <- _; [|reflexivity]. unfold rebind. cbn [w_mem w_next write]. apply upd_other. cbn. lia.
Qed.
(** Refuted: b.params = a.params makes the two copulas share an array; setting one correlation of b sets it in a too, without the check that
    the matrix stays positive semi-definite. *)
Theorem C103_two_copulas_refuted : forall eig nearest w a b m x y v, a <> b -> sound w a -> o_dim (w_obj w b) = o_dim (w_obj w a) ->
  (o_ref (w_obj w a) < w_next w)%nat -> consistent (view w a) -> e_int (view w a) = false -> shows (view w a) m ->
  (x < e_dim (view w a))%nat -> (y < e_dim (view w a))%nat -> x <> y -> -1 <= v <= 1 ->
  exists w' r, assign eig nearest (bind_array w b (o_ref (w_obj w a)) (o_off (w_obj w a))) b (ITuple [CInt (Z.of_nat x); CInt (Z.of_nat y)]) (VScalar (Some v)) = (w', r) /\
    shows (view w' a) (replaced m x y v).
Proof.
  intros eig nearest w a b m x y v Hab Hs Hd Hr C Hi Sh Hx Hy Hne Hv. set (w1 := bind_array w b _ _).
  assert (V : view w1 b = view w a). { unfold view, w1, bind_array. cbn [w_obj w_mem]. rewrite upd_same. cbn [o_ref o_off o_dim]. rewrite Hd. reflexivity. }
  assert (Oa : w_obj w1 a = w_obj w a) by (unfold w1, bind_array; cbn; apply upd_other; exact Hab).
  assert (Ob : w_obj w1 b = mkObj (o_dim (w_obj w b)) (o_ref (w_obj w a)) (o_off (w_obj w a))) by (unfold w1, bind_array; cbn; apply upd_same).
  destruct (get_rho_index_ok (e_dim (view w a)) x y Hx Hy Hne) as [k [Hk _]]. destruct (store_shows (view w a) m x y v k C Hi Sh Hx Hy Hne Hk) as [Es Sh'].
  destruct (entry_assign eig nearest w1 b x y v k) as [w' [r [E F]]]; [rewrite V; exact Hk|exact Hv|]. exists w', r. split; [exact E|].
  rewrite V, Es in F. specialize (F eq_refl). cbn [fst e_rhos] in F. destruct (C103_frame _ _ _ _ _ _ _ _ E) as [_ [G _]].
  assert (Va : view w' a = mkEll (e_dim (view w a)) false (set_nth (e_rhos (view w a)) k (Some v))).
  { unfold view at 1. rewrite (G a Hab), Oa. rewrite F by exact Hr. unfold write. rewrite Ob. cbn [w_mem o_ref o_off]. rewrite upd_same. cbn [pa_int pa_vals].
    change (w_mem w1) with (w_mem w). rewrite skipn_app, skipn_all2 by (rewrite firstn_length; lia). unfold sound in Hs. rewrite firstn_length, Nat.min_l, Nat.sub_diag by exact Hs. unfold view in Hi |- *. cbn in Hi |- *. rewrite Hi. reflexivity. }
  rewrite Va. exact Sh'.
Qed.
Print Assumptions C103_two_copulas_refuted.
(** Refuted: an array given to the params attribute (or recorded by a fit, which hands the minimiser's array to both the copula and the
    summary) is overwritten by the next assignment of a correlation. *)
Theorem C103_array_overwritten_refuted : forall eig nearest w a l x y v, consistent (mkEll (o_dim (w_obj w a)) false l) ->
  (x < o_dim (w_obj w a))%nat -> (y < o_dim (w_obj w a))%nat -> x <> y -> -1 <= v <= 1 ->
  forall id off pre, (id < w_next w)%nat -> w_mem w id = mkParr false (pre ++ l) -> length pre = off ->
  exists w' r k, assign eig nearest (bind_array w a id off) a (ITuple [CInt (Z.of_nat x); CInt (Z.of_nat y)]) (VScalar (Some v)) = (w', r) /\
    (k < length l)%nat /\ w_mem w' id = mkParr false (pre ++ set_nth l k (Some v)).
Proof.
  intros eig nearest w a l x y v C Hx Hy Hne Hv id off pre Hid Em Ho. set (w1 := bind_array w a id off).
  assert (Ob : w_obj w1 a = mkObj (o_dim (w_obj w a)) id off) by (unfold w1, bind_array; cbn; apply upd_same).
  assert (V : view w1 a = mkEll (o_dim (w_obj w a)) false l). { unfold view. rewrite Ob. cbn [o_ref o_off o_dim]. change (w_mem w1) with (w_mem w). rewrite Em. cbn [pa_int pa_vals]. rewrite <- Ho, skipn_app, skipn_all, Nat.sub_diag. reflexivity. }
  destruct (get_rho_index_ok (o_dim (w_obj w a)) x y Hx Hy Hne) as [k [Hk _]]. pose proof (rho_index_lt _ x y k C Hne Hx Hy Hk) as Lk. cbn [e_rhos] in Lk.
  destruct (entry_assign eig nearest w1 a x y v k) as [w' [r [E F]]]; [rewrite V; exact Hk|exact Hv|]. exists w', r, k. split; [exact E|]. split; [exact Lk|].
  rewrite V, (store_float (mkEll (o_dim (w_obj w a)) false l) k (Some v) eq_refl Lk) in F. rewrite (F eq_refl id Hid). cbn [fst e_rhos]. unfold write. rewrite Ob. cbn [o_ref o_off w_mem]. rewrite upd_same. change (w_mem w1) with (w_mem w). rewrite Em. cbn [pa_int pa_vals].
  rewrite <- Ho, firstn_app, firstn_all, Nat.sub_diag. cbn [firstn]. rewrite app_nil_r. reflexivity.
Qed.
Print Assumptions C103_array_overwritten_refuted.
(** Refuted: an inversion fit of a Gaussian copula writes the estimate into the array it shares with another one. *)
Theorem C103_inversion_refuted : forall w a b l, a <> b -> sound w a -> o_dim (w_obj w b) = o_dim (w_obj w a) ->
  view (assign_estimate (bind_array w b (o_ref (w_obj w a)) (o_off (w_obj w a))) b l) a = mkEll (e_dim (view w a)) (e_int (view w a)) l.
Proof.
  intros w a b l Hab Hs Hd. unfold assign_estimate. set (w1 := bind_array w b _ _).
  assert (Oa : w_obj w1 a = w_obj w a) by (unfold w1, bind_array; cbn; apply upd_other; exact Hab).
  assert (Ob : w_obj w1 b = mkObj (o_dim (w_obj w b)) (o_ref (w_obj w a)) (o_off (w_obj w a))) by (unfold w1, bind_array; cbn; apply upd_same).
  rewrite <- (view_write w a l Hs). unfold view. cbn [write w_obj]. rewrite Oa. unfold write. cbn [w_mem]. rewrite Ob. cbn [o_ref o_off]. rewrite !upd_same. reflexivity.
Qed.
Print Assumptions C103_inversion_refuted.
(** two copulas of dimension 3 with correlations 9/10 sharing an array: setting one correlation of the second to -9/10 leaves the first with a
    matrix that is not positive semi-definite *)
Definition nines : mat R := mkMat 3 3 (fun i j => if Nat.eqb i j then 1 else 9 / 10).
Definition two_objects : world := mkWorld 2 (fun _ => mkParr false [Some (9 / 10); Some (9 / 10); Some (9 / 10)]) (fun a => mkObj 3 (if Nat.eqb a 0 then 0 else 1) 0).
Example C103_case : sound two_objects 0 /\ consistent (view two_objects 0) /\ shows (view two_objects 0) nines /\ pos_semidef 3 (get nines) /\
  ~ pos_semidef 3 (get (replaced nines 1 0 (- 9 / 10))).
Proof.
  assert (C : consistent (view two_objects 0)) by (split; cbn; lia).
  split; [unfold sound; cbn; lia|]. split; [exact C|]. split; [|split].
  - apply shows_of_entries; [exact C|reflexivity|reflexivity| |].
    + intros i Hi. cbn. rewrite Nat.eqb_refl. reflexivity.
    + intros [|[|[|a]]] [|[|[|b]]] Ha Hb Hab; cbn in Ha, Hb; try lia; reflexivity.
  - intros x. unfold quad. cbn. set (p := x 0%nat). set (q := x 1%nat). set (r := x 2%nat). pose proof (Rle_0_sqr (p + q + r)) as S1. pose proof (Rle_0_sqr p) as S2. pose proof (Rle_0_sqr q) as S3. pose proof (Rle_0_sqr r) as S4. unfold Rsqr in *. nra.
  - intros H. specialize (H (fun i => match i with 2%nat => -1 | _ => 1 end)). unfold quad in H. cbn in H. lra.
Qed.
Example C103_two_copulas_case : forall eig nearest, exists w' r m', 
  assign eig nearest (bind_array two_objects 1 0 0) 1 (ITuple [CInt 1; CInt 0]) (VScalar (Some (- 9 / 10))) = (w', r) /\ shows (view w' 0) m' /\ ~ pos_semidef 3 (get m').
Proof.
  intros eig nearest. destruct C103_case as [H1 [H2 [H3 [_ H5]]]].
  destruct (C103_two_copulas_refuted eig nearest two_objects 0 1 nines 1 0 (- 9 / 10)) as [w' [r [E F]]]; try (cbn; lia); try assumption; try reflexivity; [lra|].
  exists w', r, (replaced nines 1 0 (- 9 / 10)). auto.
Qed.
