(** C109, C110: what the methods do to their argument and which forms of it they take. *)
From Verif Require Import Base RSumLib Ext M_Special M_Archimedean S_Archimedean P_Arch P_ArchCode M_Cast.
Open Scope R_scope.

(** ** Specification *)
(** the floats a caller passes *)
Definition passes (h : heap) (a : arg) (xs : list ext) : Prop :=
  match a with
  | ANum x => xs = [x]
  | AFlts ys => xs = ys
  | AInts _ => False
  | AArr l => nth_error h l = Some (DFlt xs)
  end.
(** the numbers the caller receives *)
Definition receives (r : ret * heap) (ys : list ext) : Prop :=
  match fst r with
  | RNum y => ys = [y]
  | RArr l => nth_error (snd r) l = Some (DFlt ys)
  end.
(** every array that existed is as before *)
Definition untouched (h : heap) (h' : heap) : Prop := forall l d, nth_error h l = Some d -> nth_error h' l = Some d.

(** ** Lemmas *)
Lemma load_nth h l d : nth_error h l = Some d -> load h l = d.
Proof. intros E. unfold load. apply nth_error_nth. exact E. Qed.
Lemma store_nth h l d l' : nth_error (store h l d) l' = if Nat.eqb l l' then (match nth_error h l with Some _ => Some d | None => None end) else nth_error h l'.
Proof.
  revert l l'. induction h as [|c h IH]; intros l l'.
  - cbn. destruct l; cbn; destruct l'; cbn; try reflexivity; destruct (Nat.eqb _ _); reflexivity.
  - destruct l, l'; cbn [store nth_error Nat.eqb]; try reflexivity. apply IH.
Qed.
Lemma app_last {A} (h : list A) d : nth_error (h ++ [d]) (length h) = Some d.
Proof. rewrite nth_error_app2 by lia. rewrite Nat.sub_diag. reflexivity. Qed.
Lemma app_kept (h : heap) d : untouched h (h ++ [d]).
Proof. intros l e E. rewrite nth_error_app1; [exact E|]. apply nth_error_Some. congruence. Qed.
Lemma untouched_refl h : untouched h h.
Proof. intros l d E. exact E. Qed.
Lemma untouched_trans a b c : untouched a b -> untouched b c -> untouched a c.
Proof. intros A B l d E. apply B, A, E. Qed.
Lemma cast_passes h a xs : passes h a xs -> let '(l, h') := cast a h in nth_error h' l = Some (DFlt xs) /\ untouched h h'.
Proof.
  destruct a as [x|ys|zs|l]; cbn; intros E; subst; try (split; [apply app_last|apply app_kept]); [contradiction|]. split; [exact E|apply untouched_refl].
Qed.
Lemma squeeze_receives l (h : heap) ys : nth_error h l = Some (DFlt ys) -> receives (squeeze (l, h)) ys /\ snd (squeeze (l, h)) = h.
Proof.
  intros E. unfold squeeze. cbn [fst snd]. rewrite (load_nth _ _ _ E). cbn [numbers]. destruct ys as [|y [|z r]]; cbn; auto.
Qed.
Lemma squeeze_snd r : snd (squeeze r) = snd r.
Proof. unfold squeeze. destruct (numbers _) as [|y [|z t]]; reflexivity. Qed.
Lemma combine_map {A B} (f : A -> B) l : combine l (map f l) = map (fun x => (x, f x)) l.
Proof. induction l; cbn; congruence. Qed.
Lemma mapM_map {A B} (f : A -> result B) (g : A -> B) l : (forall x, In x l -> f x = Ok (g x)) -> mapM f l = Ok (map g l).
Proof.
  induction l as [|x l IH]; intros H; cbn; [reflexivity|]. rewrite H by (left; reflexivity). cbn. rewrite IH by (intros; apply H; right; assumption). reflexivity.
Qed.
(** the element written for theta > 0 *)
Definition frank_val (th : R) (s : ext) : ext := if eltb s (log1mexp (Fin th)) then Nan else ediv (eopp (log1mexp (esub s (log1mexp (Fin th))))) th.
Lemma frank_psi_th th s : 0 < th -> frank_psi th s = Ok (frank_val th s).
Proof.
  intros H. unfold frank_psi, frank_val. rewrite (proj2 (Rleb_false th (-36))) by lra. rewrite (proj2 (Rltb_false th 0)) by lra. rewrite Reqb_neq by lra.
  cbv zeta. destruct (eltb _ _); reflexivity.
Qed.
Lemma write_gen th junk xs i : 
  mapi (fun i xy => if frank_mask th junk i (fst xy) then snd xy else ediv (eopp (log1mexp (esub (snd xy) (log1mexp (Fin th))))) th) i
    (combine xs (mapi (fun i x => if frank_mask th junk i x then Nan else x) i xs)) = map (frank_val th) xs.
Proof.
  revert i. induction xs as [|x xs IH]; intros i; [reflexivity|]. cbn [mapi combine map fst snd]. rewrite IH. f_equal. unfold frank_mask, frank_val.
  destruct x as [r| | |]; cbn [is_nan]; try (destruct (eltb _ _); reflexivity).
  cbn [eltb]. destruct (junk i); reflexivity.
Qed.
Lemma write_val th junk xs : frank_write th junk xs = map (frank_val th) xs.
Proof. apply write_gen. Qed.
Lemma psi_total f th s : th <> 0 -> exists y, psi_of f th s = Ok y.
Proof.
  intros H. destruct f; cbn [psi_of].
  - unfold clayton_psi. rewrite Reqb_neq by exact H. eexists; reflexivity.
  - unfold frank_psi. destruct (Rleb _ _); [eexists; reflexivity|]. destruct (Rltb _ _); [eexists; reflexivity|]. destruct (Reqb _ _); [eexists; reflexivity|]. cbv zeta. destruct (eltb _ _); eexists; reflexivity.
  - eexists; reflexivity.
Qed.
Lemma frank_val_0 th : 0 < th -> frank_val th (Fin 0) = Fin 1.
Proof.
  intros H. pose proof (frank_psi_pos th 0 ltac:(lra) ltac:(lra) ltac:(lra)) as P. rewrite frank_psi_th in P by exact H. injection P as ->. f_equal.
  unfold fr_psi. rewrite Ropp_0, exp_0, Rmult_1_r. replace (1 + (exp (- th) - 1)) with (exp (- th)) by ring. rewrite ln_exp. field. lra.
Qed.
Lemma frank_val_1 th : 0 < th -> exists y, frank_val th (Fin 1) = Fin y /\ y <> 1.
Proof.
  intros H. pose proof (frank_psi_pos th 1 ltac:(lra) ltac:(lra) ltac:(lra)) as P. rewrite frank_psi_th in P by exact H. injection P as ->. eexists. split; [reflexivity|].
  unfold fr_psi. replace (- (1)) with (-1) by ring. intros E. pose proof (em_neg th H). pose proof (exp_increasing (-1) 0 ltac:(lra)) as I1. rewrite exp_0 in I1. pose proof (exp_pos (-1)).
  assert (L : ln (1 + (exp (- th) - 1) * exp (-1)) = - th). { apply (f_equal (fun x => x * th)) in E. unfold Rdiv in E. rewrite Rmult_assoc, Rinv_l in E by lra. lra. }
  assert (P0 : 0 < 1 + (exp (- th) - 1) * exp (-1)) by nra.
  apply (f_equal exp) in L. rewrite exp_ln in L by exact P0. nra.
Qed.

(** ** C109 *)
(** Whatever the family, the parameter and the way the numbers are passed, psi returns the generator of each of them; what numpy
    leaves in the mask at nan does not matter. *)
Theorem C109_values : forall f th junk h a xs ys, passes h a xs -> mapM (psi_of f th) xs = Ok ys ->
  exists r, psi_call f th junk a h = Ok r /\ receives r ys.
Proof.
  intros f th junk h a xs ys P M. apply cast_passes in P. unfold psi_call. destruct (cast a h) as [l h']. destruct P as [E U].
  assert (N : exists r, rmap squeeze (rmap (fun ys => fresh h' (DFlt ys)) (mapM (psi_of f th) (numbers (load h' l)))) = Ok r /\ receives r ys).
  { rewrite (load_nth _ _ _ E). cbn [numbers]. rewrite M. cbn [rmap bind]. eexists. split; [reflexivity|]. apply squeeze_receives. apply app_last. }
  unfold psi_body. cbv zeta. destruct f; [exact N| |exact N]. destruct (Rltb 0 th) eqn:T; [|exact N]. apply Rltb_true in T.
  rewrite (load_nth _ _ _ E). eexists. split; [reflexivity|]. apply squeeze_receives. rewrite store_nth, Nat.eqb_refl, E, write_val.
  cbn [psi_of] in M. rewrite (mapM_map _ (frank_val th)) in M by (intros; apply frank_psi_th; exact T). injection M as <-. reflexivity.
Qed.
Print Assumptions C109_values.
(** Clayton, Gumbel, Frank for theta <= 0, and any family given a number or a list, leave every array of the caller as it was. *)
Theorem C109_kept : forall f th junk h a xs r, passes h a xs -> (f = Frank -> 0 < th -> forall l, a <> AArr l) ->
  psi_call f th junk a h = Ok r -> untouched h (snd r).
Proof.
  intros f th junk h a xs r P A C. pose proof (cast_passes _ _ _ P) as Q. unfold psi_call in C. destruct (cast a h) as [l h'] eqn:Ec. destruct Q as [E U].
  assert (N : rmap squeeze (rmap (fun ys => fresh h' (DFlt ys)) (mapM (psi_of f th) (numbers (load h' l)))) = Ok r -> untouched h (snd r)).
  { destruct (mapM _ _) as [ys|e]; cbn [rmap bind]; [|discriminate]. intros K. injection K as <-. unfold fresh.
    rewrite squeeze_snd; cbn [snd]. eapply untouched_trans; [exact U|apply app_kept]. }
  unfold psi_body in C. cbv zeta in C. destruct f; [exact (N C)| |exact (N C)]. destruct (Rltb 0 th) eqn:T; [|exact (N C)]. apply Rltb_true in T.
  rewrite (load_nth _ _ _ E) in C. cbn [rmap bind] in C. injection C as <-.
  assert (S : nth_error (store h' l (DFlt (frank_write th junk xs))) l = Some (DFlt (frank_write th junk xs))) by (rewrite store_nth, Nat.eqb_refl, E; reflexivity).
  rewrite squeeze_snd; cbn [snd].
  assert (L : l = length h). { destruct a as [x|zs|zs|l0]; cbn in Ec; injection Ec as <- <-; try reflexivity. exfalso. apply (A eq_refl T l0). reflexivity. }
  intros k d K. rewrite store_nth. destruct (Nat.eqb l k) eqn:Q; [|apply U; exact K]. apply Nat.eqb_eq in Q. subst k. exfalso.
  assert (l < length h)%nat by (apply nth_error_Some; congruence). lia.
Qed.
Print Assumptions C109_kept.
(** Frank with a positive parameter writes the results into the array of the caller and returns that same array... *)
Theorem C109_frank_overwrites_refuted : forall th junk h l xs, 0 < th -> nth_error h l = Some (DFlt xs) ->
  exists ys r, mapM (psi_of Frank th) xs = Ok ys /\ psi_call Frank th junk (AArr l) h = Ok r /\ nth_error (snd r) l = Some (DFlt ys) /\
    (length xs <> 1%nat -> fst r = RArr l) /\ (In (Fin 0) xs -> ~ untouched h (snd r)).
Proof.
  intros th junk h l xs T E. exists (map (frank_val th) xs). unfold psi_call, psi_body. cbn [cast]. cbv zeta. rewrite (proj2 (Rltb_true 0 th) T), (load_nth _ _ _ E), write_val.
  assert (S : nth_error (store h l (DFlt (map (frank_val th) xs))) l = Some (DFlt (map (frank_val th) xs))) by (rewrite store_nth, Nat.eqb_refl, E; reflexivity).
  eexists. split; [cbn [psi_of]; apply mapM_map; intros; apply frank_psi_th; exact T|]. split; [reflexivity|]. rewrite squeeze_snd; cbn [snd]. split; [exact S|]. split.
  - intros L. unfold squeeze. cbn [fst snd]. rewrite (load_nth _ _ _ S). cbn [numbers]. destruct xs as [|x [|y r]]; cbn in *; try reflexivity. congruence.
  - intros I U. specialize (U l _ E). rewrite S in U. injection U as U. apply In_nth_error in I. destruct I as [i I].
    pose proof (f_equal (fun z => nth_error z i) U) as K. cbn beta in K. rewrite nth_error_map, I in K. cbn [option_map] in K. rewrite frank_val_0 in K by exact T. injection K as K. lra.
Qed.
Print Assumptions C109_frank_overwrites_refuted.
(** ...so that a second evaluation at the same array returns the generator of the generator, which is another value. *)
Theorem C109_frank_twice_refuted : forall th junk junk' h l xs, 0 < th -> nth_error h l = Some (DFlt xs) ->
  exists ys zs r r', mapM (psi_of Frank th) xs = Ok ys /\ mapM (psi_of Frank th) ys = Ok zs /\
    psi_call Frank th junk (AArr l) h = Ok r /\ receives r ys /\ psi_call Frank th junk' (AArr l) (snd r) = Ok r' /\ receives r' zs /\
    (In (Fin 0) xs -> ys <> zs).
Proof.
  intros th junk junk' h l xs T E. destruct (C109_frank_overwrites_refuted th junk h l xs T E) as (ys & r & M & C & S & _ & _).
  destruct (C109_frank_overwrites_refuted th junk' (snd r) l ys T S) as (zs & r' & M' & C' & _ & _ & _).
  destruct (C109_values Frank th junk h (AArr l) xs ys E M) as (r0 & K & V). rewrite C in K. injection K as <-.
  destruct (C109_values Frank th junk' (snd r) (AArr l) ys zs S M') as (r1 & K' & V'). rewrite C' in K'. injection K' as <-.
  exists ys, zs, r, r'. repeat (split; [assumption|]). intros I Q. subst zs. apply In_nth_error in I. destruct I as [i I]. cbn [psi_of] in M, M'.
  rewrite (mapM_map _ (frank_val th)) in M, M' by (intros; apply frank_psi_th; exact T). injection M as M. injection M' as M'.
  assert (Y : nth_error ys i = Some (Fin 1)) by (rewrite <- M, nth_error_map, I; cbn; rewrite frank_val_0 by exact T; reflexivity).
  pose proof (f_equal (fun z => nth_error z i) M') as K. cbn beta in K. rewrite nth_error_map, Y in K. cbn [option_map] in K.
  destruct (frank_val_1 th T) as (y & Ey & Ny). rewrite Ey in K. injection K as K. contradiction.
Qed.
Print Assumptions C109_frank_twice_refuted.
(** Arrays and lists of integers are refused by Frank with a positive parameter, whatever they hold. *)
Theorem C109_frank_integers_refuted : forall th junk h zs, 0 < th ->
  psi_call Frank th junk (AInts zs) h = Err ValueError /\ (forall l, nth_error h l = Some (DInt zs) -> psi_call Frank th junk (AArr l) h = Err ValueError).
Proof.
  intros th junk h zs T. unfold psi_call, psi_body. cbn [cast]. cbv zeta. rewrite (proj2 (Rltb_true 0 th) T). split.
  - rewrite (load_nth _ _ _ (app_last h (DInt zs))). reflexivity.
  - intros l E. rewrite (load_nth _ _ _ E). reflexivity.
Qed.
Print Assumptions C109_frank_integers_refuted.

(** Gumbel's itau of several taus below 1 is 1 / (1 - tau), negative taus counting as 0. *)
Lemma existsb_neg ts : existsb neg (map Fin ts) = existsb (fun t => Rltb t 0) ts.
Proof. induction ts; cbn; [reflexivity|]. rewrite IHts. reflexivity. Qed.
Lemma clip_nop xs : existsb neg xs = false -> map (fun x => if neg x then Fin 0 else x) xs = xs.
Proof. induction xs as [|x xs IH]; cbn; [reflexivity|]. intros H. apply orb_false_iff in H. destruct H as [A B]. rewrite A, IH by exact B. reflexivity. Qed.
Lemma itau_call_many a h xs : passes h a xs -> length xs <> 1%nat ->
  exists l h1, cast a h = (l, h1) /\ nth_error h1 l = Some (DFlt xs) /\ untouched h h1 /\
  let h2 := if existsb neg xs then store h1 l (DFlt (map (fun x => if neg x then Fin 0 else x) xs)) else h1 in
  gumbel_itau_call a h = Ok (squeeze (fresh h2 (DFlt (map einv1m (map (fun x => if neg x then Fin 0 else x) xs))))).
Proof.
  intros P N. pose proof (cast_passes _ _ _ P) as Q. unfold gumbel_itau_call. destruct (cast a h) as [l h1]. destruct Q as [E U]. exists l, h1.
  split; [reflexivity|]. split; [exact E|]. split; [exact U|]. rewrite (load_nth _ _ _ E). cbn [numbers clip]. cbv zeta.
  assert (K : numbers (load (if existsb neg xs then store h1 l (DFlt (map (fun x => if neg x then Fin 0 else x) xs)) else h1) l)
    = map (fun x => if neg x then Fin 0 else x) xs).
  { destruct (existsb neg xs) eqn:B.
    - rewrite (load_nth _ l (DFlt (map (fun x => if neg x then Fin 0 else x) xs))); [reflexivity|]. rewrite store_nth, Nat.eqb_refl, E. reflexivity.
    - rewrite (load_nth _ _ _ E), clip_nop by exact B. reflexivity. }
  destruct xs as [|x [|y r]]; [rewrite K; reflexivity| |rewrite K; reflexivity]. cbn in N. congruence.
Qed.
Theorem C109_itau_values : forall a h ts, passes h a (map Fin ts) -> length ts <> 1%nat -> (forall t, In t ts -> t < 1) ->
  exists r, gumbel_itau_call a h = Ok r /\ receives r (map (fun t => Fin (1 / (1 - Rmax t 0))) ts).
Proof.
  intros a h ts P N B. destruct (itau_call_many a h _ P ltac:(rewrite map_length; exact N)) as (l & h1 & _ & _ & _ & C). cbv zeta in C. eexists. split; [exact C|].
  unfold fresh. match goal with |- receives (squeeze (_, ?h ++ [DFlt ?v])) ?ys => replace ys with v; [apply squeeze_receives; apply app_last|] end.
  rewrite !map_map. apply map_ext_in. intros t I. specialize (B t I). unfold neg. cbn [eltb]. destruct (Rltb t 0) eqn:Q; cbn [einv1m]; unfold inv1m.
  - apply Rltb_true in Q. rewrite Reqb_neq by lra. rewrite Rmax_right by lra. reflexivity.
  - apply Rltb_false in Q. rewrite Reqb_neq by lra. rewrite Rmax_left by lra. reflexivity.
Qed.
Print Assumptions C109_itau_values.
(** It writes zeros over the negative taus of an array the caller passes... *)
Theorem C109_itau_overwrites_refuted : forall h l ts i, nth_error h l = Some (DFlt (map Fin ts)) -> length ts <> 1%nat -> (exists t, nth_error ts i = Some t /\ t < 0) ->
  exists r, gumbel_itau_call (AArr l) h = Ok r /\ nth_error (snd r) l = Some (DFlt (map (fun t => Fin (Rmax t 0)) ts)) /\ ~ untouched h (snd r).
Proof.
  intros h l ts i E N (t & I & T). destruct (itau_call_many (AArr l) h _ E ltac:(rewrite map_length; exact N)) as (l' & h1 & Ec & E1 & _ & C). cbn [cast] in Ec. injection Ec as <- <-.
  cbv zeta in C.
  assert (B : existsb neg (map Fin ts) = true). { apply existsb_exists. exists (Fin t). split; [apply in_map; eapply nth_error_In; exact I|]. unfold neg. cbn. apply Rltb_true. exact T. }
  rewrite B in C. eexists. split; [exact C|]. unfold fresh. rewrite squeeze_snd; cbn [snd].
  assert (S : nth_error (store h l (DFlt (map (fun x => if neg x then Fin 0 else x) (map Fin ts))) ++
      [DFlt (map einv1m (map (fun x => if neg x then Fin 0 else x) (map Fin ts)))]) l = Some (DFlt (map (fun t => Fin (Rmax t 0)) ts))).
  { apply app_kept. rewrite store_nth, Nat.eqb_refl, E1. f_equal. f_equal. rewrite map_map. apply map_ext. intros x. unfold neg. cbn [eltb]. destruct (Rltb x 0) eqn:Q.
    - apply Rltb_true in Q. rewrite Rmax_right by lra. reflexivity.
    - apply Rltb_false in Q. rewrite Rmax_left by lra. reflexivity. }
  split; [exact S|]. intros U. specialize (U l _ E). rewrite S in U. injection U as U. pose proof (f_equal (fun z => nth_error z i) U) as K. cbn beta in K.
  rewrite !nth_error_map, I in K. cbn [option_map] in K. injection K as K. rewrite Rmax_right in K by lra. lra.
Qed.
Print Assumptions C109_itau_overwrites_refuted.
(** ...and leaves everything alone when there are none, or when it is given a list. *)
Theorem C109_itau_kept : forall a h xs r, passes h a xs -> length xs <> 1%nat -> existsb neg xs = false \/ (forall l, a <> AArr l) ->
  gumbel_itau_call a h = Ok r -> untouched h (snd r).
Proof.
  intros a h xs r P N K C. destruct (itau_call_many a h _ P N) as (l & h1 & Ec & E1 & U & C'). cbv zeta in C'. rewrite C' in C. injection C as <-.
  unfold fresh. rewrite squeeze_snd; cbn [snd]. eapply untouched_trans; [|apply app_kept]. destruct (existsb neg xs); [|exact U].
  destruct K as [K|K]; [discriminate|]. assert (L : l = length h). { destruct a as [x|zs|zs|l0]; cbn in Ec; injection Ec as <- <-; try reflexivity. exfalso. apply (K l0). reflexivity. }
  intros k d Q. rewrite store_nth. destruct (Nat.eqb l k) eqn:Z; [|apply U; exact Q]. apply Nat.eqb_eq in Z. subst k.
  assert (l < length h)%nat by (apply nth_error_Some; congruence). lia.
Qed.
Print Assumptions C109_itau_kept.
(** The single tau 1 raises, although among others it gives inf. *)
Theorem C109_itau_one_refuted : forall h, gumbel_itau_call (ANum (Fin 1)) h = Err ZeroDivisionError /\
  exists r, gumbel_itau_call (AFlts [Fin 1; Fin 0]) h = Ok r /\ receives r [Pinf; Fin 1].
Proof.
  intros h. split.
  - unfold gumbel_itau_call. cbn [cast]. rewrite (load_nth _ _ _ (app_last h _)). cbn [numbers]. unfold neg. cbn [eltb einv1m]. unfold inv1m.
    rewrite (proj2 (Rltb_false 1 0)) by lra. rewrite Reqb_refl. reflexivity.
  - destruct (itau_call_many (AFlts [Fin 1; Fin 0]) h [Fin 1; Fin 0] eq_refl ltac:(discriminate)) as (l & h1 & _ & _ & _ & C). cbv zeta in C. eexists. split; [exact C|].
    unfold fresh. match goal with |- receives (squeeze (_, ?h ++ [DFlt ?v])) ?ys => replace ys with v; [apply squeeze_receives; apply app_last|] end.
    cbn [map]. unfold neg. cbn [eltb]. rewrite (proj2 (Rltb_false 1 0)) by lra. rewrite Rltb_irrefl. cbn [einv1m]. unfold inv1m. rewrite Reqb_refl, Reqb_neq by lra. repeat f_equal. field.
Qed.
Print Assumptions C109_itau_one_refuted.
(** Case: an array with the two entries 0 and 1, Frank with parameter 5. *)
Example C109_case : let h := [DFlt [Fin 0; Fin 1]; DInt [1; 2]%Z] in
  exists r, psi_call Frank 5 (fun _ => true) (AArr 0) h = Ok r /\ fst r = RArr 0 /\ ~ untouched h (snd r) /\ psi_call Frank 5 (fun _ => true) (AArr 1) h = Err ValueError.
Proof.
  cbv zeta. destruct (C109_frank_overwrites_refuted 5 (fun _ => true) [DFlt [Fin 0; Fin 1]; DInt [1; 2]%Z] 0 [Fin 0; Fin 1] ltac:(lra) eq_refl) as (ys & r & _ & C & _ & R0 & N).
  exists r. split; [exact C|]. split; [apply R0; discriminate|]. split; [apply N; left; reflexivity|].
  apply (proj2 (C109_frank_integers_refuted 5 (fun _ => true) [DFlt [Fin 0; Fin 1]; DInt [1; 2]%Z] [1; 2]%Z ltac:(lra))). reflexivity.
Qed.

(** ** C110 *)
(** By position, a list and the array with the same numbers give the same result, for every method. *)
Theorem C110_list_array : forall m el l, by_position m el (PList l) = by_position m el (PArr l).
Proof. reflexivity. Qed.
Print Assumptions C110_list_array.
(** An array of floats gives the value at each of them (Gumbel's itau of one number divides in Python: the value has to be finite). *)
Theorem C110_array : forall m el xs, (m = GumbelItau -> length xs = 1%nat -> forall x, In x xs -> exists y, el x = Fin y) ->
  exists o, by_position m el (PArr (Fs xs)) = Ok o /\ (forall x, xs = [x] -> o = OFloat (el x)) /\ (length xs <> 1%nat -> o = OArr (map el xs)).
Proof.
  intros m el xs F.
  assert (S : forall x, xs = [x] -> sq (map el xs) = OFloat (el x)) by (intros x ->; reflexivity).
  assert (S' : length xs <> 1%nat -> sq (map el xs) = OArr (map el xs)) by (destruct xs as [|x [|y r]]; cbn; [reflexivity|congruence|reflexivity]).
  unfold by_position. cbn [np_cast]. destruct m; cbn [body by_numpy by_operator by_python int_power reals]; try (eexists; split; [reflexivity|]; split; assumption).
  destruct xs as [|x [|y r]].
  - eexists. split; [reflexivity|]. split; assumption.
  - destruct (F eq_refl eq_refl x (or_introl eq_refl)) as [y E]. rewrite E. eexists. split; [reflexivity|]. split; [intros z Q; injection Q as <-; rewrite E; reflexivity|cbn; congruence].
  - eexists. split; [reflexivity|]. split; assumption.
Qed.
Print Assumptions C110_array.
(** A number gives the value at it, for every method but Frank's ipsi... *)
Theorem C110_number : forall m el x, m <> FrankIpsi -> (m = GumbelItau -> exists y, el x = Fin y) -> by_position m el (PNum (NF x)) = Ok (OFloat (el x)).
Proof.
  intros m el x H F. unfold by_position. cbn [np_cast]. destruct m; try reflexivity; [|contradiction]. destruct (F eq_refl) as [y E]. cbn. rewrite E. reflexivity.
Qed.
Print Assumptions C110_number.
(** ...which takes no number at all, however it is passed. *)
Theorem C110_frank_ipsi_number_refuted : forall el n, by_position FrankIpsi el (PNum n) = Err TypeError /\ by_keyword FrankIpsi el (PNum n) = Err TypeError /\
  by_position FrankIpsi el (PArr (Fs [real n])) = Ok (OFloat (el (real n))).
Proof. intros. repeat split; reflexivity. Qed.
Print Assumptions C110_frank_ipsi_number_refuted.
(** Integers count as the floats they are, except in Gumbel's dtau and Frank's psi (theta > 0)... *)
Definition as_float (v : pv) : pv :=
  match v with PNum n => PNum (NF (real n)) | PList l => PList (Fs (reals l)) | PArr0 n => PArr0 (NF (real n)) | PArr l => PArr (Fs (reals l)) end.
Theorem C110_integers : forall m el v, m <> GumbelDtau -> m <> FrankPsi -> by_position m el v = by_position m el (as_float v) /\ by_keyword m el v = by_keyword m el (as_float v).
Proof.
  intros m el v A B. unfold by_position, by_keyword. destruct m; try contradiction; destruct v as [n|l|n|l]; split; reflexivity.
Qed.
Print Assumptions C110_integers.
(** ...which refuse any of them passed by position. *)
Theorem C110_integers_refuted : forall el z zs,
  by_position GumbelDtau el (PNum (NZ z)) = Err ValueError /\ by_position GumbelDtau el (PList (Zs zs)) = Err ValueError /\
  by_position FrankPsi el (PNum (NZ z)) = Err ValueError /\ by_position FrankPsi el (PList (Zs zs)) = Err ValueError /\
  by_position GumbelDtau el (PNum (NF (IZR z))) = Ok (OFloat (el (IZR z))) /\ by_position FrankPsi el (PNum (NF (IZR z))) = Ok (OFloat (el (IZR z))).
Proof. intros. repeat split; reflexivity. Qed.
Print Assumptions C110_integers_refuted.
(** By keyword, arrays are treated as by position, for every method; numbers where the value is finite, except in Frank's itau. *)
Theorem C110_keyword_array : forall m el l, by_keyword m el (PArr l) = by_position m el (PArr l).
Proof. reflexivity. Qed.
Print Assumptions C110_keyword_array.
Theorem C110_keyword_number : forall m el x, m <> FrankItau -> (exists y, el x = Fin y) -> by_keyword m el (PNum (NF x)) = by_position m el (PNum (NF x)).
Proof. intros m el x H [y E]. unfold by_keyword, by_position. destruct m; try reflexivity; try contradiction; cbn; rewrite E; reflexivity. Qed.
Print Assumptions C110_keyword_number.
(** Lists by keyword are treated as by position by the methods that start with a numpy function. *)
Theorem C110_keyword_list : forall m el l, In m [ClaytonDipsi; GumbelIpsi; FrankIpsi; FrankPsi; EllipticalItau; GaussianIrho] ->
  by_keyword m el (PList l) = by_position m el (PList l).
Proof. intros m el l I. repeat (destruct I as [<-|I]; [destruct l; reflexivity|]). destruct I. Qed.
Print Assumptions C110_keyword_list.
(** Every other method raises for every list passed by keyword, and Frank's itau for every number too, although each has a value by position. *)
Theorem C110_keyword_refuted : 
  (forall m el l, ~ In m [ClaytonDipsi; GumbelIpsi; FrankIpsi; FrankPsi; EllipticalItau; GaussianIrho] -> exists e, by_keyword m el (PList l) = Err e) /\
  (forall el n, by_keyword FrankItau el (PNum n) = Err AttributeError /\ by_position FrankItau el (PNum n) = Ok (OFloat (el (real n)))) /\
  (forall m el x y r, exists o, by_position m el (PList (Fs (x :: y :: r))) = Ok o).
Proof.
  split; [|split].
  - intros m el l N. destruct m; try (eexists; reflexivity); exfalso; apply N; cbn; tauto.
  - intros. split; reflexivity.
  - intros m el x y r. destruct m; eexists; reflexivity.
Qed.
Print Assumptions C110_keyword_refuted.
(** Case: Gumbel's dtau at 2 and at the integer 2; Clayton's ipsi of two numbers by position and by keyword. *)
Example C110_case :
  by_position GumbelDtau (fun x => Fin (gumbel_dtau x)) (PNum (NF 2)) = Ok (OFloat (Fin (gumbel_dtau 2))) /\
  by_position GumbelDtau (fun x => Fin (gumbel_dtau x)) (PNum (NZ 2)) = Err ValueError /\
  by_position ClaytonIpsi (fun u => clayton_ipsi 2 (Fin u)) (PList (Fs [1/2; 1/4])) = Ok (OArr [clayton_ipsi 2 (Fin (1/2)); clayton_ipsi 2 (Fin (1/4))]) /\
  by_keyword ClaytonIpsi (fun u => clayton_ipsi 2 (Fin u)) (PList (Fs [1/2; 1/4])) = Err TypeError /\
  by_keyword FrankItau (fun t => Fin t) (PNum (NF (1/2))) = Err AttributeError.
Proof. repeat split. Qed.
