(** Lemmas about nested dictionaries: the heap code of dict.py computes the merge of plain trees. *)
From Verif Require Import Base RSumLib Ext M_Dict S_Dict.
Open Scope nat_scope.

(** the merge of two plain trees; [entry_merge] is the value found under one key *)
Fixpoint merge {A} (a b : tree A) {struct b} : tree A :=
  match b with
  | Node lb =>
    match a with
    | Node la =>
      Node ((fix go (la : list (string * tree A)) (lb : list (string * tree A)) {struct lb} : list (string * tree A) :=
        match lb with
        | [] => la
        | (k, v) :: r => go (upsert k (match assoc k la with
                                       | Some (Node x) => match v with Node _ => merge (Node x) v | Leaf _ => v end
                                       | _ => v end) la) r
        end) la lb)
    | Leaf _ => b
    end
  | Leaf _ => b
  end.
Definition mval {A} (o : option (tree A)) (v : tree A) : tree A :=
  match o with Some (Node x) => match v with Node _ => merge (Node x) v | Leaf _ => v end | _ => v end.
Fixpoint mgo {A} (la lb : list (string * tree A)) : list (string * tree A) :=
  match lb with [] => la | (k, v) :: r => mgo (upsert k (mval (assoc k la) v) la) r end.
Lemma merge_node : forall A (la lb : list (string * tree A)), merge (Node la) (Node lb) = Node (mgo la lb).
Proof.
  intros. cbn [merge]. f_equal. revert la. induction lb as [|[k v] r IH]; intros; [reflexivity|]. cbn. rewrite IH. reflexivity.
Qed.

Lemma entry_assoc : forall V k (l : list (string * V)), entry k l = assoc k l.
Proof. induction l as [|[k' v] r IH]; [reflexivity|]. cbn. rewrite IH. reflexivity. Qed.
Lemma assoc_upsert_eq : forall V k (v : V) l, assoc k (upsert k v l) = Some v.
Proof.
  induction l as [|[k' v'] r IH]; cbn; [rewrite String.eqb_refl; reflexivity|].
  destruct (String.eqb k k') eqn:E; cbn; rewrite E; [reflexivity|exact IH].
Qed.
Lemma assoc_upsert_neq : forall V k k' (v : V) l, k <> k' -> assoc k (upsert k' v l) = assoc k l.
Proof.
  intros V k k' v l H. induction l as [|[a b] r IH]; cbn.
  - rewrite (proj2 (String.eqb_neq k k') H). reflexivity.
  - destruct (String.eqb k' a) eqn:E; cbn.
    + apply String.eqb_eq in E. subst a. rewrite (proj2 (String.eqb_neq k k') H). reflexivity.
    + rewrite IH. reflexivity.
Qed.
Lemma assoc_in : forall V k (v : V) l, assoc k l = Some v -> In (k, v) l.
Proof.
  induction l as [|[k' v'] r IH]; cbn; [discriminate|]. destruct (String.eqb k k') eqn:E; intros H.
  - apply String.eqb_eq in E. subst. inversion H. now left.
  - right. now apply IH.
Qed.
Lemma in_assoc : forall V k (v : V) l, NoDup (map fst l) -> In (k, v) l -> assoc k l = Some v.
Proof.
  induction l as [|[k' v'] r IH]; cbn; [tauto|]. intros D [H|H].
  - inversion H; subst. rewrite String.eqb_refl. reflexivity.
  - inversion D; subst. destruct (String.eqb k k') eqn:E.
    + apply String.eqb_eq in E. subst k'. exfalso. apply H2. apply in_map_iff. exists (k, v). auto.
    + auto.
Qed.
Lemma assoc_none : forall V k (l : list (string * V)), assoc k l = None <-> ~ In k (map fst l).
Proof.
  induction l as [|[k' v'] r IH]; cbn; [tauto|]. destruct (String.eqb k k') eqn:E.
  - apply String.eqb_eq in E. subst. split; [discriminate|]. intros H. exfalso. apply H. now left.
  - apply String.eqb_neq in E. rewrite IH. intuition congruence.
Qed.
Lemma upsert_keys : forall V k (v : V) l, map fst (upsert k v l) = if existsb (String.eqb k) (map fst l) then map fst l else map fst l ++ [k].
Proof.
  induction l as [|[k' v'] r IH]; [reflexivity|]. cbn. destruct (String.eqb k k') eqn:E; cbn; [reflexivity|].
  rewrite IH. destruct (existsb _ _); reflexivity.
Qed.
Lemma upsert_nodup : forall V k (v : V) l, NoDup (map fst l) -> NoDup (map fst (upsert k v l)).
Proof.
  intros V k v l D. rewrite upsert_keys. destruct (existsb _ _) eqn:E; [exact D|].
  assert (~ In k (map fst l)).
  { intros H. apply not_true_iff_false in E. apply E. apply existsb_exists. exists k. split; [exact H|apply String.eqb_refl]. }
  clear E. induction (map fst l) as [|x r IH]; cbn; [constructor; [tauto|constructor]|].
  inversion D; subst. constructor.
  - rewrite in_app_iff. cbn. intros [C|[C|[]]]; [tauto|]. subst. apply H. now left.
  - apply IH; [assumption|]. intros C. apply H. now right.
Qed.
Lemma upsert_in : forall V k (v : V) l k' v', In (k', v') (upsert k v l) -> (k' = k /\ v' = v) \/ In (k', v') l.
Proof.
  induction l as [|[a b] r IH]; cbn; intros k' v' H.
  - destruct H as [H|[]]. inversion H. auto.
  - destruct (String.eqb k a) eqn:E; cbn in H.
    + apply String.eqb_eq in E. destruct H as [H|H]; [inversion H; subst; auto|auto].
    + destruct H as [H|H]; [auto|]. destruct (IH _ _ H); auto.
Qed.
Lemma upsert_same : forall V k (v : V) l, assoc k l = Some v -> upsert k v l = l.
Proof.
  induction l as [|[a b] r IH]; cbn; [discriminate|]. destruct (String.eqb k a) eqn:E; intros H.
  - inversion H. reflexivity.
  - rewrite IH; auto.
Qed.

(** value under a key after the merge of entries *)
Lemma mgo_assoc_notin : forall A (lb la : list (string * tree A)) k, ~ In k (map fst lb) -> assoc k (mgo la lb) = assoc k la.
Proof.
  induction lb as [|[k' v] r IH]; intros la k H; cbn; [reflexivity|].
  rewrite IH by (cbn in H; tauto). apply assoc_upsert_neq. cbn in H. intros C. apply H. now left.
Qed.
Lemma mgo_assoc : forall A (lb la : list (string * tree A)) k, NoDup (map fst lb) ->
  assoc k (mgo la lb) = match assoc k lb with Some v => Some (mval (assoc k la) v) | None => assoc k la end.
Proof.
  induction lb as [|[k' v] r IH]; intros la k D; cbn; [reflexivity|]. inversion D; subst.
  destruct (String.eqb k k') eqn:E.
  - apply String.eqb_eq in E. subst k'. rewrite mgo_assoc_notin by exact H1. apply assoc_upsert_eq.
  - apply String.eqb_neq in E. rewrite IH by exact H2. rewrite assoc_upsert_neq by exact E. reflexivity.
Qed.

(** strong induction on trees *)
Lemma tree_ind2 : forall A (P : tree A -> Prop), (forall x, P (Leaf x)) -> (forall l, (forall k t, In (k, t) l -> P t) -> P (Node l)) -> forall t, P t.
Proof.
  intros A P HL HN. fix F 1. intros [x|l]; [apply HL|]. apply HN.
  assert (Q : Forall (fun p => P (snd p)) l). { induction l as [|[k t] r IH]; constructor; [apply F|exact IH]. }
  intros k t H. exact (proj1 (Forall_forall _ _) Q (k, t) H).
Qed.
Lemma mgo_nodup : forall A (lb la : list (string * tree A)), NoDup (map fst la) -> NoDup (map fst (mgo la lb)).
Proof. induction lb as [|[k v] r IH]; intros la D; cbn; [exact D|]. apply IH. now apply upsert_nodup. Qed.
Lemma merge_keys_once : forall A (b a : tree A), keys_once a -> keys_once b -> keys_once (merge a b).
Proof.
  intros A b. induction b as [x|lb IH] using tree_ind2; intros a Ka Kb; [exact Kb|].
  destruct a as [y|la]; [exact Kb|]. rewrite merge_node.
  inversion Kb as [|? Db Hb]; subst. inversion Ka as [|? Da Ha]; subst. constructor; [now apply mgo_nodup|].
  intros k t Hin. apply in_assoc in Hin; [|now apply mgo_nodup]. rewrite mgo_assoc in Hin by exact Db.
  destruct (assoc k lb) as [v|] eqn:E.
  - apply assoc_in in E. inversion Hin; subst. unfold mval. destruct (assoc k la) as [[y|x]|] eqn:Ea; eauto.
    destruct v as [z|lz]; eauto. eapply IH; eauto. eapply Ha. apply assoc_in. exact Ea.
  - eapply Ha. apply assoc_in. exact Hin.
Qed.

(** ** The heap code computes [merge] *)
Scheme stores_mind := Induction for stores Sort Prop with stores_all_mind := Induction for stores_all Sort Prop.
Combined Scheme stores_both from stores_mind, stores_all_mind.

Lemma stores_frame : forall A (h h' : heap A),
  (forall v t N, stores h v t N -> (forall l, In l N -> h' l = h l) -> stores h' v t N) /\
  (forall c kts N, stores_all h c kts N -> (forall l, In l N -> h' l = h l) -> stores_all h' c kts N).
Proof.
  intros A h h'. apply (stores_both A h (fun v t N _ => (forall l, In l N -> h' l = h l) -> stores h' v t N)
    (fun c kts N _ => (forall l, In l N -> h' l = h l) -> stores_all h' c kts N)); intros.
  - constructor.
  - constructor. rewrite H0 by now left. apply H. intros. apply H0. now right.
  - constructor.
  - constructor; [apply H|apply H0]; intros; apply H1; apply in_or_app; auto.
Qed.
Lemma stores_det : forall A (h : heap A),
  (forall v t N, stores h v t N -> forall N', stores h v t N' -> N = N') /\
  (forall c kts N, stores_all h c kts N -> forall N', stores_all h c kts N' -> N = N').
Proof.
  intros A h. apply (stores_both A h (fun v t N _ => forall N', stores h v t N' -> N = N') (fun c kts N _ => forall N', stores_all h c kts N' -> N = N')).
  - intros x N' H. inversion H. reflexivity.
  - intros l kts N s IH N' H. inversion H; subst. f_equal. now apply IH.
  - intros N' H. inversion H. reflexivity.
  - intros k v t N kvs kts Ns s IH1 s2 IH2 N' H. inversion H; subst. f_equal; [now apply IH1|now apply IH2].
Qed.
Lemma stores_keys : forall A (h : heap A) c kts N, stores_all h c kts N -> map fst c = map fst kts.
Proof. induction 1; cbn; congruence. Qed.
Lemma stores_none : forall A (h : heap A) c kts N k, stores_all h c kts N -> assoc k c = None -> assoc k kts = None.
Proof. intros. apply assoc_none. apply assoc_none in H0. rewrite <- (stores_keys _ _ _ _ _ H). exact H0. Qed.
(** one entry and the replacement of it *)
Lemma stores_split : forall A (h : heap A) c kts N k v, stores_all h c kts N -> assoc k c = Some v ->
  exists t N1 Nk N2, N = N1 ++ Nk ++ N2 /\ assoc k kts = Some t /\ stores h v t Nk /\
    (forall h' v' t' Nk', stores h' v' t' Nk' -> (forall l, In l (N1 ++ N2) -> h' l = h l) ->
       stores_all h' (upsert k v' c) (upsert k t' kts) (N1 ++ Nk' ++ N2)) /\
    (forall k' v' t' N', k' <> k -> assoc k' c = Some v' -> assoc k' kts = Some t' -> stores h v' t' N' -> incl N' (N1 ++ N2)).
Proof.
  intros A h c kts N k v H. induction H as [|k0 v0 t0 N0 kvs kts Ns H0 H IH]; cbn; [discriminate|].
  destruct (String.eqb k k0) eqn:E; intros Ev.
  - inversion Ev; subst v0. exists t0, [], N0, Ns. split; [reflexivity|]. split; [reflexivity|]. split; [exact H0|]. split.
    + intros h' v' t' Nk' Hs Hf. cbn. constructor; [exact Hs|]. apply (proj2 (stores_frame A h h') _ _ _ H). exact Hf.
    + apply String.eqb_eq in E. subst k0. intros k' v' t' N' Hk. rewrite (proj2 (String.eqb_neq k' k) Hk).
      cbn. clear -H. intros E1 E2 Hs. revert E1 E2. induction H as [|a va ta Na kvs kts Ns Ha H IH]; cbn; [discriminate|].
      destruct (String.eqb k' a).
      * intros E1 E2. inversion E1; inversion E2; subst. rewrite (proj1 (stores_det A h) _ _ _ Hs _ Ha). apply incl_appl, incl_refl.
      * intros E1 E2. apply incl_appr. auto.
  - destruct (IH Ev) as [t [N1 [Nk [N2 [EN [Et [Hs [Hr Hi]]]]]]]]. exists t, (N0 ++ N1), Nk, N2.
    split; [rewrite EN, app_assoc; reflexivity|]. split; [exact Et|]. split; [exact Hs|]. split.
    + intros h' v' t' Nk' Hs' Hf. rewrite <- app_assoc. constructor.
      * apply (proj1 (stores_frame A h h') _ _ _ H0). intros l Hl. apply Hf. rewrite !in_app_iff. auto.
      * apply Hr; [exact Hs'|]. intros l Hl. apply Hf. rewrite !in_app_iff in *. tauto.
    + intros k' v' t' N' Hk. destruct (String.eqb k' k0).
      * intros E1 E2 Hs'. inversion E1; inversion E2; subst. rewrite (proj1 (stores_det A h) _ _ _ Hs' _ H0).
        intros l Hl. rewrite !in_app_iff. auto.
      * intros E1 E2 Hs'. pose proof (Hi _ _ _ _ Hk E1 E2 Hs') as Q. intros l Hl. specialize (Q l Hl). rewrite !in_app_iff in *. tauto.
Qed.
Lemma stores_append : forall A (h h' : heap A) c kts N k v t Nk, stores_all h c kts N -> assoc k c = None -> stores h' v t Nk ->
  (forall l, In l N -> h' l = h l) -> stores_all h' (upsert k v c) (upsert k t kts) (N ++ Nk).
Proof.
  intros A h h' c kts N k v t Nk H. induction H as [|k0 v0 t0 N0 kvs kts Ns H0 H IH]; cbn; intros En Hs Hf.
  - rewrite <- (app_nil_r Nk). constructor; [exact Hs|constructor].
  - destruct (String.eqb k k0) eqn:E; [discriminate|]. rewrite <- app_assoc. constructor.
    + apply (proj1 (stores_frame A h h') _ _ _ H0). intros. apply Hf. apply in_or_app. auto.
    + apply IH; auto. intros. apply Hf. apply in_or_app. auto.
Qed.

Lemma height_in : forall A (l : list (string * tree A)) k t, In (k, t) l -> S (height t) <= height (Node l).
Proof.
  intros A l k t H. cbn. apply le_n_S. induction l as [|[k' t'] r IH]; [destruct H|].
  destruct H as [H|H]; [inversion H; subst; apply Nat.le_max_l|]. etransitivity; [apply IH, H|apply Nat.le_max_r].
Qed.
Lemma NoDup_app_iff : forall A (l m : list A), NoDup (l ++ m) <-> NoDup l /\ NoDup m /\ (forall x, In x l -> In x m -> False).
Proof.
  induction l as [|a l IH]; intros m; cbn.
  - split; [intros H; repeat split; [constructor|exact H|tauto]|tauto].
  - split.
    + intros H. inversion H; subst. rewrite in_app_iff in H2. apply IH in H3. destruct H3 as [D1 [D2 D3]].
      repeat split; [constructor; tauto|exact D2|]. intros x [C|C] Hm; [subst; tauto|eauto].
    + intros [D1 [D2 D3]]. inversion D1; subst. constructor.
      * rewrite in_app_iff. intros [C|C]; [tauto|]. eapply D3; [now left|exact C].
      * apply IH. repeat split; [assumption|exact D2|]. intros x H3 H4. eapply D3; [right; exact H3|exact H4].
Qed.

Section Loop.
  Context {A : Type}.
  (** the loop of merge_dict over the keys, with the recursive call as an argument *)
  Fixpoint mloop (rec : heap A -> nat -> nat -> option (heap A)) (a b : nat) (h : heap A) (keys : list string) : option (heap A) :=
    match keys with
    | [] => Some h
    | k :: r =>
      match assoc k (h b) with
      | None => None
      | Some vb =>
        match assoc k (h a), vb with
        | Some (HRef x), HRef y => match rec h x y with None => None | Some h' => mloop rec a b (hset h' a (upsert k (HRef x) (h' a))) r end
        | _, _ => mloop rec a b (hset h a (upsert k vb (h a))) r
        end
      end
    end.
  Lemma merge_dict_S : forall fuel h a b, @merge_dict A (S fuel) h a b = mloop (merge_dict fuel) a b h (map fst (h b)).
  Proof.
    intros. cbn [merge_dict]. generalize (map fst (h b)). intros keys. revert h. induction keys as [|k r IH]; intros h; [reflexivity|].
    cbn. destruct (assoc k (h b)) as [vb|]; [|reflexivity].
    destruct (assoc k (h a)) as [[x|x]|]; [apply IH| |apply IH]. destruct vb as [y|y]; [apply IH|].
    destruct (merge_dict fuel h x y); [apply IH|reflexivity].
  Qed.
  Lemma hset_eq : forall (h : heap A) l c, hset h l c l = c.
  Proof. intros. unfold hset. rewrite Nat.eqb_refl. reflexivity. Qed.
  Lemma hset_neq : forall (h : heap A) l c i, i <> l -> hset h l c i = h i.
  Proof. intros. unfold hset. rewrite (proj2 (Nat.eqb_neq i l) H). reflexivity. Qed.

  Definition rec_ok (rec : heap A -> nat -> nat -> option (heap A)) (tb : tree A) : Prop :=
    forall ta h a b Na Nb, stores h (HRef a) ta Na -> stores h (HRef b) tb Nb -> keys_once ta -> NoDup (Na ++ Nb) ->
      exists h' N', rec h a b = Some h' /\ stores h' (HRef a) (merge ta tb) N' /\ incl N' (Na ++ Nb) /\ NoDup N' /\
                    (forall l, ~ In l Na -> h' l = h l).

  (** state of the loop: the remaining entries [kvs] of b, the current entries of a *)
  Lemma mloop_ok : forall rec a b kvs kts NB h ka NA (M : list nat),
    stores_all h kvs kts NB -> (forall k t, In (k, t) kts -> rec_ok rec t) -> NoDup (map fst kvs) ->
    (forall k v, In (k, v) kvs -> assoc k (h b) = Some v) ->
    stores_all h (h a) ka NA -> (forall k t, In (k, t) ka -> keys_once t) -> (forall k t, In (k, t) kts -> keys_once t) ->
    NoDup (map fst ka) ->
    a <> b -> ~ In b NA -> ~ In b NB -> ~ In a NA -> ~ In a NB -> NoDup (NA ++ NB) ->
    (forall k v t N, In k (map fst kvs) -> assoc k (h a) = Some v -> assoc k ka = Some t -> stores h v t N -> incl N M) ->
    exists h' N', mloop rec a b h (map fst kvs) = Some h' /\ stores_all h' (h' a) (mgo ka kts) N' /\ ~ In a N' /\
      incl N' (NA ++ NB) /\ NoDup N' /\ (forall l, l <> a -> ~ In l M -> h' l = h l).
  Proof.
    intros rec a b kvs. induction kvs as [|[k vb] r IH]; intros kts NB h ka NA M HB HR HD Hb HA Hka Hkb Dka Hab HbA HbB HaA HaB HN HM.
    - inversion HB; subst. cbn. exists h, NA. rewrite app_nil_r in *. repeat split; auto using incl_refl.
    - inversion HB as [|? ? tb NBk ? kts' NBr Hvb HBr]; subst. cbn [map fst mloop].
      inversion HD as [|? ? Hk HD']; subst.
      rewrite (Hb k vb) by now left.
      apply NoDup_app_iff in HN. destruct HN as [HNA [HNB HNd]]. apply NoDup_app_iff in HNB. destruct HNB as [HNBk [HNBr HNBd]].
      (* what remains after one assignment *)
      assert (STEP : forall h1 v1 t1 N1, keys_once t1 ->
        (exists NA1, stores_all h1 (h1 a) (upsert k t1 ka) NA1 /\ ~ In a NA1 /\ NoDup (NA1 ++ NBr) /\ incl NA1 (NA ++ NBk) /\ ~ In b NA1) ->
        h1 a = upsert k v1 (h a) ->
        t1 = mval (assoc k ka) tb ->
        (forall l, l <> a -> ~ In l N1 -> h1 l = h l) -> incl N1 M -> (forall l, In l N1 -> In l NA) ->
        (forall k' v t N, k' <> k -> assoc k' (h a) = Some v -> assoc k' ka = Some t -> stores h v t N -> forall l, In l N -> ~ In l N1) ->
        exists h' N', mloop rec a b h1 (map fst r) = Some h' /\ stores_all h' (h' a) (mgo ka ((k, tb) :: kts')) N' /\ ~ In a N' /\
          incl N' (NA ++ NBk ++ NBr) /\ NoDup N' /\ (forall l, l <> a -> ~ In l M -> h' l = h l)).
      { intros h1 v1 t1 N1 Kt1 [NA1 [S1 [A1 [D1 [I1 Hb1]]]]] Ea Et Hf HN1 HN1A Hsep.
        assert (FB : stores_all h1 r kts' NBr).
        { apply (proj2 (stores_frame A h h1) _ _ _ HBr). intros l Hl. apply Hf.
          - intros C. subst. apply HaB. apply in_or_app. auto.
          - intros C. apply (HNd l); [apply HN1A, C|apply in_or_app; auto]. }
        destruct (IH kts' NBr h1 (upsert k t1 ka) NA1 M) as [h' [N' [E1 [E2 [E3 [E4 [E5 E6]]]]]]]; auto.
        - intros k' t' Hin. apply (HR k'). now right.
        - intros k' v' Hin. rewrite Hf; [apply Hb; now right|congruence|]. intros C. apply HbA. apply HN1A, C.
        - intros k' t' Hin. apply upsert_in in Hin. destruct Hin as [[? ?]|Hin]; [subst; exact Kt1|eauto].
        - intros k' t' Hin. apply (Hkb k'). now right.
        - now apply upsert_nodup.
        - intros C. apply HbB. apply in_or_app. auto.
        - intros C. apply HaB. apply in_or_app. auto.
        - intros k' v t N Hin Ev Etk Hs. assert (Nk : k' <> k) by (intros C; subst; tauto).
          rewrite Ea, assoc_upsert_neq in Ev by exact Nk. rewrite assoc_upsert_neq in Etk by exact Nk.
          destruct (stores_split _ _ _ _ _ _ _ HA Ev) as [t2 [M1 [Mk [M2 [EQ [Et2 [Hs2 _]]]]]]].
          rewrite Etk in Et2. inversion Et2; subst t2.
          assert (Hs3 : stores h1 v t Mk).
          { apply (proj1 (stores_frame A h h1) _ _ _ Hs2). intros l Hl. apply Hf.
            - intros C. subst l. apply HaA. rewrite EQ, !in_app_iff. auto.
            - exact (Hsep k' v t Mk Nk Ev Etk Hs2 l Hl). }
          rewrite <- (proj1 (stores_det A h1) _ _ _ Hs3 _ Hs). apply (HM k' v t Mk); auto. now right.
        - exists h', N'. split; [exact E1|]. split.
          { cbn [mgo]. rewrite <- Et. exact E2. }
          split; [exact E3|]. split.
          { intros l Hl. specialize (E4 l Hl). rewrite !in_app_iff in *. destruct E4 as [C|C]; [|auto].
            specialize (I1 l C). rewrite in_app_iff in I1. tauto. }
          split; [exact E5|]. intros l Hla HlM. rewrite E6 by assumption. apply Hf; [exact Hla|]. intros C. apply HlM, HN1, C. }
      assert (aNBk : ~ In a NBk) by (intros C; apply HaB, in_or_app; auto).
      (* plain assignment *)
      assert (ASSIGN : mval (assoc k ka) tb = tb ->
        exists h' N', mloop rec a b (hset h a (upsert k vb (h a))) (map fst r) = Some h' /\ stores_all h' (h' a) (mgo ka ((k, tb) :: kts')) N' /\ ~ In a N' /\
          incl N' (NA ++ NBk ++ NBr) /\ NoDup N' /\ (forall l, l <> a -> ~ In l M -> h' l = h l)).
      { intros Em. assert (SB : stores (hset h a (upsert k vb (h a))) vb tb NBk).
        { apply (proj1 (stores_frame A h _) _ _ _ Hvb). intros l Hl. apply hset_neq. intros C; subst; tauto. }
        apply (STEP _ vb tb []).
        - apply (Hkb k). now left.
        - destruct (assoc k (h a)) as [va|] eqn:Eva.
          + destruct (stores_split _ _ _ _ _ _ _ HA Eva) as [ta [N1 [Nk [N2 [EN [Eta [Hs [Hr Hi]]]]]]]].
            exists (N1 ++ NBk ++ N2). rewrite hset_eq. split; [apply Hr; [exact SB|]|].
            * intros l Hl. apply hset_neq. intros C; subst l. apply HaA. rewrite EN, !in_app_iff in *. tauto.
            * subst NA. repeat rewrite NoDup_app_iff in HNA. destruct HNA as [D1 [[Dk [D2 D3]] D4]].
              split; [rewrite !in_app_iff in *; tauto|]. split; [|split].
              -- repeat rewrite NoDup_app_iff. repeat split; auto; intros x Hx Hy; rewrite ?in_app_iff in *.
                 ++ apply (HNd x); rewrite ?in_app_iff; tauto.
                 ++ destruct Hy as [Hy|Hy]; [apply (HNd x); rewrite ?in_app_iff; tauto|]. apply (D4 x Hx). rewrite in_app_iff. auto.
                 ++ destruct Hx as [Hx|[Hx|Hx]].
                    ** apply (HNd x); rewrite ?in_app_iff; tauto.
                    ** eapply HNBd; eauto.
                    ** apply (HNd x); rewrite ?in_app_iff; tauto.
              -- intros x Hx. rewrite !in_app_iff in *. tauto.
              -- rewrite !in_app_iff in *. tauto.
          + exists (NA ++ NBk). rewrite hset_eq. split; [|split; [|split; [|split]]].
            * apply (stores_append A h); auto. intros l Hl. apply hset_neq. intros C; subst; tauto.
            * rewrite in_app_iff. tauto.
            * repeat rewrite NoDup_app_iff. repeat split; auto; intros x Hx Hy; rewrite ?in_app_iff in *.
              -- apply (HNd x); rewrite ?in_app_iff; tauto.
              -- destruct Hx as [Hx|Hx]; [apply (HNd x); rewrite ?in_app_iff; tauto|eapply HNBd; eauto].
            * apply incl_refl.
            * rewrite !in_app_iff in *. tauto.
        - apply hset_eq.
        - auto.
        - intros l Hl _. apply hset_neq; auto.
        - intros l [].
        - intros l [].
        - intros. intros []. }
      destruct (assoc k (h a)) as [va|] eqn:Eva.
      2:{ apply ASSIGN. rewrite (stores_none _ _ _ _ _ _ HA Eva). reflexivity. }
      destruct (stores_split _ _ _ _ _ _ _ HA Eva) as [ta [N1 [Nk [N2 [EN [Eta [Hs [Hr Hi]]]]]]]].
      destruct va as [x|x].
      { apply ASSIGN. inversion Hs; subst. rewrite Eta. reflexivity. }
      destruct vb as [y|y].
      { apply ASSIGN. inversion Hvb; subst. rewrite Eta. inversion Hs; subst. reflexivity. }
      pose proof (HR k tb (or_introl eq_refl)) as R.
      assert (Kta : keys_once ta) by (apply (Hka k); apply assoc_in; exact Eta).
      subst NA. pose proof HNA as HNA'. repeat rewrite NoDup_app_iff in HNA. destruct HNA as [D1 [[Dk [D2 D3]] D4]].
      destruct (R ta h x y Nk NBk Hs Hvb Kta) as [h2 [N' [E1 [E2 [E3 [E4 E5]]]]]].
      { apply NoDup_app_iff. repeat split; auto. intros z Hz Hz'. apply (HNd z); rewrite !in_app_iff; tauto. }
      rewrite E1. rewrite (E5 a) by (rewrite !in_app_iff in HaA; tauto).
      assert (aN' : ~ In a N'). { intros C. specialize (E3 a C). rewrite !in_app_iff in *. tauto. }
      assert (Em : merge ta tb = mval (assoc k ka) tb).
      { rewrite Eta. inversion Hs; subst. inversion Hvb; subst. reflexivity. }
      apply (STEP _ (HRef x) (merge ta tb) Nk).
      + apply merge_keys_once; [exact Kta|]. apply (Hkb k). now left.
      + exists (N1 ++ N' ++ N2). rewrite hset_eq. split; [apply Hr|split; [|split; [|split]]].
        * apply (proj1 (stores_frame A h2 _) _ _ _ E2). intros l Hl. apply hset_neq. intros C; subst; tauto.
        * intros l Hl. rewrite hset_neq by (intros C; subst; rewrite !in_app_iff in *; tauto). apply E5.
          intros C. rewrite in_app_iff in Hl. destruct Hl as [Hl|Hl]; [apply (D4 l Hl); rewrite in_app_iff; auto|eapply D3; eauto].
        * rewrite !in_app_iff in *. tauto.
        * repeat rewrite NoDup_app_iff. repeat split; auto; intros z Hx Hy; rewrite ?in_app_iff in *.
          -- specialize (E3 z Hx). rewrite in_app_iff in E3. destruct E3 as [C|C]; [eapply D3; eauto|apply (HNd z); rewrite ?in_app_iff; tauto].
          -- destruct Hy as [Hy|Hy]; [|apply (D4 z Hx); rewrite in_app_iff; auto].
             specialize (E3 z Hy). rewrite in_app_iff in E3.
             destruct E3 as [C|C]; [apply (D4 z Hx); rewrite in_app_iff; auto|apply (HNd z); rewrite ?in_app_iff; tauto].
          -- destruct Hx as [Hx|[Hx|Hx]]; [apply (HNd z); rewrite ?in_app_iff; tauto| |apply (HNd z); rewrite ?in_app_iff; tauto].
             specialize (E3 z Hx). rewrite in_app_iff in E3. destruct E3 as [C|C]; [apply (HNd z); rewrite ?in_app_iff; tauto|eapply HNBd; eauto].
        * intros z Hz. rewrite !in_app_iff in *. destruct Hz as [?|[Hz|?]]; try tauto. specialize (E3 z Hz). rewrite in_app_iff in E3. tauto.
        * intros C. rewrite !in_app_iff in *. destruct C as [?|[C|?]]; try tauto. specialize (E3 b C). rewrite in_app_iff in E3. tauto.
      + apply hset_eq.
      + exact Em.
      + intros l Hl Hn. rewrite hset_neq by exact Hl. apply E5, Hn.
      + apply (HM k (HRef x) ta Nk); auto. now left.
      + intros l Hl. rewrite !in_app_iff. auto.
      + intros k' v t N Nk' Ev Et Hs' l Hl C. pose proof (Hi k' v t N Nk' Ev Et Hs' l Hl) as Q. rewrite in_app_iff in Q.
        destruct Q as [Q|Q]; [apply (D4 l Q); rewrite in_app_iff; auto|eapply D3; eauto].
  Qed.

  Lemma merge_dict_ok : forall fuel tb, height tb <= fuel -> keys_once tb -> @rec_ok (merge_dict fuel) tb.
  Proof.
    induction fuel as [|fuel IH]; intros tb Hh Kb ta h a b Na Nb Sa Sb Ka D.
    - inversion Sb; subst. cbn in Hh. lia.
    - inversion Sb as [|? lb NB SB]; subst. inversion Sa as [|? la NA SA]; subst.
      inversion Kb as [|? Db Hb]; subst. inversion Ka as [|? Da Ha]; subst.
      rewrite merge_dict_S, merge_node.
      pose proof D as D'. apply NoDup_app_iff in D'. destruct D' as [DA [DB DD]]. inversion DA as [|? ? DA1 DA2]; subst. inversion DB as [|? ? DB1 DB2]; subst.
      destruct (mloop_ok (merge_dict fuel) a b (h b) lb NB h la NA NA) as [h' [N' [E1 [E2 [E3 [E4 [E5 E6]]]]]]]; auto.
      + intros k t Hin. apply IH; [|eauto]. pose proof (height_in A lb k t Hin). lia.
      + rewrite (stores_keys _ _ _ _ _ SB). exact Db.
      + intros k v Hin. apply in_assoc; [|exact Hin]. rewrite (stores_keys _ _ _ _ _ SB). exact Db.
      + intros C. subst. apply (DD b); now left.
      + intros C. apply (DD b); [right; exact C|now left].
      + intros C. apply (DD a); [now left|right; exact C].
      + apply NoDup_app_iff. repeat split; auto. intros x Hx Hy. apply (DD x); right; assumption.
      + intros k v t N _ Ev Et Hs. destruct (stores_split _ _ _ _ _ _ _ SA Ev) as [t2 [M1 [Mk [M2 [EQ [Et2 [Hs2 _]]]]]]].
        rewrite Et in Et2. inversion Et2; subst t2. rewrite <- (proj1 (stores_det A h) _ _ _ Hs2 _ Hs). intros l Hl. rewrite EQ, !in_app_iff. auto.
      + exists h', (a :: N'). split; [exact E1|]. split; [constructor; exact E2|]. split; [|split].
        * intros l [C|C]; [left; exact C|]. specialize (E4 l C). cbn. rewrite in_app_iff in *. cbn. tauto.
        * constructor; assumption.
        * intros l Hl. apply E6; intros C; apply Hl; [left; auto|right; exact C].
  Qed.
End Loop.

(** ** [merge] is the right-biased merge *)
Lemma at_path_app : forall A q r (t : tree A) x, at_path q t = Plain x -> r <> [] -> at_path (q ++ r) t = Nothing.
Proof.
  induction q as [|k q IH]; intros r t x H Hr; cbn in *.
  - destruct t; [|discriminate]. destruct r; [congruence|reflexivity].
  - destruct t; [reflexivity|]. destruct (entry k l); [eapply IH; eauto|reflexivity].
Qed.
Lemma merge_right_biased : forall A (b a : tree A), keys_once b -> (exists l, a = Node l) -> (exists l, b = Node l) -> right_biased a b (merge a b).
Proof.
  intros A b. induction b as [y|lb IH] using tree_ind2; intros a Kb [la Ea] [lb' Eb]; [discriminate|].
  subst a. clear lb' Eb. inversion Kb as [|? Db Hb]; subst. rewrite merge_node. intros p.
  destruct p as [|k p].
  { cbn. repeat split; try congruence. }
  cbn [at_path]. rewrite (entry_assoc _ k la), (entry_assoc _ k lb), (entry_assoc _ k (mgo la lb)), mgo_assoc by exact Db.
  assert (RA : forall q r x, k :: p = q ++ r -> r <> [] -> at_path q (Node lb) = Plain x ->
      exists q', q = k :: q' /\ p = q' ++ r /\ exists v, assoc k lb = Some v /\ at_path q' v = Plain x).
  { intros q r x E Hr H. destruct q as [|k' q]; [discriminate|]. cbn in E. inversion E; subst. exists q. split; [reflexivity|]. split; [reflexivity|].
    cbn in H. rewrite entry_assoc in H. destruct (assoc k' lb) as [v|]; [eauto|discriminate]. }
  destruct (assoc k lb) as [v|] eqn:Ev.
  - assert (RA2 : replaced_above (Node lb) (k :: p) <-> replaced_above v p).
    { split.
      - intros [q [r [x [E [Hr H]]]]]. destruct (RA q r x E Hr H) as [q' [_ [E2 [v' [Ev' H']]]]]. inversion Ev'; subst v'. exists q', r, x. auto.
      - intros [q [r [x [E [Hr H]]]]]. exists (k :: q), r, x. split; [rewrite E; reflexivity|]. split; [exact Hr|]. cbn. rewrite entry_assoc, Ev. exact H. }
    rewrite RA2. pose proof (assoc_in _ _ _ _ Ev) as Hin. unfold mval.
    destruct v as [z|lz].
    + replace (match assoc k la with Some (Node _) => Leaf z | _ => Leaf z end) with (Leaf z) by (destruct (assoc k la) as [[|]|]; reflexivity).
      split; [auto|]. split; [auto|]. split; [|intros E _; exact E]. intros E NR. exfalso.
      destruct p; [discriminate|]. apply NR. exists [], (s :: p), z. repeat split. discriminate.
    + destruct (assoc k la) as [[w|lw]|] eqn:Ela.
      * split; [auto|]. split; [auto|]. split; [|intros E _; exact E]. intros E _. rewrite E. destruct p; [discriminate E|reflexivity].
      * exact (IH k (Node lz) Hin (Node lw) (Hb _ _ Hin) (ex_intro _ lw eq_refl) (ex_intro _ lz eq_refl) p).
      * split; [auto|]. split; [auto|]. split; intros E _; exact E.
  - split; [discriminate|]. split; [discriminate|]. split; [reflexivity|]. intros _ [q [r [x [E [Hr H]]]]].
    destruct (RA q r x E Hr H) as [q' [_ [_ [v [Ev' _]]]]]. discriminate.
Qed.
(** the merge is determined by the clauses *)
Lemma replaced_dec : forall A (b : tree A) p, replaced_above b p \/ ~ replaced_above b p.
Proof.
  intros A b p. revert b. induction p as [|k p IH]; intros b.
  - right. intros [q [r [x [E [Hr _]]]]]. destruct q, r; cbn in E; congruence.
  - destruct b as [y|lb].
    + left. exists [], (k :: p), y. repeat split. discriminate.
    + destruct (assoc k lb) as [v|] eqn:Ev.
      * destruct (IH v) as [[q [r [x [E [Hr H]]]]]|N].
        -- left. exists (k :: q), r, x. split; [rewrite E; reflexivity|]. split; [exact Hr|]. cbn. rewrite entry_assoc, Ev. exact H.
        -- right. intros [q [r [x [E [Hr H]]]]]. destruct q as [|k' q]; [discriminate H|]. cbn in E. inversion E; subst.
           cbn in H. rewrite entry_assoc, Ev in H. apply N. exists q, r, x. auto.
      * right. intros [q [r [x [E [Hr H]]]]]. destruct q as [|k' q]; [discriminate H|]. cbn in E. inversion E; subst.
        cbn in H. rewrite entry_assoc, Ev in H. discriminate.
Qed.
Lemma right_biased_unique : forall A (a a' b b' t t' : tree A), right_biased a b t -> right_biased a' b' t' -> same a a' -> same b b' -> same t t'.
Proof.
  intros A a a' b b' t t' H H' Ea Eb p. destruct (H p) as [H1 [H2 [H3 H4]]]. destruct (H' p) as [H1' [H2' [H3' H4']]].
  assert (RA : replaced_above b p <-> replaced_above b' p).
  { split; intros [q [r [x [E [Hr Hq]]]]]; exists q, r, x; [rewrite <- Eb|rewrite Eb]; auto. }
  rewrite <- (Eb p) in *. destruct (at_path p b) eqn:E.
  - destruct (replaced_dec A b p) as [R|R].
    + rewrite (H4 eq_refl R), (H4' eq_refl (proj1 RA R)). reflexivity.
    + rewrite (H3 eq_refl R), H3', (Ea p); [reflexivity|reflexivity|]. rewrite <- RA. exact R.
  - rewrite (H1 x eq_refl), (H1' x eq_refl). reflexivity.
  - rewrite (H2 eq_refl), (H2' eq_refl). reflexivity.
Qed.
Lemma right_biased_idem : forall A (a b t t2 : tree A), right_biased a b t -> right_biased t b t2 -> same t2 t.
Proof.
  intros A a b t t2 H H2 p. destruct (H p) as [A1 [A2 [A3 A4]]]. destruct (H2 p) as [B1 [B2 [B3 B4]]].
  destruct (at_path p b) eqn:E.
  - destruct (replaced_dec A b p) as [R|R]; [rewrite A4, B4; auto|apply B3; auto].
  - rewrite (A1 x), (B1 x); auto.
  - rewrite A2, B2; auto.
Qed.
Lemma right_biased_assoc : forall A (a b c ab abc bc abc' : tree A),
  (forall p x, at_path p b = Plain x -> at_path p c <> ADict) ->
  right_biased a b ab -> right_biased ab c abc -> right_biased b c bc -> right_biased a bc abc' -> same abc abc'.
Proof.
  intros A a b c ab abc bc abc' HC H1 H2 H3 H4 p.
  destruct (H1 p) as [A1 [A2 [A3 A4]]]. destruct (H2 p) as [B1 [B2 [B3 B4]]]. destruct (H3 p) as [C1 [C2 [C3 C4]]]. destruct (H4 p) as [D1 [D2 [D3 D4]]].
  destruct (at_path p c) eqn:Ec.
  2: { rewrite (B1 x), (D1 x); auto. }
  2: { rewrite B2, D2; auto. }
  destruct (replaced_dec A c p) as [Rc|Rc].
  - rewrite B4 by auto. symmetry. apply D4; [auto|]. destruct Rc as [q [r [x [E [Hr Hq]]]]]. exists q, r, x. split; [exact E|]. split; [exact Hr|].
    apply (H3 q). exact Hq.
  - rewrite B3 by auto. rewrite C3 in D1, D2, D3, D4 by auto.
    destruct (at_path p b) eqn:Eb.
    2: { rewrite (A1 x), (D1 x); auto. }
    2: { rewrite A2, D2; auto. }
    assert (RA : replaced_above bc p <-> replaced_above b p).
    { split; intros [q [r [x [E [Hr Hq]]]]]; exists q, r, x; (split; [exact E|]; split; [exact Hr|]).
      - destruct (H3 q) as [Q1 [Q2 [Q3 Q4]]]. destruct (at_path q c) eqn:Eqc.
        + destruct (replaced_dec A c q) as [Rq|Rq]; [rewrite Q4 in Hq by auto; discriminate|]. rewrite Q3 in Hq by auto. exact Hq.
        + exfalso. apply Rc. exists q, r, x0. auto.
        + rewrite Q2 in Hq by auto. discriminate.
      - destruct (H3 q) as [Q1 [Q2 [Q3 Q4]]]. destruct (at_path q c) eqn:Eqc.
        + rewrite Q3; auto. intros [q1 [r1 [x1 [E1 [Hr1 Hq1]]]]]. apply Rc. exists q1, (r1 ++ r), x1. subst q. rewrite app_assoc. split; [exact E|].
          split; [|exact Hq1]. destruct r1; [congruence|discriminate].
        + exfalso. apply Rc. exists q, r, x0. auto.
        + exfalso. exact (HC q x Hq Eqc). }
    destruct (replaced_dec A b p) as [Rb|Rb].
    + rewrite A4, D4; auto. now apply RA.
    + rewrite A3, D3; auto. now rewrite RA.
Qed.

(** ** A dictionary merged into itself *)
From Coq Require Import FunctionalExtensionality.
Lemma hset_same : forall A (h : heap A) a, hset h a (h a) = h.
Proof. intros. apply functional_extensionality. intros i. unfold hset. destruct (Nat.eqb i a) eqn:E; [apply Nat.eqb_eq in E; subst; reflexivity|reflexivity]. Qed.
Lemma stores_all_in : forall A (h : heap A) c kts N k v, stores_all h c kts N -> In (k, v) c -> exists t Nk, In (k, t) kts /\ stores h v t Nk.
Proof.
  induction 1 as [|k0 v0 t0 N0 kvs kts Ns H0 H IH]; cbn; [tauto|]. intros [E|E].
  - inversion E; subst. eauto.
  - destruct (IH E) as [t [Nk [H1 H2]]]. eauto.
Qed.
Lemma merge_self : forall A fuel (h : heap A) a t N, stores h (HRef a) t N -> keys_once t -> height t <= fuel -> merge_dict fuel h a a = Some h.
Proof.
  intros A. induction fuel as [|fuel IH]; intros h a t N S K Hh.
  - inversion S; subst. cbn in Hh. lia.
  - inversion S as [|? kts N0 SA]; subst. inversion K as [|? D HK]; subst. rewrite merge_dict_S.
    assert (Q : forall keys, (forall k, In k keys -> In k (map fst (h a))) -> mloop (merge_dict fuel) a a h keys = Some h).
    { induction keys as [|k r IHk]; intros Hin; [reflexivity|]. cbn.
      destruct (assoc k (h a)) as [v|] eqn:Ev.
      2:{ exfalso. apply assoc_none in Ev. apply Ev. apply Hin. now left. }
      destruct v as [x|x].
      - rewrite upsert_same by exact Ev. rewrite hset_same. apply IHk. intros. apply Hin. now right.
      - destruct (stores_all_in _ _ _ _ _ _ _ SA (assoc_in _ _ _ _ Ev)) as [t [Nk [Hi Hs]]].
        rewrite (IH h x t Nk Hs (HK _ _ Hi)) by (pose proof (height_in _ _ _ _ Hi); lia).
        rewrite upsert_same by exact Ev. rewrite hset_same. apply IHk. intros. apply Hin. now right. }
    apply Q. auto.
Qed.

(** ** Optimiser options *)
Lemma is_archimedean_spec : forall name, is_archimedean name = true <-> archimedean_name name.
Proof.
  intros. unfold is_archimedean, archimedean_name. rewrite existsb_exists. split.
  - intros [x [Hin E]]. apply String.eqb_eq in E. rewrite E. exact Hin.
  - intros H. exists (lower name). split; [exact H|apply String.eqb_refl].
Qed.
Lemma at_path_one : forall A (t : tree A) k, at_path [k] t =
  match t with Leaf _ => Nothing | Node l => match assoc k l with Some (Leaf x) => Plain x | Some (Node _) => ADict | None => Nothing end end.
Proof. intros A [x|l] k; [reflexivity|]. cbn. rewrite entry_assoc. destruct (assoc k l) as [[|]|]; reflexivity. Qed.

(** the tree of the defaults of one method *)
Definition dtree (top : list (string * hval ovalue)) (nested : option (list (string * hval ovalue))) : tree ovalue :=
  let leafs := map (fun kv => (fst kv, match snd kv with HLeaf x => Leaf x | HRef _ => Node [] end)) in
  Node (leafs top ++ match nested with Some c => [("options"%string, Node (leafs c))] | None => [] end).
Ltac keycase k := match goal with |- context [String.eqb k ?s] => destruct (String.eqb_spec k s); [subst k|] end.
Lemma dtree_table : forall m rows verbose bounds top nested,
  method_defaults m (IZR (Z.min (Z.of_nat rows * 250) 20000)) (2 <=? verbose)%Z bounds = Some (top, nested) ->
  forall p x, at_path p (dtree top nested) = Plain x <-> In (p, x) (default_table m rows verbose bounds).
Proof.
  intros m rows verbose bounds top nested. unfold method_defaults, default_table.
  rewrite (Z.mul_comm (Z.of_nat rows) 250). generalize (IZR (Z.min (250 * Z.of_nat rows) 20000)). intros mi.
  generalize ((2 <=? verbose)%Z). intros di.
  assert (G : forall (k : string) (l : list (string * ovalue)) p x, NoDup (map fst l) ->
     (at_path p (Node (map (fun kv => (fst kv, Leaf (snd kv))) l)) = Plain x <-> exists k, p = [k] /\ In (k, x) l)).
  { intros _ l p x D. destruct p as [|k [|k' p]].
    - cbn. split; [discriminate|]. intros [k [E _]]. discriminate.
    - rewrite at_path_one. split.
      + destruct (assoc k (map _ l)) as [[y|y]|] eqn:E; try discriminate. intros H. inversion H; subst y. apply assoc_in in E.
        apply in_map_iff in E. destruct E as [[a b] [E Hin]]. cbn in E. inversion E; subst. eauto.
      + intros [k' [E Hin]]. inversion E; subst k'.
        rewrite (in_assoc _ k (Leaf x)); [reflexivity| |].
        * rewrite map_map. cbn. exact D.
        * apply in_map_iff. exists (k, x). auto.
    - cbn. rewrite entry_assoc. split.
      + destruct (assoc k _) as [[y|y]|] eqn:E; try discriminate. apply assoc_in in E. apply in_map_iff in E. destruct E as [[a b] [E _]]. inversion E.
      + intros [k2 [E _]]. discriminate. }
  assert (OPT : forall (a l : list (string * ovalue)) p x, NoDup (map fst l) -> NoDup (map fst a) -> ~ In "options"%string (map fst a) ->
     (at_path p (Node (map (fun kv => (fst kv, Leaf (snd kv))) a ++ [("options"%string, Node (map (fun kv => (fst kv, Leaf (snd kv))) l))])) = Plain x <->
      In (p, x) (map (fun kv => ([fst kv], snd kv)) a ++ map (fun kv => (["options"%string; fst kv], snd kv)) l))).
  { intros a l p x D Da Hn. rewrite in_app_iff, !in_map_iff. destruct p as [|k p].
    { cbn. split; [discriminate|]. intros [[[? ?] [E _]]|[[? ?] [E _]]]; discriminate. }
    cbn [at_path]. rewrite entry_assoc.
    assert (AA : forall (u w : list (string * tree ovalue)), assoc k (u ++ w) = match assoc k u with Some z => Some z | None => assoc k w end).
    { induction u as [|[k' v'] u IH]; intros w; [reflexivity|]. cbn. destruct (String.eqb k k'); [reflexivity|apply IH]. }
    rewrite AA. destruct (assoc k (map _ a)) as [z|] eqn:E.
    - apply assoc_in in E. apply in_map_iff in E. destruct E as [[k0 x0] [E Hin]]. cbn in E. inversion E; subst k0 z.
      assert (k <> "options"%string) by (intros C; subst; apply Hn; apply in_map_iff; exists ("options"%string, x0); auto).
      destruct p as [|k' p]; cbn.
      + split.
        * intros Q. inversion Q; subst. left. exists (k, x). auto.
        * intros [[[k1 x1] [E1 H1]]|[[k1 x1] [E1 H1]]]; cbn in E1; inversion E1; subst. f_equal.
          pose proof (in_assoc _ _ _ _ Da Hin) as Q1. pose proof (in_assoc _ _ _ _ Da H1) as Q2. rewrite Q1 in Q2. inversion Q2. reflexivity.
      + split; [discriminate|]. intros [[[k1 x1] [E1 H1]]|[[k1 x1] [E1 H1]]]; cbn in E1; inversion E1; subst; congruence.
    - cbn. destruct (String.eqb_spec k "options"%string).
      + subst k. rewrite (G ""%string l p x D). split.
        * intros [k' [E1 H1]]. subst p. right. exists (k', x). auto.
        * intros [[[k1 x1] [E1 H1]]|[[k1 x1] [E1 H1]]]; cbn in E1; inversion E1; subst; [|eauto].
          exfalso. apply Hn. apply in_map_iff. exists ("options"%string, x). auto.
      + split; [discriminate|]. intros [[[k1 x1] [E1 H1]]|[[k1 x1] [E1 H1]]]; cbn in E1; inversion E1; subst; [|congruence].
        exfalso. apply assoc_none in E. apply E. rewrite map_map. cbn. apply in_map_iff. exists (k, x). auto. }
  assert (ND : forall (l : list string), (if list_eq_dec String.string_dec (nodup String.string_dec l) l then true else false) = true -> NoDup l).
  { intros l. destruct (list_eq_dec _ _ _) as [E|]; [|discriminate]. intros _. rewrite <- E. apply NoDup_nodup. }
  Local Ltac setup a l OPT ND H := injection H as ? ?; subst; intros p x;
    refine (OPT a l p x _ _ _); [apply ND; reflexivity|apply ND; reflexivity|cbn; intuition discriminate].
  destruct (String.eqb m "nelder-mead").
  { intros H. setup (@nil (string * ovalue)) [("maxiter"%string, ONum mi); ("disp"%string, OBool di); ("xatol"%string, ONum (1 / 10000)%R); ("fatol"%string, ONum (1 / 10000)%R)] OPT ND H. }
  destruct (String.eqb m "bfgs").
  { intros H. setup (@nil (string * ovalue)) [("maxiter"%string, ONum mi); ("disp"%string, OBool di); ("gtol"%string, ONum (1 / 10000)%R)] OPT ND H. }
  destruct (String.eqb m "slsqp").
  { intros H. setup [("bounds"%string, OBounds bounds)] [("maxiter"%string, ONum mi); ("ftol"%string, ONum (1 / 1000000)%R); ("iprint"%string, ONum 1%R); ("disp"%string, OBool di); ("eps"%string, ONum (15 / 1000000000)%R)] OPT ND H. }
  destruct (String.eqb m "cobyla").
  { intros H. setup [("bounds"%string, OBounds bounds)] [("maxiter"%string, ONum mi); ("rhobeg"%string, ONum 1%R); ("disp"%string, OBool di); ("catol"%string, ONum (2 / 10000)%R)] OPT ND H. }
  destruct (String.eqb m "trust-constr"); [|discriminate].
  intros H. injection H as ? ?; subst; intros p x.
  refine (iff_trans (G ""%string [("maxiter"%string, ONum mi); ("disp"%string, OBool di); ("bounds"%string, OBounds bounds)] p x _) _); [apply ND; reflexivity|].
  cbn [In]. split.
  - intros [k [E [Q|[Q|[Q|[]]]]]]; inversion Q; subst; auto.
  - intros [Q|[Q|[Q|[]]]]; inversion Q; subst; eexists; (split; [reflexivity|cbn; auto]).
Qed.
Lemma height_upsert_leaf : forall A (l : list (string * tree A)) k x, assoc k l = None -> height (Node (upsert k (Leaf x) l)) = height (Node l).
Proof.
  intros A l k x. cbn. intros E. f_equal. induction l as [|[k' t'] r IH]; [reflexivity|]. cbn in E |- *.
  destruct (String.eqb k k'); [discriminate|]. rewrite IH by exact E. reflexivity.
Qed.
Lemma upsert_new : forall V k (v : V) l, assoc k l = None -> upsert k v l = l ++ [(k, v)].
Proof. induction l as [|[k' v'] r IH]; [reflexivity|]. cbn. destruct (String.eqb k k'); [discriminate|]. intros E. rewrite IH by exact E. reflexivity. Qed.
Lemma stores_leaves : forall (h : heap ovalue) (c : list (string * hval ovalue)), (forall k l, ~ In (k, HRef l) c) ->
  stores_all h c (map (fun kv => (fst kv, match snd kv with HLeaf x => Leaf x | HRef _ => Node [] end)) c) [].
Proof.
  intros h c. induction c as [|[k v] r IH]; intros H; cbn; [constructor|].
  destruct v as [x|l]; [|exfalso; apply (H k l); now left].
  change (@nil nat) with (@nil nat ++ []). constructor; [constructor|]. apply IH. intros k' l' C. apply (H k' l'). now right.
Qed.
Lemma stores_all_app : forall A (h : heap A) c1 k1 N1 c2 k2 N2, stores_all h c1 k1 N1 -> stores_all h c2 k2 N2 -> stores_all h (c1 ++ c2) (k1 ++ k2) (N1 ++ N2).
Proof. intros A h c1 k1 N1 c2 k2 N2 H1 H2. induction H1; cbn; [exact H2|]. rewrite <- app_assoc. now constructor. Qed.
Lemma defaults_shape : forall m mi di bo top nested, method_defaults m mi di bo = Some (top, nested) ->
  (forall k l, ~ In (k, HRef l) top) /\ (forall c, nested = Some c -> forall k l, ~ In (k, HRef l) c) /\ keys_once (dtree top nested).
Proof.
  intros m mi di bo top nested. unfold method_defaults.
  assert (KL : forall c : list (string * hval ovalue), (if list_eq_dec String.string_dec (nodup String.string_dec (map fst c)) (map fst c) then true else false) = true ->
    keys_once (Node (map (fun kv => (fst kv, match snd kv with HLeaf x => Leaf x | HRef _ => Node [] end)) c))).
  { intros c H. constructor.
    - rewrite map_map. cbn. change (NoDup (map fst c)). destruct (list_eq_dec _ _ _) as [E|]; [|discriminate]. rewrite <- E. apply NoDup_nodup.
    - intros k t Hin. apply in_map_iff in Hin. destruct Hin as [[a [x|l]] [E _]]; cbn in E; inversion E; constructor; [constructor|intros ? ? []]. }
  assert (KO : forall (a c : list (string * hval ovalue)),
    (if list_eq_dec String.string_dec (nodup String.string_dec (map fst c)) (map fst c) then true else false) = true ->
    (if list_eq_dec String.string_dec (nodup String.string_dec (map fst a ++ ["options"%string])) (map fst a ++ ["options"%string]) then true else false) = true ->
    keys_once (dtree a (Some c))).
  { intros a c H1 H2. constructor.
    - rewrite map_app, map_map. cbn [map fst]. change (NoDup (map fst a ++ ["options"%string])). clear H1. destruct (list_eq_dec _ _ _) as [E|]; [|discriminate]. rewrite <- E. apply NoDup_nodup.
    - intros k t Hin. apply in_app_iff in Hin. destruct Hin as [Hin|[Hin|[]]].
      + apply in_map_iff in Hin. destruct Hin as [[b [x|l]] [E _]]; cbn in E; inversion E; constructor; [constructor|intros ? ? []].
      + inversion Hin; subst. apply KL. exact H1. }
  repeat (match goal with |- context [String.eqb m ?s] => destruct (String.eqb m s) end);
    try discriminate; intros H; injection H as ? ?; subst;
    (split; [intros k l C; cbn in C; intuition discriminate|split; [intros c E k l C; first [discriminate E|injection E as <-; cbn in C; intuition discriminate]|]]);
    try (apply KO; reflexivity).
  unfold dtree. rewrite app_nil_r. apply KL. reflexivity.
Qed.
Lemma known_defaults : forall m mi di bo, known_method m -> exists top nested, method_defaults (lower m) mi di bo = Some (top, nested).
Proof.
  intros m mi di bo H. unfold known_method in H. cbn in H. unfold method_defaults.
  destruct H as [E|[E|[E|[E|[E|[]]]]]]; rewrite <- E; cbn; eauto.
Qed.
Lemma bounds_form : forall lb ub bl, bounds_pairs lb ub bl -> form_bounds lb ub = Ok bl.
Proof. intros lb ub bl [[a [b [-> [-> ->]]]]|[a [b [-> [-> ->]]]]]; reflexivity. Qed.

(** the user's dictionary after setdefault *)
Lemma setdefault_ok : forall (h : heap ovalue) u lu Nu x, stores h (HRef u) (Node lu) Nu -> keys_once (Node lu) -> NoDup Nu -> assoc "method"%string lu = None ->
  let h1 := hset h u (upsert "method"%string (HLeaf x) (h u)) in
  let lu1 := upsert "method"%string (Leaf x) lu in
  stores h1 (HRef u) (Node lu1) Nu /\ keys_once (Node lu1) /\ height (Node lu1) = height (Node lu) /\ assoc "method"%string lu1 = Some (Leaf x).
Proof.
  intros h u lu Nu x S K D E h1 lu1. inversion S as [|? ? N SA]; subst. inversion D; subst. inversion K as [|? Dk Hk]; subst. split; [|split; [|split]].
  - constructor. unfold h1. rewrite hset_eq. rewrite <- (app_nil_r N). eapply stores_append; [exact SA| |constructor|].
    + apply assoc_none. rewrite (stores_keys _ _ _ _ _ SA). apply assoc_none. exact E.
    + intros l Hl. apply hset_neq. intros C; subst; tauto.
  - constructor; [now apply upsert_nodup|]. intros k t Hin. apply upsert_in in Hin. destruct Hin as [[_ ->]|Hin]; [constructor|eauto].
  - apply height_upsert_leaf, E.
  - apply assoc_upsert_eq.
Qed.
Lemma silent_upsert : forall lu x p, assoc "method"%string lu = None -> silent (Node lu) p -> p <> ["method"%string] ->
  (silent (Node (upsert "method"%string (Leaf x) lu)) p) \/
  (exists q, p = "method"%string :: q /\ q <> [] /\ at_path p (Node (upsert "method"%string (Leaf x) lu)) = Nothing /\ replaced_above (Node (upsert "method"%string (Leaf x) lu)) p).
Proof.
  intros lu x p E [H1 H2] Hp. destruct p as [|k p]; [discriminate H1|].
  destruct (String.eqb_spec k "method"%string).
  - subst k. right. exists p. split; [reflexivity|]. destruct p as [|k' p]; [congruence|]. split; [discriminate|]. split.
    + cbn [at_path]. rewrite entry_assoc, assoc_upsert_eq. reflexivity.
    + exists ["method"%string], (k' :: p), x. split; [reflexivity|]. split; [discriminate|]. rewrite at_path_one, assoc_upsert_eq. reflexivity.
  - left. assert (AP : forall q, at_path (k :: q) (Node (upsert "method"%string (Leaf x) lu)) = at_path (k :: q) (Node lu)).
    { intros q. cbn [at_path]. rewrite !(entry_assoc _ k), assoc_upsert_neq by exact n. rewrite (entry_assoc _ k lu). reflexivity. }
    split; [rewrite AP; exact H1|]. intros [q [r [y [Eq [Hr Hq]]]]]. destruct q as [|k' q]; [discriminate Hq|].
    cbn in Eq. inversion Eq; subst. apply H2. exists (k' :: q), r, y. rewrite AP in Hq. auto.
Qed.

Lemma form_options_ok : forall n (h : heap ovalue) u tu Nu verbose rows name lb ub bl m fuel,
  stores h (HRef u) tu Nu -> keys_once tu -> NoDup Nu -> (forall l, In l Nu -> l < n) -> bounds_pairs lb ub bl ->
  method_in_force tu name m -> known_method m -> height tu <= fuel ->
  exists n' h' d t N, form_options fuel (n, h) u verbose rows name lb ub = Ok (Some (n', h'), d) /\ stores h' (HRef d) t N /\ n <= d /\
    (forall p x, plain_at tu p x -> plain_at t p x) /\
    (forall p x, silent tu p -> p <> ["method"%string] -> (plain_at t p x <-> In (p, x) (default_table (lower m) rows verbose bl))) /\
    plain_at t ["method"%string] (OStr m) /\
    (forall l, l < n -> l <> u -> h' l = h l) /\
    h' u = match entry "method"%string (h u) with
           | Some _ => h u
           | None => h u ++ [("method"%string, HLeaf (OStr m))]
           end.
Proof.
  intros n h u tu Nu verbose rows name lb ub bl m fuel SU K D HL HB HM HK HF.
  inversion SU as [|? lu N0 SA]; subst.
  assert (Uu : u < n) by (apply HL; now left).
  (* the heap and tree after setdefault *)
  assert (SD : exists h1 lu1, stores h1 (HRef u) (Node lu1) (u :: N0) /\ keys_once (Node lu1) /\ height (Node lu1) <= fuel /\ assoc "method"%string lu1 = Some (Leaf (OStr m)) /\
     assoc "method"%string (h1 u) = Some (HLeaf (OStr m)) /\
     h1 = match assoc "method"%string (h u) with Some _ => h | None => hset h u (upsert "method"%string (HLeaf (OStr (if is_archimedean name then "Nelder-Mead" else "SLSQP")%string)) (h u)) end /\
     (forall l, l <> u -> h1 l = h l) /\
     h1 u = match entry "method"%string (h u) with Some _ => h u | None => h u ++ [("method"%string, HLeaf (OStr m))] end /\
     (forall p x, at_path p (Node lu) = Plain x -> at_path p (Node lu1) = Plain x) /\
     (forall p, silent (Node lu) p -> p <> ["method"%string] -> silent (Node lu1) p \/
        (exists q, p = "method"%string :: q /\ q <> [] /\ at_path p (Node lu1) = Nothing /\ replaced_above (Node lu1) p))).
  { change (@entry (hval ovalue)) with (@assoc (hval ovalue)). destruct HM as [HM|[HM HM2]]; rewrite at_path_one in HM.
    - destruct (assoc "method"%string lu) as [[y|y]|] eqn:E; try discriminate. inversion HM; subst y.
      destruct (assoc "method"%string (h u)) as [v|] eqn:Ev.
      2:{ rewrite (stores_none _ _ _ _ _ _ SA Ev) in E. discriminate. }
      destruct (stores_split _ _ _ _ _ _ _ SA Ev) as [t2 [M1 [Mk [M2 [EQ [Et2 [Hs2 _]]]]]]]. rewrite E in Et2. inversion Et2; subst t2. inversion Hs2; subst.
      exists h, lu. repeat split; auto. 
    - assert (E : assoc "method"%string lu = None) by (destruct (assoc "method"%string lu) as [[|]|]; congruence).
      assert (Ev : assoc "method"%string (h u) = None).
      { apply assoc_none. rewrite (stores_keys _ _ _ _ _ SA). apply assoc_none. exact E. }
      rewrite Ev.
      assert (Em : (if is_archimedean name then "Nelder-Mead" else "SLSQP")%string = m).
      { destruct HM2 as [[Ha ->]|[Ha ->]].
        - rewrite (proj2 (is_archimedean_spec name) Ha). reflexivity.
        - destruct (is_archimedean name) eqn:Ei; [exfalso; apply Ha; now apply is_archimedean_spec|reflexivity]. }
      rewrite Em.
      destruct (setdefault_ok h u lu (u :: N0) (OStr m) SU K D E) as [Q1 [Q2 [Q3 Q4]]].
      exists (hset h u (upsert "method"%string (HLeaf (OStr m)) (h u))), (upsert "method"%string (Leaf (OStr m)) lu).
      rewrite hset_eq. split; [exact Q1|]. split; [exact Q2|]. split; [lia|]. split; [exact Q4|]. split; [apply assoc_upsert_eq|]. split; [reflexivity|].
      split; [intros; now apply hset_neq|]. split.
      { apply upsert_new, Ev. }
      split.
      + intros p x Hp. destruct p as [|k p]; [discriminate|]. destruct (String.eqb_spec k "method"%string).
        * subst k. cbn in Hp. rewrite entry_assoc, E in Hp. discriminate.
        * cbn [at_path] in *. rewrite (entry_assoc _ k) in *. rewrite assoc_upsert_neq by exact n0. exact Hp.
      + intros p Hs Hp. now apply silent_upsert. }
  destruct SD as [h1 [lu1 [S1 [K1 [F1 [M1 [Mh [E1 [Fr [Eu [P1 P2]]]]]]]]]]].
  destruct (known_defaults m (IZR (Z.min (Z.of_nat rows * 250) 20000)) (2 <=? verbose)%Z bl HK) as [top [nested Edef]].
  destruct (defaults_shape _ _ _ _ _ _ Edef) as [SH1 [SH2 SH3]].
  pose proof (dtree_table _ _ _ _ _ _ Edef) as TAB.
  unfold form_options. cbv zeta. rewrite <- E1. rewrite (bounds_form _ _ _ HB). cbn [bind]. rewrite Mh, Edef.
  (* the freshly allocated defaults *)
  set (pack := match nested with None => ((n, h1), top) | Some c => let '(s, l) := alloc (n, h1) c in (s, (top ++ [("options"%string, HRef l)])) end).
  destruct pack as [[n2 h2] top2] eqn:EP.
  assert (AL : exists Nd, n <= n2 /\ stores (hset h2 n2 top2) (HRef n2) (dtree top nested) (n2 :: Nd) /\ (forall l, In l Nd -> n <= l /\ l <> n2) /\ NoDup (n2 :: Nd) /\
     (forall l, l < n -> hset h2 n2 top2 l = h1 l)).
  { unfold pack in EP. destruct nested as [c|]; cbn in EP; inversion EP; subst; clear EP.
    - exists [n]. split; [lia|]. split; [|split; [|split]].
      + constructor. rewrite hset_eq. change [n] with ([] ++ [n]). apply stores_all_app; [apply stores_leaves, SH1|].
        change [n] with ([n] ++ []). constructor; [|constructor]. constructor. rewrite hset_neq, hset_eq by lia.
        apply stores_leaves. apply (SH2 c eq_refl).
      + intros l [C|[]]. subst. lia.
      + constructor; [intros [C|[]]; lia|constructor; [tauto|constructor]].
      + intros l Hl. rewrite !hset_neq by lia. reflexivity.
    - exists []. split; [lia|]. split; [|split; [|split]].
      + constructor. rewrite hset_eq. unfold dtree. rewrite app_nil_r. apply stores_leaves, SH1.
      + intros l [].
      + constructor; [tauto|constructor].
      + intros l Hl. rewrite hset_neq by lia. reflexivity. }
  destruct AL as [Nd [Ln2 [Sd [Hd [Dd Fd]]]]]. cbn [alloc fst snd].
  assert (Su : stores (hset h2 n2 top2) (HRef u) (Node lu1) (u :: N0)).
  { apply (proj1 (stores_frame _ h1 _) _ _ _ S1). intros l Hl. apply Fd, HL, Hl. }
  destruct (merge_dict_ok fuel (Node lu1) F1 K1 _ _ _ _ _ _ Sd Su SH3) as [h' [N' [R1 [R2 [_ [_ R5]]]]]].
  { apply NoDup_app_iff. split; [exact Dd|]. split; [exact D|]. intros x [C|C] Hx; [subst|]; specialize (HL _ Hx); [lia|]. specialize (Hd _ C). lia. }
  rewrite R1. exists (S n2), h', n2, (merge (dtree top nested) (Node lu1)), N'.
  split; [reflexivity|]. split; [exact R2|]. split; [exact Ln2|].
  assert (RB : right_biased (dtree top nested) (Node lu1) (merge (dtree top nested) (Node lu1))).
  { apply merge_right_biased; [exact K1|unfold dtree; eauto|eauto]. }
  unfold plain_at. split; [|split; [|split; [|split]]].
  - intros p x Hp. apply (RB p). apply P1, Hp.
  - intros p x Hs Hp. destruct (P2 p Hs Hp) as [[Q1 Q2]|[q [Q1 [Q2 [Q3 Q4]]]]].
    + destruct (RB p) as [_ [_ [R _]]]. rewrite (R Q1 Q2). apply TAB.
    + destruct (RB p) as [_ [_ [_ R]]]. rewrite (R Q3 Q4). split; [discriminate|]. intros Hin. exfalso.
      apply TAB in Hin. subst p. revert Hin. clear -SH1 Edef Q2. unfold method_defaults in Edef. intros Hin.
      repeat (match type of Edef with context [String.eqb (lower m) ?s] => destruct (String.eqb (lower m) s) end);
        try discriminate; injection Edef as ? ?; subst; cbn in Hin; discriminate.
  - apply (RB ["method"%string]). rewrite at_path_one, M1. reflexivity.
  - intros l Hl Hu. rewrite R5; [|intros [C|C]; [lia|specialize (Hd _ C); lia]]. rewrite Fd by exact Hl. apply Fr, Hu.
  - rewrite R5; [|intros [C|C]; [lia|specialize (Hd _ C); lia]]. rewrite Fd by exact Uu. exact Eu.
Qed.

(** ** merge_dicts *)
Lemma stored_apart_frame : forall A (h h' : heap A) ls ts Ns, stored_apart h ls ts Ns -> (forall l, In l Ns -> h' l = h l) -> stored_apart h' ls ts Ns.
Proof.
  intros A h h' ls ts Ns H. induction H as [|l t N ls ts Ns S K H IH D]; intros F; [constructor|]. constructor; auto.
  - apply (proj1 (stores_frame A h h') _ _ _ S). intros. apply F. apply in_or_app. auto.
  - apply IH. intros. apply F. apply in_or_app. auto.
Qed.
Lemma stored_apart_heights : forall A (h : heap A) ls ts Ns, stored_apart h ls ts Ns -> exists m, forall t, In t ts -> height t <= m.
Proof.
  intros A h ls ts Ns _. induction ts as [|t r [m Hm]]; [exists 0; intros ? []|]. exists (Nat.max (height t) m). intros s [->|H]; [lia|]. specialize (Hm s H). lia.
Qed.
Lemma merge_dicts_loop : forall A fuel ls ts Ns (h : heap A) a ta Na, stores h (HRef a) ta Na -> keys_once ta -> stored_apart h ls ts Ns ->
  (forall t, In t ts -> height t <= fuel) -> NoDup (Na ++ Ns) ->
  exists h' t N, fold_left (fun s b => match s with Some h => merge_dict fuel h a b | None => None end) ls (Some h) = Some h' /\
    stores h' (HRef a) t N /\ keys_once t /\ merged_all ta ts t.
Proof.
  intros A fuel ls. induction ls as [|b ls IH]; intros ts Ns h a ta Na Sa Ka H HF D.
  - inversion H; subst. exists h, ta, Na. cbn. repeat split; auto. constructor.
  - inversion H as [|? tb Nb ? ts' Ns' Sb Kb H' Db]; subst. cbn [fold_left].
    rewrite app_assoc in D. apply NoDup_app_iff in D. destruct D as [D1 [D2 D3]].
    destruct (merge_dict_ok fuel tb (HF tb (or_introl eq_refl)) Kb ta h a b Na Nb Sa Sb Ka D1) as [h1 [N1 [E1 [E2 [E3 [E4 E5]]]]]].
    rewrite E1.
    assert (RB : right_biased ta tb (merge ta tb)).
    { apply merge_right_biased; [exact Kb| |]; [inversion Sa|inversion Sb]; eauto. }
    destruct (IH ts' Ns' h1 a (merge ta tb) N1) as [h' [t [N [Q1 [Q2 [Q3 Q4]]]]]]; auto.
    + apply merge_keys_once; assumption.
    + apply (stored_apart_frame A h h1); [exact H'|]. intros l Hl. apply E5. intros C. apply (D3 l); [apply in_or_app; auto|exact Hl].
    + intros t Ht. apply HF. now right.
    + apply NoDup_app_iff. split; [exact E4|]. split; [exact D2|]. intros x Hx. apply D3. apply E3, Hx.
    + exists h', t, N. repeat split; auto. econstructor; eauto.
Qed.
Lemma table_paths : forall m rows verbose bl p x, In (p, x) (default_table m rows verbose bl) -> p <> [] /\ p <> ["method"%string].
Proof.
  intros m rows verbose bl p x. unfold default_table. cbv zeta.
  repeat (match goal with |- context [String.eqb m ?s] => destruct (String.eqb m s) end); intros H; simpl in H;
    repeat (destruct H as [H|H]; [injection H as <- _; split; discriminate|]); destruct H.
Qed.
