(** Theorems on option dictionaries (C39, C40). *)
From Verif Require Import Base RSumLib Ext M_Dict S_Dict P_Dict.
Open Scope nat_scope.

(** ** C39 *)
(** merge_dict on two dictionaries in the heap that share nothing: the first one becomes the right-biased recursive merge, nothing
    outside the first one changes (in particular not the second), and the result is a proper dictionary without shared parts. *)
Theorem C39_merge_dict : forall A (h : heap A) a b ta tb Na Nb,
  stores h (HRef a) ta Na -> stores h (HRef b) tb Nb -> keys_once ta -> keys_once tb -> NoDup (Na ++ Nb) ->
  forall fuel, height tb <= fuel ->
  exists h' t N, merge_dict fuel h a b = Some h' /\ stores h' (HRef a) t N /\ keys_once t /\ right_biased ta tb t /\
    (forall l, ~ In l Na -> h' l = h l) /\ NoDup N /\ incl N (Na ++ Nb).
Proof.
  intros A h a b ta tb Na Nb Sa Sb Ka Kb D fuel HF.
  destruct (merge_dict_ok fuel tb HF Kb ta h a b Na Nb Sa Sb Ka D) as [h' [N [E1 [E2 [E3 [E4 E5]]]]]].
  exists h', (merge ta tb), N. split; [exact E1|]. split; [exact E2|]. split; [apply merge_keys_once; assumption|]. split; [|auto].
  apply merge_right_biased; [exact Kb| |]; [inversion Sa|inversion Sb]; eauto.
Qed.
Print Assumptions C39_merge_dict.
(** the clauses of [right_biased] determine the result *)
Theorem C39_determined : forall A (a b t t' : tree A), right_biased a b t -> right_biased a b t' -> same t t'.
Proof. intros A a b t t' H H'. eapply right_biased_unique; eauto; intros p; reflexivity. Qed.
Print Assumptions C39_determined.
(** a dictionary merged into itself is unchanged (so is the whole heap) *)
Theorem C39_self : forall A (h : heap A) a t N, stores h (HRef a) t N -> keys_once t -> forall fuel, height t <= fuel -> merge_dict fuel h a a = Some h.
Proof. intros. eapply merge_self; eauto. Qed.
Print Assumptions C39_self.
(** merging the same contents a second time changes nothing *)
Theorem C39_idempotent : forall A (h : heap A) a b b2 ta tb Na Nb Nb2,
  stores h (HRef a) ta Na -> stores h (HRef b) tb Nb -> stores h (HRef b2) tb Nb2 -> keys_once ta -> keys_once tb -> NoDup ((Na ++ Nb) ++ Nb2) ->
  forall fuel, height tb <= fuel ->
  exists h1 h2 t t2 N N2, merge_dict fuel h a b = Some h1 /\ stores h1 (HRef a) t N /\
    merge_dict fuel h1 a b2 = Some h2 /\ stores h2 (HRef a) t2 N2 /\ same t2 t.
Proof.
  intros A h a b b2 ta tb Na Nb Nb2 Sa Sb Sb2 Ka Kb D fuel HF. apply NoDup_app_iff in D. destruct D as [D1 [D2 D3]].
  destruct (C39_merge_dict A h a b ta tb Na Nb Sa Sb Ka Kb D1 fuel HF) as [h1 [t [N [E1 [E2 [E3 [E4 [E5 [E6 E7]]]]]]]]].
  assert (S2 : stores h1 (HRef b2) tb Nb2).
  { apply (proj1 (stores_frame A h h1) _ _ _ Sb2). intros l Hl. apply E5. intros C. apply (D3 l); [apply in_or_app; auto|exact Hl]. }
  destruct (C39_merge_dict A h1 a b2 t tb N Nb2 E2 S2 E3 Kb) with (fuel := fuel) as [h2 [t2 [N2 [F1 [F2 [F3 [F4 _]]]]]]]; auto.
  { apply NoDup_app_iff. split; [exact E6|]. split; [exact D2|]. intros x Hx. apply D3. apply E7, Hx. }
  exists h1, h2, t, t2, N, N2. do 4 (split; [assumption|]). eapply right_biased_idem; eauto.
Qed.
Print Assumptions C39_idempotent.
(** (a + b) + c and a + (b + c) have the same contents, provided c has no dictionary where b has a plain value *)
Theorem C39_associative : forall A (h : heap A) a b c ta tb tc Na Nb Nc,
  stores h (HRef a) ta Na -> stores h (HRef b) tb Nb -> stores h (HRef c) tc Nc -> keys_once ta -> keys_once tb -> keys_once tc ->
  NoDup (Na ++ Nb ++ Nc) -> (forall p x, at_path p tb = Plain x -> at_path p tc <> ADict) ->
  exists fuel0, forall fuel, fuel0 <= fuel ->
  exists h1 h2 k1 k2 t t' N N', merge_dict fuel h a b = Some h1 /\ merge_dict fuel h1 a c = Some h2 /\ stores h2 (HRef a) t N /\
    merge_dict fuel h b c = Some k1 /\ merge_dict fuel k1 a b = Some k2 /\ stores k2 (HRef a) t' N' /\ same t t'.
Proof.
  intros A h a b c ta tb tc Na Nb Nc Sa Sb Sc Ka Kb Kc D HC.
  exists (Nat.max (height tb) (Nat.max (height tc) (height (merge tb tc)))). intros fuel HF.
  pose proof D as D0. rewrite app_assoc in D. apply NoDup_app_iff in D. destruct D as [D1 [D2 D3]].
  apply NoDup_app_iff in D0. destruct D0 as [G1 [G2 G3]].
  destruct (C39_merge_dict A h a b ta tb Na Nb Sa Sb Ka Kb D1 fuel ltac:(lia)) as [h1 [t [N [E1 [E2 [E3 [E4 [E5 [E6 E7]]]]]]]]].
  assert (S2 : stores h1 (HRef c) tc Nc).
  { apply (proj1 (stores_frame A h h1) _ _ _ Sc). intros l Hl. apply E5. intros C. apply (D3 l); [apply in_or_app; auto|exact Hl]. }
  destruct (C39_merge_dict A h1 a c t tc N Nc E2 S2 E3 Kc) with (fuel := fuel) as [h2 [t2 [N2 [F1 [F2 [F3 [F4 _]]]]]]]; [|lia|].
  { apply NoDup_app_iff. split; [exact E6|]. split; [exact D2|]. intros x Hx. apply D3. apply E7, Hx. }
  destruct (merge_dict_ok fuel tc ltac:(lia) Kc tb h b c Nb Nc Sb Sc Kb G2) as [k1 [Nk [P1 [P2 [P3 [P4 P5]]]]]].
  assert (S3 : stores k1 (HRef a) ta Na).
  { apply (proj1 (stores_frame A h k1) _ _ _ Sa). intros l Hl. apply P5. intros C. apply (G3 l Hl). apply in_or_app. auto. }
  assert (RBC : right_biased tb tc (merge tb tc)) by (apply merge_right_biased; [exact Kc| |]; [inversion Sb|inversion Sc]; eauto).
  destruct (C39_merge_dict A k1 a b ta (merge tb tc) Na Nk S3 P2 Ka) with (fuel := fuel) as [k2 [t' [N' [Q1 [Q2 [Q3 [Q4 _]]]]]]]; [now apply merge_keys_once| |lia|].
  { apply NoDup_app_iff. split; [exact G1|]. split; [exact P4|]. intros x Hx Hy. apply (G3 x Hx). apply P3, Hy. }
  exists h1, h2, k1, k2, t2, t', N2, N'. do 6 (split; [assumption|]).
  eapply right_biased_assoc; eauto.
Qed.
Print Assumptions C39_associative.
(** the proviso is needed: {k: {..}} + {k: x} + {k: {..}} depends on the grouping *)
Theorem C39_grouping_matters : forall A (x y z : A), exists (ta tb tc s1 s2 s3 s4 : tree A),
  keys_once ta /\ keys_once tb /\ keys_once tc /\
  right_biased ta tb s1 /\ right_biased s1 tc s2 /\ right_biased tb tc s3 /\ right_biased ta s3 s4 /\ ~ same s2 s4.
Proof.
  intros A x y z.
  pose (ta := Node [("k"%string, Node [("a"%string, Leaf x)])]). pose (tb := Node [("k"%string, Leaf y)] : tree A).
  pose (tc := Node [("k"%string, Node [("c"%string, Leaf z)])]).
  assert (K1 : forall (t : tree A) k, keys_once t -> keys_once (Node [(k, t)])).
  { intros t k H. constructor; [repeat constructor; tauto|]. intros k' t' [E|[]]. inversion E; subst. exact H. }
  assert (Ka : keys_once ta) by (apply K1, K1; constructor).
  assert (Kb : keys_once tb) by (apply K1; constructor).
  assert (Kc : keys_once tc) by (apply K1, K1; constructor).
  exists ta, tb, tc, (merge ta tb), (merge (merge ta tb) tc), (merge tb tc), (merge ta (merge tb tc)).
  do 3 (split; [assumption|]).
  split; [apply merge_right_biased; [assumption|unfold ta; eauto|unfold tb; eauto]|].
  split; [apply merge_right_biased; [assumption|cbn; eauto|unfold tc; eauto]|].
  split; [apply merge_right_biased; [assumption|unfold tb; eauto|unfold tc; eauto]|].
  split; [apply merge_right_biased; [now apply merge_keys_once|unfold ta; eauto|cbn; eauto]|].
  intros H. specialize (H ["k"%string; "a"%string]). cbn in H. discriminate.
Qed.
Print Assumptions C39_grouping_matters.
(** merge_dicts folds the arguments from left to right into the first one *)
Theorem C39_merge_dicts : forall A (h : heap A) a ls ta ts Ns, stored_apart h (a :: ls) (ta :: ts) Ns ->
  exists fuel0, forall fuel, fuel0 <= fuel ->
  exists h' t N, merge_dicts fuel h (a :: ls) = Ok (Some h', a) /\ stores h' (HRef a) t N /\ keys_once t /\ merged_all ta ts t.
Proof.
  intros A h a ls ta ts Ns H. destruct (stored_apart_heights _ _ _ _ _ H) as [m Hm]. exists m. intros fuel HF.
  inversion H as [|? ? N ? ? Ns' Sa Ka H' D]; subst. unfold merge_dicts. destruct ls as [|b ls].
  - inversion H'; subst. cbn. exists h, ta, N. repeat split; auto. constructor.
  - cbn [length Nat.eqb]. cbn [fold_left]. rewrite (merge_self A fuel h a ta N Sa Ka) by (specialize (Hm ta (or_introl eq_refl)); lia).
    destruct (merge_dicts_loop A fuel (b :: ls) ts Ns' h a ta N Sa Ka H') as [h' [t [N' [E1 [E2 [E3 E4]]]]]].
    + intros t Ht. specialize (Hm t (or_intror Ht)). lia.
    + exact D.
    + exists h', t, N'. cbn [fold_left] in E1. rewrite E1. auto.
Qed.
Print Assumptions C39_merge_dicts.
Theorem C39_merge_dicts_empty : forall A fuel (h : heap A), merge_dicts fuel h [] = Err IndexError.
Proof. reflexivity. Qed.
Print Assumptions C39_merge_dicts_empty.
(** a side effect the documentation does not mention: with three arguments the second one can be changed, because the first one has
    adopted its nested dictionary: {} , {o: {k: x}} , {o: {m: y}} leaves the second as {o: {k: x, m: y}} *)
Theorem C39_merge_dicts_changes_second_argument : forall A (x y : A) (h : heap A),
  let h0 := hset (hset (hset (hset (hset h 0 []) 1 [("o"%string, HRef 3)]) 2 [("o"%string, HRef 4)]) 3 [("k"%string, HLeaf x)]) 4 [("m"%string, HLeaf y)] in
  exists h', merge_dicts 2 h0 [0; 1; 2] = Ok (Some h', 0) /\
    stores h0 (HRef 1) (Node [("o"%string, Node [("k"%string, Leaf x)])]) [1; 3] /\
    stores h' (HRef 1) (Node [("o"%string, Node [("k"%string, Leaf x); ("m"%string, Leaf y)])]) [1; 3].
Proof.
  intros A x y h h0. eexists. split; [cbv; reflexivity|].
  split; constructor; change [3] with ([3] ++ []); (eapply st_cons; [|constructor]); constructor.
  - change (@nil nat) with (@nil nat ++ []). eapply st_cons; constructor.
  - change (@nil nat) with (@nil nat ++ ([] ++ [])). eapply st_cons; [constructor|]. eapply st_cons; constructor.
Qed.
Print Assumptions C39_merge_dicts_changes_second_argument.

(** ** C40 *)
(** the options handed to the optimiser, for a user dictionary and a method with defaults *)
Theorem C40_options : forall n (h : heap ovalue) u tu Nu verbose rows name lb ub bl m,
  stores h (HRef u) tu Nu -> keys_once tu -> NoDup Nu -> (forall l, In l Nu -> l < n) -> bounds_pairs lb ub bl ->
  method_in_force tu name m -> known_method m ->
  forall fuel, height tu <= fuel ->
  exists n' h' d t N, form_options fuel (n, h) u verbose rows name lb ub = Ok (Some (n', h'), d) /\ stores h' (HRef d) t N /\
    (forall p x, plain_at tu p x -> plain_at t p x) /\
    (forall p x, silent tu p -> p <> ["method"%string] -> (plain_at t p x <-> In (p, x) (default_table (lower m) rows verbose bl))) /\
    plain_at t ["method"%string] (OStr m).
Proof.
  intros n h u tu Nu verbose rows name lb ub bl m SU K D HL HB HM HK fuel HF.
  destruct (form_options_ok n h u tu Nu verbose rows name lb ub bl m fuel SU K D HL HB HM HK HF) as [n' [h' [d [t [N [E1 [E2 [E3 [E4 [E5 [E6 _]]]]]]]]]]].
  exists n', h', d, t, N. auto.
Qed.
Print Assumptions C40_options.
(** no options, or an empty dictionary: exactly the defaults *)
Theorem C40_no_options : forall n (h : heap ovalue) user verbose rows name lb ub bl m,
  (forall u, user = Some u -> h u = []) -> bounds_pairs lb ub bl ->
  (archimedean_name name /\ m = "Nelder-Mead"%string) \/ (~ archimedean_name name /\ m = "SLSQP"%string) ->
  forall fuel, 1 <= fuel ->
  exists n' h' d t N, (let '(s, u) := user_options (n, h) user in form_options fuel s u verbose rows name lb ub) = Ok (Some (n', h'), d) /\ stores h' (HRef d) t N /\
    (forall p x, plain_at t p x <-> (p = ["method"%string] /\ x = OStr m) \/ In (p, x) (default_table (lower m) rows verbose bl)) /\
    (forall l, l < n -> h' l = h l).
Proof.
  intros n h user verbose rows name lb ub bl m HU HB HM fuel HF.
  assert (EU : user_options (n, h) user = ((S n, hset h n []), n)).
  { unfold user_options. destruct user as [u|]; [|reflexivity]. cbn [snd]. rewrite (HU u eq_refl). reflexivity. }
  rewrite EU.
  assert (S0 : stores (hset h n []) (HRef n) (Node []) [n]).
  { constructor. rewrite hset_eq. constructor. }
  destruct (form_options_ok (S n) (hset h n []) n (Node []) [n] verbose rows name lb ub bl m fuel S0) as [n' [h' [d [t [N [E1 [E2 [E3 [E4 [E5 [E6 [E7 _]]]]]]]]]]]].
  - constructor; [constructor|intros ? ? []].
  - repeat constructor; tauto.
  - intros l [<-|[]]. lia.
  - exact HB.
  - right. split; [reflexivity|exact HM].
  - destruct HM as [[_ ->]|[_ ->]]; unfold known_method; cbn; auto.
  - exact HF.
  - exists n', h', d, t, N. split; [exact E1|]. split; [exact E2|]. split.
    + intros p x. destruct (list_eq_dec String.string_dec p ["method"%string]) as [->|Np].
      * unfold plain_at in *. rewrite E6. split.
        -- intros H. inversion H. auto.
        -- intros [[_ ->]|H]; [reflexivity|]. exfalso. apply table_paths in H. tauto.
      * destruct p as [|k p].
        -- assert (HT : exists l, t = Node l) by (inversion E2; eauto). destruct HT as [lt ->]. unfold plain_at; cbn. split; [discriminate|].
           intros [[C _]|H]; [discriminate|]. exfalso. apply table_paths in H. tauto.
        -- rewrite E5; [|split; [reflexivity|]|exact Np].
           ++ split; [auto|]. intros [[C _]|H]; [congruence|exact H].
           ++ intros [q [r [y [_ [_ Hq]]]]]. destruct q; discriminate.
    + intros l Hl. rewrite E7 by lia. apply hset_neq. lia.
Qed.
Print Assumptions C40_no_options.
(** any other method name: the caller's own dictionary is handed on, no defaults *)
Theorem C40_other_method : forall n (h : heap ovalue) u verbose rows name lb ub bl m,
  entry "method"%string (h u) = Some (HLeaf (OStr m)) -> ~ known_method m -> bounds_pairs lb ub bl ->
  forall fuel, form_options fuel (n, h) u verbose rows name lb ub = Ok (Some (n, h), u).
Proof.
  intros n h u verbose rows name lb ub bl m E K HB fuel. change (@entry (hval ovalue)) with (@assoc (hval ovalue)) in E.
  unfold form_options. cbv zeta. rewrite E, (bounds_form _ _ _ HB). cbn [bind]. rewrite E.
  unfold method_defaults. unfold known_method in K. cbn in K.
  repeat match goal with |- context [String.eqb (lower m) ?s] => destruct (String.eqb_spec (lower m) s) as [C|_]; [exfalso; rewrite C in K; tauto|] end.
  reflexivity.
Qed.
Print Assumptions C40_other_method.
(** the caller's dictionary: its nested dictionaries and everything else in the heap stay as they are; the dictionary itself is
    unchanged if it names a method *)
Theorem C40_caller_dictionary_partial : forall n (h : heap ovalue) u tu Nu verbose rows name lb ub bl m,
  stores h (HRef u) tu Nu -> keys_once tu -> NoDup Nu -> (forall l, In l Nu -> l < n) -> bounds_pairs lb ub bl ->
  method_in_force tu name m -> known_method m ->
  forall fuel, height tu <= fuel ->
  exists n' h' d, form_options fuel (n, h) u verbose rows name lb ub = Ok (Some (n', h'), d) /\ n <= d /\
    (forall l, l < n -> l <> u -> h' l = h l) /\ (at_path ["method"%string] tu <> Nothing -> h' u = h u).
Proof.
  intros n h u tu Nu verbose rows name lb ub bl m SU K D HL HB HM HK fuel HF.
  destruct (form_options_ok n h u tu Nu verbose rows name lb ub bl m fuel SU K D HL HB HM HK HF) as [n' [h' [d [t [N [E1 [E2 [E3 [E4 [E5 [E6 [E7 E8]]]]]]]]]]]].
  exists n', h', d. repeat split; auto. intros Hm. rewrite E8. change (@entry (hval ovalue)) with (@assoc (hval ovalue)).
  destruct (assoc "method"%string (h u)) eqn:E; [reflexivity|]. exfalso. apply Hm.
  inversion SU as [|? lu N0 SA]; subst. rewrite at_path_one, (stores_none _ _ _ _ _ _ SA E). reflexivity.
Qed.
Print Assumptions C40_caller_dictionary_partial.
(** but a non-empty user dictionary without 'method' is changed: the key is added to the caller's object, so passing the same
    dictionary to a fit of another kind of copula silently changes the method used there *)
Theorem C40_caller_dictionary_refuted : forall n (h : heap ovalue) u tu Nu verbose rows name lb ub bl m,
  stores h (HRef u) tu Nu -> keys_once tu -> NoDup Nu -> (forall l, In l Nu -> l < n) -> bounds_pairs lb ub bl ->
  h u <> [] -> at_path ["method"%string] tu = Nothing ->
  (archimedean_name name /\ m = "Nelder-Mead"%string) \/ (~ archimedean_name name /\ m = "SLSQP"%string) ->
  forall fuel, height tu <= fuel ->
  exists n' h' d, (let '(s, v) := user_options (n, h) (Some u) in form_options fuel s v verbose rows name lb ub) = Ok (Some (n', h'), d) /\
    h' u = h u ++ [("method"%string, HLeaf (OStr m))].
Proof.
  intros n h u tu Nu verbose rows name lb ub bl m SU K D HL HB HN HM HA fuel HF.
  assert (HMF : method_in_force tu name m) by (right; auto).
  assert (HK : known_method m) by (destruct HA as [[_ ->]|[_ ->]]; unfold known_method; cbn; auto).
  destruct (form_options_ok n h u tu Nu verbose rows name lb ub bl m fuel SU K D HL HB HMF HK HF) as [n' [h' [d [t [N [E1 [E2 [E3 [E4 [E5 [E6 [E7 E8]]]]]]]]]]]].
  exists n', h', d. split.
  - unfold user_options. cbn [snd]. destruct (h u); [congruence|exact E1].
  - rewrite E8. change (@entry (hval ovalue)) with (@assoc (hval ovalue)). destruct (assoc "method"%string (h u)) eqn:E; [|reflexivity]. exfalso.
    inversion SU as [|? lu N0 SA]; subst. rewrite at_path_one in HM.
    destruct (stores_split _ _ _ _ _ _ _ SA E) as [t2 [M1 [Mk [M2 [EQ [Et2 _]]]]]]. rewrite Et2 in HM. destruct t2; discriminate.
Qed.
Print Assumptions C40_caller_dictionary_refuted.

(** ** Concrete cases meeting the hypotheses *)
Section Cases.
  Let e0 : heap ovalue := fun _ => [].
  (* 0: {method: 'SLSQP', options: 1}   1: {maxiter: 5, disp: True}   2: {options: 3}   3: {disp: False, eps: 7} *)
  Let hc : heap ovalue := hset (hset (hset (hset e0 0 [("method"%string, HLeaf (OStr "SLSQP"%string)); ("options"%string, HRef 1)])
    1 [("maxiter"%string, HLeaf (ONum 5%R)); ("disp"%string, HLeaf (OBool true))])
    2 [("options"%string, HRef 3)]) 3 [("disp"%string, HLeaf (OBool false)); ("eps"%string, HLeaf (ONum 7%R))].
  Let tA := Node [("method"%string, Leaf (OStr "SLSQP"%string)); ("options"%string, Node [("maxiter"%string, Leaf (ONum 5%R)); ("disp"%string, Leaf (OBool true))])].
  Let tB := Node [("options"%string, Node [("disp"%string, Leaf (OBool false)); ("eps"%string, Leaf (ONum 7%R))])].
  Let sA : stores hc (HRef 0) tA [0; 1].
  Proof.
    unfold tA. constructor. change [1] with ([] ++ ([1] ++ [])). eapply st_cons; [constructor|]. eapply st_cons; [|constructor]. constructor.
    change (@nil nat) with (@nil nat ++ ([] ++ [])). eapply st_cons; [constructor|]. eapply st_cons; constructor.
  Qed.
  Let sB : stores hc (HRef 2) tB [2; 3].
  Proof.
    unfold tB. constructor. change [3] with ([3] ++ []). eapply st_cons; [|constructor]. constructor.
    change (@nil nat) with (@nil nat ++ ([] ++ [])). eapply st_cons; [constructor|]. eapply st_cons; constructor.
  Qed.
  Let two : forall (k1 k2 : string) (t1 t2 : tree ovalue), k1 <> k2 -> keys_once t1 -> keys_once t2 -> keys_once (Node [(k1, t1); (k2, t2)]).
  Proof.
    intros. constructor.
    - cbn. constructor; [cbn; intuition congruence|repeat constructor; tauto].
    - intros k t [E|[E|[]]]; inversion E; subst; assumption.
  Qed.
  Let one : forall (k : string) (t : tree ovalue), keys_once t -> keys_once (Node [(k, t)]).
  Proof. intros. constructor; [repeat constructor; tauto|]. intros k' t' [E|[]]; inversion E; subst; assumption. Qed.
  Example C39_case : exists h' t N, merge_dict 2 hc 0 2 = Some h' /\ stores h' (HRef 0) t N /\
    at_path ["options"; "disp"]%string t = Plain (OBool false) /\ at_path ["options"; "maxiter"]%string t = Plain (ONum 5) /\
    at_path ["options"; "eps"]%string t = Plain (ONum 7) /\ at_path ["method"]%string t = Plain (OStr "SLSQP"%string) /\ h' 2 = hc 2 /\ h' 3 = hc 3.
  Proof.
    destruct (C39_merge_dict ovalue hc 0 2 tA tB [0; 1] [2; 3] sA sB) with (fuel := 2) as [h' [t [N [E1 [E2 [_ [E4 [E5 _]]]]]]]].
    - apply two; [discriminate|constructor|apply two; [discriminate|constructor|constructor]].
    - apply one, two; [discriminate|constructor|constructor].
    - cbn. repeat constructor; cbn; lia.
    - cbn. lia.
    - exists h', t, N. split; [exact E1|]. split; [exact E2|].
      assert (NR : forall p, (forall q r, p = q ++ r -> r <> [] -> forall x, at_path q tB <> Plain x) -> ~ replaced_above tB p).
      { intros p H [q [r [x [E [Hr Hq]]]]]. exact (H q r E Hr x Hq). }
      split; [apply E4; reflexivity|]. split; [|split; [apply E4; reflexivity|split; [|split; apply E5; cbn; lia]]].
      + destruct (E4 ["options"; "maxiter"]%string) as [_ [_ [H _]]]. rewrite H; [reflexivity|reflexivity|].
        apply NR. intros [|a [|b [|c q]]] r E Hr x; cbn in E; inversion E; subst; try discriminate; congruence.
      + destruct (E4 ["method"]%string) as [_ [_ [H _]]]. rewrite H; [reflexivity|reflexivity|].
        apply NR. intros [|a [|b q]] r E Hr x; cbn in E; inversion E; subst; try discriminate; congruence.
  Qed.
  (** a Clayton copula fitted to 100 rows with options = {'options': {'disp': False, 'eps': 7}} *)
  Example C40_case : exists n' h' d t N, form_options 2 (4, hc) 2 1 100 "Clayton" (BScalar (Fin (-1))) (BScalar Pinf) = Ok (Some (n', h'), d) /\
    stores h' (HRef d) t N /\ plain_at t ["options"; "disp"]%string (OBool false) /\ plain_at t ["options"; "eps"]%string (ONum 7) /\
    plain_at t ["options"; "maxiter"]%string (ONum (IZR 20000)) /\ plain_at t ["method"%string] (OStr "Nelder-Mead").
  Proof.
    destruct (C40_options 4 hc 2 tB [2; 3] 1 100 "Clayton"%string (BScalar (Fin (-1))) (BScalar Pinf) [(Fin (-1), Pinf)] "Nelder-Mead"%string sB)
      with (fuel := 2) as [n' [h' [d [t [N [E1 [E2 [E3 [E4 E5]]]]]]]]].
    - apply one, two; [discriminate|constructor|constructor].
    - repeat constructor; cbn; lia.
    - intros l [<-|[<-|[]]]; lia.
    - left. eauto.
    - right. split; [reflexivity|]. left. split; [unfold archimedean_name; cbn; auto|reflexivity].
    - unfold known_method. cbn. auto.
    - cbn. lia.
    - exists n', h', d, t, N. split; [exact E1|]. split; [exact E2|]. split; [apply E3; reflexivity|]. split; [apply E3; reflexivity|]. split; [|exact E5].
      apply E4; [split; [reflexivity|]|discriminate|left; reflexivity].
      intros [q [r [x [E [Hr Hq]]]]]. destruct q as [|a [|b [|c q]]]; cbn in E; inversion E; subst; try discriminate; congruence.
  Qed.
End Cases.
