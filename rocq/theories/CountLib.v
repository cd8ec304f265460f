(** Counting lemmas on lists. *)
From Verif Require Import Base.
From Coq Require Import Permutation.

Section Count.
  Context {A : Type}.
  Implicit Types (f g : A -> bool) (l : list A).

  Lemma count_nil f : count f [] = 0. Proof. reflexivity. Qed.
  Lemma count_cons f x l : count f (x :: l) = (if f x then 1 else 0) + count f l.
  Proof. unfold count; simpl; destruct (f x); reflexivity. Qed.
  Lemma count_app f l l' : count f (l ++ l') = count f l + count f l'.
  Proof. induction l as [|x l IH]; [reflexivity|]. rewrite <- app_comm_cons, !count_cons, IH; lia. Qed.
  Lemma count_le_length f l : count f l <= length l.
  Proof. induction l as [|x l IH]; [reflexivity|]. rewrite count_cons; simpl; destruct (f x); lia. Qed.
  Lemma count_ext f g l : (forall x, In x l -> f x = g x) -> count f l = count g l.
  Proof.
    induction l as [|x l IH]; intros H; [reflexivity|].
    rewrite !count_cons, (H x) by (left; reflexivity). f_equal. apply IH. intros; apply H; right; assumption.
  Qed.
  Lemma count_mono f g l : (forall x, In x l -> f x = true -> g x = true) -> count f l <= count g l.
  Proof.
    induction l as [|x l IH]; intros H; [reflexivity|].
    rewrite !count_cons.
    assert (count f l <= count g l) by (apply IH; intros; apply H; [right|]; assumption).
    destruct (f x) eqn:E; [rewrite (H x (or_introl eq_refl) E)|]; lia.
  Qed.
  Lemma count_lt f g l x : (forall x, In x l -> f x = true -> g x = true) ->
    In x l -> f x = false -> g x = true -> count f l < count g l.
  Proof.
    induction l as [|y l IH]; intros H Hin Hf Hg; [destruct Hin|].
    rewrite !count_cons. destruct Hin as [->|Hin].
    - rewrite Hf, Hg. assert (count f l <= count g l) by (apply count_mono; intros; apply H; [right|]; assumption). lia.
    - assert (count f l < count g l) by (apply IH; auto; intros; apply H; [right|]; assumption).
      destruct (f y) eqn:E; [rewrite (H y (or_introl eq_refl) E)|]; lia.
  Qed.
  Lemma count_split f g l :
    count f l = count (fun x => f x && g x) l + count (fun x => f x && negb (g x)) l.
  Proof.
    induction l as [|x l IH]; [reflexivity|]. rewrite !count_cons, IH.
    destruct (f x), (g x); simpl; lia.
  Qed.
  Lemma count_disj f g l : (forall x, In x l -> f x = true -> g x = false) ->
    count (fun x => f x || g x) l = count f l + count g l.
  Proof.
    induction l as [|x l IH]; intros H; [reflexivity|]. rewrite !count_cons, IH by (intros; apply H; [right|]; assumption).
    destruct (f x) eqn:E; [rewrite (H x (or_introl eq_refl) E)|]; simpl; lia.
  Qed.
  Lemma count_pos f l x : In x l -> f x = true -> 1 <= count f l.
  Proof.
    induction l as [|y l IH]; intros H E; [destruct H|]. rewrite count_cons.
    destruct H as [->|H]; [rewrite E; lia|]. specialize (IH H E); lia.
  Qed.
  Lemma count_zero f l : (forall x, In x l -> f x = false) -> count f l = 0.
  Proof.
    induction l as [|x l IH]; intros H; [reflexivity|].
    rewrite count_cons, (H x (or_introl eq_refl)), IH; [reflexivity|]. intros; apply H; right; assumption.
  Qed.
  Lemma count_zero_inv f l x : count f l = 0 -> In x l -> f x = false.
  Proof. intros H Hin. destruct (f x) eqn:E; [|reflexivity]. pose proof (count_pos f l x Hin E); lia. Qed.
  Lemma count_all f l : (forall x, In x l -> f x = true) -> count f l = length l.
  Proof.
    induction l as [|x l IH]; intros H; [reflexivity|].
    rewrite count_cons, (H x (or_introl eq_refl)), IH; [reflexivity|]. intros; apply H; right; assumption.
  Qed.
  Lemma count_perm f l l' : Permutation l l' -> count f l = count f l'.
  Proof. induction 1; rewrite ?count_cons; try lia; congruence. Qed.
  Lemma count_ex f l : 1 <= count f l -> exists x, In x l /\ f x = true.
  Proof.
    induction l as [|x l IH]; intros H; [cbn in H; lia|]. rewrite count_cons in H.
    destruct (f x) eqn:E; [exists x; split; [left|]; auto|].
    destruct IH as [y [Hy Ey]]; [lia|]. exists y; split; [right|]; assumption.
  Qed.
End Count.

Lemma count_map {A B} (f : B -> bool) (g : A -> B) l : count f (map g l) = count (fun x => f (g x)) l.
Proof. induction l as [|x l IH]; [reflexivity|]. simpl map; rewrite !count_cons, IH; reflexivity. Qed.

(** an injection between predicates bounds counts *)
Lemma count_inj {A B} (f : A -> bool) (g : B -> bool) (h : A -> B) la lb :
  NoDup la ->
  (forall x, In x la -> f x = true -> In (h x) lb /\ g (h x) = true) ->
  (forall x y, In x la -> In y la -> f x = true -> f y = true -> h x = h y -> x = y) ->
  count f la <= count g lb.
Proof.
  intros Hnd Hm Hi. unfold count.
  rewrite <- (map_length h (filter f la)).
  apply NoDup_incl_length.
  - assert (Hnf : NoDup (filter f la)) by (apply NoDup_filter; assumption).
    assert (Hs : forall x, In x (filter f la) -> In x la /\ f x = true) by (intros x; apply filter_In).
    revert Hnf Hs; generalize (filter f la); intros l.
    induction l as [|x l IH]; intros Hnf Hs; simpl; [constructor|].
    inversion Hnf; subst. constructor.
    + rewrite in_map_iff; intros [y [E Hy]].
      destruct (Hs x (or_introl eq_refl)), (Hs y (or_intror Hy)).
      assert (y = x) by (apply Hi; assumption). subst; contradiction.
    + apply IH; [assumption|]. intros; apply Hs; right; assumption.
  - intros y. rewrite in_map_iff. intros [x [<- Hx]].
    apply filter_In in Hx. apply filter_In. apply Hm; tauto.
Qed.

Lemma seq_in n i : In i (seq 0 n) <-> i < n.
Proof. rewrite in_seq; lia. Qed.

Lemma filter_false_nil {A} (f : A -> bool) l : (forall x, In x l -> f x = false) -> filter f l = [].
Proof.
  induction l as [|x l IH]; intros H; [reflexivity|]. simpl. rewrite (H x (or_introl eq_refl)).
  apply IH; intros; apply H; right; assumption.
Qed.
Lemma filter_true_id {A} (f : A -> bool) l : (forall x, In x l -> f x = true) -> filter f l = l.
Proof.
  induction l as [|x l IH]; intros H; [reflexivity|]. simpl. rewrite (H x (or_introl eq_refl)).
  f_equal; apply IH; intros; apply H; right; assumption.
Qed.
