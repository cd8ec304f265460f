From Coq Require Import Permutation.
From Verif Require Import Base CountLib M_Matrix S_Matrix.

Lemma tri_loop_in n m i j : In (i, j) (tri_loop n m) <-> i + m <= j < n.
Proof.
  unfold tri_loop. rewrite in_flat_map. split.
  - intros [k [Hk H]]. apply in_map_iff in H. destruct H as [l [E Hl]]. injection E as -> ->.
    apply in_seq in Hk. apply in_seq in Hl. lia.
  - intros H. exists i. split; [apply in_seq; lia|]. apply in_map_iff. exists j. split; [reflexivity|]. apply in_seq; lia.
Qed.

Lemma NoDup_flat_map_fst {B} (f : nat -> list B) l :
  NoDup l -> (forall i, In i l -> NoDup (f i)) -> NoDup (flat_map (fun i => map (fun j => (i, j)) (f i)) l).
Proof.
  induction 1 as [|i l Hi Hl IH]; intros H; simpl; [constructor|].
  assert (N1 : NoDup (map (fun j => (i, j)) (f i))).
  { apply FinFun.Injective_map_NoDup; [intros a b E; congruence|]. apply H; left; reflexivity. }
  assert (N2 : NoDup (flat_map (fun i => map (fun j => (i, j)) (f i)) l)).
  { apply IH. intros; apply H; right; assumption. }
  revert N1. generalize (f i) as g. induction g as [|b g IHg]; intros N1; simpl; [exact N2|].
  inversion N1; subst. constructor; [|apply IHg; assumption].
  rewrite in_app_iff. intros [C|C]; [contradiction|].
  apply in_flat_map in C. destruct C as [k [Hk C]]. apply in_map_iff in C. destruct C as [c [E _]].
  injection E as -> _. contradiction.
Qed.
Lemma tri_loop_NoDup n m : NoDup (tri_loop n m).
Proof. apply NoDup_flat_map_fst; [apply seq_NoDup|intros; apply seq_NoDup]. Qed.

Lemma tri_loop_length n m : 2 * length (tri_loop n m) = (n - m) * (n - m + 1).
Proof.
  unfold tri_loop.
  assert (G : forall k i, i + k = n - m ->
    2 * length (flat_map (fun i => map (fun j => (i, j)) (seq (i + m) (n - (i + m)))) (seq i k)) = k * (k + 1)).
  { induction k as [|k IH]; intros i Hk; [reflexivity|].
    cbn [seq flat_map]. rewrite app_length, map_length, seq_length, Nat.mul_add_distr_l, IH by lia.
    replace (n - (i + m)) with (S k) by lia. lia. }
  apply (G (n - m) 0). lia.
Qed.

Lemma combine_map_fst_snd {A B} (l : list (A * B)) : combine (map fst l) (map snd l) = l.
Proof. induction l as [|[a b] l IH]; simpl; congruence. Qed.
Definition swap {A B} (p : A * B) : B * A := (snd p, fst p).
Lemma combine_map_snd_fst {A B} (l : list (A * B)) : combine (map snd l) (map fst l) = map swap l.
Proof. induction l as [|[a b] l IH]; simpl; [reflexivity|]. rewrite IH. reflexivity. Qed.
Lemma combine_app {A B} (a a' : list A) (b b' : list B) : length a = length b ->
  combine (a ++ a') (b ++ b') = combine a b ++ combine a' b'.
Proof. revert b. induction a as [|x a IH]; intros [|y b] H; simpl in *; try lia; [reflexivity|]. rewrite IH by lia. reflexivity. Qed.

Lemma tri_lower n m s : lower s = "lower"%string ->
  tri_indices n m s = Ok (map snd (tri_loop n m), map fst (tri_loop n m)).
Proof. unfold tri_indices. intros ->. reflexivity. Qed.
Lemma tri_upper n m s : lower s = "upper"%string ->
  tri_indices n m s = Ok (map fst (tri_loop n m), map snd (tri_loop n m)).
Proof. unfold tri_indices. intros ->. reflexivity. Qed.
Lemma tri_both n m s : lower s = "both"%string ->
  tri_indices n m s = Ok (map fst (tri_loop n m) ++ map snd (tri_loop n m), map snd (tri_loop n m) ++ map fst (tri_loop n m)).
Proof. unfold tri_indices. intros ->. reflexivity. Qed.
Lemma tri_err n m s : lower s <> "lower"%string -> lower s <> "upper"%string -> lower s <> "both"%string ->
  tri_indices n m s = Err ValueError.
Proof.
  unfold tri_indices. intros H1 H2 H3.
  apply String.eqb_neq in H1, H2, H3. rewrite H1, H2, H3. reflexivity.
Qed.

(** ---- stores ---- *)
Section Stores.
  Context {A : Type} (zero one : A).
  Definition stores (l : list ((nat * nat) * A)) (m : mat A) : mat A :=
    fold_left (fun m p => set_entry m (fst p) (snd p)) l m.
  Lemma stores_shape l m : nr (stores l m) = nr m /\ nc (stores l m) = nc m.
  Proof. revert m. induction l as [|p l IH]; intros m; [auto|]. simpl. destruct (IH (set_entry m (fst p) (snd p))) as [-> ->]. auto. Qed.
  Lemma get_set_entry (m : mat A) p v i j :
    get (set_entry m p v) i j = if Nat.eqb i (fst p) && Nat.eqb j (snd p) then v else get m i j.
  Proof. reflexivity. Qed.
  Lemma stores_other l m i j : ~ In (i, j) (map fst l) -> get (stores l m) i j = get m i j.
  Proof.
    revert m. induction l as [|[[a b] v] l IH]; intros m H; [reflexivity|]. simpl in *.
    rewrite IH by tauto. rewrite get_set_entry. cbn [fst snd].
    destruct (Nat.eqb_spec i a), (Nat.eqb_spec j b); try reflexivity. subst. tauto.
  Qed.
  Lemma stores_hit l m i j v : NoDup (map fst l) -> In ((i, j), v) l -> get (stores l m) i j = v.
  Proof.
    revert m. induction l as [|[[a b] w] l IH]; intros m Hn Hin; [destruct Hin|].
    simpl in *. inversion Hn; subst. destruct Hin as [E|Hin].
    - injection E as -> -> ->. rewrite stores_other by assumption. rewrite get_set_entry. cbn [fst snd].
      rewrite !Nat.eqb_refl. reflexivity.
    - apply IH; assumption.
  Qed.
End Stores.

Lemma sqrt_tri d : 1 <= d -> Nat.sqrt (1 + 4 * (d * (d - 1))) = 2 * d - 1.
Proof.
  intros H. apply Nat.sqrt_unique. destruct d as [|d]; [lia|]. replace (S d - 1) with d by lia. nia.
Qed.
Lemma dim_recovered c d : 1 <= d -> 2 * c = d * (d - 1) -> (1 + Nat.sqrt (1 + 4 * 2 * c)) / 2 = d.
Proof.
  intros H E. replace (1 + 4 * 2 * c) with (1 + 4 * (d * (d - 1))) by lia.
  rewrite sqrt_tri by exact H. replace (1 + (2 * d - 1)) with (d * 2) by lia. apply Nat.div_mul. lia.
Qed.

Lemma map_fst_combine {A B} (a : list A) (b : list B) : length a = length b -> map fst (combine a b) = a.
Proof. revert b. induction a as [|x a IH]; intros [|y b] H; simpl in *; try lia; [reflexivity|]. rewrite IH by lia. reflexivity. Qed.

Lemma swap_swap {A B} (p : A * B) : swap (swap p) = p. Proof. destruct p; reflexivity. Qed.

Section Cov.
  Context {A : Type} (zero one : A).

  Lemma both_NoDup d : NoDup (tri_loop d 1 ++ map swap (tri_loop d 1)).
  Proof.
    assert (N := tri_loop_NoDup d 1).
    assert (N2 : NoDup (map swap (tri_loop d 1))).
    { apply FinFun.Injective_map_NoDup; [intros [] [] E; unfold swap in E; simpl in E; congruence|exact N]. }
    revert N. generalize (fun p (H : In p (tri_loop d 1)) => proj1 (tri_loop_in d 1 (fst p) (snd p))
       (eq_ind p (fun q => In q (tri_loop d 1)) H (fst p, snd p) (surjective_pairing p))).
    intros G. assert (G2 : forall p, In p (map swap (tri_loop d 1)) -> snd p + 1 <= fst p).
    { intros p Hp. apply in_map_iff in Hp. destruct Hp as [[a b] [<- Hq]]. apply G in Hq. simpl in *. lia. }
    revert G G2 N2. generalize (map swap (tri_loop d 1)) as l2. generalize (tri_loop d 1) as l1.
    induction l1 as [|p l1 IH]; intros l2 G G2 N2 N; simpl; [exact N2|].
    inversion N; subst. constructor.
    - rewrite in_app_iff. intros [C|C]; [contradiction|].
      pose proof (G p (or_introl eq_refl)). pose proof (G2 p C). lia.
    - apply IH; auto. intros; apply G; right; assumption.
  Qed.

  Lemma create_cov_unfold params d : 1 <= d -> 2 * length params = d * (d - 1) ->
    create_cov_matrix zero one params =
    assign (identity zero one d)
      (map fst (tri_loop d 1) ++ map snd (tri_loop d 1), map snd (tri_loop d 1) ++ map fst (tri_loop d 1))
      (params ++ params).
  Proof.
    intros H E. unfold create_cov_matrix. rewrite (dim_recovered _ d H E). rewrite tri_both by reflexivity. reflexivity.
  Qed.

  Lemma create_cov_ok params d : 2 <= d -> 2 * length params = d * (d - 1) ->
    create_cov_matrix zero one params =
    Ok (stores (combine (tri_loop d 1 ++ map swap (tri_loop d 1)) (params ++ params)) (identity zero one d)).
  Proof.
    intros H E. rewrite (create_cov_unfold params d ltac:(lia) E). unfold assign.
    cbn [fst snd]. rewrite combine_app by (rewrite !map_length; reflexivity).
    rewrite combine_map_fst_snd, combine_map_snd_fst.
    assert (Hl := tri_loop_length d 1). replace (d - 1 + 1) with d in Hl by lia.
    assert (Hlen : length (params ++ params) = length (tri_loop d 1 ++ map swap (tri_loop d 1))).
    { rewrite !app_length, map_length. lia. }
    destruct (tri_loop d 1 ++ map swap (tri_loop d 1)) as [|p l] eqn:El.
    { rewrite app_length in Hlen. simpl in Hlen. destruct d as [|[|d]]; try lia. }
    rewrite Hlen, Nat.eqb_refl. reflexivity.
  Qed.

  Lemma create_cov_entries params d m : 2 <= d -> 2 * length params = d * (d - 1) ->
    create_cov_matrix zero one params = Ok m ->
    square d m /\ unit_diagonal one m /\
    (forall p v, In (p, v) (combine (tri_loop d 1) params) ->
       get m (fst p) (snd p) = v /\ get m (snd p) (fst p) = v).
  Proof.
    intros H E. rewrite (create_cov_ok params d H E). intros [= <-].
    assert (Hl := tri_loop_length d 1). replace (d - 1 + 1) with d in Hl by lia.
    assert (Hlen : length params = length (tri_loop d 1)) by lia.
    set (l := combine (tri_loop d 1 ++ map swap (tri_loop d 1)) (params ++ params)).
    assert (Hl2 : l = combine (tri_loop d 1) params ++ combine (map swap (tri_loop d 1)) params).
    { apply combine_app. symmetry; exact Hlen. }
    assert (Hf : map fst l = tri_loop d 1 ++ map swap (tri_loop d 1)).
    { apply map_fst_combine. rewrite !app_length, map_length. lia. }
    assert (Nd : NoDup (map fst l)) by (rewrite Hf; apply both_NoDup).
    destruct (stores_shape l (identity zero one d)) as [S1 S2].
    split; [split; assumption|]. split.
    - intros i Hi. rewrite stores_other.
      + cbn. rewrite Nat.eqb_refl. reflexivity.
      + rewrite Hf, in_app_iff. intros [C|C].
        * apply tri_loop_in in C. lia.
        * apply in_map_iff in C. destruct C as [[a b] [Eq C]]. apply tri_loop_in in C. unfold swap in Eq; simpl in Eq.
          injection Eq as -> ->. lia.
    - intros [i j] v Hin. cbn [fst snd]. split; apply stores_hit; try exact Nd; rewrite Hl2, in_app_iff.
      + left; exact Hin.
      + right. clear -Hin. revert Hin. generalize params. induction (tri_loop d 1) as [|[a b] t IH]; intros [|w ps] Hin.
        * destruct Hin.
        * destruct Hin.
        * destruct Hin.
        * cbn [map combine] in *. destruct Hin as [Eq|Hin].
          -- injection Eq as -> -> ->. left; reflexivity.
          -- right. apply IH; exact Hin.
  Qed.

  Lemma combine_in_l {B C} (l : list B) (l' : list C) x : length l = length l' -> In x l -> exists y, In (x, y) (combine l l').
  Proof.
    revert l'. induction l as [|a l IH]; intros [|b l'] H Hin; simpl in *; try lia.
    destruct Hin as [->|Hin]; [exists b; left; reflexivity|].
    destruct (IH l' ltac:(lia) Hin) as [y Hy]. exists y; right; exact Hy.
  Qed.

  Lemma create_cov_symmetric params d m : 2 <= d -> 2 * length params = d * (d - 1) ->
    create_cov_matrix zero one params = Ok m -> corr_shape one d m.
  Proof.
    intros H E Hm. destruct (create_cov_entries params d m H E Hm) as [Sq [U G]].
    split; [exact Sq|]. split; [|exact U].
    assert (Hl := tri_loop_length d 1). replace (d - 1 + 1) with d in Hl by lia.
    assert (Hs : forall i j, i < j -> j < d -> get m i j = get m j i).
    { intros i j Hij Hj. destruct (combine_in_l (tri_loop d 1) params (i, j)) as [v Hv]; [lia|apply tri_loop_in; lia|].
      destruct (G _ _ Hv) as [G1 G2]. cbn in *. congruence. }
    destruct Sq as [R1 R2]. intros i j Hi Hj.
    destruct (Nat.lt_trichotomy i j) as [C|[->|C]]; [apply Hs; lia|reflexivity|symmetry; apply Hs; lia].
  Qed.

  Lemma below_diag_tri (m : mat A) d : nr m = d ->
    below_diag m = map (fun p => get m (snd p) (fst p)) (tri_loop d 1).
  Proof.
    intros <-. unfold below_diag, tri_loop.
    set (d := nr m).
    assert (Hlast : forall k i, i + k = d ->
      below_diag_from m d k i = map (fun p => get m (snd p) (fst p))
        (flat_map (fun i => map (fun j => (i, j)) (seq (i + 1) (d - (i + 1)))) (seq i k))).
    { induction k as [|k IH]; intros i Hk; [reflexivity|].
      cbn [below_diag_from seq flat_map]. rewrite map_app, map_map. cbn [fst snd].
      rewrite IH by lia. replace (i + 1) with (S i) by lia. reflexivity. }
    rewrite (Hlast d 0 eq_refl).
    destruct d as [|d']; [reflexivity|]. replace (S d' - 1) with d' by lia.
    rewrite (seq_S d' 0), flat_map_app, map_app.
    cbn [seq flat_map]. replace (S d' - (0 + d' + 1)) with 0 by lia. cbn [seq map app]. rewrite app_nil_r. reflexivity.
  Qed.

  Lemma map_combine_get {B} (l : list B) (ps : list A) (f : B -> A) : length ps = length l ->
    (forall p v, In (p, v) (combine l ps) -> f p = v) -> map f l = ps.
  Proof.
    revert ps. induction l as [|p l IH]; intros [|v ps] H G; simpl in *; try lia; [reflexivity|].
    rewrite (G p v (or_introl eq_refl)), (IH ps); [reflexivity|lia|]. intros; apply G; right; assumption.
  Qed.

  Lemma create_cov_below params d m : 2 <= d -> 2 * length params = d * (d - 1) ->
    create_cov_matrix zero one params = Ok m -> below_diag m = params.
  Proof.
    intros H E Hm. destruct (create_cov_entries params d m H E Hm) as [[Sq _] [U G]].
    rewrite (below_diag_tri m d Sq). apply map_combine_get.
    - assert (Hl := tri_loop_length d 1). replace (d - 1 + 1) with d in Hl by lia. lia.
    - intros p v Hin. apply (G p v Hin).
  Qed.

  Lemma forallb_tri (m : mat A) d : square d m -> forall k, 
    forallb (fun p => (fst p <? nr m) && (snd p <? nc m)) (map swap (tri_loop d k)) = true.
  Proof.
    intros [S1 S2] k. apply forallb_forall. intros p Hp. apply in_map_iff in Hp. destruct Hp as [[i j] [<- Hp]].
    apply tri_loop_in in Hp. unfold swap. cbn [fst snd]. rewrite S1, S2.
    destruct (Nat.ltb_spec j d), (Nat.ltb_spec i d); try reflexivity; lia.
  Qed.

  Lemma tri_loop_nonempty d : 2 <= d -> tri_loop d 1 <> [].
  Proof.
    intros H C. assert (Hl := tri_loop_length d 1). rewrite C in Hl. destruct d as [|[|d]]; simpl in Hl; lia.
  Qed.

  Lemma take_lower (m : mat A) d s : lower s = "lower"%string -> 2 <= d -> square d m ->
    bind (tri_indices d 1 s) (take m) = Ok (below_diag m).
  Proof.
    intros Hs H Sq. rewrite tri_lower by exact Hs. cbn [bind]. unfold take. cbn [fst snd].
    rewrite combine_map_snd_fst. rewrite (forallb_tri m d Sq).
    pose proof (tri_loop_nonempty d H) as Hne.
    rewrite (below_diag_tri m d (proj1 Sq)).
    destruct (tri_loop d 1) as [|p l] eqn:El; [congruence|]. cbn [map]. rewrite map_map. reflexivity.
  Qed.

  Lemma below_diag_length (m : mat A) : 2 * length (below_diag m) = nr m * (nr m - 1).
  Proof.
    rewrite (below_diag_tri m (nr m) eq_refl), map_length, tri_loop_length.
    destruct (nr m) as [|n]; [reflexivity|]. replace (S n - 1) with n by lia. lia.
  Qed.

  (** matrix -> vector -> matrix *)
  Lemma create_cov_of_below (m : mat A) d : 2 <= d -> corr_shape one d m ->
    exists m', create_cov_matrix zero one (below_diag m) = Ok m' /\ mat_eq m' m.
  Proof.
    intros H [[S1 S2] [Sy U]].
    assert (L := below_diag_length m). rewrite S1 in L.
    rewrite (create_cov_ok (below_diag m) d H L). eexists; split; [reflexivity|].
    assert (Hm := create_cov_ok (below_diag m) d H L).
    set (m' := stores _ _) in *.
    destruct (create_cov_entries _ d m' H L Hm) as [[S1' S2'] [U' G]].
    pose proof (create_cov_symmetric _ d m' H L Hm) as [_ [Sy' _]].
    pose proof (create_cov_below _ d m' H L Hm) as B.
    rewrite (below_diag_tri m' d S1'), (below_diag_tri m d S1) in B.
    assert (Lo : forall i j, i < j -> j < d -> get m' j i = get m j i).
    { intros i j Hij Hj. assert (Hin : In (i, j) (tri_loop d 1)) by (apply tri_loop_in; lia).
      clearbody m'. clear -B Hin. induction (tri_loop d 1) as [|p l IH]; [destruct Hin|]. simpl in B.
      injection B as B1 B2. destruct Hin as [->|Hin]; [exact B1|apply IH; assumption]. }
    split; [congruence|]. split; [congruence|]. intros i j Hi Hj.
    destruct (Nat.lt_trichotomy i j) as [C|[->|C]].
    - rewrite (Sy' i j) by lia. rewrite (Sy i j) by lia. apply Lo; lia.
    - rewrite U' by lia. rewrite U by lia. reflexivity.
    - apply Lo; lia.
  Qed.

  (** lengths that are not triangular numbers are rejected *)
  Lemma create_cov_err params : (forall d, 2 <= d -> 2 * length params <> d * (d - 1)) ->
    create_cov_matrix zero one params = Err (match params with [] => IndexError | _ => ValueError end).
  Proof.
    intros H. unfold create_cov_matrix.
    set (d := (1 + Nat.sqrt (1 + 4 * 2 * length params)) / 2).
    rewrite tri_both by reflexivity. cbn [bind]. unfold assign. cbn [fst snd].
    rewrite combine_app by (rewrite !map_length; reflexivity).
    rewrite combine_map_fst_snd, combine_map_snd_fst.
    destruct params as [|a ps].
    - reflexivity.
    - assert (Hl := tri_loop_length d 1).
      assert (Hd : 2 <= d).
      { unfold d. apply Nat.div_le_lower_bound; [lia|].
        assert (3 <= Nat.sqrt (1 + 4 * 2 * length (a :: ps))) by (apply Nat.sqrt_le_square; simpl; lia). lia. }
      replace (d - 1 + 1) with d in Hl by lia.
      pose proof (H d Hd) as Hne.
      destruct (tri_loop d 1 ++ map swap (tri_loop d 1)) as [|p l] eqn:El.
      + assert (length (tri_loop d 1 ++ map swap (tri_loop d 1)) = 0) by (rewrite El; reflexivity).
        rewrite app_length, map_length in *. exfalso. assert (d * (d-1) = 0) by lia. destruct d as [|[|d']]; simpl in *; lia.
      + rewrite <- El. destruct (Nat.eqb_spec (length ((a :: ps) ++ a :: ps)) (length (tri_loop d 1 ++ map swap (tri_loop d 1)))) as [E|E].
        * exfalso. apply Hne. rewrite !app_length, map_length in E. lia.
        * destruct ps as [|b ps]; reflexivity.
  Qed.

  (** ---- _get_rho_index ---- *)
  Lemma find_index_spec xy l j : find_index xy l = Some j <->
    (nth_error l j = Some xy /\ forall k, k < j -> nth_error l k <> Some xy).
  Proof.
    revert j. induction l as [|v l IH]; intros j; cbn [find_index].
    - split; [discriminate|]. intros [H _]. destruct j; discriminate.
    - destruct xy as [x y], v as [a b]. cbn [fst snd].
      destruct (Nat.eqb_spec x a) as [->|Ha]; destruct (Nat.eqb_spec y b) as [->|Hb]; cbn [andb].
      1:{ split.
          - intros [= <-]. split; [reflexivity|intros; lia].
          - intros [H1 H2]. destruct j as [|j]; [reflexivity|]. exfalso. apply (H2 0); [lia|reflexivity]. }
      all: (split;
        [ intros H; destruct (find_index _ l) as [k|] eqn:E; [|discriminate]; injection H as <-;
          destruct (proj1 (IH k) eq_refl) as [H1 H2]; split; [exact H1|];
          intros [|q] Hq; cbn; [congruence|apply H2; lia]
        | intros [H1 H2]; destruct j as [|j]; cbn in H1; [congruence|];
          destruct (IH j) as [_ G]; rewrite G; [reflexivity|]; split; [exact H1|];
          intros k Hk; exact (H2 (S k) ltac:(lia)) ]).
  Qed.
  Lemma find_index_in xy l : In xy l -> exists j, find_index xy l = Some j.
  Proof.
    induction l as [|v l IH]; intros H; [destruct H|]. cbn. destruct H as [->|H].
    - rewrite !Nat.eqb_refl. exists 0; reflexivity.
    - destruct (Nat.eqb _ _ && Nat.eqb _ _); [exists 0; reflexivity|]. destruct (IH H) as [j ->]. exists (S j); reflexivity.
  Qed.

  (** the index found is where the pair sits in the parameter vector *)
  Lemma get_rho_index_ok dim x y : x < dim -> y < dim -> x <> y ->
    exists j, get_rho_index dim (Z.of_nat x) (Z.of_nat y) = Ok j /\
      nth_error (tri_loop dim 1) j = Some (Nat.min x y, Nat.max x y).
  Proof.
    intros Hx Hy Hne. unfold get_rho_index.
    destruct (Z.ltb_spec (Z.of_nat x) 0); [lia|]. destruct (Z.ltb_spec (Z.of_nat y) 0); [lia|].
    destruct (Z.leb_spec (Z.of_nat dim) (Z.of_nat x)); [lia|]. destruct (Z.leb_spec (Z.of_nat dim) (Z.of_nat y)); [lia|].
    destruct (Z.eqb_spec (Z.of_nat x) (Z.of_nat y)); [lia|]. cbn [orb]. rewrite !Nat2Z.id.
    destruct (Nat.ltb_spec x y) as [L|L].
    - rewrite tri_upper by reflexivity. cbn [bind fst snd]. rewrite combine_map_fst_snd.
      destruct (find_index_in (x, y) (tri_loop dim 1)) as [j Hj]; [apply tri_loop_in; lia|].
      rewrite Hj. exists j; split; [reflexivity|]. apply find_index_spec in Hj.
      rewrite Nat.min_l, Nat.max_r by lia. tauto.
    - rewrite tri_lower by reflexivity. cbn [bind fst snd]. rewrite combine_map_snd_fst.
      destruct (find_index_in (x, y) (map swap (tri_loop dim 1))) as [j Hj].
      { apply in_map_iff. exists (y, x). split; [reflexivity|]. apply tri_loop_in; lia. }
      rewrite Hj. exists j; split; [reflexivity|]. apply find_index_spec in Hj. destruct Hj as [Hj _].
      rewrite Nat.min_r, Nat.max_l by lia.
      rewrite nth_error_map in Hj. destruct (nth_error (tri_loop dim 1) j) as [[a b]|]; [|discriminate].
      cbn in Hj. unfold swap in Hj. cbn in Hj. congruence.
  Qed.

  Lemma get_rho_index_err dim (x y : Z) :
    (x < 0 \/ y < 0 \/ Z.of_nat dim <= x \/ Z.of_nat dim <= y \/ x = y)%Z ->
    get_rho_index dim x y = Err IndexError.
  Proof.
    intros H. unfold get_rho_index.
    destruct (Z.ltb_spec x 0), (Z.ltb_spec y 0); cbn [orb]; try reflexivity.
    destruct (Z.leb_spec (Z.of_nat dim) x), (Z.leb_spec (Z.of_nat dim) y); cbn [orb]; try reflexivity.
    destruct (Z.eqb_spec x y); [reflexivity|lia].
  Qed.
End Cov.
