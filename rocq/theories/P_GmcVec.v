(** Lemmas about the vector form of mixture parameters. *)
From Verif Require Import Base RSumLib CountLib Ext S_Matrix S_Linalg M_Special M_Stats M_Linalg P_Linalg M_Gmc S_Gmc P_Gmc.
Local Close Scope Z_scope. Open Scope R_scope.

(** ** np.triu_indices *)
Lemma flat_map_length {A B} (f : A -> list B) (g : A -> nat) l : (forall x, In x l -> length (f x) = g x) ->
  length (flat_map f l) = fold_right (fun x n => g x + n)%nat 0%nat l.
Proof.
  induction l as [|x l IH]; intros H; [reflexivity|]. cbn. rewrite app_length, (H x (or_introl eq_refl)), IH; [reflexivity|].
  intros y Hy. apply H. right. exact Hy.
Qed.
Lemma triu_in d i j : In (i, j) (triu d) <-> (i <= j < d)%nat.
Proof.
  unfold triu. rewrite in_flat_map. split.
  - intros [k [Hk H]]. apply in_seq in Hk. apply in_map_iff in H. destruct H as [x [E Hx]]. injection E as -> ->. apply in_seq in Hx. lia.
  - intros H. exists i. split; [apply in_seq; lia|]. apply in_map. apply in_seq. lia.
Qed.
Lemma triu_length_from d k : (k <= d)%nat -> (2 * fold_right (fun i n => (d - i) + n) 0 (seq (d - k) k) = k * (k + 1))%nat.
Proof.
  induction k as [|k IH]; intros H; [reflexivity|]. cbn [seq fold_right]. replace (Datatypes.S (d - Datatypes.S k)) with (d - k)%nat by lia.
  specialize (IH ltac:(lia)). nia.
Qed.
Lemma triu_length d : (length (triu d) = d * (d + 1) / 2)%nat.
Proof.
  unfold triu. rewrite (flat_map_length _ (fun i => (d - i)%nat)) by (intros; rewrite map_length, seq_length; reflexivity).
  pose proof (triu_length_from d d (le_n d)) as H. rewrite Nat.sub_diag in H. rewrite <- H, Nat.mul_comm, Nat.div_mul by lia. reflexivity.
Qed.
Lemma lookup_combine k (g : nat * nat -> R) l : lookup k (combine l (map g l)) = if existsb (fun k' => Nat.eqb (fst k) (fst k') && Nat.eqb (snd k) (snd k')) l then g k else 0.
Proof.
  induction l as [|[a b] l IH]; [reflexivity|]. cbn. destruct (Nat.eqb_spec (fst k) a) as [E1|], (Nat.eqb_spec (snd k) b) as [E2|]; cbn; try exact IH.
  destruct k. cbn in *. subst. reflexivity.
Qed.
Lemma lookup_triu d i j (g : nat * nat -> R) : lookup (i, j) (combine (triu d) (map g (triu d))) = if (i <=? j)%nat && (j <? d)%nat then g (i, j) else 0.
Proof.
  rewrite lookup_combine. replace (existsb _ (triu d)) with ((i <=? j)%nat && (j <? d)%nat); [reflexivity|].
  apply eq_true_iff_eq. rewrite existsb_exists, andb_true_iff, Nat.leb_le, Nat.ltb_lt. split.
  - intros H. exists (i, j). split; [apply triu_in; lia|]. cbn. rewrite !Nat.eqb_refl. reflexivity.
  - intros [[a b] [H E]]. cbn in E. apply andb_true_iff in E. rewrite !Nat.eqb_eq in E. destruct E as [-> ->]. apply triu_in in H. lia.
Qed.

Lemma unpack_pack d c : square d c -> symmetric c ->
  exists c', unpack d (map Fin (map (fun ij => get c (fst ij) (snd ij)) (triu d))) = Ok c' /\ mat_eq c' c.
Proof.
  intros [S1 S2] Sy. unfold unpack. rewrite (map_map Fin number_of). cbn [number_of]. rewrite map_id.
  set (v := map (fun ij => get c (fst ij) (snd ij)) (triu d)).
  assert (Lv : length v = length (triu d)) by (unfold v; apply map_length).
  assert (E : (if Nat.eqb (length v) 1 then repeat (nth 0 v 0) (length (triu d)) else v) = v).
  { destruct (Nat.eqb_spec (length v) 1) as [H1|]; [|reflexivity]. rewrite <- Lv, H1. destruct v as [|x [|y v]]; try discriminate. reflexivity. }
  rewrite E, Lv, Nat.eqb_refl. cbn [negb]. eexists. split; [reflexivity|]. split; [symmetry; exact S1|]. split; [symmetry; exact S2|].
  cbn [nr nc get]. intros i j Hi Hj. unfold v. rewrite !lookup_triu. cbn [fst snd].
  destruct (Nat.ltb_spec i j) as [H|H].
  - rewrite (proj2 (Nat.leb_le i j)), (proj2 (Nat.ltb_lt j d)) by lia. rewrite (proj2 (Nat.leb_gt j i)) by lia. cbn [andb]. ring.
  - rewrite (proj2 (Nat.leb_le j i)), (proj2 (Nat.ltb_lt i d)) by lia. cbn [andb]. rewrite (Sy j i) by lia. ring.
Qed.

(** ** Chunks of a flat list *)
Lemma chunk {A B} (f : A -> list B) s l k x0 : (forall x, In x l -> length (f x) = s) -> (k < length l)%nat ->
  firstn s (skipn (k * s) (flat_map f l)) = f (nth k l x0).
Proof.
  revert k. induction l as [|x l IH]; intros k Hs Hk; [cbn in Hk; lia|]. cbn [flat_map].
  pose proof (Hs x (or_introl eq_refl)) as Hx. destruct k as [|k].
  - cbn [Nat.mul skipn nth]. rewrite firstn_app, <- Hx, Nat.sub_diag, firstn_all, firstn_O, app_nil_r. reflexivity.
  - cbn [nth]. rewrite skipn_app. rewrite skipn_all2 by (cbn; lia). cbn [app]. replace (Datatypes.S k * s - length (f x))%nat with (k * s)%nat by (cbn; lia).
    apply IH; [intros y Hy; apply Hs; right; exact Hy|cbn in Hk; lia].
Qed.
Lemma nth_chunk {A B} (f : A -> list B) s l k j x0 b0 : (forall x, In x l -> length (f x) = s) -> (k < length l)%nat -> (j < s)%nat ->
  nth (k * s + j) (flat_map f l) b0 = nth j (f (nth k l x0)) b0.
Proof.
  intros Hs Hk Hj. rewrite <- (chunk f s l k x0 Hs Hk). clear -Hj. generalize (flat_map f l). intros L.
  assert (G : forall (M : list B), nth j (firstn s M) b0 = nth j M b0).
  { revert Hj. generalize j. induction s as [|s IH]; intros i Hi M; [lia|]. destruct M as [|y M]; [destruct i; reflexivity|]. destruct i as [|i]; [reflexivity|]. cbn. apply IH. lia. }
  rewrite G. generalize (k * s)%nat. intros n. revert L. induction n as [|n IH]; intros L; [reflexivity|].
  destruct L as [|y L]; [destruct j; reflexivity|]. cbn. apply IH.
Qed.
Lemma flat_map_const_length {A B} (f : A -> list B) s l : (forall x, In x l -> length (f x) = s) -> length (flat_map f l) = (length l * s)%nat.
Proof.
  induction l as [|x l IH]; intros H; [reflexivity|]. cbn. rewrite app_length, (H x (or_introl eq_refl)), IH; [reflexivity|].
  intros y Hy. apply H. right. exact Hy.
Qed.
Lemma ceil_exact n s : (0 < s)%nat -> ((n * s + s - 1) / s = n)%nat.
Proof. intros H. symmetry. apply (Nat.div_unique _ _ _ (s - 1)); nia. Qed.

(** ** The probabilities *)
Lemma sigmoid_logit x : 0 < x < 1 -> sigmoid (elog (edivide x (Fin (1 - x)))) = Fin x.
Proof.
  intros H. unfold edivide. rewrite (proj2 (Reqb_false (1 - x) 0)) by lra.
  assert (P : 0 < x / (1 - x)) by (apply Rdiv_lt_0_compat; lra).
  rewrite elog_pos by exact P. cbn. rewrite exp_ln by exact P. f_equal. field. lra.
Qed.
Lemma map_fin_prob l : lsum l <> 0 ->
  map (fun x => match x, esum (map Fin l) with Fin x, s => edivide x s | _, _ => Nan end) (map Fin l) = map Fin (map (fun x => x / lsum l) l).
Proof.
  intros H. rewrite esum_fin, !map_map. apply map_ext. intros x. unfold edivide. rewrite (proj2 (Reqb_false (lsum l) 0)) by exact H. reflexivity.
Qed.

Lemma inf_quotients (f : ext -> ext) v : (forall x, f x = Fin 0 \/ f x = Nan) -> forall l, map f v = map Fin l -> lsum l = 0.
Proof.
  intros Hf. induction v as [|x v IH]; intros [|y l] H; cbn [map] in H; try discriminate; [reflexivity|].
  assert (Hx : f x = Fin y) by congruence. assert (Hv : map f v = map Fin l) by congruence.
  cbn. rewrite (IH l Hv). destruct (Hf x) as [E|E]; rewrite E in Hx; [injection Hx as <-; ring|discriminate].
Qed.

Section Vec.
  Variables (eig : mat R -> list R) (cn : mat R -> mat R).

  (** the three parts of a vector of the right length *)
  Lemma from_vector_parts m d A B (C : nat -> list ext) : (1 <= d)%nat -> length A = m -> length B = (m * d)%nat ->
    (forall k, (k < m)%nat -> length (C k) = length (triu d)) ->
    let v := A ++ B ++ flat_map C (seq 0 m) in
    let pr := map sigmoid A in
    from_vector eig cn v m d =
      bind (mapM (fun k => unpack d (C k)) (seq 0 m)) (fun cv =>
      new_gmc eig cn m d (map (fun x => match x, esum pr with Fin x, s => edivide x s | _, _ => Nan end) pr)
        (mkMat m d (fun i j => number_of (nth (i * d + j)%nat B (Fin 0)))) cv).
  Proof.
    intros Hd HA HB HC v pr. unfold from_vector.
    assert (E0 : slice 0 m v = A).
    { unfold slice, v. rewrite Nat.sub_0_r. cbn [skipn]. rewrite firstn_app, <- HA, Nat.sub_diag, firstn_all, firstn_O, app_nil_r. reflexivity. }
    assert (E1 : slice m (m + m * d) v = B).
    { unfold slice, v. rewrite skipn_app, <- HA, skipn_all, Nat.sub_diag. cbn [app skipn]. replace (length A + length A * d - length A)%nat with (length B) by (rewrite HA; lia).
      rewrite firstn_app, Nat.sub_diag, firstn_all, firstn_O, app_nil_r. reflexivity. }
    rewrite E0, E1, HB, Nat.eqb_refl. cbn [negb]. fold pr.
    assert (Hs : (d * (d + 1) / 2 = length (triu d))%nat) by (symmetry; apply triu_length). rewrite Hs.
    assert (Ps : (0 < length (triu d))%nat).
    { assert (In (0, 0)%nat (triu d)) by (apply triu_in; lia). destruct (triu d); [contradiction|cbn; lia]. }
    set (s := length (triu d)) in *.
    assert (LC : length (flat_map C (seq 0 m)) = (m * s)%nat).
    { rewrite (flat_map_const_length C s), seq_length; [reflexivity|]. intros k Hk. apply in_seq in Hk. apply HC. lia. }
    assert (Lv : length v = (m * (d + 1) + m * s)%nat) by (unfold v; rewrite !app_length, HA, HB, LC; lia).
    assert (E2 : mapM (fun i => unpack d (slice i (i + s) v)) (steps (m * (d + 1)) (length v) s) = mapM (fun k => unpack d (C k)) (seq 0 m)).
    { unfold steps. rewrite Lv. replace (m * (d + 1) + m * s - m * (d + 1) + s - 1)%nat with (m * s + s - 1)%nat by lia. rewrite ceil_exact by exact Ps.
      assert (Q : forall l, (forall k, In k l -> (k < m)%nat) -> mapM (fun i => unpack d (slice i (i + s) v)) (map (fun k => m * (d + 1) + k * s)%nat l) = mapM (fun k => unpack d (C k)) l).
      { induction l as [|k l IH]; intros Hl; [reflexivity|]. cbn [map mapM]. rewrite IH by (intros y Hy; apply Hl; right; exact Hy). f_equal. f_equal.
        unfold slice, v. replace (m * (d + 1) + k * s + s - (m * (d + 1) + k * s))%nat with s by lia.
        rewrite app_assoc, skipn_app. rewrite skipn_all2 by (rewrite app_length, HA, HB; nia). cbn [app]. rewrite app_length, HA, HB.
        replace (m * (d + 1) + k * s - (m + m * d))%nat with (k * s)%nat by nia.
        pose proof (Hl k (or_introl eq_refl)) as Hk. rewrite (chunk C s (seq 0 m) k 0%nat); [rewrite seq_nth by exact Hk; reflexivity| |rewrite seq_length; exact Hk].
        intros y Hy. apply in_seq in Hy. apply HC. lia. }
      apply Q. intros k Hk. apply in_seq in Hk. lia. }
    rewrite E2. reflexivity.
  Qed.

  Lemma to_vector_parts p : valid p -> exists A,
    A = map (fun x => elog (edivide x (Fin (1 - x)))) (clip_prob (prob p)) /\ length A = n_clusters p /\
    fst (to_vector p) = A
      ++ map Fin (flat_map (fun i => map (fun j => get (means p) i j) (seq 0 (n_dim p))) (seq 0 (n_clusters p)))
      ++ flat_map (fun k => map Fin (map (fun ij => get (spread_of p k) (fst ij) (snd ij)) (triu (n_dim p)))) (seq 0 (n_clusters p)).
  Proof.
    intros [V1 [V2 [V3 [V4 [V5 V6]]]]]. eexists. split; [reflexivity|]. split; [rewrite map_length, clip_prob_eq, map_length; exact V1|].
    unfold to_vector. cbn [fst]. f_equal. f_equal.
    rewrite <- V5. unfold spread_of. generalize (covs p). intros l. generalize (triu (n_dim p)). intros t.
    assert (G : forall pre, flat_map (fun k => map Fin (map (fun ij => get (nth k (pre ++ l) (mkMat 0 0 (fun _ _ => 0))) (fst ij) (snd ij)) t)) (seq (length pre) (length l))
                 = map Fin (flat_map (fun c => map (fun ij => get c (fst ij) (snd ij)) t) l)).
    { induction l as [|c l IH]; intros pre; [reflexivity|]. cbn [length seq flat_map]. rewrite map_app. f_equal.
      - rewrite app_nth2, Nat.sub_diag by lia. reflexivity.
      - specialize (IH (pre ++ [c])). rewrite <- app_assoc in IH. cbn [app] in IH. rewrite app_length in IH. cbn [length] in IH. rewrite Nat.add_1_r in IH. exact IH. }
    symmetry. exact (G []).
  Qed.
  Lemma to_vector_length p : valid p -> (length (fst (to_vector p)) = n_clusters p + n_clusters p * n_dim p + n_clusters p * (n_dim p * (n_dim p + 1) / 2))%nat.
  Proof.
    intros V. destruct (to_vector_parts p V) as [A [_ [HA ->]]]. rewrite !app_length, HA, map_length.
    rewrite (flat_map_const_length _ (n_dim p)) by (intros; rewrite map_length, seq_length; reflexivity).
    rewrite (flat_map_const_length _ (length (triu (n_dim p)))) by (intros; rewrite !map_length; reflexivity). rewrite !seq_length, triu_length. lia.
  Qed.

  Lemma covariance_mat_eq d c c' : covariance d c -> mat_eq c' c -> covariance d c'.
  Proof.
    intros [[S1 S2] [Sy Ps]] [E1 [E2 E3]]. split; [split; congruence|]. split.
    - intros i j Hi Hj. rewrite !E3 by lia. apply Sy; lia.
    - intros x. rewrite (quad_ext _ _ (get c)); [apply Ps|]. intros i j Hi Hj. apply E3; lia.
  Qed.

  (** unpacking the packed covariances *)
  Lemma unpack_all d l : Forall (covariance d) l -> exists cv,
    mapM (fun c => unpack d (map Fin (map (fun ij => get c (fst ij) (snd ij)) (triu d)))) l = Ok cv /\ Forall2 mat_eq l cv /\ Forall (covariance d) cv.
  Proof.
    induction 1 as [|c l Hc F [cv [E [E1 E2]]]]; [exists []; split; [reflexivity|]; split; constructor|].
    destruct (unpack_pack d c) as [c' [Ec Eq]]; [apply Hc|apply Hc|]. exists (c' :: cv). cbn [mapM]. rewrite Ec. cbn [bind]. rewrite E. cbn [bind].
    split; [reflexivity|]. split; constructor; try assumption.
    - destruct Eq as [Q1 [Q2 Q3]]. split; [congruence|]. split; [congruence|]. intros i j Hi Hj. symmetry. apply Q3; congruence.
    - apply (covariance_mat_eq d c); assumption.
  Qed.
  Lemma mapM_nth {B} (f : mat R -> result B) l : forall pre c0, mapM (fun k => f (nth k (pre ++ l) c0)) (seq (length pre) (length l)) = mapM f l.
  Proof.
    induction l as [|c l IH]; intros pre c0; [reflexivity|]. cbn [length seq mapM]. rewrite app_nth2, Nat.sub_diag by lia. cbn [nth].
    specialize (IH (pre ++ [c]) c0). rewrite <- app_assoc in IH. cbn [app] in IH. rewrite app_length in IH. cbn [length] in IH. rewrite Nat.add_1_r in IH. rewrite IH. reflexivity.
  Qed.

  Lemma from_to_vector p : (1 <= n_dim p)%nat -> valid p -> Forall (covariance (n_dim p)) (covs p) ->
    exists mu cv, mat_eq (means p) mu /\ Forall2 mat_eq (covs p) cv /\ Forall (covariance (n_dim p)) cv /\
    let pr := map sigmoid (map (fun x => elog (edivide x (Fin (1 - x)))) (clip_prob (prob p))) in
    from_vector eig cn (fst (to_vector p)) (n_clusters p) (n_dim p)
      = new_gmc eig cn (n_clusters p) (n_dim p) (map (fun x => match x, esum pr with Fin x, s => edivide x s | _, _ => Nan end) pr) mu cv.
  Proof.
    intros Hd V F. destruct (to_vector_parts p V) as [A [EA [HA E]]]. rewrite E.
    destruct (unpack_all (n_dim p) (covs p) F) as [cv [Ecv [Mcv Ccv]]].
    eexists. exists cv. split; [|split; [exact Mcv|split; [exact Ccv|]]].
    2:{ cbv zeta. rewrite (from_vector_parts (n_clusters p) (n_dim p) A _ _ Hd HA).
        - unfold spread_of. destruct V as [_ [_ [_ [_ [V5 _]]]]]. rewrite <- V5 at 1.
          rewrite (mapM_nth (fun c => unpack (n_dim p) (map Fin (map (fun ij => get c (fst ij) (snd ij)) (triu (n_dim p))))) (covs p) [] _), Ecv. cbn [bind].
          rewrite EA. reflexivity.
        - rewrite map_length, (flat_map_const_length _ (n_dim p)), seq_length by (intros; rewrite map_length, seq_length; reflexivity). reflexivity.
        - intros k Hk. rewrite !map_length. reflexivity. }
    destruct V as [_ [_ [V3 [V4 _]]]]. split; [exact V3|]. split; [exact V4|]. intros i j Hi Hj. cbn [get].
    rewrite map_nth with (f := Fin). cbn [number_of].
    rewrite (nth_chunk _ (n_dim p) _ i j 0%nat); [|intros; rewrite map_length, seq_length; reflexivity|rewrite seq_length; congruence|congruence].
    rewrite seq_nth by congruence. cbn [Nat.add].
    rewrite (nth_indep _ 0 (get (means p) i (n_dim p))) by (rewrite map_length, seq_length; congruence).
    rewrite (map_nth (fun j => get (means p) i j)). rewrite seq_nth by congruence. reflexivity.
  Qed.

  Lemma round_trip p : libraries eig cn -> (1 <= n_dim p)%nat -> (2 <= n_clusters p)%nat -> valid p -> Forall (covariance (n_dim p)) (covs p) ->
    exists p', from_vector eig cn (fst (to_vector p)) (n_clusters p) (n_dim p) = Ok p' /\ same_gmc (snd (to_vector p)) p'.
  Proof.
    intros L Hd Hm V F. destruct (from_to_vector p Hd V F) as [mu [cv [Emu [Ecv [Ccv E]]]]]. cbv zeta in E.
    destruct V as [V1 [[W0 W1] [V3 [V4 [V5 V6]]]]].
    assert (Pos := clip_prob_pos _ W0). destruct (clip_prob_weights _ (conj W0 W1)) as [W S1].
    assert (Lc : length (clip_prob (prob p)) = n_clusters p) by (rewrite clip_prob_eq, map_length; exact V1).
    set (c := clip_prob (prob p)) in *.
    assert (Es : map sigmoid (map (fun x => elog (edivide x (Fin (1 - x)))) c) = map Fin c).
    { rewrite map_map. apply map_ext_in. intros x Hx. apply sigmoid_logit. split; [rewrite Forall_forall in Pos; apply Pos, Hx|].
      rewrite <- S1. apply below_sum; [lia|exact Pos|exact Hx]. }
    rewrite Es, map_fin_prob in E by lra.
    assert (Ec : map (fun x => x / lsum c) c = c).
    { rewrite <- (map_id c) at 2. apply map_ext. intros x. rewrite S1. unfold Rdiv. rewrite Rinv_1. ring. }
    rewrite Ec in E. destruct Emu as [M1 [M2 M3]].
    rewrite new_gmc_fwd in E; try assumption; try congruence; [|rewrite <- (Forall2_len _ _ _ Ecv); exact V5].
    eexists. split; [exact E|]. unfold same_gmc. cbn. repeat (split; [reflexivity|]). split; [split; [exact M1|split; [exact M2|exact M3]]|exact Ecv].
  Qed.

  Lemma round_trip_single p : libraries eig cn -> (1 <= n_dim p)%nat -> n_clusters p = 1%nat -> valid p -> Forall (covariance (n_dim p)) (covs p) ->
    from_vector eig cn (fst (to_vector p)) (n_clusters p) (n_dim p) = Err GMCParamError.
  Proof.
    intros L Hd Hm V F. destruct (from_to_vector p Hd V F) as [mu [cv [Emu [Ecv [Ccv E]]]]]. cbv zeta in E. rewrite E. clear E.
    destruct V as [V1 [[W0 W1] _]]. assert (Lc : length (clip_prob (prob p)) = 1%nat) by (rewrite clip_prob_eq, map_length; congruence).
    destruct (clip_prob_weights _ (conj W0 W1)) as [_ S1]. destruct (clip_prob (prob p)) as [|x [|y l]]; try discriminate.
    cbn in S1. assert (x = 1) by lra. subst x. cbn [map]. unfold edivide. rewrite (proj2 (Reqb_true (1 - 1) 0)) by ring. rewrite (proj2 (Rltb_true 0 1)) by lra.
    cbn [elog sigmoid eexp map]. unfold new_gmc, check_prob. rewrite Hm. cbn. reflexivity.
  Qed.

  Lemma from_vector_valid v m d p : libraries eig cn -> from_vector eig cn v m d = Ok p ->
    valid p /\ n_clusters p = m /\ n_dim p = d /\ lsum (prob p) = 1.
  Proof.
    intros L. unfold from_vector. destruct (negb _); [discriminate|]. cbv zeta. destruct (mapM _ _) as [cv|]; cbn [bind]; [|discriminate].
    intros H. apply (new_gmc_ok _ _ _ _ _ _ _ _ L) in H. destruct H as [V [Hm [Hd [Hp _]]]]. split; [exact V|]. split; [exact Hm|]. split; [exact Hd|].
    destruct V as [_ [W _]]. pose proof (weights_nonempty _ W) as N.
    set (pr := map sigmoid (slice 0 m v)) in *.
    assert (exists s, esum pr = Fin s /\ s <> 0 /\ exists l, pr = map Fin l /\ s = lsum l /\ prob p = map (fun x => x / s) l) as [s [Es [Ns [l [El [Hs Hl]]]]]].
    { destruct pr as [|x0 pr0] eqn:Epr; [destruct (prob p); [contradiction|discriminate]|]. rewrite <- Epr in *. clear x0 pr0 Epr.
      (* every quotient is finite *)
      destruct (esum pr) as [s| | |] eqn:Es.
      - destruct (esum_is_fin _ _ Es) as [l [El Hs]]. exists s. split; [reflexivity|].
        assert (Ns : s <> 0).
        { intros Z. rewrite El, map_map in Hp. destruct l as [|x l]; [destruct (prob p); [contradiction|discriminate]|].
          destruct (prob p); [discriminate|]. cbn [map] in Hp. injection Hp as Hx _. unfold edivide in Hx. rewrite (proj2 (Reqb_true s 0)) in Hx by exact Z.
          destruct (Rltb 0 x); [discriminate|]. destruct (Rltb x 0); discriminate. }
        split; [exact Ns|]. exists l. split; [exact El|]. split; [exact Hs|]. rewrite El, map_map in Hp.
        assert (G : forall (a b : list R), map Fin a = map Fin b -> a = b).
        { induction a as [|x a IH]; intros [|y b] Q; cbn in Q; try discriminate; [reflexivity|]. injection Q as -> Q. rewrite (IH b Q). reflexivity. }
        apply G. rewrite <- Hp, map_map. apply map_ext. intros x. unfold edivide. rewrite (proj2 (Reqb_false s 0)) by exact Ns. reflexivity.
      - (* the numbers would all be zero *)
        exfalso. apply inf_quotients in Hp; [|intros [x| | |]; cbn; auto]. destruct W as [_ W]. rewrite Hp, Rminus_0_l, Rabs_Ropp, Rabs_R1 in W. lra.
      - exfalso. apply inf_quotients in Hp; [|intros [x| | |]; cbn; auto]. destruct W as [_ W]. rewrite Hp, Rminus_0_l, Rabs_Ropp, Rabs_R1 in W. lra.
      - exfalso. destruct pr as [|x pr0]; [destruct (prob p); [contradiction|discriminate]|]. destruct (prob p); [discriminate|].
        cbn [map] in Hp. injection Hp as Hx _. destruct x; discriminate. }
    rewrite Hl, lsum_div, <- Hs. field. exact Ns.
  Qed.
End Vec.
