From Verif Require Import Base RSumLib CountLib M_Matrix S_Matrix P_Matrix M_Linalg S_Linalg P_Linalg M_Elliptical S_Elliptical.
Open Scope R_scope.

(** ---- the eigenvalue assumption is satisfiable: the infimum of the Rayleigh quotient ---- *)
Section Eig.
  Definition ray_set (m : mat R) : R -> Prop :=
    fun y => forall x, y * norm2 (nr m) x <= quad (nr m) (lower_sym m) x.
  Lemma quad_abs_bound n (m : nat -> nat -> R) x :
    - (rsum n (fun i => rsum n (fun j => Rabs (m i j)))) * norm2 n x <= quad n m x.
  Proof.
    set (K := rsum n (fun i => rsum n (fun j => Rabs (m i j)))).
    assert (HN : forall i, (i < n)%nat -> x i * x i <= norm2 n x).
    { intros i Hi. unfold norm2. rewrite <- (rsum_delta n i (fun i => x i * x i) Hi) at 1.
      apply rsum_le. intros k Hk. destruct (Nat.eqb k i); nra. }
    unfold quad. replace (- K * norm2 n x) with (rsum n (fun i => rsum n (fun j => - Rabs (m i j) * norm2 n x))).
    - apply rsum_le. intros i Hi. apply rsum_le. intros j Hj.
      pose proof (HN i Hi). pose proof (HN j Hj).
      assert (Rabs (x i * x j) <= norm2 n x).
      { split_Rabs; nra. }
      pose proof (Rabs_pos (m i j)).
      replace (x i * m i j * x j) with (m i j * (x i * x j)) by ring.
      pose proof (Rabs_mult (m i j) (x i * x j)) as E.
      assert (Rabs (m i j) * Rabs (x i * x j) <= Rabs (m i j) * norm2 n x) by nra.
      pose proof (Rle_abs (- (m i j * (x i * x j)))) as L. rewrite Rabs_Ropp in L. lra.
    - unfold K. rewrite <- rsum_opp, <- rsum_scal_r. apply rsum_ext. intros i Hi.
      rewrite <- rsum_opp, <- rsum_scal_r. reflexivity.
  Qed.
  Lemma ray_bound m : (1 <= nr m)%nat -> bound (ray_set m).
  Proof.
    intros H. set (e0 := fun i => if Nat.eqb i 0 then 1 else 0).
    exists (quad (nr m) (lower_sym m) e0). intros y Hy. specialize (Hy e0).
    assert (E : norm2 (nr m) e0 = 1).
    { unfold norm2. rewrite (rsum_ext _ _ (fun i => if Nat.eqb i 0 then 1 else 0)).
      - apply (rsum_delta (nr m) 0 (fun _ => 1)). lia.
      - intros i _. unfold e0. destruct (Nat.eqb i 0); ring. }
    rewrite E in Hy. lra.
  Qed.
  Lemma ray_nonempty m : exists y, ray_set m y.
  Proof. eexists. intros x. apply quad_abs_bound. Qed.
  Definition some_eig (m : mat R) : list R :=
    match le_lt_dec 1 (nr m) with
    | left H => [proj1_sig (completeness (ray_set m) (ray_bound m H) (ray_nonempty m))]
    | right _ => []
    end.
  Lemma some_eig_ok : eig_ok some_eig.
  Proof.
    intros m c _. unfold some_eig. destruct (le_lt_dec 1 (nr m)) as [H|H].
    - destruct (completeness _ _ _) as [l [Hub Hlub]]. cbn [proj1_sig]. split.
      + intros G x. assert (c <= l) by (apply G; left; reflexivity).
        assert (Hl : l * norm2 (nr m) x <= quad (nr m) (lower_sym m) x).
        { pose proof (norm2_nonneg (nr m) x) as Hn.
          destruct (Req_dec (norm2 (nr m) x) 0) as [Z|Z].
          - destruct (ray_nonempty m) as [y Hy]. specialize (Hy x). rewrite Z in *. lra.
          - assert (0 < norm2 (nr m) x) by lra.
            assert (l <= quad (nr m) (lower_sym m) x / norm2 (nr m) x).
            { apply Hlub. intros y Hy. specialize (Hy x).
              apply Rmult_le_reg_r with (norm2 (nr m) x); [assumption|].
              unfold Rdiv. rewrite Rmult_assoc, Rinv_l by lra. lra. }
            apply Rmult_le_reg_r with (/ norm2 (nr m) x); [apply Rinv_0_lt_compat; assumption|].
            rewrite Rmult_assoc, Rinv_r by lra. lra. }
        pose proof (norm2_nonneg (nr m) x). nra.
      + intros G e [<-|[]]. apply Hub. exact G.
    - split; [|intros _ e []]. intros _ x. assert (nr m = 0)%nat by lia.
      unfold norm2, quad. rewrite H0. cbn. lra.
  Qed.
End Eig.

(** ---- lists ---- *)
Lemma set_nth_length {A} (l : list A) k v : length (set_nth l k v) = length l.
Proof. revert k. induction l as [|x l IH]; intros [|k]; simpl; auto. Qed.
Lemma nth_error_set_nth {A} (l : list A) k v j :
  nth_error (set_nth l k v) j = if Nat.eqb j k then (if (k <? length l)%nat then Some v else None) else nth_error l j.
Proof.
  revert k j. induction l as [|x l IH]; intros k j.
  - destruct k, j; cbn; try reflexivity. destruct (Nat.eqb j k); reflexivity.
  - destruct k as [|k], j as [|j]; cbn [set_nth nth_error Nat.eqb length]; try reflexivity.
    rewrite IH. destruct (Nat.eqb j k); [|reflexivity].
    destruct (Nat.ltb_spec k (length l)), (Nat.ltb_spec (S k) (S (length l))); try reflexivity; lia.
Qed.

Lemma n_rhos_spec d : (2 * n_rhos d = d * (d - 1))%nat.
Proof.
  unfold n_rhos. destruct d as [|d]; [reflexivity|]. replace (S d - 1)%nat with d by lia.
  pose proof (Nat.div_mod (S d * d) 2 ltac:(lia)).
  assert (S d * d mod 2 = 0)%nat.
  { destruct (Nat.Even_or_Odd d) as [[k ->]|[k ->]].
    - replace (S (2 * k) * (2 * k))%nat with ((S (2*k) * k) * 2)%nat by ring. apply Nat.mod_mul. lia.
    - replace (S (2 * k + 1) * (2 * k + 1))%nat with (((k+1) * (2*k+1)) * 2)%nat by ring. apply Nat.mod_mul. lia. }
  lia.
Qed.
Lemma consistent_new d : (2 <= d)%nat -> consistent (new_ell d).
Proof. intros H. split; [exact H|]. cbn. rewrite repeat_length. apply n_rhos_spec. Qed.

(** ---- sigma of a consistent object ---- *)
Lemma sigma_ok e : consistent e -> exists s : mat fl, sigma e = Ok s /\ @corr_shape fl (Some 1) (e_dim e) s /\ @below_diag fl s = e_rhos e.
Proof.
  intros [H1 H2]. unfold sigma.
  pose proof (create_cov_ok (Some 0) (Some 1) (e_rhos e) (e_dim e) H1 H2) as E.
  eexists. split; [exact E|]. split.
  - eapply create_cov_symmetric; eassumption.
  - eapply create_cov_below; eassumption.
Qed.
Definition entry (e : ell) (a b : nat) : option fl :=
  match get_rho_index (e_dim e) (Z.of_nat a) (Z.of_nat b) with Ok k => nth_error (e_rhos e) k | Err _ => None end.
Lemma entry_sigma e s a b : consistent e -> sigma e = Ok s -> (a < e_dim e)%nat -> (b < e_dim e)%nat -> a <> b ->
  entry e a b = Some (get s a b).
Proof.
  intros C Hs Ha Hb Hne. destruct (sigma_ok e C) as [s' [E [[[R1 R2] [Sy U]] B]]].
  assert (s' = s) by congruence. subst s'.
  destruct (get_rho_index_ok (e_dim e) a b Ha Hb Hne) as [k [Hk Hn]].
  unfold entry. rewrite Hk, <- B, (below_diag_tri s (e_dim e) R1), nth_error_map, Hn. cbn [option_map fst snd].
  f_equal. destruct (Nat.lt_ge_cases a b).
  - rewrite Nat.min_l, Nat.max_r by lia. apply Sy; lia.
  - rewrite Nat.min_r, Nat.max_l by lia. reflexivity.
Qed.

Lemma nth_error_tri_inj d j k p : nth_error (tri_loop d 1) j = Some p -> nth_error (tri_loop d 1) k = Some p -> j = k.
Proof.
  intros H1 H2. pose proof (tri_loop_NoDup d 1) as N. rewrite NoDup_nth_error in N. apply N; [|congruence].
  apply nth_error_Some. congruence.
Qed.

Definition same_pair (a b x y : nat) : bool := (Nat.eqb a x && Nat.eqb b y) || (Nat.eqb a y && Nat.eqb b x).

Lemma same_pair_minmax a b x y : a <> b -> x <> y ->
  same_pair a b x y = true <-> (Nat.min a b, Nat.max a b) = (Nat.min x y, Nat.max x y).
Proof.
  intros H1 H2. unfold same_pair. rewrite orb_true_iff, !andb_true_iff, !Nat.eqb_eq. split.
  - intros [[-> ->]|[-> ->]]; [reflexivity|]. rewrite Nat.min_comm, Nat.max_comm. reflexivity.
  - intros E. injection E. lia.
Qed.

Lemma store_float e k v : e_int e = false -> (k < length (e_rhos e))%nat ->
  store e k v = (mkEll (e_dim e) false (set_nth (e_rhos e) k v), Ok tt).
Proof. intros H Hk. unfold store, to_dtype. rewrite H. destruct (Nat.ltb_spec k (length (e_rhos e))); [reflexivity|lia]. Qed.

Lemma rho_index_lt e x y k : consistent e -> x <> y -> (x < e_dim e)%nat -> (y < e_dim e)%nat ->
  get_rho_index (e_dim e) (Z.of_nat x) (Z.of_nat y) = Ok k -> (k < length (e_rhos e))%nat.
Proof.
  intros [C1 C2] Hne Hx Hy H. destruct (get_rho_index_ok (e_dim e) x y Hx Hy Hne) as [k' [Hk Hn]].
  assert (k' = k) by congruence. subst k'.
  assert (k < length (tri_loop (e_dim e) 1))%nat by (apply nth_error_Some; congruence).
  pose proof (tri_loop_length (e_dim e) 1). replace (e_dim e - 1 + 1)%nat with (e_dim e) in H1 by lia. lia.
Qed.

Lemma store_entry e x y k v : consistent e -> (x < e_dim e)%nat -> (y < e_dim e)%nat -> x <> y ->
  get_rho_index (e_dim e) (Z.of_nat x) (Z.of_nat y) = Ok k ->
  let e' := mkEll (e_dim e) false (set_nth (e_rhos e) k v) in
  consistent e' /\
  forall a b, (a < e_dim e)%nat -> (b < e_dim e)%nat -> a <> b ->
    entry e' a b = if same_pair a b x y then Some v else entry e a b.
Proof.
  intros C Hx Hy Hne Hk e'.
  pose proof (rho_index_lt e x y k C Hne Hx Hy Hk) as Lk. split.
  - destruct C as [C1 C2]. split; cbn; [exact C1|]. rewrite set_nth_length. exact C2.
  - intros a b Ha Hb Hab. unfold entry, e'. cbn [e_dim e_rhos].
    destruct (get_rho_index_ok (e_dim e) a b Ha Hb Hab) as [j [Hj Nj]]. rewrite Hj.
    destruct (get_rho_index_ok (e_dim e) x y Hx Hy Hne) as [k' [Hk' Nk]].
    assert (k' = k) by congruence. subst k'.
    rewrite nth_error_set_nth. destruct (Nat.ltb_spec k (length (e_rhos e))); [|lia].
    destruct (same_pair a b x y) eqn:E.
    + apply same_pair_minmax in E; [|assumption|assumption]. rewrite E in Nj.
      rewrite (nth_error_tri_inj _ _ _ _ Nj Nk), Nat.eqb_refl. reflexivity.
    + destruct (Nat.eqb_spec j k) as [->|_]; [|reflexivity]. exfalso.
      assert (same_pair a b x y = true) by (apply same_pair_minmax; congruence). congruence.
Qed.

(** real-valued display from entries *)
Lemma shows_of_entries e m : consistent e -> nr m = e_dim e -> nc m = e_dim e ->
  (forall i, (i < e_dim e)%nat -> get m i i = 1) ->
  (forall a b, (a < e_dim e)%nat -> (b < e_dim e)%nat -> a <> b -> entry e a b = Some (Some (get m a b))) ->
  shows e m.
Proof.
  intros C R1 R2 Hd He. destruct (sigma_ok e C) as [s [E [[[S1 S2] [Sy U]] B]]].
  exists s. split; [exact E|]. split; [cbn; congruence|]. split; [cbn; congruence|].
  intros i j Hi Hj. cbn. destruct (Nat.eq_dec i j) as [->|Hne].
  - rewrite U by exact Hi. rewrite Hd by lia. reflexivity.
  - pose proof (entry_sigma e s i j C E ltac:(lia) ltac:(lia) Hne) as H1.
    rewrite He in H1 by (try assumption; lia). congruence.
Qed.
Lemma entries_of_shows e m a b : consistent e -> shows e m -> (a < e_dim e)%nat -> (b < e_dim e)%nat -> a <> b ->
  entry e a b = Some (Some (get m a b)).
Proof.
  intros C [s [E [E1 [E2 G]]]] Ha Hb Hne.
  destruct (sigma_ok e C) as [s' [E' [[[S1 S2] _] _]]]. assert (s' = s) by congruence. subst s'.
  rewrite (entry_sigma e s a b C E Ha Hb Hne), G by lia. reflexivity.
Qed.
Lemma shows_shape e m : consistent e -> shows e m ->
  nr m = e_dim e /\ nc m = e_dim e /\ symmetric m /\ unit_diagonal 1 m.
Proof.
  intros C [s [E [E1 [E2 G]]]]. cbn in E1, E2.
  destruct (sigma_ok e C) as [s' [E' [[[S1 S2] [Sy U]] _]]]. assert (s' = s) by congruence. subst s'.
  split; [lia|]. split; [lia|]. split.
  - intros i j Hi Hj. assert (H : get s i j = get s j i) by (apply Sy; lia).
    rewrite !G in H by lia. cbn in H. congruence.
  - intros i Hi. assert (H : get s i i = Some 1) by (apply U; lia). rewrite G in H by lia. cbn in H. congruence.
Qed.

Section Oracle.
  Variable eig : mat R -> list R.
  Variable nearest : mat R -> mat R.
  Hypothesis Heig : eig_ok eig.

  Lemma is_psd_accepts m : nr m = nc m -> symmetric m -> pos_semidef (nr m) (get m) ->
    is_psd eig false psd_tol (AMat m) = true.
  Proof.
    intros Hsq Hs Hp. unfold is_psd. rewrite (is_symmetric_exact psd_tol m); [|unfold psd_tol; lra|exact Hsq|exact Hs]. cbn [negb].
    apply forallb_Rleb. apply (Heig m (- psd_tol) Hsq). intros x.
    rewrite (quad_ext _ _ (get m)) by (intros; apply lower_sym_symmetric; assumption).
    pose proof (Hp x). pose proof (norm2_nonneg (nr m) x). unfold psd_tol in *. nra.
  Qed.

  Lemma has_nan_enfl s m : mat_eq s (enfl m) -> has_nan s = false.
  Proof.
    intros [E1 [E2 G]]. unfold has_nan. apply not_true_is_false. rewrite existsb_exists.
    intros [i [Hi H]]. apply existsb_exists in H. destruct H as [j [Hj H]].
    apply seq_in in Hi. apply seq_in in Hj. rewrite G in H by assumption. discriminate.
  Qed.
  Lemma unfl_enfl s m : mat_eq s (enfl m) -> mat_eq (unfl s) m.
  Proof.
    intros [E1 [E2 G]]. split; [exact E1|]. split; [exact E2|]. intros i j Hi Hj. cbn. rewrite G by assumption. reflexivity.
  Qed.
  Lemma psd_mat_eq m m' : mat_eq m m' -> nr m = nc m -> symmetric m' -> pos_semidef (nr m') (get m') ->
    symmetric m /\ pos_semidef (nr m) (get m).
  Proof.
    intros [E1 [E2 G]] Hsq Sy P. split.
    - intros i j Hi Hj. rewrite !G by lia. apply Sy; lia.
    - intros x. rewrite (quad_ext _ _ (get m')); [rewrite E1; apply P|]. intros i j Hi Hj. apply G; lia.
  Qed.

  Lemma force_psd_keeps e m : consistent e -> shows e m -> pos_semidef (e_dim e) (get m) ->
    force_psd eig nearest e = (mkEll (e_dim e) false (e_rhos e), Ok tt).
  Proof.
    intros C Sh P. destruct (shows_shape e m C Sh) as [R1 [R2 [Sy U]]].
    destruct Sh as [s [E Em]].
    destruct (sigma_ok e C) as [s' [E' [[[S1 S2] [SyS US]] B]]]. assert (s' = s) by congruence. subst s'.
    unfold force_psd. rewrite E. cbn [bind]. unfold near_psd_fl. rewrite (has_nan_enfl s m Em).
    pose proof (unfl_enfl s m Em) as Eu. rewrite <- R1 in P.
    destruct (psd_mat_eq (unfl s) m Eu) as [Su Pu]; [cbn; congruence|exact Sy|exact P|].
    rewrite (is_symmetric_exact symmetric_tol (unfl s)); [|unfold symmetric_tol; lra|cbn; congruence|exact Su]. cbn [negb].
    rewrite (is_psd_accepts (unfl s)); [|cbn; congruence|exact Su|exact Pu].
    cbn [bind]. rewrite (take_lower s (e_dim e) "lower" eq_refl (proj1 C) (conj S1 S2)), B. reflexivity.
  Qed.

  Lemma set_entry_ok e m x y v : consistent e -> e_int e = false -> shows e m ->
    (x < e_dim e)%nat -> (y < e_dim e)%nat -> x <> y -> -1 <= v <= 1 ->
    pos_semidef (e_dim e) (get (replaced m x y v)) ->
    exists e', setitem eig nearest e (ITuple [CInt (Z.of_nat x); CInt (Z.of_nat y)]) (VScalar (Some v)) = (e', Ok tt) /\
      e_dim e' = e_dim e /\ consistent e' /\ e_int e' = false /\ shows e' (replaced m x y v).
  Proof.
    intros C Hf Sh Hx Hy Hne Hv P.
    destruct (shows_shape e m C Sh) as [R1 [R2 [Sy U]]].
    destruct (get_rho_index_ok (e_dim e) x y Hx Hy Hne) as [k [Hk _]].
    destruct (store_entry e x y k (Some v) C Hx Hy Hne Hk) as [C' G].
    set (e' := mkEll (e_dim e) false (set_nth (e_rhos e) k (Some v))) in *.
    assert (Sh' : shows e' (replaced m x y v)).
    { apply shows_of_entries; [exact C'|exact R1|exact R2| |].
      - intros i Hi. cbn [e' e_dim] in Hi. unfold replaced. cbn [get].
        destruct (Nat.eqb_spec i x), (Nat.eqb_spec i y); subst; try lia; apply U; lia.
      - cbn [e' e_dim]. intros a b Ha Hb Hab. fold e'. rewrite (G a b Ha Hb Hab). unfold same_pair, replaced. cbn [get].
        destruct (_ || _); [reflexivity|]. apply entries_of_shows; assumption. }
    exists e'. split; [|repeat split; try exact Sh'; try apply C'].
    unfold setitem. cbn [out_of_range].
    destruct (Rltb v (-1)) eqn:L1; [apply Rltb_true in L1; lra|].
    destruct (Rltb 1 v) eqn:L2; [apply Rltb_true in L2; lra|]. cbn [orb].
    rewrite Hk. cbn [as_scalar]. rewrite (store_float e k (Some v) Hf (rho_index_lt e x y k C Hne Hx Hy Hk)).
    cbn [and_then]. fold e'. exact (force_psd_keeps e' _ C' Sh' P).
  Qed.

  (** rejected requests change nothing *)
  Lemma set_entry_bad_index e (x y : Z) v :
    (x < 0 \/ y < 0 \/ Z.of_nat (e_dim e) <= x \/ Z.of_nat (e_dim e) <= y \/ x = y)%Z ->
    exists ex, setitem eig nearest e (ITuple [CInt x; CInt y]) v = (e, Err ex).
  Proof.
    intros H. unfold setitem. destruct (out_of_range v); [eexists; reflexivity|].
    rewrite (get_rho_index_err _ _ _ H). eexists; reflexivity.
  Qed.
  Lemma set_out_of_range e ix v : (v < -1 \/ 1 < v) ->
    setitem eig nearest e ix (VScalar (Some v)) = (e, Err ValueError).
  Proof.
    intros H. unfold setitem. cbn [out_of_range].
    replace (Rltb v (-1) || Rltb 1 v) with true; [reflexivity|].
    symmetry. apply orb_true_iff. rewrite !Rltb_true. exact H.
  Qed.
  Lemma set_list_out_of_range e ix l r : In (Some r) l -> (r < -1 - EPS \/ 1 + EPS < r) ->
    setitem eig nearest e ix (VVec l) = (e, Err ValueError).
  Proof.
    intros Hin H. unfold setitem. cbn [out_of_range].
    replace (negb _) with true; [reflexivity|]. symmetry. apply negb_true_iff, not_true_is_false.
    rewrite forallb_forall. intros F. specialize (F _ Hin). cbn in F.
    apply andb_true_iff in F. rewrite !Rleb_true in F. lra.
  Qed.

  (** line assignment *)
  Lemma store_line_ok vals : forall e (rs : bool) f i,
    consistent e -> e_int e = false -> (f < e_dim e)%nat -> (i + length vals <= e_dim e)%nat ->
    exists e', store_line e rs (Z.of_nat f) i vals = (e', Ok tt) /\
      e_dim e' = e_dim e /\ consistent e' /\ e_int e' = false /\
      forall a b, (a < e_dim e)%nat -> (b < e_dim e)%nat -> a <> b ->
        entry e' a b =
          if Nat.eqb a f && ((i <=? b) && (b <? i + length vals))%nat then nth_error vals (b - i)
          else if Nat.eqb b f && ((i <=? a) && (a <? i + length vals))%nat then nth_error vals (a - i)
          else entry e a b.
  Proof.
    induction vals as [|v vals IH]; intros e rs f i C Hf Hfd Hl.
    - exists e. cbn [store_line]. repeat split; auto; try apply C.
      intros a b Ha Hb Hab. cbn [length].
      replace ((i <=? b) && (b <? i + 0))%nat with false.
      2:{ symmetry. destruct (Nat.leb_spec i b), (Nat.ltb_spec b (i + 0)); try reflexivity; lia. }
      replace ((i <=? a) && (a <? i + 0))%nat with false.
      2:{ symmetry. destruct (Nat.leb_spec i a), (Nat.ltb_spec a (i + 0)); try reflexivity; lia. }
      rewrite !andb_false_r. reflexivity.
    - cbn [length] in Hl.
      assert (Hnth : forall c, (i <= c)%nat -> (c < i + S (length vals))%nat ->
                nth_error (v :: vals) (c - i) = if Nat.eqb c i then Some v else nth_error vals (c - S i)).
      { intros c H1 H2. destruct (Nat.eqb_spec c i) as [->|Hc].
        - rewrite Nat.sub_diag. reflexivity.
        - replace (c - i)%nat with (S (c - S i)) by lia. reflexivity. }
      destruct (Nat.eq_dec i f) as [->|Hif].
      + destruct (IH e rs f (S f) C Hf Hfd ltac:(lia)) as [e' [E [D [C' [F G]]]]].
        exists e'. split; [|split; [exact D|split; [exact C'|split; [exact F|]]]].
        * cbn [store_line]. destruct rs; rewrite Z.eqb_refl; exact E.
        * intros a b Ha Hb Hab. rewrite (G a b Ha Hb Hab). cbn [length].
          destruct (Nat.eqb_spec a f) as [->|Haf]; cbn [andb].
          -- destruct (Nat.leb_spec f b); destruct (Nat.leb_spec (S f) b); cbn [andb];
             destruct (Nat.ltb_spec b (f + S (length vals))); destruct (Nat.ltb_spec b (S f + length vals)); cbn [andb]; try lia;
             try (rewrite Hnth by lia; destruct (Nat.eqb_spec b f); [lia|reflexivity]);
             destruct (Nat.eqb_spec b f); try lia; reflexivity.
          -- destruct (Nat.eqb_spec b f) as [->|Hbf]; cbn [andb]; [|reflexivity].
             destruct (Nat.leb_spec f a); destruct (Nat.leb_spec (S f) a); cbn [andb];
             destruct (Nat.ltb_spec a (f + S (length vals))); destruct (Nat.ltb_spec a (S f + length vals)); cbn [andb]; try lia; try reflexivity.
             rewrite Hnth by lia. destruct (Nat.eqb_spec a f); [lia|reflexivity].
      + assert (Hk : exists k, get_rho_index (e_dim e) (Z.of_nat (if rs then i else f)) (Z.of_nat (if rs then f else i)) = Ok k).
        { destruct (get_rho_index_ok (e_dim e) (if rs then i else f) (if rs then f else i)) as [k [Hk _]];
          [destruct rs; lia|destruct rs; lia|destruct rs; lia|]. exists k; exact Hk. }
        destruct Hk as [k Hk].
        set (xx := if rs then i else f) in *. set (yy := if rs then f else i) in *.
        assert (Hxy : xx <> yy) by (unfold xx, yy; destruct rs; lia).
        assert (Hx : (xx < e_dim e)%nat) by (unfold xx; destruct rs; lia).
        assert (Hy : (yy < e_dim e)%nat) by (unfold yy; destruct rs; lia).
        destruct (store_entry e xx yy k v C Hx Hy Hxy Hk) as [C1 G1].
        set (e1 := mkEll (e_dim e) false (set_nth (e_rhos e) k v)) in *.
        destruct (IH e1 rs f (S i) C1 eq_refl Hfd ltac:(cbn; lia)) as [e' [E [D [C' [F G]]]]].
        exists e'. split; [|split; [exact D|split; [exact C'|split; [exact F|]]]].
        * cbn [store_line].
          assert (Et : (if rs then (Z.of_nat i, Z.of_nat f) else (Z.of_nat f, Z.of_nat i)) = (Z.of_nat xx, Z.of_nat yy))
            by (unfold xx, yy; destruct rs; reflexivity).
          rewrite Et. destruct (Z.eqb_spec (Z.of_nat xx) (Z.of_nat yy)); [lia|].
          rewrite Hk, (store_float e k v Hf (rho_index_lt e xx yy k C Hxy Hx Hy Hk)). exact E.
        * intros a b Ha Hb Hab. rewrite (G a b Ha Hb Hab), (G1 a b Ha Hb Hab). cbn [length].
          assert (Esp : same_pair a b xx yy = same_pair a b f i).
          { unfold same_pair, xx, yy. destruct rs; [apply orb_comm|reflexivity]. }
          rewrite Esp. unfold same_pair.
          destruct (Nat.eqb_spec a f) as [->|Haf]; cbn [andb orb].
          -- destruct (Nat.leb_spec i b); destruct (Nat.leb_spec (S i) b); cbn [andb];
             destruct (Nat.ltb_spec b (i + S (length vals))); destruct (Nat.ltb_spec b (S i + length vals)); cbn [andb]; try lia;
             try (rewrite Hnth by lia); destruct (Nat.eqb_spec b i); try lia; try reflexivity;
             destruct (Nat.eqb_spec b f); try lia; cbn [andb orb];
             destruct (Nat.eqb_spec f i); try lia; cbn [andb orb]; try reflexivity.
          -- destruct (Nat.eqb_spec b f) as [->|Hbf]; cbn [andb orb].
             ++ destruct (Nat.leb_spec i a); destruct (Nat.leb_spec (S i) a); cbn [andb];
                destruct (Nat.ltb_spec a (i + S (length vals))); destruct (Nat.ltb_spec a (S i + length vals)); cbn [andb]; try lia;
                try (rewrite Hnth by lia); destruct (Nat.eqb_spec a i); try lia; reflexivity.
             ++ destruct (Nat.eqb_spec a i); reflexivity.
  Qed.

  Lemma set_line_ok e m x l (row : bool) : consistent e -> e_int e = false -> shows e m ->
    (x < e_dim e)%nat -> (length l = e_dim e)%nat -> (forall r, In r l -> -1 <= r <= 1) ->
    pos_semidef (e_dim e) (get (line_replaced m x (fun i => nth i l 0))) ->
    exists e', setitem eig nearest e
        (ITuple (if row then [CInt (Z.of_nat x); CSlice] else [CSlice; CInt (Z.of_nat x)])) (VVec (map Some l)) = (e', Ok tt) /\
      consistent e' /\ e_int e' = false /\ shows e' (line_replaced m x (fun i => nth i l 0)).
  Proof.
    intros C Hf Sh Hx Hl Hr P.
    destruct (shows_shape e m C Sh) as [R1 [R2 [Sy U]]].
    destruct (store_line_ok (map Some l) e (negb row) x 0 C Hf Hx) as [e' [E [D [C' [F G]]]]]; [rewrite map_length; lia|].
    assert (Sh' : shows e' (line_replaced m x (fun i => nth i l 0))).
    { apply shows_of_entries; [exact C'|cbn; lia|cbn; lia| |].
      - rewrite D. intros i Hi. unfold line_replaced. cbn [get]. rewrite Nat.eqb_refl. apply U; lia.
      - rewrite D. intros a b Ha Hb Hab. rewrite (G a b Ha Hb Hab). rewrite map_length, Hl. unfold line_replaced. cbn [get].
        destruct (Nat.eqb_spec a b); [lia|].
        assert (Hnth : forall c, (c < e_dim e)%nat -> nth_error (map Some l) (c - 0) = Some (Some (nth c l 0))).
        { intros c Hc. rewrite Nat.sub_0_r, nth_error_map, (nth_error_nth' l 0) by lia. reflexivity. }
        destruct (Nat.ltb_spec a (0 + e_dim e)); [|lia]. destruct (Nat.ltb_spec b (0 + e_dim e)); [|lia].
        cbn [Nat.leb andb]. rewrite !andb_true_r, !Hnth by lia.
        destruct (Nat.eqb a x); [reflexivity|]. destruct (Nat.eqb b x); [reflexivity|].
        apply entries_of_shows; assumption. }
    exists e'. split; [|repeat split; try exact Sh'; try apply C'; exact F].
    assert (Hoor : out_of_range (VVec (map Some l)) = false).
    { cbn [out_of_range]. apply negb_false_iff, forallb_forall. intros v Hv. apply in_map_iff in Hv.
      destruct Hv as [r [<- Hv]]. specialize (Hr r Hv). apply andb_true_iff. rewrite !Rleb_true. unfold EPS. lra. }
    unfold setitem. rewrite Hoor.
    assert (Hlv : line_values (e_dim e) (VVec (map Some l)) = Ok (map Some l)).
    { cbn. rewrite map_length, Hl, Nat.eqb_refl. reflexivity. }
    assert (Hfin : and_then (e', Ok tt) (force_psd eig nearest) = (e', Ok tt)).
    { cbn [and_then]. rewrite (force_psd_keeps e' _ C' Sh'); [|rewrite D; exact P].
      rewrite D. destruct e' as [d b r]; cbn in *; subst; reflexivity. }
    destruct row; cbn [negb] in E; rewrite Hlv, E; exact Hfin.
  Qed.

  (** whole-matrix assignment *)
  Lemma psd_unit_diagonal d m : (forall i, (i < d)%nat -> get m i i <= 1) -> nr m = d ->
    pos_semidef d (get m) -> pos_semidef d (get (with_unit_diagonal m)).
  Proof.
    intros Hd Hr P x. specialize (P x).
    assert (E : quad d (get (with_unit_diagonal m)) x
              = quad d (get m) x + rsum d (fun i => (1 - get m i i) * (x i * x i))).
    { unfold quad. rewrite <- rsum_plus. apply rsum_ext. intros i Hi.
      rewrite <- (rsum_delta d i (fun j => (1 - get m i j) * (x i * x j)) Hi).
      rewrite <- rsum_plus. apply rsum_ext. intros j Hj. cbn. rewrite (Nat.eqb_sym j i).
      destruct (Nat.eqb_spec i j) as [->|_]; ring. }
    rewrite E. assert (0 <= rsum d (fun i => (1 - get m i i) * (x i * x i))).
    { apply rsum_nonneg. intros i Hi. specialize (Hd i Hi). nra. }
    lra.
  Qed.

  Lemma set_all_ok e m ix : consistent e -> (ix = ISlice \/ ix = ITuple [CSlice; CSlice]) ->
    nr m = e_dim e -> nc m = e_dim e -> symmetric m -> pos_semidef (e_dim e) (get m) ->
    (forall i j, (i < e_dim e)%nat -> (j < e_dim e)%nat -> -1 <= get m i j <= 1) ->
    exists e', setitem eig nearest e ix (VMat (enfl m)) = (e', Ok tt) /\
      e_dim e' = e_dim e /\ consistent e' /\ e_int e' = false /\ shows e' (with_unit_diagonal m) /\
      pos_semidef (e_dim e) (get (with_unit_diagonal m)).
  Proof.
    intros C Hix R1 R2 Sy P Hr.
    assert (Hoor : out_of_range (VMat (enfl m)) = false).
    { cbn [out_of_range enfl nr nc get]. apply negb_false_iff, forallb_forall. intros i Hi. apply forallb_forall.
      intros j Hj. apply seq_in in Hi. apply seq_in in Hj. specialize (Hr i j ltac:(lia) ltac:(lia)).
      apply andb_true_iff. rewrite !Rleb_true. unfold EPS. lra. }
    assert (Hnan : has_nan (enfl m) = false) by (apply (has_nan_enfl (enfl m) m); repeat split; reflexivity).
    assert (Hnear : near_psd_fl eig nearest (VMat (enfl m)) = Ok (enfl m)).
    { unfold near_psd_fl. rewrite Hnan.
      assert (Sy' : symmetric (unfl (enfl m))) by (intros i j Hi Hj; cbn; apply Sy; assumption).
      rewrite (is_symmetric_exact symmetric_tol); [|unfold symmetric_tol; lra|cbn; congruence|exact Sy']. cbn [negb].
      rewrite is_psd_accepts; [reflexivity|cbn; congruence|exact Sy'|]. cbn. rewrite R1. exact P. }
    set (rh := below_diag (enfl m)).
    assert (Htake : bind (tri_indices (e_dim e) 1 "lower") (take (enfl m)) = Ok rh).
    { apply take_lower; [reflexivity|apply C|split; assumption]. }
    set (e' := mkEll (e_dim e) false rh).
    assert (Hset : set_all eig nearest e (VMat (enfl m)) = (e', Ok tt)).
    { unfold set_all. rewrite Hnear. cbn [enfl nr nc]. rewrite R1, R2, !Nat.eqb_refl. cbn [andb].
      change (mkMat (nr m) (nc m) (fun i j : nat => Some (get m i j))) with (enfl m). 
      rewrite <- R1 in Htake at 1. rewrite R1 in Htake.
      match goal with |- context [bind ?a ?b] => change (bind a b) with (bind (tri_indices (e_dim e) 1 "lower") (take (enfl m))) end.
      rewrite Htake. reflexivity. }
    assert (C' : consistent e').
    { split; [apply C|]. cbn [e' e_rhos e_dim]. unfold rh. rewrite below_diag_length. cbn [enfl nr]. rewrite R1. reflexivity. }
    exists e'. split; [|split; [reflexivity|split; [exact C'|split; [reflexivity|split]]]].
    - unfold setitem. rewrite Hoor. destruct Hix as [->| ->]; exact Hset.
    - apply shows_of_entries; [exact C'|exact R1|exact R2| |].
      + intros i Hi. cbn. rewrite Nat.eqb_refl. reflexivity.
      + cbn [e' e_dim]. intros a b Ha Hb Hab. fold e'. cbn [with_unit_diagonal get].
        destruct (Nat.eqb_spec a b); [lia|].
        destruct (get_rho_index_ok (e_dim e) a b Ha Hb Hab) as [k [Hk Hn]].
        unfold entry. cbn [e' e_dim e_rhos]. rewrite Hk. unfold rh.
        rewrite (below_diag_tri (enfl m) (e_dim e) R1), nth_error_map, Hn. cbn [option_map fst snd enfl get].
        destruct (Nat.lt_ge_cases a b).
        * rewrite Nat.min_l, Nat.max_r by lia. rewrite (Sy a b) by lia. reflexivity.
        * rewrite Nat.min_r, Nat.max_l by lia. reflexivity.
    - apply psd_unit_diagonal; [|exact R1|exact P]. intros i Hi. apply (Hr i i Hi Hi).
  Qed.

  (** ---- invariants over histories ---- *)
  Hypothesis Hnear : shape_kept nearest.

  Lemma consistent_force e : consistent e -> consistent (fst (force_psd eig nearest e)) /\ e_dim (fst (force_psd eig nearest e)) = e_dim e.
  Proof.
    intros C. destruct (sigma_ok e C) as [s [E [[[S1 S2] _] B]]]. unfold force_psd. rewrite E. cbn [bind].
    assert (G : forall cov, square (e_dim e) cov ->
      consistent (fst match bind (tri_indices (e_dim e) 1 "lower") (take cov) with
            | Ok rhos => (mkEll (e_dim e) false rhos, Ok tt) | Err x => (e, Err x) end) /\
      e_dim (fst match bind (tri_indices (e_dim e) 1 "lower") (take cov) with
            | Ok rhos => (mkEll (e_dim e) false rhos, Ok tt) | Err x => (e, Err x) end) = e_dim e).
    { intros cov Sq. rewrite (take_lower cov (e_dim e) "lower" eq_refl (proj1 C) Sq). cbn [fst e_dim]. split; [|reflexivity].
      split; [apply C|]. cbn [e_rhos e_dim]. rewrite below_diag_length. destruct Sq as [-> _]. reflexivity. }
    unfold near_psd_fl. destruct (has_nan s); [cbn; auto|].
    destruct (negb _); [cbn; auto|]. destruct (is_psd _ _ _ _); cbn [bind].
    - apply G. split; assumption.
    - apply G. destruct (Hnear (unfl s)) as [N1 N2]. cbn in N1, N2. split; cbn; congruence.
  Qed.
  Lemma consistent_store e k v : consistent e -> consistent (fst (store e k v)) /\ e_dim (fst (store e k v)) = e_dim e.
  Proof.
    intros C. unfold store. destruct (to_dtype _ _); [|auto]. destruct (k <? length (e_rhos e))%nat; [|auto].
    cbn. split; [|reflexivity]. destruct C as [C1 C2]. split; cbn; [exact C1|]. rewrite set_nth_length. exact C2.
  Qed.
  Lemma consistent_line rs f vals : forall e i, consistent e ->
    consistent (fst (store_line e rs f i vals)) /\ e_dim (fst (store_line e rs f i vals)) = e_dim e.
  Proof.
    induction vals as [|v vals IH]; intros e i C; cbn [store_line]; [auto|].
    destruct (if rs then (Z.of_nat i, f) else (f, Z.of_nat i)) as [x y].
    destruct (x =? y)%Z; [apply IH; exact C|].
    destruct (get_rho_index (e_dim e) x y) as [k|]; [|auto].
    destruct (consistent_store e k v C) as [C1 D1]. destruct (store e k v) as [e1 [u|ex]]; cbn [fst] in *; [|auto].
    destruct (IH e1 (S i) C1) as [C2 D2]. split; [exact C2|congruence].
  Qed.
  Lemma consistent_and_then s (e : ell) : consistent (fst s) -> e_dim (fst s) = e_dim e ->
    consistent (fst (and_then s (force_psd eig nearest))) /\ e_dim (fst (and_then s (force_psd eig nearest))) = e_dim e.
  Proof.
    destruct s as [e1 [u|x]]; cbn [and_then fst]; intros C D; [|auto].
    destruct (consistent_force e1 C) as [C2 D2]. split; [exact C2|congruence].
  Qed.
  Lemma consistent_set_all e v : consistent e -> consistent (fst (set_all eig nearest e v)) /\ e_dim (fst (set_all eig nearest e v)) = e_dim e.
  Proof.
    intros C. unfold set_all. destruct (near_psd_fl eig nearest v) as [m|]; [|auto].
    destruct (Nat.eqb_spec (nr m) (e_dim e)) as [E1|]; cbn [andb]; [|auto].
    destruct (Nat.eqb_spec (nc m) (e_dim e)) as [E2|]; [|auto].
    rewrite (take_lower m (e_dim e) "lower" eq_refl (proj1 C) (conj E1 E2)). cbn. split; [|reflexivity].
    split; [apply C|]. cbn [e_rhos e_dim]. rewrite below_diag_length, E1. reflexivity.
  Qed.
  Lemma consistent_setitem e ix v : consistent e ->
    consistent (fst (setitem eig nearest e ix v)) /\ e_dim (fst (setitem eig nearest e ix v)) = e_dim e.
  Proof.
    intros C. unfold setitem. destruct (out_of_range v); [auto|].
    destruct ix as [|z|l].
    - apply consistent_set_all; exact C.
    - destruct (bind _ _) as [[k x]|]; [|auto]. destruct (consistent_store e k x C). apply consistent_and_then; assumption.
    - destruct l as [|[|x] [|[|y] [|? ?]]]; auto.
      + apply consistent_set_all; exact C.
      + destruct (line_values _ _) as [l|]; [|auto]. destruct (consistent_line true y l e 0 C). apply consistent_and_then; assumption.
      + destruct (line_values _ _) as [l|]; [|auto]. destruct (consistent_line false x l e 0 C). apply consistent_and_then; assumption.
      + destruct (get_rho_index _ _ _) as [k|]; [|auto]. destruct (as_scalar _ _) as [w|]; [|auto].
        destruct (consistent_store e k w C). apply consistent_and_then; assumption.
  Qed.

  Lemma gauss_step_inv d e o : consistent e -> e_dim e = d -> gop_fits d o ->
    consistent (gauss_step eig nearest e o) /\ e_dim (gauss_step eig nearest e o) = d.
  Proof.
    intros C D F. destruct o as [ix v|p]; cbn [gauss_step].
    - destruct (consistent_setitem e ix v C) as [C' D']. split; [exact C'|congruence].
    - destruct p as [b v|a]; cbn [gauss_set_params fst].
      + split; [|exact D]. destruct C as [C1 C2]. split; cbn; [exact C1|]. rewrite repeat_length. exact C2.
      + cbn in F. split; [|exact D]. destruct C as [C1 C2]. split; cbn; [exact C1|]. rewrite F, D. apply n_rhos_spec.
  Qed.
  Lemma gauss_run_inv d ops : (2 <= d)%nat -> Forall (gop_fits d) ops ->
    consistent (gauss_run eig nearest d ops) /\ e_dim (gauss_run eig nearest d ops) = d.
  Proof.
    intros Hd F. unfold gauss_run.
    assert (G : forall e, consistent e -> e_dim e = d ->
      consistent (fold_left (gauss_step eig nearest) ops e) /\ e_dim (fold_left (gauss_step eig nearest) ops e) = d).
    { induction F as [|o ops Ho F IH]; intros e C D; cbn [fold_left]; [auto|].
      destruct (gauss_step_inv d e o C D Ho) as [C' D']. apply IH; assumption. }
    apply G; [apply consistent_new; exact Hd|reflexivity].
  Qed.

  Lemma student_step_inv d s o : consistent (s_ell s) -> e_dim (s_ell s) = d -> sop_fits d o ->
    consistent (s_ell (student_step eig nearest s o)) /\ e_dim (s_ell (student_step eig nearest s o)) = d.
  Proof.
    intros C D F. destruct o as [ix v|p]; cbn [student_step s_ell].
    - destruct (consistent_setitem (s_ell s) ix v C) as [C' D']. split; [exact C'|congruence].
    - destruct p as [df r|a]; cbn [student_set_params].
      + cbn in F. split; [|exact D]. destruct C as [C1 C2]. split; cbn; [exact C1|]. rewrite F, D. apply n_rhos_spec.
      + destruct (Nat.eqb_spec (length (pa_vals a)) (1 + n_rhos (e_dim (s_ell s)))) as [L|L]; cbn [negb fst]; [|auto].
        destruct (pa_vals a) as [|df rho]; [auto|]. destruct (match df with Some r => Rleb r 0 | None => false end); [auto|].
        cbn in *. split; [|exact D]. destruct C as [C1 C2]. split; cbn; [exact C1|].
        injection L as L. rewrite L. apply n_rhos_spec.
  Qed.
  Lemma student_run_inv d df ops : (2 <= d)%nat -> Forall (sop_fits d) ops ->
    consistent (s_ell (student_run eig nearest d df ops)) /\ e_dim (s_ell (student_run eig nearest d df ops)) = d.
  Proof.
    intros Hd F. unfold student_run.
    assert (G : forall s, consistent (s_ell s) -> e_dim (s_ell s) = d ->
      consistent (s_ell (fold_left (student_step eig nearest) ops s)) /\ e_dim (s_ell (fold_left (student_step eig nearest) ops s)) = d).
    { induction F as [|o ops Ho F IH]; intros s C D; cbn [fold_left]; [auto|].
      destruct (student_step_inv d s o C D Ho) as [C' D']. apply IH; assumption. }
    apply G; [apply consistent_new; exact Hd|reflexivity].
  Qed.
End Oracle.

(** ---- positive semi-definiteness after every successful item assignment ---- *)
Lemma shows_below d cov : (2 <= d)%nat -> square d cov ->
  consistent (mkEll d false (below_diag (enfl cov))) /\
  shows (mkEll d false (below_diag (enfl cov))) (with_unit_diagonal (mkMat d d (lower_sym cov))).
Proof.
  intros Hd [S1 S2]. assert (C' : consistent (mkEll d false (below_diag (enfl cov)))).
  { split; [exact Hd|]. cbn [e_rhos e_dim]. rewrite below_diag_length. cbn [enfl nr]. rewrite S1. reflexivity. }
  split; [exact C'|]. apply shows_of_entries; [exact C'|reflexivity|reflexivity| |].
  - intros i Hi. cbn. rewrite Nat.eqb_refl. reflexivity.
  - cbn [e_dim]. intros a b Ha Hb Hab. cbn [with_unit_diagonal get].
    destruct (Nat.eqb_spec a b); [lia|].
    destruct (get_rho_index_ok d a b Ha Hb Hab) as [k [Hk Hn]].
    unfold entry. cbn [e_dim e_rhos]. rewrite Hk.
    rewrite (below_diag_tri (enfl cov) d S1), nth_error_map, Hn. cbn [option_map fst snd enfl get].
    unfold lower_sym. destruct (Nat.ltb_spec a b).
    + rewrite Nat.min_l, Nat.max_r by lia. reflexivity.
    + rewrite Nat.min_r, Nat.max_l by lia. reflexivity.
Qed.

Lemma quad_unit_diagonal d m c t x : (forall i, (i < d)%nat -> get m i i <= 1 + t) -> nr m = d ->
  - c * norm2 d x <= quad d (get m) x -> - (c + t) * norm2 d x <= quad d (get (with_unit_diagonal m)) x.
Proof.
  intros Hd Hr P.
  assert (E : quad d (get (with_unit_diagonal m)) x
            = quad d (get m) x + rsum d (fun i => (1 - get m i i) * (x i * x i))).
  { unfold quad. rewrite <- rsum_plus. apply rsum_ext. intros i Hi.
    rewrite <- (rsum_delta d i (fun j => (1 - get m i j) * (x i * x j)) Hi).
    rewrite <- rsum_plus. apply rsum_ext. intros j Hj. cbn. rewrite (Nat.eqb_sym j i).
    destruct (Nat.eqb_spec i j) as [->|_]; ring. }
  rewrite E. assert (- t * norm2 d x <= rsum d (fun i => (1 - get m i i) * (x i * x i))).
  { unfold norm2. rewrite <- rsum_scal. apply rsum_le. intros i Hi. specialize (Hd i Hi). nra. }
  lra.
Qed.

Section Psd.
  Variable eig : mat R -> list R.
  Variable nearest : mat R -> mat R.
  Hypothesis Heig : eig_ok eig.
  Hypothesis Hnear : nearest_ok nearest.

  Lemma shape_kept_of : shape_kept nearest.
  Proof. intros m. destruct (Hnear m) as [A [B _]]. split; assumption. Qed.

  Lemma near_psd_fl_spec d v cov : positive_diagonal v -> near_psd_fl eig nearest v = Ok cov -> square d cov ->
    exists m c, v = VMat m /\ square d m /\ has_nan m = false /\ mat_eq cov (enfl c) /\ square d c /\
      (forall i, (i < d)%nat -> get c i i = val (get m i i)) /\
      forall x, - psd_tol * norm2 d x <= quad d (lower_sym c) x.
  Proof.
    intros Hpos. unfold near_psd_fl. destruct v as [|l|m]; try discriminate. cbn in Hpos.
    destruct (has_nan m) eqn:N; [discriminate|]. destruct (is_symmetric _ _) eqn:Sy; [cbn [negb]|discriminate].
    apply is_symmetric_spec in Sy. destruct Sy as [Sq _]. cbn in Sq.
    destruct (is_psd _ _ _ _) eqn:P; intros H Hsq; injection H as <-.
    - exists m, (unfl m). split; [reflexivity|]. split; [exact Hsq|]. split; [exact N|]. split.
      { repeat split. intros i j Hi Hj. cbn. unfold has_nan in N.
        destruct (get m i j) as [r|] eqn:G; [reflexivity|]. exfalso.
        rewrite <- not_true_iff_false in N. apply N, existsb_exists. exists i. split; [apply in_seq; lia|].
        apply existsb_exists. exists j. split; [apply in_seq; lia|]. rewrite G. reflexivity. }
      split; [exact Hsq|]. split; [intros i Hi; reflexivity|].
      unfold is_psd in P. destruct (negb _); [discriminate|]. rewrite forallb_Rleb in P.
      destruct Hsq as [S1 S2]. intros x. pose proof (proj1 (Heig (unfl m) (- psd_tol) Sq) P x) as Q. cbn in Q.
      rewrite S1 in Q. exact Q.
    - destruct (Hnear (unfl m)) as [N1 [N2 N3]]. cbn in N1, N2, N3. destruct (N3 Hpos) as [N3' N4]. clear N3. rename N3' into N3. destruct Hsq as [S1 S2]. cbn in S1, S2.
      rewrite S1 in N1. rewrite S2 in N2.
      exists m, (nearest (unfl m)). split; [reflexivity|]. split; [split; congruence|]. split; [exact N|].
      split; [repeat split|]. split; [split; assumption|]. split.
      + intros i Hi. apply N3. lia.
      + intros x. rewrite <- N1 in N4. pose proof (N4 x). pose proof (norm2_nonneg d x). unfold psd_tol in *. nra.
  Qed.

  Lemma take_result d cov c rh : (2 <= d)%nat -> square d cov -> mat_eq cov (enfl c) -> square d c ->
    bind (tri_indices d 1 "lower") (take cov) = Ok rh -> rh = below_diag (enfl c).
  Proof.
    intros Hd Sq [E1 [E2 G]] Sc H. rewrite (take_lower cov d "lower" eq_refl Hd Sq) in H. injection H as <-.
    destruct Sq as [S1 S2], Sc as [T1 T2].
    rewrite (below_diag_tri cov d S1), (below_diag_tri (enfl c) d T1). apply map_ext_in. intros [i j] Hin.
    apply tri_loop_in in Hin. apply G; cbn; lia.
  Qed.

  Lemma force_psd_psd e e' : consistent e -> force_psd eig nearest e = (e', Ok tt) ->
    consistent e' /\ exists m, shows e' m /\ almost_psd (e_dim e) m.
  Proof.
    intros C. destruct (sigma_ok e C) as [s [E [[[S1 S2] [Sy U]] B]]]. unfold force_psd. rewrite E. cbn [bind].
    destruct (near_psd_fl eig nearest (VMat s)) as [cov|] eqn:N; cbn [bind]; [|discriminate].
    assert (Sq : square (e_dim e) cov).
    { unfold near_psd_fl in N. destruct (has_nan s); [discriminate|]. destruct (negb _); [discriminate|].
      destruct (is_psd _ _ _ _); injection N as <-; [split; assumption|].
      destruct (Hnear (unfl s)) as [N1 [N2 _]]. cbn in N1, N2. split; cbn; congruence. }
    destruct (near_psd_fl_spec (e_dim e) (VMat s) cov ltac:(cbn; intros i Hi; rewrite U by lia; cbn; lra) N Sq) as [m [c [Ev [Sm [Nm [Ec [Sc [Dg Q]]]]]]]].
    injection Ev as <-.
    destruct (bind _ _) as [rh|] eqn:T; [|discriminate]. intros H. injection H as <-.
    rewrite (take_result (e_dim e) cov c rh (proj1 C) Sq Ec Sc T).
    destruct (shows_below (e_dim e) c (proj1 C) Sc) as [C' Sh]. split; [exact C'|].
    eexists. split; [exact Sh|]. intros x. apply quad_unit_diagonal; [|reflexivity|exact (Q x)].
    intros i Hi. cbn. unfold lower_sym. rewrite Nat.ltb_irrefl, Dg by exact Hi. rewrite U by lia. cbn. unfold EPS. lra.
  Qed.

  Lemma set_all_psd e e' v : consistent e -> positive_diagonal v -> out_of_range v = false -> set_all eig nearest e v = (e', Ok tt) ->
    consistent e' /\ exists m, shows e' m /\ almost_psd (e_dim e) m.
  Proof.
    intros C Hpos O. unfold set_all. destruct (near_psd_fl eig nearest v) as [cov|] eqn:N; [|discriminate].
    destruct (Nat.eqb_spec (nr cov) (e_dim e)) as [E1|]; cbn [andb]; [|discriminate].
    destruct (Nat.eqb_spec (nc cov) (e_dim e)) as [E2|]; [|discriminate].
    destruct (near_psd_fl_spec (e_dim e) v cov Hpos N (conj E1 E2)) as [m [c [-> [[Sm1 Sm2] [Nm [Ec [Sc [Dg Q]]]]]]]].
    destruct (bind _ _) as [rh|] eqn:T; [|discriminate]. intros H. injection H as <-.
    rewrite (take_result (e_dim e) cov c rh (proj1 C) (conj E1 E2) Ec Sc T).
    destruct (shows_below (e_dim e) c (proj1 C) Sc) as [C' Sh]. split; [exact C'|].
    eexists. split; [exact Sh|]. intros x. apply quad_unit_diagonal; [|reflexivity|exact (Q x)].
    intros i Hi. cbn. unfold lower_sym. rewrite Nat.ltb_irrefl, Dg by exact Hi.
    cbn [out_of_range] in O. apply negb_false_iff in O. rewrite forallb_forall in O.
    specialize (O i ltac:(apply in_seq; lia)). rewrite forallb_forall in O. specialize (O i ltac:(apply in_seq; lia)).
    destruct (get m i i) as [r|]; [|discriminate]. apply andb_true_iff in O. rewrite !Rleb_true in O. cbn. lra.
  Qed.

  Lemma setitem_psd e ix v e' : consistent e -> positive_diagonal v -> setitem eig nearest e ix v = (e', Ok tt) ->
    consistent e' /\ exists m, shows e' m /\ almost_psd (e_dim e) m.
  Proof.
    intros C Hpos H. unfold setitem in H. destruct (out_of_range v) eqn:O; [discriminate|].
    assert (Haf : forall s, consistent (fst s) -> e_dim (fst s) = e_dim e ->
              and_then s (force_psd eig nearest) = (e', Ok tt) ->
              consistent e' /\ exists m, shows e' m /\ almost_psd (e_dim e) m).
    { intros [e1 [u|x]] C1 D1 HA; cbn in *; [|discriminate]. rewrite <- D1. apply force_psd_psd; assumption. }
    destruct ix as [|z|l].
    - eapply set_all_psd; eassumption.
    - destruct (bind _ _) as [[k x]|]; [|discriminate].
      destruct (consistent_store e k x C). eapply Haf; eassumption.
    - destruct l as [|[|x] [|[|y] [|? ?]]]; try discriminate.
      + eapply set_all_psd; eassumption.
      + destruct (line_values _ _) as [l|]; [|discriminate]. destruct (consistent_line true y l e 0 C). eapply Haf; eassumption.
      + destruct (line_values _ _) as [l|]; [|discriminate]. destruct (consistent_line false x l e 0 C). eapply Haf; eassumption.
      + destruct (get_rho_index _ _ _) as [k|]; [|discriminate]. destruct (as_scalar _ _) as [w|]; [|discriminate].
        destruct (consistent_store e k w C). eapply Haf; eassumption.
  Qed.
End Psd.

(** the assumption on cov_nearest can be met: keep the diagonal, drop the rest *)
Definition drop_offdiag (m : mat R) : mat R := mkMat (nr m) (nc m) (fun i j => if Nat.eqb i j then get m i j else 0).
Lemma drop_offdiag_ok : nearest_ok drop_offdiag.
Proof.
  intros m. split; [reflexivity|]. split; [reflexivity|]. intros H. split.
  - intros i Hi. cbn. rewrite Nat.eqb_refl. reflexivity.
  - intros x. unfold quad. apply rsum_nonneg. intros i Hi. apply rsum_nonneg. intros j Hj.
    unfold lower_sym. cbn [drop_offdiag get]. specialize (H i Hi).
    destruct (Nat.ltb_spec i j); [destruct (Nat.eqb_spec j i); [lia|nra]|].
    destruct (Nat.eqb_spec i j) as [<-|]; nra.
Qed.
Lemma force_psd_nan_err eig nearest e s : consistent e -> sigma e = Ok s -> has_nan s = true ->
  force_psd eig nearest e = (e, Err NonSymmetricMatrixError).
Proof. intros C E N. unfold force_psd. rewrite E. cbn. rewrite N. reflexivity. Qed.

(** ---- rank correlations ---- *)
Lemma PI_pos : 0 < PI. Proof. exact PI_RGT_0. Qed.
Lemma asin_range x : - (PI / 2) <= asin x <= PI / 2.
Proof. pose proof (asin_bound x). lra. Qed.

Lemma ell_tau_itau t : -1 <= t <= 1 -> ell_tau (ell_itau t) = t.
Proof.
  intros H. unfold ell_tau, ell_itau. pose proof PI_pos. rewrite asin_sin by nra. field. lra.
Qed.
Lemma ell_itau_tau r : -1 <= r <= 1 -> ell_itau (ell_tau r) = r.
Proof.
  intros H. unfold ell_tau, ell_itau. pose proof PI_pos.
  replace (2 * asin r / PI * PI / 2) with (asin r) by (field; lra). apply sin_asin. lra.
Qed.
Lemma gauss_irho_rho r : -1 <= r <= 1 -> gauss_irho (ell_rho r) = r.
Proof.
  intros H. unfold gauss_irho, ell_rho. pose proof PI_pos.
  replace (asin (r / 2) * 6 / PI * PI / 6) with (asin (r / 2)) by (field; lra). rewrite sin_asin by lra. field.
Qed.
Lemma gauss_rho_irho r : -1 <= r <= 1 -> ell_rho (gauss_irho r) = r.
Proof.
  intros H. unfold gauss_irho, ell_rho. pose proof PI_pos.
  replace (sin (r * PI / 6) * 2 / 2) with (sin (r * PI / 6)) by field. rewrite asin_sin by nra. field. lra.
Qed.
Lemma ell_tau_range r : -1 <= ell_tau r <= 1.
Proof.
  unfold ell_tau. pose proof PI_pos. pose proof (asin_range r).
  split; apply Rmult_le_reg_r with PI; try assumption; unfold Rdiv; rewrite Rmult_assoc, Rinv_l by lra; lra.
Qed.
Lemma ell_itau_range t : -1 <= ell_itau t <= 1.
Proof. apply SIN_bound. Qed.
Lemma asin_half : asin (/ 2) = PI / 6.
Proof.
  pose proof PI_pos. replace (/ 2) with (sin (PI / 6)) by (rewrite sin_PI6; field). apply asin_sin. lra.
Qed.
Lemma asin_mono x y : -1 <= x <= 1 -> -1 <= y <= 1 -> x <= y -> asin x <= asin y.
Proof.
  intros Hx Hy H. destruct (Rle_lt_dec (asin x) (asin y)) as [L|L]; [exact L|exfalso].
  assert (sin (asin y) < sin (asin x)).
  { pose proof (asin_range x). pose proof (asin_range y). apply sin_increasing_1; lra. }
  rewrite !sin_asin in H0 by lra. lra.
Qed.
Lemma ell_rho_range r : -1 <= r <= 1 -> -1 <= ell_rho r <= 1.
Proof.
  intros H. unfold ell_rho. pose proof PI_pos.
  assert (asin (r / 2) <= PI / 6) by (rewrite <- asin_half; apply asin_mono; lra).
  assert (- (PI / 6) <= asin (r / 2)).
  { rewrite <- asin_half, <- asin_opp. apply asin_mono; lra. }
  split; apply Rmult_le_reg_r with PI; try assumption; unfold Rdiv; rewrite Rmult_assoc, Rinv_l by lra; lra.
Qed.
Lemma gauss_irho_range r : -1 <= r <= 1 -> -1 <= gauss_irho r <= 1.
Proof.
  intros H. unfold gauss_irho. pose proof PI_pos. pose proof sin_PI6.
  assert (sin (r * PI / 6) <= sin (PI / 6)) by (apply sin_incr_1; nra).
  assert (sin (- (PI / 6)) <= sin (r * PI / 6)) by (apply sin_incr_1; nra).
  rewrite sin_neg in H3. lra.
Qed.
(** strictly increasing, 0 fixed *)
Lemma ell_tau_incr x y : -1 <= x -> x < y -> y <= 1 -> ell_tau x < ell_tau y.
Proof.
  intros. unfold ell_tau. pose proof PI_pos. apply Rmult_lt_compat_r; [apply Rinv_0_lt_compat; assumption|].
  apply Rmult_lt_compat_l; [lra|]. destruct (Rlt_le_dec (asin x) (asin y)) as [L|L]; [exact L|exfalso].
  pose proof (asin_range x). pose proof (asin_range y).
  assert (sin (asin y) <= sin (asin x)) by (apply sin_incr_1; lra).
  rewrite !sin_asin in H5 by lra. lra.
Qed.

Lemma asin_deriv x : -1 < x < 1 -> derivable_pt_lim asin x (1 / sqrt (1 - x²)).
Proof.
  intros H. rewrite <- (derive_pt_asin x H). exact (proj2_sig (derivable_pt_asin x H)).
Qed.
Lemma lim_ext f g x l : (forall y, f y = g y) -> derivable_pt_lim f x l -> derivable_pt_lim g x l.
Proof. intros E D eps He. destruct (D eps He) as [d Hd]. exists d. intros h H1 H2. rewrite <- !E. apply Hd; assumption. Qed.
Lemma ell_dtau_deriv x : -1 < x < 1 -> derivable_pt_lim ell_tau x (ell_dtau x).
Proof.
  intros H. unfold ell_dtau.
  replace (2 / (PI * sqrt (1 - x ^ 2))) with ((2 / PI) * (1 / sqrt (1 - x²))).
  - apply (lim_ext (mult_real_fct (2 / PI) asin)).
    + intros y. unfold mult_real_fct, ell_tau. field. apply PI_neq0.
    + apply derivable_pt_lim_scal. apply asin_deriv. exact H.
  - assert (0 < 1 - x²) by (unfold Rsqr; nra). pose proof (sqrt_lt_R0 _ H0).
    replace (1 - x ^ 2) with (1 - x²) by (unfold Rsqr; ring). field. split; [lra|apply PI_neq0].
Qed.
Lemma ell_drho_deriv x : -1 < x < 1 -> derivable_pt_lim ell_rho x (ell_drho x).
Proof.
  intros H. unfold ell_drho.
  replace (6 / (PI * sqrt (4 - x ^ 2))) with ((6 / PI) * (1 / sqrt (1 - (/ 2 * x)²) * (/ 2 * 1))).
  - apply (lim_ext (mult_real_fct (6 / PI) (Ranalysis1.comp asin (mult_real_fct (/2) id)))).
    + intros y. unfold mult_real_fct, ell_rho, Ranalysis1.comp, id. replace (/ 2 * y) with (y / 2) by field. field. apply PI_neq0.
    + apply derivable_pt_lim_scal. apply derivable_pt_lim_comp.
      * apply derivable_pt_lim_scal. apply derivable_pt_lim_id.
      * apply (asin_deriv (/2 * x)). lra.
  - assert (0 < 4 - x ^ 2) by nra. pose proof (sqrt_lt_R0 _ H0).
    assert (E : sqrt (1 - (/ 2 * x)²) = sqrt (4 - x ^ 2) / 2).
    { replace (1 - (/ 2 * x)²) with ((4 - x ^ 2) / (2 * 2)) by (unfold Rsqr; field).
      rewrite sqrt_div by lra. rewrite sqrt_square by lra. reflexivity. }
    rewrite E. field. split; [lra|apply PI_neq0].
Qed.
