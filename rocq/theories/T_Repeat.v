(** Theorems: data in which all observations occur several times. *)
From Coq Require Import QArith Reals.
From Verif Require Import Base RSumLib CountLib Ext S_Matrix S_Linalg M_Rank S_Rank P_Rank M_Empirical P_Empirical M_Gmc S_Gmc P_Gmc P_GmcEm P_GmcDens S_Sgd T_Relabel S_Repeat.
Local Close Scope Q_scope. Local Close Scope Z_scope. Open Scope R_scope. Open Scope list_scope.

Lemma rsum_join n m f : rsum (n + m) f = rsum n f + rsum m (fun k => f (n + k)%nat).
Proof. induction m as [|m IH]; [rewrite Nat.add_0_r; cbn; ring|]. rewrite Nat.add_succ_r. cbn [rsum]. rewrite IH. ring. Qed.
Lemma mod_shift n i : (n + i) mod n = i mod n.
Proof. destruct n as [|n]; [reflexivity|]. rewrite <- (Nat.mul_1_l (S n)) at 1. rewrite Nat.add_comm. apply Nat.mod_add. discriminate. Qed.
Lemma rsum_copies t n f : rsum (t * n) (fun i => f (i mod n)%nat) = INR t * rsum n f.
Proof.
  induction t as [|t IH]; [cbn; ring|]. rewrite S_INR. cbn [Nat.mul]. rewrite rsum_join. rewrite (rsum_ext n _ f) by (intros i Hi; rewrite Nat.mod_small by exact Hi; reflexivity).
  rewrite (rsum_ext (t * n) _ (fun i => f (i mod n)%nat)) by (intros i _; rewrite mod_shift; reflexivity). rewrite IH. ring.
Qed.
Lemma seq_shift_map n m : seq n m = map (fun k => (n + k)%nat) (seq 0 m).
Proof. rewrite <- (Nat.add_0_r n) at 1. generalize 0%nat as s. induction m as [|m IH]; intros s; [reflexivity|]. cbn. f_equal. rewrite <- Nat.add_succ_r. apply IH. Qed.
Lemma count_shift n m f : count f (seq 0 (n + m)) = (count f (seq 0 n) + count (fun k => f (n + k)%nat) (seq 0 m))%nat.
Proof.
  rewrite seq_app, count_app. f_equal. rewrite Nat.add_0_l, seq_shift_map. unfold count. induction (seq 0 m) as [|a l IH]; [reflexivity|]. cbn. destruct (f (n + a)%nat); cbn; rewrite ?IH; reflexivity.
Qed.
Lemma count_copies t n f : count (fun i => f (i mod n)%nat) (seq 0 (t * n)) = (t * count f (seq 0 n))%nat.
Proof.
  induction t as [|t IH]; [reflexivity|]. cbn [Nat.mul]. rewrite count_shift. rewrite (count_ext _ f (seq 0 n)).
  - rewrite (count_ext _ (fun i => f (i mod n)%nat) (seq 0 (t * n))); [rewrite IH; reflexivity|]. intros i _. rewrite mod_shift. reflexivity.
  - intros i Hi. apply in_seq in Hi. rewrite Nat.mod_small by lia. reflexivity.
Qed.

(** Ranks, of which the dense ones do not change. *)
Theorem C136_ranks : forall {A} (leb : A -> A -> bool) t (obs : mat A) name ty, total_preorder leb -> parse_ties name = Ok ty -> ty <> Ordinal ->
  exists r r', rank_data2 leb obs 1 name = Ok r /\ rank_data2 leb (repeated t obs) 1 name = Ok r' /\
    forall i j, (i < t * nr obs)%nat -> (get r' i j == rank_among_copies ty t (get r (i mod nr obs)%nat j))%Q.
Proof.
  intros A leb t obs name ty Hp Hn Ho. unfold rank_data2. rewrite Hn. cbn [bind]. eexists. eexists. split; [reflexivity|]. split; [reflexivity|].
  intros i j Hi. cbn [get repeated nr nc]. set (n := nr obs) in *. set (x := fun k => get obs k j).
  assert (Ht : (1 <= t)%nat) by (destruct t; [cbn in Hi; lia|lia]). assert (Hn0 : (0 < n)%nat) by (destruct n; [rewrite Nat.mul_0_r in Hi; lia|lia]).
  change (fun k => get obs (k mod n) j) with (fun k => x (k mod n)%nat).
  assert (Le : n_le leb (t * n) (fun k => x (k mod n)%nat) i = (t * n_le leb n x (i mod n)%nat)%nat) by (apply (count_copies t n (fun k => leb (x k) (x (i mod n)%nat)))).
  assert (Lt : n_lt leb (t * n) (fun k => x (k mod n)%nat) i = (t * n_lt leb n x (i mod n)%nat)%nat) by (apply (count_copies t n (fun k => ltb leb (x k) (x (i mod n)%nat)))).
  destruct ty; cbn [rankdata rank_among_copies]; rewrite ?Le, ?Lt; [| | | |contradiction].
  - rewrite !Nat2Z.inj_add, !Nat2Z.inj_mul, !inject_Z_plus, !inject_Z_mult. change (inject_Z (Z.of_nat 1)) with 1%Q. change (inject_Z 2) with 2%Q. field.
  - rewrite !Nat2Z.inj_succ, !Nat2Z.inj_mul. unfold Z.succ. rewrite !inject_Z_plus, !inject_Z_mult. change (inject_Z 1) with 1%Q. ring.
  - rewrite Nat2Z.inj_mul, inject_Z_mult. reflexivity.
  - replace (count _ (seq 0 (t * n))) with (count (fun k => ltb leb (x k) (x (i mod n)%nat) && first_occ leb x k) (seq 0 n)); [reflexivity|].
    destruct t as [|t]; [lia|]. cbn [Nat.mul]. rewrite count_shift.
    rewrite (count_zero _ (seq 0 (t * n))).
    + rewrite Nat.add_0_r. apply count_ext. intros k Hk. apply in_seq in Hk. rewrite (Nat.mod_small k n) by lia. f_equal. unfold first_occ. f_equal.
      apply Bool.eq_iff_eq_true. rewrite !existsb_exists. split; intros [l [Il El]]; exists l; (split; [exact Il|]); apply in_seq in Il; rewrite ?(Nat.mod_small l n), ?(Nat.mod_small k n) in * by lia; exact El.
    + intros k _. apply andb_false_iff. right. unfold first_occ. apply negb_false_iff, existsb_exists. exists ((n + k) mod n)%nat. pose proof (Nat.mod_upper_bound (n + k) n ltac:(lia)).
      split; [apply in_seq; lia|]. rewrite Nat.mod_mod by lia. apply eqb_refl, Hp.
Qed.
Print Assumptions C136_ranks.

(** The empirical distribution function without smoothing. *)
Theorem C136_empirical : forall btdtr t x y s, (0 < t)%nat -> (0 < nr y)%nat -> map_smoothing s = Ok 0%nat ->
  emp_dist_func btdtr x (repeated t y) s 0 = emp_dist_func btdtr x y s 0.
Proof.
  intros btdtr t x y s Ht Hy Hs. unfold emp_dist_func. rewrite Hs. cbn [bind repeated nc]. destruct (negb _); [reflexivity|]. f_equal. unfold emp_copula_dist. apply map_ext_in. intros k Hk. apply in_seq in Hk.
  apply lt_0_INR in Ht, Hy. change (mkMat (t * nr y) (nc y) (fun i j => get y (i mod nr y)%nat j)) with (repeated t y).
  rewrite !emp_dist_row_eq; cbn [repeated nr]; try lia; rewrite ?mult_INR; try nra. f_equal. cbn [get].
  match goal with |- ?lhs / _ = _ => replace lhs with (INR t * rsum (nr y) (fun i => lprod (map (fun j => emp_cop (get y i j) (get x k j) (nr y)) (seq 0 (nc x))))) by (symmetry; exact (rsum_copies t (nr y) (fun i => lprod (map (fun j => emp_cop (get y i j) (get x k j) (nr y)) (seq 0 (nc x)))))) end.
  field. split; lra.
Qed.
Print Assumptions C136_empirical.

(** A step of the expectation maximisation. *)
Theorem C136_step : forall t p pdf eig cn q, (0 < t)%nat -> libraries eig cn -> (forall mu c x, 0 <= pdf mu c x) -> valid p ->
  let stuck q := existsb (fun i => Reqb (col_sum (e_step pdf q p) i) 0) (seq 0 (nc (e_step pdf q p))) in
  stuck (repeated t q) = stuck q /\
  (stuck q = false -> exists p1 p1', m_step eig cn q (e_step pdf q p) = Ok p1 /\ m_step eig cn (repeated t q) (e_step pdf (repeated t q) p) = Ok p1' /\ alike p1 p1').
Proof.
  intros t p pdf eig cn q Ht Lb Np V stuck. set (q' := repeated t q). apply lt_0_INR in Ht.
  assert (R : forall F, rsum (nr q') (fun i => F (i mod nr q)%nat) = INR t * rsum (nr q) F) by (intros F; apply rsum_copies).
  assert (N : forall k, rsum (nr q') (fun i => posterior pdf q' p i k) = INR t * rsum (nr q) (fun i => posterior pdf q p i k)) by (intros k; apply (R (fun i => posterior pdf q p i k))).
  assert (F : stuck q' = stuck q).
  { unfold stuck. cbn [e_step nc]. apply Bool.eq_iff_eq_true. rewrite !existsb_exists. split; intros [k [Ik Z]]; exists k; (split; [exact Ik|]); apply Reqb_true; apply Reqb_true in Z; rewrite col_sum_posterior in *; rewrite N in *.
    - apply Rmult_integral in Z. destruct Z; lra.
    - rewrite Z. ring. }
  split; [exact F|]. intros Sf.
  destruct (em_step eig cn pdf Lb Np q p V) as [[X _]|[_ [p1 [M1 [V1 [_ [_ U1]]]]]]]; [unfold stuck in Sf; congruence|].
  destruct (em_step eig cn pdf Lb Np q' p V) as [[X _]|[_ [p1' [M1' [V1' [_ [_ U1']]]]]]]; [unfold stuck in F, Sf; congruence|].
  exists p1, p1'. split; [exact M1|]. split; [exact M1'|]. destruct U1 as [A1 [A2 [_ [_ A]]]]. destruct U1' as [B1 [B2 [_ [_ B]]]].
  change (nc q') with (nc q) in *.
  assert (C : forall k j, (k < n_clusters p)%nat -> (j < nc q)%nat -> centre p1' k j = centre p1 k j).
  { intros k j Hk Hj. destruct (B k Hk) as [_ [_ [Bc _]]]. destruct (A k Hk) as [An [_ [Ac _]]]. rewrite (Bc j Hj), (Ac j Hj), N.
    match goal with |- ?lhs / _ = _ => replace lhs with (INR t * rsum (nr q) (fun i => posterior pdf q p i k * get q i j)) by (symmetry; exact (R (fun i => posterior pdf q p i k * get q i j))) end. field. split; [exact An|lra]. }
  split; [congruence|]. split; [congruence|]. intros k Hk. rewrite A1 in Hk. destruct (B k Hk) as [_ [Bw [_ Bs]]]. destruct (A k Hk) as [An [Aw [_ As]]]. split; [|split].
  - rewrite Bw, Aw, N. rewrite (rsum_ext (n_clusters p) _ (fun k => INR t * rsum (nr q) (fun i => posterior pdf q p i k))) by (intros c _; apply N). rewrite rsum_scal.
    assert (Pn : forall c, 0 <= rsum (nr q) (fun i => posterior pdf q p i c)) by (intros c; apply rsum_nonneg; intros i _; apply posterior_nonneg; assumption).
    assert (0 < rsum (n_clusters p) (fun c => rsum (nr q) (fun i => posterior pdf q p i c))).
    { apply rsum_pos; [intros c _; apply Pn|]. exists k. split; [exact Hk|]. specialize (Pn k). lra. }
    field. split; lra.
  - intros j Hj. apply C; [exact Hk|congruence].
  - destruct (spread_square p1 k V1 ltac:(congruence)) as [S1 S2]. destruct (spread_square p1' k V1' ltac:(congruence)) as [S3 S4].
    split; [congruence|]. split; [congruence|]. intros a b Ha Hb. assert (Ha' : (a < nc q)%nat) by congruence. assert (Hb' : (b < nc q)%nat) by congruence.
    rewrite (Bs a b Ha' Hb'), (As a b Ha' Hb'), N, !C by assumption.
    match goal with |- ?lhs / _ = _ => replace lhs with (INR t * rsum (nr q) (fun i => posterior pdf q p i k * (get q i a - centre p1 k a) * (get q i b - centre p1 k b))) by (symmetry; exact (R (fun i => posterior pdf q p i k * (get q i a - centre p1 k a) * (get q i b - centre p1 k b)))) end. field. split; [exact An|lra].
Qed.
Print Assumptions C136_step.

(** The log-likelihood is multiplied by the number of copies. *)
Lemma esum_join l l' a b : esum l = Fin a -> esum l' = Fin b -> esum (l ++ l') = Fin (a + b).
Proof.
  revert a. induction l as [|v l IH]; intros a H H'; [injection H as <-; cbn [app]; rewrite H'; f_equal; ring|].
  change (esum ((v :: l) ++ l')) with (eadd v (esum (l ++ l'))). change (esum (v :: l)) with (eadd v (esum l)) in H.
  destruct v as [x| | |]; destruct (esum l) as [y| | |]; cbn in H; try discriminate. injection H as <-. rewrite (IH y eq_refl H'). cbn. f_equal. ring.
Qed.
Theorem C136_log_likelihood : forall t pdf q p L, gmm_log_likelihood pdf q p = Fin L -> gmm_log_likelihood pdf (repeated t q) p = Fin (INR t * L).
Proof.
  intros t pdf q p L H. unfold gmm_log_likelihood in *. cbn [repeated nr get].
  set (F := fun i => elog (mixture (plain pdf) p (get q i))) in *. change (esum (map (fun i => F (i mod nr q)%nat) (seq 0 (t * nr q))) = Fin (INR t * L)).
  induction t as [|t IH]; [cbn; f_equal; ring|]. rewrite S_INR. cbn [Nat.mul]. rewrite seq_app, map_app. replace ((INR t + 1) * L) with (L + INR t * L) by ring. apply esum_join.
  - rewrite <- H. f_equal. apply map_ext_in. intros i Hi. apply in_seq in Hi. rewrite Nat.mod_small by lia. reflexivity.
  - rewrite <- IH. f_equal. rewrite Nat.add_0_l, seq_shift_map, map_map. apply map_ext. intros i. rewrite mod_shift. reflexivity.
Qed.
Print Assumptions C136_log_likelihood.

(** Three observations, two of them equal, all of them twice: the average ranks 3/2, 3/2, 3 become 5/2 and 11/2; a mixture with a non-negative density. *)
Example C136_case : let obs := mkMat 3 1 (fun i _ => nth i [1; 1; 4]%Q 0%Q) in
  (exists r r', rank_data2 Qle_bool obs 1 "average" = Ok r /\ rank_data2 Qle_bool (repeated 2 obs) 1 "average" = Ok r' /\
    (get r 0 0 == 3 # 2)%Q /\ (get r' 3 0 == 5 # 2)%Q /\ (get r 2 0 == 3)%Q /\ (get r' 5 0 == 11 # 2)%Q) /\ parse_ties "average" = Ok Average /\ map_smoothing None = Ok 0%nat /\
  valid (mkGmc 1 1 [1] (mkMat 1 1 (fun _ _ => 5)) [mkMat 1 1 (fun _ _ => 1)]).
Proof.
  intros obs. split; [|split; [reflexivity|split; [reflexivity|]]].
  - eexists. eexists. split; [reflexivity|]. split; [reflexivity|]. repeat split.
  - assert (S1 : almost_psd 1 (mkMat 1 1 (fun _ _ => 1))).
    { apply covariance_almost. split; [split; reflexivity|]. split; [intros i j _ _; reflexivity|]. intros x. unfold quad. cbn. nra. }
    unfold valid. cbn. split; [reflexivity|]. split; [apply weights_exact; [repeat constructor; lra|cbn; lra]|]. repeat (split; [reflexivity|]). repeat (apply Forall_cons; [exact S1|]); apply Forall_nil.
Qed.
