(** Lemmas about the empirical copula. *)
From Coq Require Import Qreals QArith.
From Coquelicot Require Import Coquelicot.
From Verif Require Import Base RSumLib CountLib Ext S_Archimedean M_Rank S_Rank P_Rank M_Special M_Stats M_Empirical S_Empirical P_Beta.
Local Close Scope Q_scope. Local Close Scope Z_scope. Open Scope R_scope.

Lemma Rleb_preorder : total_preorder Rleb.
Proof. split; intros; rewrite ?Rleb_true in *; lra. Qed.

(** * sums and products *)
Lemma fold_sum {A} (f : A -> R) l : forall a, fold_left (fun s i => s + f i) l a = a + lsum (map f l).
Proof. induction l as [|x l IH]; intros a; cbn; [ring|]. rewrite IH. ring. Qed.
Lemma fold_prod {A} (f : A -> R) l : forall a, fold_left (fun s i => s * f i) l a = a * lprod (map f l).
Proof. induction l as [|x l IH]; intros a; cbn; [ring|]. rewrite IH. ring. Qed.
Lemma lprod_map_ext {A} (f g : A -> R) l : (forall x, In x l -> f x = g x) -> lprod (map f l) = lprod (map g l).
Proof. intros H. f_equal. apply map_ext_in. exact H. Qed.
Lemma lprod_unit {A} (f : A -> R) l : (forall x, In x l -> 0 <= f x <= 1) -> 0 <= lprod (map f l) <= 1.
Proof.
  induction l as [|x l IH]; intros H; cbn; [lra|]. pose proof (H x ltac:(left; reflexivity)). pose proof (IH ltac:(intros; apply H; right; assumption)). nra.
Qed.
Lemma lprod_le {A} (f g : A -> R) l : (forall x, In x l -> 0 <= f x <= g x) -> 0 <= lprod (map f l) <= lprod (map g l).
Proof.
  induction l as [|x l IH]; intros H; cbn; [lra|]. pose proof (H x ltac:(left; reflexivity)). pose proof (IH ltac:(intros; apply H; right; assumption)). nra.
Qed.
Lemma lprod_ones {A} (f : A -> R) l : (forall x, In x l -> f x = 1) -> lprod (map f l) = 1.
Proof. induction l as [|x l IH]; intros H; cbn; [reflexivity|]. rewrite H, IH by (intros; try apply H; cbn; auto). ring. Qed.
Lemma lprod_zero {A} (f : A -> R) l x : In x l -> f x = 0 -> lprod (map f l) = 0.
Proof. induction l as [|y l IH]; [intros []|]. intros [->|H] E; cbn; [rewrite E; ring|]. rewrite (IH H E). ring. Qed.
Lemma lprod_single (f : nat -> R) l k : NoDup l -> In k l -> (forall x, In x l -> x <> k -> f x = 1) -> lprod (map f l) = f k.
Proof.
  induction 1 as [|y l Hn _ IH]; [intros []|]. intros [->|H] E; cbn.
  - rewrite lprod_ones; [ring|]. intros x Hx. apply E; [right; exact Hx|]. intros ->. contradiction.
  - rewrite IH; [|exact H|intros; apply E; [right; assumption|assumption]]. rewrite E; [ring|left; reflexivity|]. intros ->. contradiction.
Qed.

(** * one row *)
Lemma ravelF_get m i j : (i < nr m)%nat -> ravelF m (i + nr m * j)%nat = get m i j.
Proof.
  intros H. unfold ravelF. rewrite (Nat.mul_comm (nr m) j), Nat.add_mod, Nat.mod_mul, Nat.add_0_r, Nat.mod_mod, Nat.mod_small by lia.
  rewrite Nat.div_add, Nat.div_small by lia. reflexivity.
Qed.
Lemma emp_dist_row_eq X Y k offset f : (k < nr X)%nat -> 0 < INR (nr Y) + offset ->
  emp_dist_row (ravelF X) (ravelF Y) (nr X) (nr Y) (nc X) k offset f =
  Fin (rsum (nr Y) (fun i => lprod (map (fun j => f (get Y i j) (get X k j) (nr Y)) (seq 0 (nc X)))) / (INR (nr Y) + offset)).
Proof.
  intros Hk Ho. unfold emp_dist_row. rewrite (fold_sum (fun i => fold_left _ _ 1)). cbn [edivide]. unfold edivide. rewrite (proj2 (Reqb_false _ 0)) by lra.
  f_equal. f_equal. rewrite Rplus_0_l, <- rsum_lsum. apply rsum_ext. intros i Hi. rewrite (fold_prod (fun j => f _ _ _)), Rmult_1_l.
  apply lprod_map_ext. intros j _. rewrite !ravelF_get by assumption. reflexivity.
Qed.

(** * the smoothing factors *)
Definition factor (btdtr : R -> R -> R -> R) (s : string) : R -> R -> nat -> R :=
  if String.eqb s "none" then emp_cop else if String.eqb s "beta" then emp_beta_cop btdtr else emp_multi_linear.
Lemma factor_props btdtr s n r : computes_beta_distribution btdtr -> smoothed s -> 1 <= r <= INR n ->
  let f := fun v => factor btdtr s (r / (INR n + 1)) v n in
  f 0 = 0 /\ f 1 = 1 /\ forall v v', 0 <= v -> v <= v' -> v' <= 1 -> f v <= f v'.
Proof.
  intros Hb Hs Hr f. unfold f, factor. clear f. assert (Hn : 0 < INR n + 1) by lra. assert (Hu : 0 < r / (INR n + 1) < 1).
  { split; [apply Rdiv_lt_0_compat; lra|]. apply (Rmult_lt_reg_r (INR n + 1)); [lra|]. unfold Rdiv. rewrite Rmult_assoc, Rinv_l by lra. lra. }
  destruct Hs as [->|[->| ->]]; cbn [String.eqb Ascii.eqb Bool.eqb].
  - unfold emp_cop. rewrite (proj2 (Rleb_false _ 0)), (proj2 (Rleb_true _ 1)) by lra. split; [reflexivity|]. split; [reflexivity|]. intros v v' _ Hv _.
    destruct (Rleb _ v) eqn:E1; [|destruct (Rleb _ v'); lra]. apply Rleb_true in E1. rewrite (proj2 (Rleb_true _ v')) by lra. lra.
  - unfold emp_beta_cop. replace (r / (INR n + 1) * (INR n + 1)) with r by (field; lra). replace ((INR n + 1) * (1 - r / (INR n + 1))) with (INR n + 1 - r) by (field; lra).
    rewrite (Hb r (INR n + 1 - r) 0), (Hb r (INR n + 1 - r) 1), bd_0, bd_1 by lra. split; [reflexivity|]. split; [reflexivity|]. intros v v' H0 Hv H1.
    rewrite !Hb by lra. apply bd_mono; lra.
  - unfold emp_multi_linear. replace ((INR n + 1) * (r / (INR n + 1))) with r by (field; lra).
    split; [rewrite Rmax_right, Rmin_left; lra|]. split; [rewrite Rmax_left, Rmin_right; lra|]. intros v v' H0 Hv H1.
    assert (INR n * v <= INR n * v') by (apply Rmult_le_compat_l; [apply pos_INR|exact Hv]). apply Rle_min_compat_r, Rle_max_compat_r. lra.
Qed.

(** * a mixture of products of distribution functions *)
Section Mix.
  Variables (n d : nat) (g : nat -> nat -> R -> R).
  Hypothesis g0 : forall i j, (i < n)%nat -> (j < d)%nat -> g i j 0 = 0.
  Hypothesis g1 : forall i j, (i < n)%nat -> (j < d)%nat -> g i j 1 = 1.
  Hypothesis gm : forall i j v v', (i < n)%nat -> (j < d)%nat -> 0 <= v -> v <= v' -> v' <= 1 -> g i j v <= g i j v'.
  Definition mix (l : list R) : R := rsum n (fun i => lprod (map (fun j => g i j (nth j l 0)) (seq 0 d))).
  Lemma g_unit i j v : (i < n)%nat -> (j < d)%nat -> 0 <= v <= 1 -> 0 <= g i j v <= 1.
  Proof. intros Hi Hj Hv. rewrite <- (g0 i j Hi Hj) at 1. rewrite <- (g1 i j Hi Hj). split; apply gm; lra || assumption. Qed.
  Lemma nth_cube l j : unit_cube l -> 0 <= nth j l 0 <= 1.
  Proof. intros H. revert j. induction H as [|x l Hx _ IH]; intros [|j]; cbn; try lra. apply IH. Qed.
  Lemma in_seq0 j : In j (seq 0 d) -> (j < d)%nat. Proof. rewrite in_seq. lia. Qed.
  Lemma mix_range l : unit_cube l -> 0 <= mix l <= INR n.
  Proof.
    intros H. assert (P : forall i, (i < n)%nat -> 0 <= lprod (map (fun j => g i j (nth j l 0)) (seq 0 d)) <= 1).
    { intros i Hi. apply lprod_unit. intros j Hj. apply g_unit; [exact Hi|apply in_seq0, Hj|apply nth_cube, H]. }
    split; [apply rsum_nonneg; intros; apply P; assumption|]. rewrite <- (Rmult_1_r (INR n)), <- rsum_const. apply rsum_le. intros; apply P; assumption.
  Qed.
  Lemma below_nth l l' : S_Archimedean.below l l' -> forall j, nth j l 0 <= nth j l' 0.
  Proof. induction 1 as [|x y l l' H _ IH]; intros [|j]; cbn; try lra. apply IH. Qed.
  Lemma mix_mono l l' : unit_cube l -> unit_cube l' -> S_Archimedean.below l l' -> mix l <= mix l'.
  Proof.
    intros H H' B. apply rsum_le. intros i Hi. apply lprod_le. intros j Hj. apply in_seq0 in Hj.
    pose proof (nth_cube l j H). pose proof (nth_cube l' j H'). pose proof (below_nth l l' B j). split; [apply g_unit; assumption|apply gm; lra || assumption].
  Qed.
  Lemma mix_grounded l j : (j < d)%nat -> nth j l 0 = 0 -> mix l = 0.
  Proof.
    intros Hj E. apply rsum_zero. intros i Hi. apply (lprod_zero _ _ j); [apply in_seq; lia|]. rewrite E. apply g0; assumption.
  Qed.
  Lemma nth_repeat_1 j : (j < d)%nat -> nth j (repeat 1 d) 0 = 1.
  Proof. intros H. rewrite (nth_indep _ 0 1) by (rewrite repeat_length; exact H). apply nth_repeat. Qed.
  Lemma mix_one : mix (repeat 1 d) = INR n.
  Proof.
    unfold mix. rewrite (rsum_ext _ _ (fun _ => 1)); [rewrite rsum_const; ring|]. intros i Hi. apply lprod_ones. intros j Hj. apply in_seq0 in Hj.
    rewrite nth_repeat_1 by exact Hj. apply g1; assumption.
  Qed.
  Lemma one_but_nth k v j : (j < d)%nat -> nth j (one_but d k v) 0 = if Nat.eqb j k then v else 1.
  Proof.
    intros H. unfold one_but. rewrite (nth_indep _ 0 (if Nat.eqb 0 k then v else 1)) by (rewrite map_length, seq_length; exact H).
    rewrite (map_nth (fun i => if Nat.eqb i k then v else 1)), seq_nth by exact H. reflexivity.
  Qed.
  Lemma mix_margin k v : (k < d)%nat -> mix (one_but d k v) = rsum n (fun i => g i k v).
  Proof.
    intros Hk. apply rsum_ext. intros i Hi. rewrite (lprod_single _ _ k); [|apply seq_NoDup|apply in_seq; lia|].
    - rewrite one_but_nth, Nat.eqb_refl by exact Hk. reflexivity.
    - intros j Hj Hne. apply in_seq0 in Hj. rewrite one_but_nth by exact Hj. rewrite (proj2 (Nat.eqb_neq j k) Hne). apply g1; assumption.
  Qed.
  (** boxes *)
  Fixpoint pre (i k : nat) (l : list R) : R := match l with [] => 1 | v :: r => g i k v * pre i (S k) r end.
  Fixpoint sides_prod (i k : nat) (s : list (R * R)) : R := match s with [] => 1 | (a, b) :: r => (g i k b - g i k a) * sides_prod i (S k) r end.
  Lemma pre_app i l v : forall k, pre i k (l ++ [v]) = pre i k l * g i (k + length l) v.
  Proof.
    induction l as [|x l IH]; intros k; cbn [app pre length]; [rewrite Nat.add_0_r; ring|]. rewrite IH. replace (S k + length l)%nat with (k + S (length l))%nat by lia. ring.
  Qed.
  Lemma pre_map i l : forall k, pre i k l = lprod (map (fun j => g i j (nth (j - k) l 0)) (seq k (length l))).
  Proof.
    induction l as [|x l IH]; intros k; [reflexivity|]. cbn [pre length seq map lprod]. rewrite Nat.sub_diag. cbn [nth]. f_equal. rewrite IH.
    apply lprod_map_ext. intros j Hj. apply in_seq in Hj. replace (j - k)%nat with (S (j - S k)) by lia. reflexivity.
  Qed.
  Lemma box_mix (F : list R -> R) sides : forall acc, (forall l, length l = d -> Forall (fun x => 0 <= x <= 1) l -> F l = mix l) ->
    (length acc + length sides = d)%nat -> Forall (fun x => 0 <= x <= 1) acc -> Forall (fun s => 0 <= fst s <= 1 /\ 0 <= snd s <= 1) sides ->
    box_mass F sides acc = rsum n (fun i => pre i 0 acc * sides_prod i (length acc) sides).
  Proof.
    induction sides as [|[a b] sides IH]; intros acc HF L Ha Hs; cbn [box_mass sides_prod].
    - cbn [length] in L. rewrite HF by (lia || exact Ha). apply rsum_ext. intros i Hi. rewrite Rmult_1_r, pre_map. replace (length acc) with d by lia.
      apply lprod_map_ext. intros j _. rewrite Nat.sub_0_r. reflexivity.
    - inversion Hs as [|? ? [H1 H2] H3]; subst. cbn [fst snd] in *. cbn [length] in L.
      rewrite !IH; try assumption; try (rewrite app_length; cbn [length]; lia); try (apply Forall_app; split; [exact Ha|constructor; [assumption|constructor]]).
      rewrite <- rsum_minus. apply rsum_ext. intros i Hi. rewrite !pre_app, !app_length. cbn [length Nat.add]. rewrite Nat.add_1_r. ring.
  Qed.
  Lemma sides_nonneg i sides : (i < n)%nat -> forall k, (k + length sides <= d)%nat -> Forall (fun s => 0 <= fst s /\ fst s <= snd s /\ snd s <= 1) sides -> 0 <= sides_prod i k sides.
  Proof.
    intros Hi. induction sides as [|[a b] sides IH]; intros k L H; cbn [sides_prod]; [lra|]. inversion H as [|? ? [H1 [H2 H3]] H4]; subst. cbn [fst snd length] in *.
    apply Rmult_le_pos; [|apply IH; [lia|exact H4]]. assert (g i k a <= g i k b) by (apply gm; lia || assumption). lra.
  Qed.
  Lemma box_nonneg (F : list R -> R) sides : (forall l, length l = d -> Forall (fun x => 0 <= x <= 1) l -> F l = mix l) ->
    length sides = d -> Forall (fun s => 0 <= fst s /\ fst s <= snd s /\ snd s <= 1) sides -> 0 <= box_mass F sides [].
  Proof.
    intros HF L H. rewrite box_mix; [|exact HF|exact L|constructor|].
    - apply rsum_nonneg. intros i Hi. cbn [pre length]. rewrite Rmult_1_l. apply sides_nonneg; [exact Hi|lia|exact H].
    - eapply Forall_impl; [|exact H]. cbn. intros s Hs. lra.
  Qed.
End Mix.

(** * the copula *)
Section Cop.
  Variable btdtr : R -> R -> R -> R.
  Hypothesis Hb : computes_beta_distribution btdtr.

  Lemma Q2R_pobs e uu t i j : pseudo_obs Rleb (e_data e) (e_ties e) = Ok uu -> parse_ties (e_ties e) = Ok t -> 
    Q2R (get uu i j) = Q2R (rankdata Rleb t (nr (e_data e)) (fun k => get (e_data e) k j) i) / (INR (nr (e_data e)) + 1).
  Proof.
    intros H Ht. destruct (pseudo_obs_Ok Rleb _ _ _ H) as [t' [Ht' [_ [_ Hg]]]]. assert (t' = t) by congruence. subst t'. rewrite Hg.
    rewrite Q2R_div. 2:{ intros E. pose proof (Qn1_pos (nr (e_data e))) as P. rewrite E in P. apply Qlt_irrefl in P. exact P. }
    f_equal. unfold Q2R, inject_Z. cbn [Qnum Qden]. rewrite <- INR_IZR_INZ, plus_INR. cbn. field.
  Qed.
  Lemma rank_R t n x i : (i < n)%nat -> 1 <= Q2R (rankdata Rleb t n x i) <= INR n.
  Proof.
    intros H. destruct (rankdata_bounds Rleb Rleb_preorder t n x i H) as [H1 H2]. apply Qle_Rle in H1. apply Qle_Rle in H2.
    unfold Q2R at 1 in H1. unfold inject_Z in *. cbn [Qnum Qden] in H1. unfold Q2R at 2 in H2. cbn [Qnum Qden] in H2. rewrite <- INR_IZR_INZ in H2.
    rewrite Rinv_1, Rmult_1_r in *. split; assumption.
  Qed.
  Lemma usable_ties e : usable e -> exists t uu, parse_ties (e_ties e) = Ok t /\ pseudo_obs Rleb (e_data e) (e_ties e) = Ok uu.
  Proof.
    intros [_ [_ [H _]]]. destruct (parse_ties_ok (e_ties e) H) as [t Ht]. exists t. unfold pseudo_obs, rank_data2. rewrite Ht. cbn. eexists. split; reflexivity.
  Qed.
  Lemma any_entry_false p u : (forall k j, (k < nr u)%nat -> (j < nc u)%nat -> p (get u k j) = false) -> any_entry p u = false.
  Proof.
    intros H. unfold any_entry. apply not_true_iff_false. intros E. apply existsb_exists in E. destruct E as [k [Hk E]]. apply existsb_exists in E. destruct E as [j [Hj E]].
    apply in_seq in Hk. apply in_seq in Hj. rewrite H in E by lia. discriminate.
  Qed.
  Definition in_cube (u : mat R) : Prop := forall k j, (k < nr u)%nat -> (j < nc u)%nat -> 0 <= get u k j <= 1.
  Lemma map_smoothing_ok s : smoothed s -> exists typ, map_smoothing (Some s) = Ok typ /\
    forall X Y offset, emp_copula_dist btdtr X Y offset typ = map (fun i => emp_dist_row (ravelF X) (ravelF Y) (nr X) (nr Y) (nc X) i offset (factor btdtr s)) (seq 0 (nr X)).
  Proof. intros [->|[->| ->]]; eexists; (split; [reflexivity|]); intros; reflexivity. Qed.
  Definition g_of (e : empirical) (i j : nat) (v : R) : R := factor btdtr (e_smoothing e) (pobs_of e i j) v (nr (e_data e)).
  Lemma emp_cdf_eq e u log : usable e -> in_cube u -> nc u = nc (e_data e) ->
    emp_cdf btdtr e u log = Ok (map (fun k => (if log then elog else fun x => x)
      (Fin (mix (nr (e_data e)) (nc (e_data e)) (g_of e) (row u k) / (INR (nr (e_data e)) + e_offset e)))) (seq 0 (nr u))).
  Proof.
    intros U Hc Hn. destruct (usable_ties e U) as [t [uu [Ht Hu]]]. destruct U as [U1 [U2 [U3 [U4 U5]]]]. unfold emp_cdf.
    assert (Ep : 0 < EPSILON) by (unfold EPSILON; lra).
    rewrite (any_entry_false (fun x => Rltb (1 + EPSILON) x)) by (intros; apply Rltb_false; pose proof (Hc k j H H0); lra).
    rewrite (any_entry_false (fun x => Rltb x (- EPSILON))) by (intros; apply Rltb_false; pose proof (Hc k j H H0); lra). cbn [orb].
    rewrite Hu. cbn [bind]. destruct (pseudo_obs_Ok Rleb _ _ _ Hu) as [_ [_ [N1 [N2 _]]]]. unfold emp_dist_func.
    destruct (map_smoothing_ok (e_smoothing e) U4) as [typ [E1 E2]]. rewrite E1. cbn [bind nc]. rewrite N2, (proj2 (Nat.eqb_eq _ _) Hn). cbn [negb bind]. rewrite E2.
    assert (P : 0 < INR (nr (e_data e)) + e_offset e) by (apply lt_INR in U1; cbn in U1; lra). f_equal.
    assert (G : map (fun i => emp_dist_row (ravelF u) (ravelF (mkMat (nr uu) (nc (e_data e)) (fun i j => Q2R (get uu i j)))) (nr u) (nr uu) (nc u) i (e_offset e) (factor btdtr (e_smoothing e))) (seq 0 (nr u))
      = map (fun k => Fin (mix (nr (e_data e)) (nc (e_data e)) (g_of e) (row u k) / (INR (nr (e_data e)) + e_offset e))) (seq 0 (nr u))).
    { apply map_ext_in. intros k Hk. apply in_seq in Hk. pose proof (emp_dist_row_eq u (mkMat (nr uu) (nc (e_data e)) (fun i j => Q2R (get uu i j))) k (e_offset e) (factor btdtr (e_smoothing e))) as R. cbn [nr get] in R.
      rewrite R by (rewrite ?N1; lia || lra). rewrite N1, Hn. do 2 f_equal. unfold mix, g_of, pobs_of. rewrite Hu. apply rsum_ext. intros i Hi. apply lprod_map_ext. intros j Hj. apply in_seq in Hj.
      f_equal. unfold row. rewrite (nth_indep _ 0 (get u k 0)) by (rewrite map_length, seq_length; lia). rewrite (map_nth (get u k)), seq_nth by lia. reflexivity. }
    cbn [nr]. destruct log; [rewrite G, map_map; reflexivity|exact G].
  Qed.
  Lemma pobs_rank e t i j : usable e -> parse_ties (e_ties e) = Ok t ->
    pobs_of e i j = Q2R (rankdata Rleb t (nr (e_data e)) (fun k => get (e_data e) k j) i) / (INR (nr (e_data e)) + 1).
  Proof. intros U Ht. destruct (usable_ties e U) as [t' [uu [_ Hu]]]. unfold pobs_of. rewrite Hu. apply Q2R_pobs; assumption. Qed.
  Lemma g_props e : usable e -> let n := nr (e_data e) in let d := nc (e_data e) in
    (forall i j, (i < n)%nat -> (j < d)%nat -> g_of e i j 0 = 0) /\ (forall i j, (i < n)%nat -> (j < d)%nat -> g_of e i j 1 = 1) /\
    (forall i j v v', (i < n)%nat -> (j < d)%nat -> 0 <= v -> v <= v' -> v' <= 1 -> g_of e i j v <= g_of e i j v').
  Proof.
    intros U n d. destruct (usable_ties e U) as [t [uu [Ht Hu]]].
    assert (G : forall i j, (i < n)%nat -> g_of e i j 0 = 0 /\ g_of e i j 1 = 1 /\ forall v v', 0 <= v -> v <= v' -> v' <= 1 -> g_of e i j v <= g_of e i j v').
    { intros i j Hi. unfold g_of. rewrite (pobs_rank e t i j U Ht).
      apply (factor_props btdtr (e_smoothing e) (nr (e_data e)) (Q2R (rankdata Rleb t (nr (e_data e)) (fun k => get (e_data e) k j) i)) Hb); [apply U|apply rank_R; exact Hi]. }
    split; [intros; apply G; assumption|]. split; [intros; apply G; assumption|]. intros; apply G; assumption.
  Qed.
  Lemma one_row_cube l : unit_cube l -> in_cube (one_row l).
  Proof. intros H k j _ _. apply nth_cube. exact H. Qed.
  Lemma one_row_row l : row (one_row l) 0 = l.
  Proof.
    unfold row, one_row. cbn [nc get]. apply (nth_ext _ _ 0 0); [rewrite map_length, seq_length; reflexivity|]. intros j Hj. rewrite map_length, seq_length in Hj.
    rewrite (nth_indep _ 0 (nth 0 l 0)) by (rewrite map_length, seq_length; exact Hj). rewrite (map_nth (fun j => nth j l 0)), seq_nth by exact Hj. reflexivity.
  Qed.
  Lemma point_eq e l : usable e -> unit_cube l -> length l = nc (e_data e) ->
    at_point (fun u => emp_cdf btdtr e u false) l = Fin (mix (nr (e_data e)) (nc (e_data e)) (g_of e) l / (INR (nr (e_data e)) + e_offset e)).
  Proof.
    intros U H L. unfold at_point. rewrite emp_cdf_eq; [|exact U|apply one_row_cube, H|exact L]. cbn [one_row nr seq map]. rewrite one_row_row. reflexivity.
  Qed.
  Lemma no_ties_rank e t i j : usable e -> parse_ties (e_ties e) = Ok t -> (i < nr (e_data e))%nat -> no_ties Rleb (nr (e_data e)) (fun k => get (e_data e) k j) ->
    pobs_of e i j = INR (ordn Rleb (nr (e_data e)) (fun k => get (e_data e) k j) i) / (INR (nr (e_data e)) + 1).
  Proof.
    intros U Ht Hi Hn. rewrite (pobs_rank e t i j U Ht). f_equal. rewrite (Qeq_eqR _ _ (rankdata_r2 Rleb t _ _ i)), (no_ties_r2 Rleb Rleb_preorder t _ _ i Hn Hi).
    rewrite Q2R_div by discriminate. unfold Q2R, inject_Z. cbn [Qnum Qden]. rewrite <- INR_IZR_INZ, mult_INR. cbn. field.
  Qed.
End Cop.
(** sums over the rows without ties are sums over the ranks 1..n *)
Lemma sum_over_ranks n x (F : nat -> R) : rsum n (fun i => F (ordn Rleb n x i)) = rsum n (fun r => F (S r)).
Proof.
  rewrite !rsum_lsum. rewrite <- (map_map (ordn Rleb n x) F). rewrite (lsum_perm _ (map F (seq 1 n))) by (apply Permutation_map, ordn_perm, Rleb_preorder).
  rewrite <- seq_shift, map_map. reflexivity.
Qed.
Lemma clamp_sum n x : 0 <= x -> rsum n (fun r => Rmin (Rmax (x - INR (S r) + 1) 0) 1) = Rmin x (INR n).
Proof.
  intros Hx. induction n as [|n IH]; [cbn; rewrite Rmin_right; lra|]. cbn [rsum]. rewrite IH. rewrite S_INR. replace (x - (INR n + 1) + 1) with (x - INR n) by ring.
  pose proof (pos_INR n). unfold Rmax. destruct (Rle_dec (x - INR n) 0); unfold Rmin; repeat match goal with |- context [Rle_dec ?a ?b] => destruct (Rle_dec a b) end; lra.
Qed.

(** * sorted columns *)
Lemma insert_perm x l : Permutation (x :: l) (insert x l).
Proof. induction l as [|y l IH]; cbn; [reflexivity|]. destruct (Rleb x y); [reflexivity|]. rewrite perm_swap. constructor. exact IH. Qed.
Lemma insert_sorted x l : StronglySorted (fun a b => Rleb a b = true) l -> StronglySorted (fun a b => Rleb a b = true) (insert x l).
Proof.
  induction 1 as [|y l Hl IH Hy]; cbn; [repeat constructor|]. destruct (Rleb x y) eqn:E.
  - constructor; [constructor; assumption|]. constructor; [exact E|]. eapply Forall_impl; [|exact Hy]. cbn. intros a Ha. apply Rleb_true in E. apply Rleb_true in Ha. apply Rleb_true. lra.
  - constructor; [exact IH|]. apply Rleb_false in E. eapply Permutation_Forall; [apply insert_perm|]. constructor; [apply Rleb_true; lra|exact Hy].
Qed.
Lemma sort_perm l : Permutation l (sort l).
Proof. induction l as [|x l IH]; cbn; [reflexivity|]. rewrite <- insert_perm. constructor. exact IH. Qed.
Lemma sort_sorted l : StronglySorted (fun a b => Rleb a b = true) (sort l).
Proof. induction l as [|x l IH]; cbn; [constructor|]. apply insert_sorted. exact IH. Qed.
Lemma sort_column n x : sorted_column Rleb n x (sort (map x (seq 0 n))).
Proof. split; [apply sort_perm|apply sort_sorted]. Qed.
Lemma sort_length l : length (sort l) = length l.
Proof. symmetry. apply Permutation_length, sort_perm. Qed.
Lemma Rtied a b : tied Rleb a b <-> a = b.
Proof. unfold tied. rewrite !Rleb_true. lra. Qed.
(** position p of the sorted column *)
Lemma nth_sorted n x p : (p < n)%nat -> let y := nth p (sort (map x (seq 0 n))) 0 in
  (count (fun k => Rltb (x k) y) (seq 0 n) <= p < count (fun k => Rleb (x k) y) (seq 0 n))%nat.
Proof.
  intros H y. assert (A : holds_at Rleb (sort (map x (seq 0 n))) (S p) y).
  { split; [lia|]. exists y. split; [|apply Rtied; reflexivity]. rewrite Nat.sub_1_r. cbn [pred]. apply nth_error_nth'. rewrite sort_length, map_length, seq_length. exact H. }
  apply (position_iff Rleb Rleb_preorder n x _ y (S p) (sort_column n x)) in A.
  assert (E : count (fun k => M_Rank.ltb Rleb (x k) y) (seq 0 n) = count (fun k => Rltb (x k) y) (seq 0 n)).
  { unfold count. f_equal. apply filter_ext. intros k. unfold M_Rank.ltb. destruct (Rltb (x k) y) eqn:E; [apply Rltb_true in E|apply Rltb_false in E]; destruct (Rleb y (x k)) eqn:E'; [apply Rleb_true in E'| |reflexivity|apply Rleb_false in E']; try reflexivity; lra. }
  rewrite E in A. lia.
Qed.
Lemma Int_part_unique x z : IZR z <= x < IZR z + 1 -> Int_part x = z.
Proof.
  intros H. destruct (base_Int_part x) as [H1 H2]. assert (IZR (Int_part x) < IZR z + 1) by lra. assert (IZR z < IZR (Int_part x) + 1) by lra.
  assert (Int_part x < z + 1)%Z by (apply lt_IZR; rewrite plus_IZR; exact H0). assert (z < Int_part x + 1)%Z by (apply lt_IZR; rewrite plus_IZR; exact H3). lia.
Qed.
Lemma mapM_Ok {A B} (f : A -> result B) l : (forall x, In x l -> exists y, f x = Ok y) ->
  exists r, mapM f l = Ok r /\ length r = length l /\ forall k dx dy, (k < length l)%nat -> f (nth k l dx) = Ok (nth k r dy).
Proof.
  induction l as [|x l IH]; intros H; [exists []; repeat split; cbn; intros; lia|]. destruct (H x ltac:(left; reflexivity)) as [y Hy].
  destruct IH as [r [Hr [Lr Nr]]]; [intros; apply H; right; assumption|]. exists (y :: r). cbn [mapM]. rewrite Hy. cbn [bind]. rewrite Hr. cbn [bind length].
  split; [reflexivity|]. split; [congruence|]. intros [|k] dx dy Hk; cbn [nth]; [exact Hy|]. apply Nr. lia.
Qed.
Lemma take_inside s u : (0 < length s)%nat -> 0 <= u < 1 -> exists p, (p < length s)%nat /\ INR p <= u * INR (length s) < INR p + 1 /\ take s (Int_part (u * INR (length s))) = Ok (nth p s 0).
Proof.
  intros Hs Hu. set (n := length s) in *. apply lt_INR in Hs. cbn in Hs. assert (B : 0 <= u * INR n < INR n) by nra.
  destruct (base_Int_part (u * INR n)) as [H1 H2]. set (z := Int_part (u * INR n)) in *.
  assert (Z0 : (0 <= z)%Z) by (assert (-1 < z)%Z by (apply lt_IZR; lra); lia). assert (Z1 : (z < Z.of_nat n)%Z) by (apply lt_IZR; rewrite <- INR_IZR_INZ; lra).
  exists (Z.to_nat z). split; [lia|]. split; [rewrite INR_IZR_INZ, Z2Nat.id by exact Z0; lra|].
  unfold take. fold n. rewrite (proj2 (Z.leb_le 0 z) Z0), (proj2 (Z.ltb_lt z _) Z1). reflexivity.
Qed.
