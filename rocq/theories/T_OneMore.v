(** Theorems: how much one more observation changes. *)
From Coq Require Import QArith Lqa Reals Lra.
From Verif Require Import Base RSumLib CountLib Ext M_Rank S_Rank P_Rank M_Empirical P_Empirical S_OneMore T_Rank.
Local Close Scope Q_scope. Local Close Scope Z_scope. Local Close Scope R_scope. Open Scope nat_scope.

Lemma count_last f n : count f (seq 0 n) <= count f (seq 0 (S n)) <= S (count f (seq 0 n)).
Proof. rewrite seq_S, count_app, count_cons. cbn. destruct (f n); cbn; lia. Qed.
Lemma r2_last {A} (leb : A -> A -> bool) t n x i : r2 leb t n x i <= r2 leb t (S n) x i <= r2 leb t n x i + 2.
Proof.
  destruct t; unfold r2, n_le, n_lt.
  - pose proof (count_last (fun k => leb (x k) (x i)) n). pose proof (count_last (fun k => ltb leb (x k) (x i)) n). lia.
  - pose proof (count_last (fun k => ltb leb (x k) (x i)) n). lia.
  - pose proof (count_last (fun k => leb (x k) (x i)) n). lia.
  - pose proof (count_last (fun k => ltb leb (x k) (x i) && first_occ leb x k) n). lia.
  - pose proof (count_last (fun k => ltb leb (x k) (x i)) n). lia.
Qed.

(** A rank stays or rises by at most 1. *)
Theorem C137_ranks : forall {A} (leb : A -> A -> bool) (m m' : mat A) name r r', one_more m m' ->
  rank_data2 leb m 1 name = Ok r -> rank_data2 leb m' 1 name = Ok r' ->
  forall i j, i < nr m -> j < nc m -> (get r i j <= get r' i j <= get r i j + 1)%Q.
Proof.
  intros A leb m m' name r r' [E1 [E2 E3]] H H' i j Hi Hj. unfold rank_data2 in *. destruct (parse_ties name) as [t|]; [|discriminate]. cbn [bind] in *.
  injection H as <-. injection H' as <-. cbn [get]. rewrite E1.
  assert (E : rankdata leb t (nr m) (fun k => get m k j) i = rankdata leb t (nr m) (fun k => get m' k j) i).
  { apply rankdata_iso; [|exact Hi]. intros a b Ha Hb. rewrite !E3 by assumption. reflexivity. }
  rewrite E, !rankdata_r2. pose proof (r2_last leb t (nr m) (fun k => get m' k j) i) as [L U].
  set (a := r2 leb t (nr m) _ i) in *. set (b := r2 leb t (S (nr m)) _ i) in *. apply inj_le in L, U. rewrite Nat2Z.inj_add in U. rewrite Zle_Qle in L, U. rewrite inject_Z_plus in U. change (inject_Z (Z.of_nat 2)) with 2%Q in U. change (inject_Z 2) with 2%Q.
  unfold Qdiv. change (/ 2)%Q with (1 # 2)%Q. split; Lqa.lra.
Qed.
Print Assumptions C137_ranks.

(** A pseudo-observation moves by at most 1/(n + 2). *)
Theorem C137_pseudo_observations : forall {A} (leb : A -> A -> bool) (m m' : mat A) name u u', total_preorder leb -> one_more m m' ->
  pseudo_obs leb m name = Ok u -> pseudo_obs leb m' name = Ok u' ->
  forall i j, i < nr m -> j < nc m -> let step := (1 / inject_Z (Z.of_nat (nr m + 2)))%Q in (get u i j - step <= get u' i j <= get u i j + step)%Q.
Proof.
  intros A leb m m' name u u' Hp E H H' i j Hi Hj step.
  destruct (C01_pseudo_obs_open_unit_interval A leb Hp m name u H) as [_ [_ B]]. specialize (B i j Hi Hj). unfold pseudo_obs in *.
  destruct (rank_data2 leb m 1 name) as [r|] eqn:R; [|discriminate]. destruct (rank_data2 leb m' 1 name) as [r'|] eqn:R'; [|discriminate]. cbn [rmap] in *.
  pose proof (C137_ranks leb m m' name r r' E R R' i j Hi Hj) as [L U]. injection H as <-. injection H' as <-. cbn [get] in *. destruct E as [E1 _]. rewrite E1. replace (S (nr m) + 1) with (nr m + 2) by lia.
  set (a := get r i j) in *. set (b := get r' i j) in *. rewrite Nat2Z.inj_add, inject_Z_plus in B |- *. subst step. rewrite Nat2Z.inj_add, inject_Z_plus. change (inject_Z (Z.of_nat 1)) with 1%Q in *. change (inject_Z (Z.of_nat 2)) with 2%Q in *.
  assert (P : (0 <= inject_Z (Z.of_nat (nr m)))%Q) by (change 0%Q with (inject_Z 0); rewrite <- Zle_Qle; lia). set (N := inject_Z (Z.of_nat (nr m))) in *.
  assert (Ea : (a / (N + 1) * (N + 1) == a)%Q) by (field; Lqa.lra). set (v := (a / (N + 1))%Q) in *.
  assert (Eb : (b / (N + 2) * (N + 2) == b)%Q) by (field; Lqa.lra). set (w := (b / (N + 2))%Q) in *.
  assert (Es : (1 / (N + 2) * (N + 2) == 1)%Q) by (field; Lqa.lra). set (e := (1 / (N + 2))%Q) in *.
  split; apply (Qmult_le_r _ _ (N + 2)%Q ltac:(Lqa.lra)); Lqa.nra.
Qed.
Print Assumptions C137_pseudo_observations.

(** The empirical distribution function without smoothing moves by at most 1/(n + 1). *)
Open Scope R_scope.
Theorem C137_empirical : forall btdtr (x y y' : mat R) s l l', one_more y y' -> (0 < nr y)%nat -> map_smoothing s = Ok 0%nat ->
  emp_dist_func btdtr x y s 0 = Ok l -> emp_dist_func btdtr x y' s 0 = Ok l' ->
  forall k, (k < nr x)%nat -> exists a b, nth k l Nan = Fin a /\ nth k l' Nan = Fin b /\ Rabs (b - a) <= / INR (nr y + 1).
Proof.
  intros btdtr x y y' s l l' [E1 [E2 E3]] Hy Hs H H' k Hk. unfold emp_dist_func in *. rewrite Hs in *. cbn [bind] in *. rewrite E2 in H'.
  destruct (Nat.eqb_spec (nc x) (nc y)) as [Ec|]; [|discriminate]. cbn [negb] in *. injection H as <-. injection H' as <-. unfold emp_copula_dist.
  assert (P : 0 < INR (nr y)) by (apply lt_0_INR, Hy).
  set (term := fun (z : mat R) i => lprod (map (fun j => emp_cop (get z i j) (get x k j) 0) (seq 0 (nc x)))).
  assert (T : forall z i, 0 <= term z i <= 1) by (intros z i; apply lprod_unit; intros j _; unfold emp_cop; destruct (Rleb _ _); lra).
  assert (V : forall z, (0 < nr z)%nat -> nth k (map (fun i => emp_dist_row (ravelF x) (ravelF z) (nr x) (nr z) (nc x) i 0 emp_cop) (seq 0 (nr x))) Nan = Fin (rsum (nr z) (term z) / INR (nr z))).
  { intros z Hz. apply lt_0_INR in Hz. set (g := fun i => emp_dist_row (ravelF x) (ravelF z) (nr x) (nr z) (nc x) i 0 emp_cop). rewrite (nth_indep _ Nan (g 0%nat)) by (rewrite map_length, seq_length; exact Hk).
    rewrite map_nth, seq_nth by exact Hk. cbn [Nat.add]. unfold g. rewrite emp_dist_row_eq by (lra || exact Hk). rewrite Rplus_0_r. reflexivity. }
  rewrite (V y Hy), (V y' ltac:(lia)). eexists. eexists. split; [reflexivity|]. split; [reflexivity|]. rewrite E1. cbn [rsum].
  rewrite (rsum_ext (nr y) (term y') (term y)).
  2:{ intros i Hi. apply lprod_map_ext. intros j Hj. apply in_seq in Hj. rewrite E3 by lia. reflexivity. }
  assert (B : 0 <= rsum (nr y) (term y) <= INR (nr y)).
  { split; [apply rsum_nonneg; intros i _; apply T|]. rewrite <- (Rmult_1_r (INR (nr y))), <- rsum_const. apply rsum_le. intros i _. apply T. }
  pose proof (T y' (nr y)) as B'. set (S0 := rsum (nr y) (term y)) in *. set (e := term y' (nr y)) in *. replace (nr y + 1)%nat with (S (nr y)) by lia. rewrite S_INR. set (n := INR (nr y)) in *.
  replace ((S0 + e) / (n + 1) - S0 / n) with ((e - S0 / n) * / (n + 1)) by (field; lra). rewrite Rabs_mult, (Rabs_right (/ (n + 1))) by (left; apply Rinv_0_lt_compat; lra).
  rewrite <- (Rmult_1_l (/ (n + 1))) at 2. apply Rmult_le_compat_r; [left; apply Rinv_0_lt_compat; lra|].
  assert (0 <= S0 / n <= 1). { split; [apply Rmult_le_pos; [lra|left; apply Rinv_0_lt_compat, P]|]. apply (Rmult_le_reg_r n); [exact P|]. unfold Rdiv. rewrite Rmult_assoc, Rinv_l by lra. lra. }
  apply Rabs_le. lra.
Qed.
Print Assumptions C137_empirical.

(** Three observations and a fourth below them: the rank of the first rises from 2 to 3, its pseudo-observation from 1/2 to 3/5. *)
Example C137_case : let m := mkMat 3 1 (fun i _ => nth i [2; 1; 4]%Q 0%Q) in let m' := mkMat 4 1 (fun i _ => nth i [2; 1; 4; 0]%Q 0%Q) in
  one_more m m' /\ exists u u', pseudo_obs Qle_bool m "max" = Ok u /\ pseudo_obs Qle_bool m' "max" = Ok u' /\ (get u 0 0 == 1 # 2)%Q /\ (get u' 0 0 == 3 # 5)%Q.
Proof.
  intros m m'. split.
  - split; [reflexivity|]. split; [reflexivity|]. intros [|[|[|i]]] j Hi Hj; cbn in *; try reflexivity; lia.
  - eexists. eexists. split; [reflexivity|]. split; [reflexivity|]. split; reflexivity.
Qed.
