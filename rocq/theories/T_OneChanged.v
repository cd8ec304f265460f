(** Theorems: how much one changed observation changes the others. *)
From Coq Require Import QArith Lqa Reals Lra.
From Verif Require Import Base RSumLib CountLib Ext M_Rank S_Rank P_Rank M_Empirical P_Empirical S_OneChanged T_Rank.
Local Close Scope Q_scope. Local Close Scope Z_scope. Local Close Scope R_scope. Open Scope nat_scope.

Lemma count_changed f g r n : (forall k, k < n -> k <> r -> f k = g k) -> count f (seq 0 n) <= S (count g (seq 0 n)).
Proof.
  induction n as [|n IH]; intros H; [cbn; lia|]. rewrite seq_S, !count_app, !count_cons. cbn [Nat.add count filter length].
  destruct (Nat.eq_dec n r) as [->|N].
  - rewrite (count_ext f g (seq 0 r)) by (intros k Hk; apply in_seq in Hk; apply H; lia). destruct (f r), (g r); cbn; lia.
  - rewrite (H n) by lia. specialize (IH ltac:(intros; apply H; lia)). destruct (g n); cbn; lia.
Qed.
Lemma dense_changed {A} (leb : A -> A -> bool) n x y r a : total_preorder leb -> (forall k, k < n -> k <> r -> y k = x k) ->
  count (fun k => ltb leb (y k) a && first_occ leb y k) (seq 0 n) <= S (count (fun k => ltb leb (x k) a && first_occ leb x k) (seq 0 n)).
Proof.
  intros Hp H. set (z := fun k => if k <? n then x k else y r).
  assert (Zn : forall k, k < n -> z k = x k) by (intros k Hk; unfold z; rewrite (proj2 (Nat.ltb_lt _ _) Hk); reflexivity).
  pose proof (dense_mono leb Hp n (S n) y z a) as L. pose proof (dense_mono leb Hp n n z x a) as U.
  specialize (U ltac:(intros k Hk; exists k; split; [exact Hk|]; rewrite Zn by exact Hk; apply eqb_refl, Hp)).
  eapply Nat.le_trans; [apply L|].
  - intros k Hk. destruct (Nat.eq_dec k r) as [->|N].
    + exists n. split; [lia|]. unfold z. rewrite Nat.ltb_irrefl. apply eqb_refl, Hp.
    + exists k. split; [lia|]. rewrite Zn, H by assumption. apply eqb_refl, Hp.
  - rewrite seq_S, count_app, count_cons. cbn [Nat.add count filter length]. destruct (_ && _); cbn; lia.
Qed.
Lemma r2_changed {A} (leb : A -> A -> bool) t n x y r i : total_preorder leb -> i < n -> i <> r -> (forall k, k < n -> k <> r -> y k = x k) -> r2 leb t n y i <= r2 leb t n x i + 2.
Proof.
  intros Hp Hi Hr H. pose proof (H i Hi Hr) as Ei.
  pose proof (count_changed (fun k => leb (y k) (y i)) (fun k => leb (x k) (x i)) r n ltac:(intros k Hk Nk; rewrite Ei, H by assumption; reflexivity)) as L.
  pose proof (count_changed (fun k => ltb leb (y k) (y i)) (fun k => ltb leb (x k) (x i)) r n ltac:(intros k Hk Nk; rewrite Ei, H by assumption; reflexivity)) as U.
  destruct t; unfold r2, n_le, n_lt in *; try lia.
  { pose proof (dense_changed leb n x y r (x i) Hp H). rewrite Ei. lia. }
  pose proof (ordinal_lex leb Hp n y i Hi) as Oy. pose proof (ordinal_lex leb Hp n x i Hi) as Ox. unfold n_lt in Ox, Oy.
  pose proof (count_changed (fun k => lexb leb y k i) (fun k => lexb leb x k i) r n ltac:(intros k Hk Nk; unfold lexb; rewrite Ei, H by assumption; reflexivity)). lia.
Qed.

(** A rank moves by at most 1. *)
Theorem C139_ranks : forall {A} (leb : A -> A -> bool) c (m m' : mat A) name r r', total_preorder leb -> one_changed c m m' ->
  rank_data2 leb m 1 name = Ok r -> rank_data2 leb m' 1 name = Ok r' ->
  forall i j, i < nr m -> j < nc m -> i <> c -> (get r i j - 1 <= get r' i j <= get r i j + 1)%Q.
Proof.
  intros A leb c m m' name r r' Hp [E1 [E2 [E3 E4]]] H H' i j Hi Hj Hc. unfold rank_data2 in *. destruct (parse_ties name) as [t|]; [|discriminate]. cbn [bind] in *.
  injection H as <-. injection H' as <-. cbn [get]. rewrite E1, !rankdata_r2.
  pose proof (r2_changed leb t (nr m) (fun k => get m k j) (fun k => get m' k j) c i Hp Hi Hc ltac:(intros k Hk Nk; apply E4; assumption)) as U.
  pose proof (r2_changed leb t (nr m) (fun k => get m' k j) (fun k => get m k j) c i Hp Hi Hc ltac:(intros k Hk Nk; symmetry; apply E4; assumption)) as L.
  set (a := r2 leb t (nr m) (fun k => get m k j) i) in *. set (b := r2 leb t (nr m) (fun k => get m' k j) i) in *.
  apply inj_le in L, U. rewrite Nat2Z.inj_add in L, U. rewrite Zle_Qle in L, U. rewrite inject_Z_plus in L, U. change (inject_Z (Z.of_nat 2)) with 2%Q in *. change (inject_Z 2) with 2%Q.
  unfold Qdiv. change (/ 2)%Q with (1 # 2)%Q. split; Lqa.lra.
Qed.
Print Assumptions C139_ranks.

(** A pseudo-observation of the others moves by at most 1/(n + 1). *)
Theorem C139_pseudo_observations : forall {A} (leb : A -> A -> bool) c (m m' : mat A) name u u', total_preorder leb -> one_changed c m m' ->
  pseudo_obs leb m name = Ok u -> pseudo_obs leb m' name = Ok u' ->
  forall i j, i < nr m -> j < nc m -> i <> c -> let step := (1 / inject_Z (Z.of_nat (nr m + 1)))%Q in (get u i j - step <= get u' i j <= get u i j + step)%Q.
Proof.
  intros A leb c m m' name u u' Hp E H H' i j Hi Hj Hc step. unfold pseudo_obs in *.
  destruct (rank_data2 leb m 1 name) as [r|] eqn:R; [|discriminate]. destruct (rank_data2 leb m' 1 name) as [r'|] eqn:R'; [|discriminate]. cbn [rmap] in *.
  pose proof (C139_ranks leb c m m' name r r' Hp E R R' i j Hi Hj Hc) as [L U]. injection H as <-. injection H' as <-. cbn [get] in *. destruct E as [E1 _]. rewrite E1. subst step.
  assert (P : (0 < inject_Z (Z.of_nat (nr m + 1)))%Q) by (change 0%Q with (inject_Z 0); rewrite <- Zlt_Qlt; lia). set (N := inject_Z (Z.of_nat (nr m + 1))) in *.
  assert (I : (0 < / N)%Q) by (apply Qinv_lt_0_compat, P). unfold Qdiv. set (v := (/ N)%Q) in *. split; Lqa.nra.
Qed.
Print Assumptions C139_pseudo_observations.

(** The empirical distribution function without smoothing moves by at most 1/n. *)
Open Scope R_scope.
Theorem C139_empirical : forall btdtr c (x y y' : mat R) s l l', one_changed c y y' -> map_smoothing s = Ok 0%nat ->
  emp_dist_func btdtr x y s 0 = Ok l -> emp_dist_func btdtr x y' s 0 = Ok l' ->
  forall k, (k < nr x)%nat -> exists a b, nth k l Nan = Fin a /\ nth k l' Nan = Fin b /\ Rabs (b - a) <= / INR (nr y).
Proof.
  intros btdtr c x y y' s l l' [E1 [E2 [E3 E4]]] Hs H H' k Hk. unfold emp_dist_func in *. rewrite Hs in *. cbn [bind] in *. rewrite E2 in H'.
  destruct (Nat.eqb_spec (nc x) (nc y)) as [Ec|]; [|discriminate]. cbn [negb] in *. injection H as <-. injection H' as <-. unfold emp_copula_dist.
  assert (P : 0 < INR (nr y)) by (apply lt_0_INR; lia).
  set (term := fun (z : mat R) i => lprod (map (fun j => emp_cop (get z i j) (get x k j) 0) (seq 0 (nc x)))).
  assert (T : forall z i, 0 <= term z i <= 1) by (intros z i; apply lprod_unit; intros j _; unfold emp_cop; destruct (Rleb _ _); lra).
  assert (V : forall z, (0 < nr z)%nat -> nth k (map (fun i => emp_dist_row (ravelF x) (ravelF z) (nr x) (nr z) (nc x) i 0 emp_cop) (seq 0 (nr x))) Nan = Fin (rsum (nr z) (term z) / INR (nr z))).
  { intros z Hz. apply lt_0_INR in Hz. set (g := fun i => emp_dist_row (ravelF x) (ravelF z) (nr x) (nr z) (nc x) i 0 emp_cop). rewrite (nth_indep _ Nan (g 0%nat)) by (rewrite map_length, seq_length; exact Hk).
    rewrite map_nth, seq_nth by exact Hk. cbn [Nat.add]. unfold g. rewrite emp_dist_row_eq by (lra || exact Hk). rewrite Rplus_0_r. reflexivity. }
  rewrite (V y ltac:(lia)), (V y' ltac:(lia)). eexists. eexists. split; [reflexivity|]. split; [reflexivity|]. rewrite E1.
  replace (rsum (nr y) (term y') / INR (nr y) - rsum (nr y) (term y) / INR (nr y)) with ((rsum (nr y) (term y') - rsum (nr y) (term y)) * / INR (nr y)) by (unfold Rdiv; ring).
  rewrite <- rsum_minus. rewrite (rsum_ext (nr y) _ (fun i => if Nat.eqb i c then term y' i - term y i else 0)).
  2:{ intros i Hi. destruct (Nat.eqb_spec i c) as [_|N]; [reflexivity|]. replace (term y' i) with (term y i); [ring|]. apply lprod_map_ext. intros j Hj. apply in_seq in Hj. rewrite E4 by (lia || exact N). reflexivity. }
  rewrite (rsum_delta (nr y) c (fun i => term y' i - term y i)) by exact E3.
  rewrite Rabs_mult, (Rabs_right (/ INR (nr y))) by (left; apply Rinv_0_lt_compat, P). rewrite <- (Rmult_1_l (/ INR (nr y))) at 2. apply Rmult_le_compat_r; [left; apply Rinv_0_lt_compat, P|].
  pose proof (T y' c). pose proof (T y c). apply Rabs_le. lra.
Qed.
Print Assumptions C139_empirical.
(** Three observations of which the last moves from the top to the bottom: the rank of the first rises from 2 to 3. *)
Example C139_case : let m := mkMat 3 1 (fun i _ => nth i [2; 1; 4]%Q 0%Q) in let m' := mkMat 3 1 (fun i _ => nth i [2; 1; 0]%Q 0%Q) in
  one_changed 2 m m' /\ exists u u', pseudo_obs Qle_bool m "average" = Ok u /\ pseudo_obs Qle_bool m' "average" = Ok u' /\ (get u 0 0 == 2 # 4)%Q /\ (get u' 0 0 == 3 # 4)%Q.
Proof.
  intros m m'. split.
  - split; [reflexivity|]. split; [reflexivity|]. split; [cbn; lia|]. intros [|[|[|i]]] j Hi Hj N; cbn in *; try reflexivity; lia.
  - eexists. eexists. split; [reflexivity|]. split; [reflexivity|]. split; reflexivity.
Qed.
