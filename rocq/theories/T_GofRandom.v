(** C117: the random numbers of the tests of exchangeability and radial symmetry. *)
From Coq Require Import QArith Qreals Lra Lia.
From Coquelicot Require Import Coquelicot.
From Verif Require Import Base RSumLib CountLib Ext M_Rank S_Rank P_Rank M_Special M_Stats M_Empirical S_Empirical P_Empirical M_Gof S_Gof P_Gof T_Gof M_GofRun T_GofRun.
Local Close Scope Q_scope. Local Close Scope Z_scope. Open Scope R_scope.

Lemma exch_untied_true n x y ties : documented ties -> no_ties Rleb n x -> no_ties Rleb n y -> exch_untied n x y ties = true.
Proof.
  intros D Hx Hy. destruct (parse_ties_ok ties D) as [t Ht]. unfold exch_untied, pseudo_obs1, rank_data1. rewrite Ht. cbn [bind rmap].
  exact (untied_pairs t n x y Hx Hy).
Qed.
Section C117.
  Context {Np C : Type} (seed : Z -> Np) (normals : nat -> nat -> Np -> (nat -> nat -> R) * Np) (coins : nat -> nat -> C -> (nat -> nat -> bool) * C) (argsort : list R -> list Z).
  Hypothesis Ha : argsorts argsort.
  (** Without ties the test of exchangeability seeds numpy's global generator: it leaves it in a state that depends on the sizes only, whatever
      the state before was, and two runs on the same data never differ. *)
  Theorem C117_exchangeability_refuted : forall n x y N m ties s s' c c', documented ties -> (0 < N)%nat -> no_ties Rleb n x -> no_ties Rleb n y ->
    fst (snd (exch_run seed normals coins argsort n x y N m ties s c)) = snd (normals N n (seed 8888%Z)) /\
    fst (exch_run seed normals coins argsort n x y N m ties s c) = fst (exch_run seed normals coins argsort n x y N m ties s' c').
  Proof.
    intros n x y N m ties s s' c c' D HN Hx Hy. unfold exch_run. destruct (normals N n (seed 8888%Z)) as [g s1]. destruct (coins N n c) as [b c1]. destruct (coins N n c') as [b' c1'].
    destruct (exch_test_Ok argsort n x y N m ties g b Ha D HN) as [st [p E]]. cbn [fst snd]. rewrite E. rewrite (exch_untied_true n x y ties D Hx Hy). cbn [fst snd].
    split; [reflexivity|]. destruct (parse_ties_ok ties D) as [t Ht]. rewrite <- E. rewrite !(exch_test_eq argsort n x y N m ties g _ t Ht HN).
    unfold simulated. rewrite (untied_pairs t n x y Hx Hy). reflexivity.
  Qed.
End C117.
(** With ties, and in the test of radial symmetry, numpy's generator is left alone; a test that answers has used up the coins of rand(). *)
Theorem C117_exchangeability_ties : forall Np C (seed : Z -> Np) normals (coins : nat -> nat -> C -> (nat -> nat -> bool) * C) argsort n x y N m ties s c i k,
  lower ties <> "ordinal"%string -> (i < n)%nat -> (k < n)%nat -> i <> k -> x i = x k \/ y i = y k ->
  fst (snd (exch_run seed normals coins argsort n x y N m ties s c)) = s /\
  forall r, fst (exch_run seed normals coins argsort n x y N m ties s c) = Ok r -> snd (snd (exch_run seed normals coins argsort n x y N m ties s c)) = snd (coins N n c).
Proof.
  intros Np C seed normals coins argsort n x y N m ties s c i k No Hi Hk Ne T. unfold exch_run. destruct (normals N n (seed 8888%Z)) as [g s1]. destruct (coins N n c) as [b c1].
  cbn [fst snd]. destruct (exch_test argsort n n x y N m ties g b) as [r|e] eqn:E; [|split; [reflexivity|discriminate]].
  destruct (exch_test_inv _ _ _ _ _ _ _ _ _ _ _ E) as [_ [_ [t Ht]]].
  assert (U : exch_untied n x y ties = false); [|rewrite U; split; reflexivity].
  unfold exch_untied, pseudo_obs1, rank_data1. rewrite Ht. cbn [bind rmap]. pose proof (parse_ties_ordinal ties t Ht No) as Nt.
  assert (S : forall z : nat -> R, z i = z k -> Q2R (rankdata Rleb t n z i / inject_Z (Z.of_nat (n + 1)))%Q = Q2R (rankdata Rleb t n z k / inject_Z (Z.of_nat (n + 1)))%Q).
  { intros z Ez. rewrite !Q2R_pobs1, !rank_half. rewrite (r2_eq Rleb Rleb_preorder t n z i k Nt); [reflexivity|]. unfold eqb. rewrite Ez. rewrite (proj2 (Rleb_true _ _) (Rle_refl (z k))). reflexivity. }
  apply andb_false_iff. destruct T as [T|T]; [left|right]; apply (distinct_false _ i k); rewrite ?column_length; cbn [nr]; try assumption;
    rewrite !column_nth by assumption; cbn [get Nat.eqb]; apply S, T.
Qed.
Print Assumptions C117_exchangeability_ties.
Theorem C117_radial_symmetry : forall Np C (coins : nat -> nat -> C -> (nat -> nat -> bool) * C) argsort x N ties (s : Np) c,
  fst (snd (rad_sym_run coins argsort x N ties s c)) = s /\
  forall r, fst (rad_sym_run coins argsort x N ties s c) = Ok r -> snd (snd (rad_sym_run coins argsort x N ties s c)) = snd (coins N (nr x) c).
Proof. intros. unfold rad_sym_run. destruct (coins N (nr x) c) as [b c1]. cbn [fst snd]. destruct (rad_sym_test argsort x N ties b); split; try reflexivity; discriminate. Qed.
Print Assumptions C117_radial_symmetry.

(** the statistic of ranked rows, from their ranks in integers *)
Lemma ranked_stat ub v z (r : list (list Z)) : pseudo_obs Rleb ub "average" = Ok v -> nr ub = 3%nat -> nc ub = 2%nat ->
  (forall i k j, (i < 3)%nat -> (k < 3)%nat -> (j < 2)%nat -> Rleb (get ub i j) (get ub k j) = Z.leb (nth j (nth i z []) 0%Z) (nth j (nth k z []) 0%Z)) ->
  (forall i j, (i < 3)%nat -> (j < 2)%nat -> (rankdata Z.leb Average 3 (fun k => nth j (nth k z []) 0%Z) i == inject_Z (nth j (nth i r []) 0%Z))%Q) ->
  rad_sym_test_stat (ravelF (real_mat v)) 3 2 = rsum 3 (fun k => let d := rows_below 3 2 (quarters (fun i j => nth j (nth i r []) 0%Z)) k / 3 in d * d).
Proof.
  intros Hv Hn Hc Ho Hr. destruct (pseudo_obs_Ok Rleb _ _ _ Hv) as [t [Ht [Ru [Cu Gu]]]]. cbn in Ht. injection Ht as <-.
  transitivity (rad_sym_test_stat (ravelF (real_mat v)) (nr (real_mat v)) (nc (real_mat v))); [cbn [real_mat nr nc]; rewrite Ru, Cu, Hn, Hc; reflexivity|]. rewrite rad_stat_rows.
  cbn [real_mat nr nc]. rewrite Ru, Cu, Hn, Hc. apply rsum_ext. intros k Hk. replace (INR 3) with 3 by (cbn; ring). cbv zeta.
  rewrite (rows_below_ext 3 2 _ (quarters (fun i j => nth j (nth i r []) 0%Z))); [reflexivity| |exact Hk].
  intros i j Hi Hj. cbn [real_mat get]. rewrite Gu, Q2R_pobs1, Hn.
  rewrite (rankdata_iso Rleb Z.leb Average 3 (fun k => get ub k j) (fun k => nth j (nth k z []) 0%Z) i); [|intros a b Ha' Hb'; apply Ho; assumption|exact Hi].
  rewrite (Qeq_eqR _ _ (Hr i j Hi Hj)). unfold quarters, Q2R, inject_Z. cbn [Qnum Qden INR]. field.
Qed.
Definition three := mkMat 3 2 (fun i j => IZR (nth j (nth i [[1; 1]; [2; 3]; [3; 2]]%Z []) 0%Z)).
Lemma three_untied : has_ties three = false.
Proof.
  unfold has_ties. apply negb_false_iff, forallb_forall. intros j Hj. cbn [nc three] in Hj. apply in_seq in Hj. apply distinct_true. intros i k Hi Hk. rewrite column_length in *. cbn [nr three] in *.
  rewrite !column_nth by (cbn [nr three]; lia). cbn [get three]. destruct j as [|[|j]]; [| |lia]; destruct i as [|[|[|i]]]; try lia; destruct k as [|[|[|k]]]; try lia; cbn [nth]; intros E; try reflexivity; lra.
Qed.
Lemma three_test argsort bits (flip : bool) : argsorts argsort -> (forall i, (i < 3)%nat -> bits 0%nat i = flip) ->
  rad_sym_test argsort three 1 "average" bits = Ok (/ 9, if flip then / 4 else 3 / 4).
Proof.
  intros Ha Hb. destruct (rad_test_Ok argsort three 1 "average" bits Ha) as [s [p E]]; [unfold documented; cbn; tauto|lia|]. rewrite E.
  destruct (rad_test_inv _ _ _ _ _ _ _ Ha E) as [_ [u [ir [s0 [Hu [_ [Hs [Hm [_ [_ Hp]]]]]]]]]]. rewrite three_untied in Hm. cbn [seq mapM] in Hm.
  unfold rad_sym_replicate in Hm. cbn [bind] in Hm. set (ub := mkMat (nr (real_mat u)) (nc (real_mat u)) (fun i j => if bits 0%nat i then 1 - get (real_mat u) i j else get (real_mat u) i j)) in Hm.
  destruct (pobs_average_Ok ub) as [v Hv]. rewrite Hv in Hm. cbn [bind] in Hm. injection Hm as <-. change (nr three) with 3%nat in *. change (nc three) with 2%nat in *.
  destruct (pseudo_obs_Ok Rleb _ _ _ Hu) as [t [Ht [Ru [Cu Gu]]]]. cbn in Ht. injection Ht as <-.
  assert (O : forall i k j, (i < 3)%nat -> (k < 3)%nat -> (j < 2)%nat -> Rleb (get (real_mat u) i j) (get (real_mat u) k j) = Rleb (get three i j) (get three k j)).
  { intros i k j Hi Hk Hj. cbn [real_mat get]. rewrite !Gu. apply (rank_order Average 3 (fun k => get three k j)); [left; discriminate|assumption|assumption]. }
  assert (Z3 : forall i k j, (i < 3)%nat -> (k < 3)%nat -> (j < 2)%nat ->
    Rleb (get three i j) (get three k j) = Z.leb (nth j (nth i [[1; 1]; [2; 3]; [3; 2]]%Z []) 0%Z) (nth j (nth k [[1; 1]; [2; 3]; [3; 2]]%Z []) 0%Z)).
  { intros i k j _ _ _. cbn [get three]. destruct (Z.leb_spec (nth j (nth i [[1; 1]; [2; 3]; [3; 2]]%Z []) 0%Z) (nth j (nth k [[1; 1]; [2; 3]; [3; 2]]%Z []) 0%Z)) as [L|L];
      [apply Rleb_true, IZR_le, L|apply Rleb_false, IZR_lt, L]. }
  assert (S1 : s = / 9).
  { rewrite Hs. rewrite (ranked_stat three u [[1; 1]; [2; 3]; [3; 2]]%Z [[1; 1]; [2; 3]; [3; 2]]%Z Hu eq_refl eq_refl Z3).
    - cbn [rsum]. rewrite !rows_below_Z. eval_IZR. field.
    - intros [|[|[|i]]] [|[|j]] Hi Hj; try lia; reflexivity. }
  assert (S2 : rad_sym_test_stat (ravelF (real_mat v)) 3 2 = if flip then 0 else / 9).
  { destruct flip.
    - rewrite (ranked_stat ub v [[-1; -1]; [-2; -3]; [-3; -2]]%Z [[3; 3]; [2; 1]; [1; 2]]%Z Hv Ru Cu).
      + cbn [rsum]. rewrite !rows_below_Z. eval_IZR. field.
      + intros i k j Hi Hk Hj. unfold ub. cbn [get]. rewrite !Hb by assumption.
        transitivity (Rleb (get (real_mat u) k j) (get (real_mat u) i j)).
        { destruct (Rle_lt_dec (get (real_mat u) k j) (get (real_mat u) i j)) as [L|L].
          - rewrite (proj2 (Rleb_true _ _) L). apply Rleb_true. lra.
          - rewrite (proj2 (Rleb_false _ _) L). apply Rleb_false. lra. }
        rewrite O, Z3 by assumption. destruct i as [|[|[|i]]]; try lia; destruct k as [|[|[|k]]]; try lia; destruct j as [|[|j]]; try lia; reflexivity.
      + intros [|[|[|i]]] [|[|j]] Hi Hj; try lia; reflexivity.
    - rewrite (ranked_stat ub v [[1; 1]; [2; 3]; [3; 2]]%Z [[1; 1]; [2; 3]; [3; 2]]%Z Hv Ru Cu).
      + cbn [rsum]. rewrite !rows_below_Z. eval_IZR. field.
      + intros i k j Hi Hk Hj. unfold ub. cbn [get]. rewrite !Hb by assumption. rewrite O, Z3 by assumption. reflexivity.
      + intros [|[|[|i]]] [|[|j]] Hi Hj; try lia; reflexivity. }
  rewrite Hp, S1, S2. f_equal. f_equal. unfold p_value. cbn [count filter length]. destruct flip.
  - rewrite (proj2 (Rleb_false (/ 9) 0)) by lra. cbn. lra.
  - rewrite (proj2 (Rleb_true (/ 9) (/ 9))) by lra. cbn. lra.
Qed.
(** Seeding numpy does not make the tests reproducible: the coins come from the C library.  The same data with the same state of numpy's generator gives
    the p-value 3/4 or 1/4, depending on the state of the other generator. *)
Theorem C117_seed_refuted : forall Np C (coins : nat -> nat -> C -> (nat -> nat -> bool) * C) argsort (s : Np) c c', argsorts argsort ->
  (forall i, (i < 3)%nat -> fst (coins 1%nat 3%nat c) 0%nat i = false) -> (forall i, (i < 3)%nat -> fst (coins 1%nat 3%nat c') 0%nat i = true) ->
  exists x, fst (rad_sym_run coins argsort x 1 "average" s c) = Ok (/ 9, 3 / 4) /\ fst (rad_sym_run coins argsort x 1 "average" s c') = Ok (/ 9, / 4).
Proof.
  intros Np C coins argsort s c c' Ha H H'. exists three. unfold rad_sym_run. change (nr three) with 3%nat. destruct (coins 1%nat 3%nat c) as [b c1]. destruct (coins 1%nat 3%nat c') as [b' c1'].
  cbn [fst] in *. split; [exact (three_test argsort b false Ha H)|exact (three_test argsort b' true Ha H')].
Qed.
Print Assumptions C117_seed_refuted.
(** States as coin sequences meet the hypotheses of C117_seed_refuted, and columns 1, 2, 3 and 2, 3, 1 those of the first theorem. *)
Example C117_case : (forall i, (i < 3)%nat -> fst ((fun (_ _ : nat) (c : bool) => ((fun _ _ : nat => c), c)) 1%nat 3%nat false) 0%nat i = false) /\
  no_ties Rleb 3 INR /\ no_ties Rleb 3 (fun i => nth i [2; 3; 1] 0).
Proof.
  split; [reflexivity|]. split; intros i k Hi Hk [T1 T2]; apply Rleb_true in T1, T2.
  - apply INR_le in T1, T2. lia.
  - destruct i as [|[|[|i]]]; try lia; destruct k as [|[|[|k]]]; try lia; cbn [nth] in *; try reflexivity; lra.
Qed.
Print Assumptions C117_exchangeability_refuted.
