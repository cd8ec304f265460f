(** Property C129: turning the variables round (/repo/copulae/core/misc.py:55-145, gof/_radial_symmetry.pyx, archimedean/frank.py). *)
From Coq Require Import Reals QArith Qreals FunctionalExtensionality.
From Verif Require Import Base RSumLib CountLib Ext S_Matrix S_Rank M_Rank P_Rank M_Special M_Stats M_Empirical P_Empirical M_Gof S_Gof P_Gof
  M_Archimedean S_Archimedean S_Scale S_Reversal T_Gof T_Archimedean.
Local Close Scope Q_scope. Local Close Scope Z_scope. Open Scope R_scope. Open Scope list_scope.

Definition geb (a b : R) : bool := Rleb b a.
Lemma geb_preorder : total_preorder geb.
Proof. destruct Rleb_preorder as [T Tr]. split; [intros x y; exact (T y x)|]. intros x y z A B. exact (Tr z y x B A). Qed.
Lemma turn_leb flip f j : turning_scales flip f -> (fun a b => Rleb (f j a) (f j b)) = if flip j then geb else Rleb.
Proof.
  intros H. apply functional_extensionality. intros a. apply functional_extensionality. intros b. pose proof (H j) as K.
  destruct (flip j); unfold geb.
  - destruct (Rleb b a) eqn:E; [apply Rleb_true in E; apply Rleb_true|apply Rleb_false in E; apply Rleb_false; apply K; exact E].
    destruct E as [E| ->]; [left; apply K; exact E|right; reflexivity].
  - destruct (Rleb a b) eqn:E; [apply Rleb_true in E; apply Rleb_true|apply Rleb_false in E; apply Rleb_false; apply K; exact E].
    destruct E as [E| ->]; [left; apply K; exact E|right; reflexivity].
Qed.
Lemma count_not {A} (p : A -> bool) l : (count (fun a => negb (p a)) l + count p l = length l)%nat.
Proof. induction l as [|a l IH]; [reflexivity|]. rewrite !count_cons. cbn [length]. destruct (p a); cbn [negb]; lia. Qed.
Lemma n_lt_turn n x i : (n_lt geb n x i + n_le Rleb n x i = n)%nat.
Proof.
  unfold n_lt, n_le, ltb, geb. rewrite (count_not (fun k => Rleb (x k) (x i)) (seq 0 n)). apply seq_length.
Qed.
Lemma n_le_turn n x i : (n_le geb n x i + n_lt Rleb n x i = n)%nat.
Proof.
  unfold n_lt, n_le, ltb, geb. pose proof (count_not (fun k => Rleb (x i) (x k)) (seq 0 n)) as C. rewrite seq_length in C. lia.
Qed.
Lemma inject_sum (a b n : nat) : (a + b = n)%nat -> (inject_Z (Z.of_nat a) == inject_Z (Z.of_nat n) - inject_Z (Z.of_nat b))%Q.
Proof. intros <-. rewrite Nat2Z.inj_add, inject_Z_plus. ring. Qed.
(** the rank from the other end *)
Lemma average_turn n x i : (rankdata geb Average n x i == inject_Z (Z.of_nat (n + 1)) - rankdata Rleb Average n x i)%Q.
Proof.
  pose proof (n_lt_turn n x i) as A. pose proof (n_le_turn n x i) as B. cbn [rankdata].
  rewrite (inject_sum (n_le geb n x i + n_lt geb n x i + 1) (n_le Rleb n x i + n_lt Rleb n x i + 1) (2 * (n + 1))) by lia.
  rewrite Nat2Z.inj_mul, inject_Z_mult. change (inject_Z (Z.of_nat 2)) with (inject_Z 2). field.
Qed.
Lemma min_turn n x i : (rankdata geb MinRank n x i == inject_Z (Z.of_nat (n + 1)) - rankdata Rleb MaxRank n x i)%Q.
Proof. pose proof (n_lt_turn n x i). cbn [rankdata]. apply inject_sum. lia. Qed.
Lemma max_turn n x i : (rankdata geb MaxRank n x i == inject_Z (Z.of_nat (n + 1)) - rankdata Rleb MinRank n x i)%Q.
Proof. pose proof (n_le_turn n x i). cbn [rankdata]. apply inject_sum. lia. Qed.
Lemma no_ties_any leb t n (x : nat -> R) i : total_preorder leb -> no_ties leb n x -> (i < n)%nat -> (rankdata leb t n x i == rankdata leb Average n x i)%Q.
Proof.
  intros P N Hi. rewrite (rankdata_r2 leb t), (rankdata_r2 leb Average), (no_ties_r2 leb P t n x i N Hi), (no_ties_r2 leb P Average n x i N Hi). reflexivity.
Qed.
(** one column of pseudo-observations *)
Lemma pobs_turn flip f x s s' u v : turning_scales flip f -> pseudo_obs Rleb x s = Ok u -> pseudo_obs Rleb (rescaled f x) s' = Ok v ->
  exists t t', parse_ties s = Ok t /\ parse_ties s' = Ok t' /\ forall i j,
    get u i j = (rankdata Rleb t (nr x) (fun k => get x k j) i / inject_Z (Z.of_nat (nr x + 1)))%Q /\
    get v i j = (rankdata (if flip j then geb else Rleb) t' (nr x) (fun k => get x k j) i / inject_Z (Z.of_nat (nr x + 1)))%Q.
Proof.
  intros H Eu Ev. destruct (pseudo_obs_Ok Rleb x s u Eu) as [t [Et [_ [_ Gu]]]]. destruct (pseudo_obs_Ok Rleb _ s' v Ev) as [t' [Et' [_ [_ Gv]]]].
  exists t, t'. split; [exact Et|]. split; [exact Et'|]. intros i j. split; [apply Gu|]. rewrite Gv. cbn [rescaled nr nc get]. rewrite <- (turn_leb flip f j H). reflexivity.
Qed.
Lemma share_turn (a b n : Q) : (0 < n)%Q -> (b == n - a)%Q -> (b / n == 1 - a / n)%Q.
Proof. intros P E. rewrite E. field. intros Z. rewrite Z in P. exact (Qlt_irrefl _ P). Qed.

(** average ranks: turning a column round turns its pseudo-observations u into 1 - u; the other columns stay as they are *)
Theorem C129_average : forall flip f x s u v, turning_scales flip f -> lower s = "average"%string ->
  pseudo_obs Rleb x s = Ok u -> pseudo_obs Rleb (rescaled f x) s = Ok v ->
  forall i j, (get v i j == if flip j then 1 - get u i j else get u i j)%Q.
Proof.
  intros flip f x s u v H Hs Eu Ev i j. destruct (pobs_turn flip f x s s u v H Eu Ev) as [t [t' [Et [Et' G]]]].
  assert (A : parse_ties s = Ok Average) by (unfold parse_ties; rewrite Hs; reflexivity). assert (t = Average) by congruence. assert (t' = Average) by congruence. subst t t'.
  destruct (G i j) as [-> ->]. destruct (flip j); [|reflexivity]. apply share_turn; [apply Qn1_pos|]. apply average_turn.
Qed.
Print Assumptions C129_average.
(** "min" and "max" change places *)
Theorem C129_min_max : forall flip f x s s' u v, turning_scales flip f ->
  (lower s = "min"%string /\ lower s' = "max"%string) \/ (lower s = "max"%string /\ lower s' = "min"%string) ->
  pseudo_obs Rleb x s = Ok u -> pseudo_obs Rleb (rescaled f x) s' = Ok v ->
  forall i j, flip j = true -> (get v i j == 1 - get u i j)%Q.
Proof.
  intros flip f x s s' u v H Hs Eu Ev i j Hj. destruct (pobs_turn flip f x s s' u v H Eu Ev) as [t [t' [Et [Et' G]]]].
  destruct (G i j) as [-> ->]. rewrite Hj. apply share_turn; [apply Qn1_pos|]. unfold parse_ties in Et, Et'.
  destruct Hs as [[A B]|[A B]]; rewrite A in Et; rewrite B in Et'; cbn in Et, Et'; injection Et as <-; injection Et' as <-; [apply max_turn|apply min_turn].
Qed.
Print Assumptions C129_min_max.
(** without ties in the data every method does what "average" does *)
Theorem C129_no_ties : forall flip f x s u v, turning_scales flip f -> columns_distinct x ->
  pseudo_obs Rleb x s = Ok u -> pseudo_obs Rleb (rescaled f x) s = Ok v ->
  forall i j, (i < nr x)%nat -> (j < nc x)%nat -> (get v i j == if flip j then 1 - get u i j else get u i j)%Q.
Proof.
  intros flip f x s u v H Hd Eu Ev i j Hi Hj. destruct (pobs_turn flip f x s s u v H Eu Ev) as [t [t' [Et [Et' G]]]].
  assert (t' = t) by congruence. subst t'. destruct (G i j) as [-> ->]. destruct (flip j); [|reflexivity]. apply share_turn; [apply Qn1_pos|].
  assert (N : no_ties Rleb (nr x) (fun k => get x k j)).
  { intros a b Ha Hb [A B]. apply Rleb_true in A. apply Rleb_true in B. apply (Hd j); auto. lra. }
  assert (N' : no_ties geb (nr x) (fun k => get x k j)) by (intros a b Ha Hb [A B]; apply N; auto; split; assumption).
  rewrite (no_ties_any geb t _ _ i geb_preorder N' Hi), (no_ties_any Rleb t _ _ i Rleb_preorder N Hi). apply average_turn.
Qed.
Print Assumptions C129_no_ties.
(** refuted for "ordinal" and "dense" with ties: a constant column of two keeps its pseudo-observations (1/3, 2/3 and 1/3, 1/3) *)
Theorem C129_ties_refuted : forall s, lower s = "ordinal"%string \/ lower s = "dense"%string ->
  let x := mkMat 2 1 (fun _ _ => 5) in
  exists u v, pseudo_obs Rleb x s = Ok u /\ pseudo_obs Rleb (rescaled (fun _ a => - a) x) s = Ok v /\
    (get u 0 0 == 1 # 3)%Q /\ (get v 0 0 == 1 # 3)%Q /\ ~ (get v 0 0 == 1 - get u 0 0)%Q.
Proof.
  assert (E : forall a b : R, a = b -> Rleb a b = true) by (intros a b ->; apply Rleb_true; lra).
  intros s [Hs|Hs] x; unfold x, pseudo_obs, rank_data2, parse_ties; rewrite Hs; cbn [lower String.eqb Ascii.eqb Bool.eqb bind rmap rescaled nr nc get];
    (eexists; eexists; split; [reflexivity|]; split; [reflexivity|]; cbn [nr nc get]);
    unfold rankdata, n_lt, ltb, eqb, first_occ; cbn [seq count filter length map existsb]; unfold eqb; rewrite !E by reflexivity; vm_compute; repeat split; discriminate.
Qed.
Print Assumptions C129_ties_refuted.

(** ** The statistic of the test of radial symmetry depends on the direction in which the variables are measured *)
Definition three : mat R := mkMat 3 2 (fun i j => match i, j with 0%nat, _ => 1 | 1%nat, 0%nat => 2 | 1%nat, _ => 3 | _, 0%nat => 3 | _, _ => 2 end).
Ltac decide_all := repeat match goal with
  | |- context [Rleb ?a ?b] => first [rewrite (proj2 (Rleb_true a b)) by lra | rewrite (proj2 (Rleb_false a b)) by lra] end.
Lemma three_ranks sgn : sgn = 1 \/ sgn = -1 -> exists u, pseudo_obs Rleb (rescaled (fun _ a => sgn * a) three) "average" = Ok u /\ nr u = 3%nat /\ nc u = 2%nat /\
  forall i j, (i < 3)%nat -> (j < 2)%nat -> Q2R (get u i j) = 1 / 2 + sgn * (get three i j / 4 - 1 / 2).
Proof.
  intros Hs. unfold pseudo_obs, rank_data2. cbn [parse_ties lower bind rmap]. eexists. split; [reflexivity|]. split; [reflexivity|]. split; [reflexivity|].
  intros i j Hi Hj. cbn [get]. unfold rankdata, n_le, n_lt, ltb. cbn [rescaled nr nc get three seq].
  destruct Hs as [-> | ->]; destruct i as [|[|[|i]]]; try lia; destruct j as [|[|j]]; try lia; cbn [three get]; rewrite !count_cons, !count_nil; cbn iota; decide_all;
    cbn [negb]; unfold Q2R; vm_compute Qnum; vm_compute Qden; lra.
Qed.
Lemma stat_three u v sgn : sgn = 1 \/ sgn = -1 -> nr u = 3%nat -> nc u = 2%nat ->
  (forall i j, (i < 3)%nat -> (j < 2)%nat -> get u i j = 1 / 2 + sgn * (get three i j / 4 - 1 / 2)) ->
  (sgn = 1 -> v = 1 / 9) -> (sgn = -1 -> v = 0) -> rad_sym_test_stat (ravelF u) 3 2 = v.
Proof.
  intros Hs Hr Hc G V1 V2. pose proof (C60_meaning u) as M. rewrite Hr, Hc in M. rewrite M. unfold share.
  destruct Hs as [-> | ->]; [rewrite (V1 eq_refl)|rewrite (V2 eq_refl)]; cbn [rsum seq forallb]; rewrite !count_cons, !count_nil;
    rewrite !G by lia; cbn [three get]; decide_all; cbn; lra.
Qed.
(** the points (1,1), (2,3), (3,2): the statistic is 1/9, but 0 once both variables are turned round *)
Theorem C129_radial_statistic_refuted : exists u v,
  pseudo_obs Rleb three "average" = Ok u /\ pseudo_obs Rleb (rescaled (fun _ a => - a) three) "average" = Ok v /\
  rad_sym_test_stat (ravelF (real_mat u)) 3 2 = 1 / 9 /\ rad_sym_test_stat (ravelF (real_mat v)) 3 2 = 0.
Proof.
  destruct (three_ranks 1 ltac:(auto)) as [u [Eu [Ru [Cu Gu]]]]. destruct (three_ranks (-1) ltac:(auto)) as [v [Ev [Rv [Cv Gv]]]]. exists u, v.
  assert (X : forall c (g : R -> R), (forall a, c * a = g a) -> rescaled (fun _ a => c * a) three = rescaled (fun _ a => g a) three).
  { intros c g Hg. unfold rescaled. f_equal. apply functional_extensionality. intros i. apply functional_extensionality. intros j. apply Hg. }
  rewrite (X 1 (fun a => a)) in Eu by (intros; ring). rewrite (X (-1) Ropp) in Ev by (intros; ring). split; [exact Eu|]. split; [exact Ev|].
  split; [apply (stat_three _ _ 1)|apply (stat_three _ _ (-1))]; auto; intros; lra.
Qed.
Print Assumptions C129_radial_statistic_refuted.

(** ** Frank's copula *)
Lemma frank_inside th u v : th <> 0 -> 0 < u < 1 -> 0 < v < 1 -> exp (- th) <> 1 /\ 0 < 1 + (exp (- th * u) - 1) * (exp (- th * v) - 1) / (exp (- th) - 1).
Proof.
  intros Ht Hu Hv. destruct (Rtotal_order th 0) as [L|[L|L]]; [|contradiction|].
  - assert (A : 1 < exp (- th * u)) by (rewrite <- exp_0; apply exp_increasing; nra). assert (B : 1 < exp (- th * v)) by (rewrite <- exp_0; apply exp_increasing; nra).
    assert (E : 1 < exp (- th)) by (rewrite <- exp_0; apply exp_increasing; lra). split; [lra|].
    assert (0 < (exp (- th * u) - 1) * (exp (- th * v) - 1) / (exp (- th) - 1)) by (apply Rdiv_lt_0_compat; [apply Rmult_lt_0_compat; lra|lra]). lra.
  - assert (A : exp (- th * u) < 1) by (rewrite <- exp_0; apply exp_increasing; nra). assert (B : exp (- th * v) < 1) by (rewrite <- exp_0; apply exp_increasing; nra).
    assert (E : exp (- th) < 1) by (rewrite <- exp_0; apply exp_increasing; lra). assert (A' : exp (- th) < exp (- th * u)) by (apply exp_increasing; nra).
    pose proof (exp_pos (- th * v)) as P. split; [lra|].
    replace (1 + _) with (((1 - exp (- th)) - (1 - exp (- th * u)) * (1 - exp (- th * v))) / (1 - exp (- th))) by (field; lra).
    apply Rdiv_lt_0_compat; [nra|lra].
Qed.
Lemma frank_turn_both th u v : th <> 0 -> 0 < u < 1 -> 0 < v < 1 -> frank_C th (1 - u) (1 - v) = frank_C th u v + 1 - u - v.
Proof.
  intros Ht Hu Hv. unfold frank_C. destruct (frank_inside th u v Ht Hu Hv) as [E D].
  pose proof (exp_pos (- th)) as Pe. pose proof (exp_pos (- th * u)) as Pa. pose proof (exp_pos (- th * v)) as Pb.
  assert (S : forall w, exp (- th * (1 - w)) = exp (- th) / exp (- th * w)).
  { intros w. unfold Rdiv. rewrite <- exp_Ropp, <- exp_plus. f_equal. ring. }
  rewrite !S. replace (1 + (exp (- th) / exp (- th * u) - 1) * (exp (- th) / exp (- th * v) - 1) / (exp (- th) - 1))
    with (exp (- th) * (/ exp (- th * u) * / exp (- th * v)) * (1 + (exp (- th * u) - 1) * (exp (- th * v) - 1) / (exp (- th) - 1))) by (field; repeat split; lra).
  rewrite <- !exp_Ropp, <- !exp_plus, ln_mult, ln_exp by (try apply exp_pos; exact D). field. exact Ht.
Qed.
Lemma frank_turn_one th u v : th <> 0 -> 0 < u < 1 -> 0 < v < 1 -> frank_C (- th) u v = u - frank_C th u (1 - v).
Proof.
  intros Ht Hu Hv. unfold frank_C. destruct (frank_inside th u (1 - v) Ht Hu ltac:(lra)) as [E D].
  pose proof (exp_pos (- th)) as Pe. pose proof (exp_pos (- th * u)) as Pa. pose proof (exp_pos (- th * v)) as Pb.
  assert (S : exp (- th * (1 - v)) = exp (- th) / exp (- th * v)).
  { unfold Rdiv. rewrite <- exp_Ropp, <- exp_plus. f_equal. ring. }
  assert (N : forall w, exp (- - th * w) = / exp (- th * w)) by (intros w; rewrite <- exp_Ropp; f_equal; ring).
  assert (N1 : exp (- - th) = / exp (- th)) by (rewrite <- exp_Ropp; reflexivity).
  rewrite S in D |- *. rewrite !N, N1.
  replace (1 + (/ exp (- th * u) - 1) * (/ exp (- th * v) - 1) / (/ exp (- th) - 1))
    with (/ exp (- th * u) * (1 + (exp (- th * u) - 1) * (exp (- th) / exp (- th * v) - 1) / (exp (- th) - 1))) by (field; repeat split; lra).
  rewrite <- exp_Ropp, ln_mult, ln_exp by (try apply exp_pos; exact D). field. exact Ht.
Qed.
(** turning both variables round leaves the copula as it is: P(1-U <= 1-u, 1-V <= 1-v) computed from cdf equals cdf; the corner of side
    1/100, where the code's cdf is wrong (C17), is left out on every side *)
Theorem C129_frank_radial_partial : forall th u v, th <> 0 -> -36 < th -> 1 / 100 < u < 99 / 100 -> 1 / 100 < v < 99 / 100 ->
  exists p, frank_cdf th [Fin u; Fin v] = Ok (Fin p) /\ frank_cdf th [Fin (1 - u); Fin (1 - v)] = Ok (Fin (p + 1 - u - v)).
Proof.
  intros th u v Ht H36 Hu Hv. destruct (C18_closed_forms u v) as [_ [_ F]]. destruct (C18_closed_forms (1 - u) (1 - v)) as [_ [_ F']].
  exists (frank_C th u v). split; [apply F; auto; lra|]. rewrite F' by (auto; lra). rewrite frank_turn_both by (auto; lra). reflexivity.
Qed.
Print Assumptions C129_frank_radial_partial.
(** turning one variable round changes the sign of theta *)
Theorem C129_frank_sign_partial : forall th u v, th <> 0 -> -36 < th < 36 -> 1 / 100 < u < 99 / 100 -> 1 / 100 < v < 99 / 100 ->
  exists p, frank_cdf th [Fin u; Fin (1 - v)] = Ok (Fin p) /\ frank_cdf (- th) [Fin u; Fin v] = Ok (Fin (u - p)).
Proof.
  intros th u v Ht H36 Hu Hv. destruct (C18_closed_forms u v) as [_ [_ F]]. destruct (C18_closed_forms u (1 - v)) as [_ [_ F']].
  exists (frank_C th u (1 - v)). split; [apply F'; auto; lra|]. rewrite F by (try lra). rewrite frank_turn_one by (auto; lra). reflexivity.
Qed.
Print Assumptions C129_frank_sign_partial.
(** column 0 negated, column 1 as it is *)
Example C129_case : turning_scales (Nat.eqb 0) (fun j a => if Nat.eqb 0 j then - a else a) /\ columns_distinct three.
Proof.
  split; [intros j a b H; destruct (Nat.eqb 0 j); lra|]. intros j i k Hj Hi Hk. cbn in Hj, Hi, Hk.
  destruct j as [|[|j]]; try lia; destruct i as [|[|[|i]]]; try lia; destruct k as [|[|[|k]]]; try lia; cbn; intros; try reflexivity; lra.
Qed.
