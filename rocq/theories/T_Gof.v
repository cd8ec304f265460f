(** C58 to C61 and C75: the tests of exchangeability, radial symmetry and goodness of fit. *)
From Coq Require Import QArith Qreals Qround Lra Lia.
From Coquelicot Require Import Coquelicot.
From Verif Require Import Base RSumLib CountLib Ext M_Rank S_Rank P_Rank M_Special M_Stats M_Empirical S_Empirical P_Empirical M_Gof S_Gof P_Gof.
Local Close Scope Q_scope. Local Close Scope Z_scope. Open Scope R_scope.

(** * C58 *)
(** A documented p-value lies strictly inside (0,1), at least 1/(2(N+1)) away from both ends, and never grows with the statistic. *)
Theorem C58_range s s0 p : documented_p_value s s0 p -> let e := / (2 * (INR (length s0) + 1)) in 0 < e /\ e <= p <= 1 - e.
Proof.
  unfold documented_p_value. intros Hp. cbv zeta. rewrite Hp, <- count_filter. clear p Hp. pose proof (pos_INR (length s0)) as Hn.
  set (f := fun a => if Rle_dec s a then true else false). pose proof (pos_INR (count f s0)) as H. assert (H' : INR (count f s0) <= INR (length s0)) by apply le_INR, count_le_length.
  set (k := INR (count f s0)) in *. set (n := INR (length s0)) in *. split; [apply Rinv_0_lt_compat; lra|].
  replace (/ (2 * (n + 1))) with (/ 2 / (n + 1)) by (field; lra). replace (1 - / 2 / (n + 1)) with ((n + / 2) / (n + 1)) by (field; lra).
  split; apply Rmult_le_compat_r; try (left; apply Rinv_0_lt_compat); lra.
Qed.
Print Assumptions C58_range.
Theorem C58_decreasing s s' s0 p p' : documented_p_value s s0 p -> documented_p_value s' s0 p' -> s <= s' -> p' <= p.
Proof. intros H H' L. pose proof (p_value_spec s0 s) as E. pose proof (p_value_spec s0 s') as E'. unfold documented_p_value in *. rewrite H, H', <- E, <- E'. apply p_value_anti, L. Qed.
Print Assumptions C58_decreasing.
(** The three tests report the documented p-value of N simulated statistics. *)
Theorem C58_exchangeability argsort n n' x y N m ties normals bits s p : argsorts argsort ->
  exch_test argsort n n' x y N m ties normals bits = Ok (s, p) -> exists s0, length s0 = N /\ documented_p_value s s0 p /\ 0 < p < 1.
Proof.
  intros Ha H. destruct (exch_test_inv _ _ _ _ _ _ _ _ _ _ _ H) as [-> [HN [t Ht]]]. rewrite (exch_test_eq _ _ _ _ _ _ _ _ _ t Ht HN) in H.
  destruct (simulated_Ok argsort (pairs t n x y) n m N normals bits Ha) as [s0 [E [L _]]]. rewrite E in H. cbn [bind] in H. injection H as <- <-.
  exists s0. split; [exact L|]. split; [apply p_value_spec|apply p_value_range].
Qed.
Print Assumptions C58_exchangeability.
Theorem C58_radial_symmetry argsort x N ties bits s p : argsorts argsort ->
  rad_sym_test argsort x N ties bits = Ok (s, p) -> exists s0, length s0 = N /\ documented_p_value s s0 p /\ 0 < p < 1.
Proof.
  intros Ha H. destruct (rad_test_inv _ _ _ _ _ _ _ Ha H) as [_ [u [ir [s0 [_ [_ [_ [_ [L [_ ->]]]]]]]]]].
  exists s0. split; [exact L|]. split; [apply p_value_spec|apply p_value_range].
Qed.
Print Assumptions C58_radial_symmetry.
Lemma mapM_length {A B} (f : A -> result B) l : forall r, mapM f l = Ok r -> length r = length l.
Proof.
  induction l as [|x l IH]; intros r H; cbn [mapM] in H; [injection H as <-; reflexivity|]. destruct (f x); [|discriminate]. cbn [bind] in H. destruct (mapM f l); [|discriminate]. cbn [bind] in H. injection H as <-. cbn. f_equal. apply IH. reflexivity.
Qed.
(** here the absolute values are compared *)
Theorem C58_goodness_of_fit fit sample data reps ties fit_ties t p :
  gof_copula fit sample data reps ties fit_ties = Ok (t, p) -> exists ts, length ts = reps /\ documented_p_value (Rabs t) (map Rabs ts) p /\ 0 < p < 1.
Proof.
  unfold gof_copula. destruct (duplicated_ranks data); [|discriminate]. cbn [bind]. match goal with |- context [bind (bind ?a ?b)] => destruct (bind a b) as [t'|] end; [|discriminate]. cbn [bind].
  match goal with |- context [mapM ?f ?l] => destruct (mapM f l) as [ts|] eqn:E end; [|discriminate]. cbn [bind]. intros [= <- <-]. exists ts. split; [rewrite (mapM_length _ _ _ E); apply seq_length|].
  split; [apply p_value_spec|apply p_value_range].
Qed.
Print Assumptions C58_goodness_of_fit.
(** Three simulated statistics, one of them at the observed value, one above: p = 2.5 / 4. *)
Example C58_case : documented_p_value 2 [1; 2; 3] (5 / 8).
Proof. unfold documented_p_value. cbn [filter length]. repeat (destruct Rle_dec; try lra). cbn. lra. Qed.

(** * C59 *)
(** What the statistic measures: the squared differences between the shares of rows below (x, y) and below (y, x). *)
Theorem C59_meaning u g n m : exch_test_stat u g n m =
  INR n / INR m * rsum m (fun i => (share n (fun k => Rleb (get u k 0) (get g i 0) && Rleb (get u k 1) (get g i 1))
                                   - share n (fun k => Rleb (get u k 0) (get g i 1) && Rleb (get u k 1) (get g i 0))) ^ 2).
Proof.
  unfold exch_test_stat. rewrite (rsum_ext m _ (fun i => (share n (fun k => Rleb (get u k 0) (get g i 0) && Rleb (get u k 1) (get g i 1)) - share n (fun k => Rleb (get u k 0) (get g i 1) && Rleb (get u k 1) (get g i 0))) ^ 2)).
  - unfold Rdiv. ring.
  - intros i _. rewrite !cn_share. ring.
Qed.
Print Assumptions C59_meaning.
Theorem C59_nonnegative argsort n n' x y N m ties normals bits s p : exch_test argsort n n' x y N m ties normals bits = Ok (s, p) -> 0 <= s.
Proof.
  intros H. destruct (exch_test_inv _ _ _ _ _ _ _ _ _ _ _ H) as [-> [HN [t Ht]]]. rewrite (exch_test_eq _ _ _ _ _ _ _ _ _ t Ht HN) in H.
  destruct (simulated _ _ _ _ _ _ _); [|discriminate]. cbn [bind] in H. injection H as <- _. apply stat_nonneg.
Qed.
Print Assumptions C59_nonnegative.
(** Swapping the two samples changes neither the statistic nor, without ties, the p-value. *)
Theorem C59_swap argsort n n' x y N m ties normals bits s p : argsorts argsort -> exch_test argsort n n' x y N m ties normals bits = Ok (s, p) ->
  exists p', exch_test argsort n' n y x N m ties normals bits = Ok (s, p') /\ (no_ties Rleb n x -> no_ties Rleb n y -> p' = p).
Proof.
  intros Ha H. destruct (exch_test_inv _ _ _ _ _ _ _ _ _ _ _ H) as [-> [HN [t Ht]]]. rewrite (exch_test_eq _ n x y _ _ _ _ _ t Ht HN) in H. rewrite (exch_test_eq _ n y x _ _ _ _ _ t Ht HN).
  destruct (simulated_Ok argsort (pairs t n x y) n m N normals bits Ha) as [s0 [E [L _]]]. rewrite E in H. cbn [bind] in H. injection H as Hs Hp.
  destruct (simulated_Ok argsort (pairs t n y x) n m N normals bits Ha) as [s1 [E1 _]]. rewrite E1. cbn [bind]. rewrite test_stat_swap, Hs. exists (p_value s1 s). split; [reflexivity|].
  intros Hx Hy. rewrite simulated_swap in E1 by (apply untied_pairs; assumption). assert (s1 = s0) by congruence. subst. reflexivity.
Qed.
Print Assumptions C59_swap.
(** A sample which is its own mirror image has statistic 0, at every set of points, and the largest p-value there is.  The rank method
    must treat equal values alike. *)
Theorem C59_mirror_image argsort n n' x y N m ties normals bits s p : argsorts argsort -> lower ties <> "ordinal"%string -> own_mirror_image n x y ->
  exch_test argsort n n' x y N m ties normals bits = Ok (s, p) -> s = 0 /\ p = (INR N + / 2) / (INR N + 1).
Proof.
  intros Ha Hord [q [Hq Hm]] H. destruct (exch_test_inv _ _ _ _ _ _ _ _ _ _ _ H) as [-> [HN [t Ht]]]. rewrite (exch_test_eq _ _ _ _ _ _ _ _ _ t Ht HN) in H.
  destruct (simulated_Ok argsort (pairs t n x y) n m N normals bits Ha) as [s0 [E [L F]]]. rewrite E in H. cbn [bind] in H. injection H as Hs Hp.
  assert (Z : s = 0).
  { rewrite <- Hs. apply (stat_mirror _ _ _ _ q Hq). intros i Hi. cbn [pairs get Nat.eqb]. pose proof (parse_ties_ordinal ties t Ht Hord) as Ho.
    rewrite <- !(rankdata_perm Rleb Rleb_preorder t n _ q i Ho Hq Hi). 
    rewrite (rankdata_iso Rleb Rleb t n (fun k => x (q k)) y i), (rankdata_iso Rleb Rleb t n (fun k => y (q k)) x i); try exact Hi; [split; reflexivity| |];
      intros a b Ha' Hb'; rewrite (proj1 (Hm a Ha')) || rewrite (proj2 (Hm a Ha')); rewrite (proj1 (Hm b Hb')) || rewrite (proj2 (Hm b Hb')); reflexivity. }
  split; [exact Z|]. rewrite <- Hp, <- L. apply p_value_zero; [rewrite Hs; exact Z|exact F].
Qed.
Print Assumptions C59_mirror_image.
(** With a grid of size m = 1 the only point is (1, 1): every sample, however asymmetric, has statistic 0. *)
Theorem C59_grid_of_one argsort n n' x y N ties normals bits s p : exch_test argsort n n' x y N 1 ties normals bits = Ok (s, p) -> s = 0.
Proof.
  intros H. destruct (exch_test_inv _ _ _ _ _ _ _ _ _ _ _ H) as [-> [HN [t Ht]]]. rewrite (exch_test_eq _ _ _ _ _ _ _ _ _ t Ht HN) in H.
  destruct (simulated _ _ _ _ _ _ _); [|discriminate]. cbn [bind] in H. injection H as <- _. unfold exch_test_stat. rewrite rsum_zero; [unfold Rdiv; ring|]. intros i Hi. change (number_of n 1) with 1%nat in Hi.
  replace i with 0%nat by lia. cbn. ring.
Qed.
Print Assumptions C59_grid_of_one.
(** Four rows in two mirrored pairs. *)
(** The grid has m x m points: all pairs of the m equally spaced numbers from 1/m to 1 - 1/m. *)
Lemma rsum_split_at m k f : rsum (m + k) f = rsum m f + rsum k (fun i => f (m + i)%nat).
Proof. induction k as [|k IH]; [rewrite Nat.add_0_r; cbn [rsum]; ring|]. rewrite Nat.add_succ_r. cbn [rsum]. rewrite IH. ring. Qed.
Lemma rsum_blocks m k f : rsum (m * k) f = rsum k (fun b => rsum m (fun a => f (a + m * b)%nat)).
Proof.
  induction k as [|k IH]; [rewrite Nat.mul_0_r; reflexivity|]. replace (m * S k)%nat with (m * k + m)%nat by lia. rewrite rsum_split_at, IH. cbn [rsum]. f_equal. apply rsum_ext. intros i _. f_equal. lia.
Qed.
Theorem C59_grid u n m : (2 <= m)%nat -> let point a := / INR m + INR a * ((1 - 2 / INR m) / (INR m - 1)) in
  exch_test_stat u (exch_grid m) n (m * m) =
  INR n / INR m ^ 2 * rsum m (fun b => rsum m (fun a => (share n (fun k => Rleb (get u k 0) (point a) && Rleb (get u k 1) (point b))
                                   - share n (fun k => Rleb (get u k 0) (point b) && Rleb (get u k 1) (point a))) ^ 2)) /\
  point 0%nat = / INR m /\ point (m - 1)%nat = 1 - / INR m.
Proof.
  intros Hm point. assert (M : 2 <= INR m) by (apply (le_INR 2) in Hm; exact Hm). split; [|split].
  - rewrite C59_meaning, mult_INR. f_equal; [field; lra|]. rewrite rsum_blocks. apply rsum_ext. intros b Hb. apply rsum_ext. intros a Ha. unfold exch_grid. cbn [get Nat.eqb].
    assert (E1 : ((a + m * b) mod m = a)%nat) by (rewrite Nat.mul_comm, Nat.mod_add by lia; apply Nat.mod_small, Ha).
    assert (E2 : ((a + m * b) / m = b)%nat) by (rewrite Nat.mul_comm, Nat.div_add by lia; rewrite Nat.div_small by exact Ha; reflexivity).
    rewrite E1, E2. assert (L : forall k, linspace m k = point k).
    { intros k. unfold linspace, point. destruct (Nat.eqb_spec m 1); [lia|]. field. split; lra. }
    rewrite !L. reflexivity.
  - unfold point. cbn [INR]. ring.
  - unfold point. rewrite minus_INR by lia. cbn [INR]. field. split; lra.
Qed.
Print Assumptions C59_grid.
(** The derivative estimate is a difference quotient of the empirical copula over a window of half width 1/sqrt n inside [0, 1], around
    the point of [1/sqrt n, 1 - 1/sqrt n] nearest to x. *)
Theorem C59_derivative u v x y n : (4 <= n)%nat -> exists x' h, h = / sqrt (INR n) /\ h <= x' <= 1 - h /\ (forall z, h <= z <= 1 - h -> Rabs (x' - x) <= Rabs (z - x)) /\
  der_cn_1 u v x y n = (share n (fun i => Rleb (u i) (x' + h) && Rleb (v i) y) - share n (fun i => Rleb (u i) (x' - h) && Rleb (v i) y)) / (2 * h) /\
  der_cn_2 v u y x n = (share n (fun i => Rleb (v i) y && Rleb (u i) (x' + h)) - share n (fun i => Rleb (v i) y && Rleb (u i) (x' - h))) / (2 * h).
Proof.
  intros Hn. exists (clamp x (1 / sqrt (INR n))), (1 / sqrt (INR n)). apply le_INR in Hn. cbn in Hn.
  assert (S : 2 <= sqrt (INR n)) by (replace 2 with (sqrt (2 * 2)) by (apply sqrt_square; lra); apply sqrt_le_1; lra).
  assert (H : 0 < 1 / sqrt (INR n) <= / 2). { split; [apply Rdiv_lt_0_compat; lra|]. unfold Rdiv. rewrite Rmult_1_l. apply Rinv_le_contravar; lra. }
  split; [unfold Rdiv; ring|]. set (h := 1 / sqrt (INR n)) in *. unfold clamp.
  split; [|split; [|split; [unfold der_cn_1|unfold der_cn_2]; fold h; rewrite !cn_share; reflexivity]].
  - unfold Rltb. destruct (Rlt_dec x h); [lra|]. destruct (Rlt_dec (1 - h) x); lra.
  - intros z Hz. unfold Rltb. destruct (Rlt_dec x h); [rewrite !Rabs_pos_eq by lra; lra|]. destruct (Rlt_dec (1 - h) x); [rewrite !Rabs_left1 by lra; lra|]. replace (x - x) with 0 by ring. rewrite Rabs_R0. apply Rabs_pos.
Qed.
Print Assumptions C59_derivative.
Example C59_case : own_mirror_image 4 (fun i => nth i [1; 2; 5; 3] 0) (fun i => nth i [2; 1; 3; 5] 0).
Proof.
  exists (fun i => nth i [1; 0; 3; 2]%nat 0%nat). split.
  - exists (fun i => nth i [1; 0; 3; 2]%nat 0%nat). intros [|[|[|[|i]]]] H; cbn; lia.
  - intros [|[|[|[|i]]]] H; cbn; (lia || lra).
Qed.

(** * C60 *)
(** What the statistic measures: at each row, the share of rows below it in all coordinates against the share of reflected rows. *)
Theorem C60_meaning u : rad_sym_test_stat (ravelF u) (nr u) (nc u) =
  rsum (nr u) (fun k => (share (nr u) (fun i => forallb (fun j => Rleb (get u i j) (get u k j)) (seq 0 (nc u)))
                         - share (nr u) (fun i => forallb (fun j => Rleb (1 - get u i j) (get u k j)) (seq 0 (nc u)))) ^ 2).
Proof.
  rewrite rad_stat_rows. apply rsum_ext. intros k _.
  assert (P : forall (f : nat -> bool) l, lprod (map (fun j => ind (f j)) l) = ind (forallb f l)).
  { intros f l. induction l as [|j l IH]; [reflexivity|]. cbn [map lprod forallb]. rewrite IH. apply ind_mul. }
  assert (E : rows_below (nr u) (nc u) (get u) k / INR (nr u) =
    share (nr u) (fun i => forallb (fun j => Rleb (get u i j) (get u k j)) (seq 0 (nc u))) - share (nr u) (fun i => forallb (fun j => Rleb (1 - get u i j) (get u k j)) (seq 0 (nc u)))).
  { unfold rows_below, share. rewrite <- !rsum_ind. unfold Rdiv. rewrite <- Rmult_minus_distr_r, <- rsum_minus. f_equal. apply rsum_ext. intros i _. rewrite !P. reflexivity. }
  rewrite E. ring.
Qed.
Print Assumptions C60_meaning.
Theorem C60_nonnegative argsort x N ties bits s p : argsorts argsort -> rad_sym_test argsort x N ties bits = Ok (s, p) -> 0 <= s.
Proof. intros Ha H. destruct (rad_test_inv _ _ _ _ _ _ _ Ha H) as [_ [u [ir [s0 [_ [_ [-> _]]]]]]]. apply rad_stat_nonneg. Qed.
Print Assumptions C60_nonnegative.
(** Data that are symmetric about some centre have statistic 0 and the largest p-value there is. *)
Theorem C60_symmetric argsort x N ties bits s p : argsorts argsort -> lower ties = "average"%string -> radially_symmetric x ->
  rad_sym_test argsort x N ties bits = Ok (s, p) -> s = 0 /\ p = (INR N + / 2) / (INR N + 1).
Proof.
  intros Ha Hav [q [c [Hq Hc]]] H. destruct (rad_test_inv _ _ _ _ _ _ _ Ha H) as [_ [u [ir [s0 [Hu [_ [Hs [_ [L [F Hp]]]]]]]]]].
  destruct (pseudo_obs_Ok Rleb _ _ _ Hu) as [t [Ht [Ru [Cu Gu]]]]. assert (t = Average) by (unfold parse_ties in Ht; rewrite Hav in Ht; cbn in Ht; congruence). subst t.
  assert (Z : s = 0).
  { rewrite Hs. replace (nr x) with (nr (real_mat u)) by exact Ru. replace (nc x) with (nc (real_mat u)) by exact Cu. rewrite rad_stat_rows. apply rsum_zero. intros k Hk.
    rewrite (rows_below_zero _ _ _ q); [unfold Rdiv; ring| | |exact Hk]; cbn [real_mat nr nc get] in *; rewrite ?Ru, ?Cu; [exact Hq|].
    intros i j Hi Hj. rewrite !Gu, !Q2R_pobs1. rewrite <- (rankdata_perm Rleb Rleb_preorder Average _ (fun k => get x k j) q i ltac:(discriminate) Hq Hi).
    rewrite (rankdata_iso Rleb Rleb Average (nr x) (fun k => get x (q k) j) (fun k => 2 * c j - get x k j) i); [|intros a b Ha' Hb'; rewrite !Hc by assumption; reflexivity|exact Hi].
    rewrite mirrored_average by exact Hi. pose proof (pos_INR (nr x)). field. lra. }
  split; [exact Z|]. rewrite Hp, <- L. apply p_value_zero; assumption.
Qed.
Print Assumptions C60_symmetric.
(** The claim that the statistic of u and of 1 - u agree is false: three rows with ranks (1,1), (2,3), (3,2) have statistic 1/9, the
    reflected rows have statistic 0. *)
Lemma rank_Z t n (z : nat -> Z) i : (i < n)%nat -> rankdata Rleb t n (fun k => IZR (z k)) i = rankdata Z.leb t n z i.
Proof.
  intros H. apply rankdata_iso; [|exact H]. intros j k _ _. destruct (Z.leb (z j) (z k)) eqn:E; [apply Rleb_true, IZR_le, Z.leb_le, E|apply Rleb_false, IZR_lt, Z.leb_gt, E].
Qed.
Definition quarters (z : nat -> nat -> Z) (i j : nat) : R := IZR (z i j) / 4.
Lemma rows_below_Z n p z k : rows_below n p (quarters z) k =
  IZR (fold_right Z.add 0%Z (map (fun i => Z.b2z (forallb (fun j => Z.leb (z i j) (z k j)) (seq 0 p)) - Z.b2z (forallb (fun j => Z.leb (4 - z i j) (z k j)) (seq 0 p)))%Z (seq 0 n))).
Proof.
  unfold rows_below. rewrite rsum_lsum. assert (P : forall (f : nat -> bool) l, lprod (map (fun j => ind (f j)) l) = IZR (Z.b2z (forallb f l))).
  { intros f l. induction l as [|j l IH]; [reflexivity|]. cbn [map lprod forallb]. rewrite IH. destruct (f j); cbn; ring. }
  assert (L : forall a b, Rleb (IZR a / 4) (IZR b / 4) = Z.leb a b).
  { intros a b. destruct (Z.leb a b) eqn:E; [apply Rleb_true; apply Z.leb_le, IZR_le in E; lra|apply Rleb_false; apply Z.leb_gt, IZR_lt in E; lra]. }
  induction (seq 0 n) as [|i l IH]; [reflexivity|]. cbn [map lsum fold_right]. rewrite IH, plus_IZR, minus_IZR. f_equal. rewrite <- !P. unfold quarters. f_equal; apply lprod_map_ext; intros j _.
  - rewrite L. reflexivity.
  - replace (1 - IZR (z i j) / 4) with (IZR (4 - z i j) / 4) by (rewrite minus_IZR; field). rewrite L. reflexivity.
Qed.
Definition entries (x : mat R) (z : list (list Z)) : Prop := nr x = 3%nat /\ nc x = 2%nat /\ forall i j, (i < 3)%nat -> (j < 2)%nat -> get x i j = IZR (nth j (nth i z []) 0%Z).
Lemma three_stat argsort N bits x z (r : list (list Z)) : argsorts argsort -> (0 < N)%nat -> entries x z ->
  (forall i j, (i < 3)%nat -> (j < 2)%nat -> (rankdata Z.leb Average 3 (fun k => nth j (nth k z []) 0%Z) i == inject_Z (nth j (nth i r []) 0%Z))%Q) ->
  exists p, rad_sym_test argsort x N "average" bits =
    Ok (rsum 3 (fun k => let d := rows_below 3 2 (quarters (fun i j => nth j (nth i r []) 0%Z)) k / 3 in d * d), p).
Proof.
  intros Ha HN [Hn [Hc Hx]] Hr. destruct (rad_test_Ok argsort x N "average" bits Ha) as [s [p E]]; [unfold documented; cbn; tauto|exact HN|]. exists p. rewrite E. f_equal. f_equal.
  destruct (rad_test_inv _ _ _ _ _ _ _ Ha E) as [_ [u [ir [s0 [Hu [_ [Hs _]]]]]]]. destruct (pseudo_obs_Ok Rleb _ _ _ Hu) as [t [Ht [Ru [Cu Gu]]]]. cbn in Ht. injection Ht as <-.
  rewrite Hs, <- Ru, <- Cu. change (nr u) with (nr (real_mat u)). change (nc u) with (nc (real_mat u)). rewrite rad_stat_rows.
  cbn [real_mat nr nc]. rewrite Ru, Cu, Hn, Hc. apply rsum_ext. intros k Hk. replace (INR 3) with 3 by (cbn; ring). cbv zeta.
  rewrite (rows_below_ext 3 2 _ (quarters (fun i j => nth j (nth i r []) 0%Z))); [reflexivity| |exact Hk].
  intros i j Hi Hj. cbn [real_mat get]. rewrite Gu, Q2R_pobs1, Hn.
  rewrite (rankdata_iso Rleb Rleb Average 3 (fun k => get x k j) (fun k => IZR (nth j (nth k z []) 0%Z)) i); [|intros a b Ha' Hb'; rewrite !Hx by assumption; reflexivity|exact Hi].
  rewrite (rank_Z Average 3 (fun k => nth j (nth k z []) 0%Z)) by exact Hi. rewrite (Qeq_eqR _ _ (Hr i j Hi Hj)).
  unfold quarters, Q2R, inject_Z. cbn [Qnum Qden INR]. field.
Qed.
Ltac eval_IZR := repeat match goal with |- context [IZR (fold_right ?a ?b ?c)] => let v := eval vm_compute in (fold_right a b c) in change (fold_right a b c) with v end.
Theorem C60_reflection_refuted argsort N bits : argsorts argsort -> (0 < N)%nat ->
  exists x s s' p p', rad_sym_test argsort x N "average" bits = Ok (s, p) /\
    rad_sym_test argsort (mkMat (nr x) (nc x) (fun i j => - get x i j)) N "average" bits = Ok (s', p') /\ s = / 9 /\ s' = 0.
Proof.
  intros Ha HN. set (x := mkMat 3 2 (fun i j => IZR (nth j (nth i [[1; 1]; [2; 3]; [3; 2]]%Z []) 0%Z))). exists x.
  destruct (three_stat argsort N bits x [[1; 1]; [2; 3]; [3; 2]]%Z [[1; 1]; [2; 3]; [3; 2]]%Z Ha HN) as [p E].
  { repeat split. } { intros [|[|[|i]]] [|[|j]] Hi Hj; try lia; reflexivity. }
  destruct (three_stat argsort N bits (mkMat (nr x) (nc x) (fun i j => - get x i j)) [[-1; -1]; [-2; -3]; [-3; -2]]%Z [[3; 3]; [2; 1]; [1; 2]]%Z Ha HN) as [p' E'].
  { split; [reflexivity|]. split; [reflexivity|]. intros [|[|[|i]]] [|[|j]] Hi Hj; try lia; cbn; ring. } { intros [|[|[|i]]] [|[|j]] Hi Hj; try lia; reflexivity. }
  eexists. eexists. exists p, p'. split; [exact E|]. split; [exact E'|]. split; cbn [rsum]; rewrite !rows_below_Z; eval_IZR; field.
Qed.
Print Assumptions C60_reflection_refuted.
(** Five rows: two opposite pairs and the centre (3, 4). *)
Example C60_case : radially_symmetric (mkMat 5 2 (fun i j => nth j (nth i [[1; 5]; [5; 3]; [3; 4]; [2; 2]; [4; 6]] []) 0)).
Proof.
  exists (fun i => nth i [1; 0; 2; 4; 3]%nat 0%nat), (fun j => nth j [3; 4] 0). split.
  - exists (fun i => nth i [1; 0; 2; 4; 3]%nat 0%nat). intros [|[|[|[|[|i]]]]] H; cbn in *; lia.
  - intros [|[|[|[|[|i]]]]] [|[|j]] H H'; cbn in *; (lia || lra).
Qed.

(** * C61 *)
(** Every index the three bootstraps read lies in 0..n-1: they return a result for all samples, tie patterns and random bits, whatever
    order argsort gives to equal values. *)
Theorem C61_exchangeability argsort n x y N m ties normals bits : argsorts argsort -> documented ties -> (0 < N)%nat ->
  exists s p, exch_test argsort n n x y N m ties normals bits = Ok (s, p).
Proof. apply exch_test_Ok. Qed.
Print Assumptions C61_exchangeability.
Theorem C61_exchangeability_replication argsort u g n m ng bits : argsorts argsort -> exists ir s, tie_indices u = Ok ir /\ exch_replication argsort ir u g n m ng bits = Ok s.
Proof. intros Ha. destruct (tie_indices_Ok u) as [ir [E _]]. destruct (replication_Ok argsort ir u g n m ng bits Ha E) as [s [Es _]]. exists ir, s. auto. Qed.
Print Assumptions C61_exchangeability_replication.
Theorem C61_radial_symmetry argsort x N ties bits : argsorts argsort -> documented ties -> (0 < N)%nat -> exists s p, rad_sym_test argsort x N ties bits = Ok (s, p).
Proof. apply rad_test_Ok. Qed.
Print Assumptions C61_radial_symmetry.
Theorem C61_goodness_of_fit data u : nr u = nr data -> nc u = nc data -> exists dup v, duplicated_ranks data = Ok dup /\ sort_data_by_column dup u = Ok v.
Proof. intros Hr Hc. destruct (duplicated_ranks_Ok data) as [dup [E _]]. destruct (sort_data_Ok data dup u E Hr Hc) as [v [Ev _]]. exists dup, v. auto. Qed.
Print Assumptions C61_goodness_of_fit.
(** Each row is mirrored (reflected) by its own coin: mirroring (reflecting) the sample and turning every coin gives the same replicate,
    so that with fair coins the replicates of a sample and of its mirror image are equally distributed. *)
Theorem C61_exchangeability_coins argsort ir n x y g m ng bits : let sample (a b : nat -> R) := mkMat n 2 (fun i c => if Nat.eqb c 0 then a i else b i) in
  exch_replication argsort ir (sample x y) g n m ng bits = exch_replication argsort ir (sample y x) g n m ng (fun i => negb (bits i)).
Proof.
  intros sample. unfold exch_replication. cbn [nr nc get sample]. repeat f_equal. apply FunctionalExtensionality.functional_extensionality; intros i. apply FunctionalExtensionality.functional_extensionality; intros c.
  destruct c as [|c]; destruct (bits i); reflexivity.
Qed.
Print Assumptions C61_exchangeability_coins.
Theorem C61_radial_symmetry_coins argsort ir u n p tied bits :
  rad_sym_replicate argsort u ir n p tied bits = rad_sym_replicate argsort (mkMat (nr u) (nc u) (fun i j => 1 - get u i j)) ir n p tied (fun i => negb (bits i)).
Proof.
  unfold rad_sym_replicate. cbn [nr nc get].
  replace (fun i j => if negb (bits i) then 1 - (1 - get u i j) else 1 - get u i j) with (fun i j => if bits i then 1 - get u i j else get u i j); [reflexivity|].
  apply FunctionalExtensionality.functional_extensionality; intros i. apply FunctionalExtensionality.functional_extensionality; intros c. destruct (bits i); cbn [negb]; ring.
Qed.
Print Assumptions C61_radial_symmetry_coins.
(** The resampled columns carry the ties of the sample. *)
Theorem C61_ties_kept argsort u ub ir p : argsorts argsort -> tie_indices u = Ok ir -> nr ub = nr u ->
  exists v, retie argsort ir p ub = Ok v /\ nr v = nr u /\ forall j, (j < p)%nat -> keeps_ties u v j.
Proof.
  intros Ha Hi Hn. destruct (tie_indices_Ok u) as [ir' [E [B T]]]. assert (ir' = ir) by congruence. subst ir'.
  destruct (retie_Ok argsort Ha ir p ub) as [v [Ev [Rv [_ Tv]]]]; [intros; rewrite Hn in *; apply B; assumption|]. exists v. split; [exact Ev|]. split; [congruence|].
  intros j Hj. destruct (Tv j Hj) as [q [Hq Eq]]. replace (nr v) with (nr u) in * by congruence. exists q, (sort (column u j)). split; [exact Hq|]. split; [apply column_sorted|].
  intros a b Ha' Hb' Hab. apply Eq; [assumption|assumption|]. apply T. exact Hab.
Qed.
Print Assumptions C61_ties_kept.
(** argsort exists: an insertion sort of positions *)
Fixpoint ins (l : list R) (i : Z) (s : list Z) : list Z :=
  match s with [] => [i] | j :: s' => if Rleb (nth (Z.to_nat i) l 0) (nth (Z.to_nat j) l 0) then i :: s else j :: ins l i s' end.
Definition insertion_argsort (l : list R) : list Z := fold_right (ins l) [] (map Z.of_nat (seq 0 (length l))).
Lemma ins_perm l i s : Permutation (ins l i s) (i :: s).
Proof. induction s as [|j s IH]; cbn [ins]; [reflexivity|]. destruct (Rleb _ _); [reflexivity|]. rewrite IH. apply perm_swap. Qed.
Lemma ins_sorted l i s : StronglySorted (fun a b => nth (Z.to_nat a) l 0 <= nth (Z.to_nat b) l 0) s -> StronglySorted (fun a b => nth (Z.to_nat a) l 0 <= nth (Z.to_nat b) l 0) (ins l i s).
Proof.
  induction 1 as [|j s Hs IH Hj]; cbn [ins]; [repeat constructor|]. destruct (Rleb _ _) eqn:E.
  - apply Rleb_true in E. constructor; [constructor; assumption|]. constructor; [exact E|]. eapply Forall_impl; [|exact Hj]. cbn. intros a Ha. lra.
  - apply Rleb_false in E. constructor; [exact IH|]. eapply Permutation_Forall; [apply Permutation_sym, ins_perm|]. constructor; [lra|exact Hj].
Qed.
Lemma strongly_sorted_nth {A} (P : A -> A -> Prop) d s : (forall a, P a a) -> StronglySorted P s -> forall i j, (i <= j)%nat -> (j < length s)%nat -> P (nth i s d) (nth j s d).
Proof.
  intros Hr. induction 1 as [|x l Sl IH Fx]; intros i k H Hk; [cbn in Hk; lia|]. destruct k as [|k]; [replace i with 0%nat by lia; apply Hr|]. destruct i as [|i]; cbn [nth length] in *.
  - rewrite Forall_forall in Fx. apply Fx, nth_In. lia.
  - apply IH; lia.
Qed.
Example C61_argsort_case : argsorts insertion_argsort.
Proof.
  intros l. unfold insertion_argsort. assert (P : forall s, Permutation (fold_right (ins l) [] s) s) by (induction s as [|i s IH]; cbn; [reflexivity|rewrite ins_perm, IH; reflexivity]).
  split; [apply P|]. intros i j Hij Hj. apply (strongly_sorted_nth (fun a b => nth (Z.to_nat a) l 0 <= nth (Z.to_nat b) l 0)); [intros; lra| |exact Hij|].
  - generalize (map Z.of_nat (seq 0 (length l))). intros s. induction s as [|i' s IH]; cbn; [constructor|apply ins_sorted, IH].
  - rewrite (Permutation_length (P _)), map_length, seq_length. exact Hj.
Qed.

(** * C75 *)
(** The statistic: squared differences between the empirical copula and the fitted copula, summed over the rows. *)
Theorem C75_statistic cdf data : (0 < nr data)%nat ->
  gof_t_stat cdf data = Ok (rsum (nr data) (fun k => (share (nr data) (fun i => forallb (fun j => Rleb (get data i j) (get data k j)) (seq 0 (nc data))) - cdf data k) ^ 2)).
Proof.
  intros Hn. unfold gof_t_stat, emp_dist_func. change (map_smoothing (Some "none"%string)) with (@Ok nat 0%nat). cbn [bind]. rewrite Nat.eqb_refl. cbn [negb bind].
  f_equal. rewrite (fold_sum (fun k => _)), Rplus_0_l, rsum_lsum. apply lsum_map_ext. intros k Hk. apply in_seq in Hk. unfold emp_copula_dist.
  set (f := fun i => _). rewrite (nth_indep _ Nan (f 0%nat)) by (rewrite map_length, seq_length; lia). rewrite (map_nth f), seq_nth by lia. unfold f. cbn [Nat.add].
  assert (0 < INR (nr data) + 0) by (apply lt_0_INR in Hn; lra). rewrite emp_dist_row_eq by (assumption || lia). f_equal. f_equal. unfold share. rewrite <- rsum_ind, Rplus_0_r. f_equal. apply rsum_ext. intros i _.
  induction (seq 0 (nc data)) as [|j l IH]; [reflexivity|]. cbn [map lprod forallb]. rewrite IH, <- ind_mul. reflexivity.
Qed.
Print Assumptions C75_statistic.
Theorem C75_nonnegative fit sample data reps ties fit_ties t p : (0 < nr data)%nat -> gof_copula fit sample data reps ties fit_ties = Ok (t, p) -> 0 <= t.
Proof.
  intros Hn. unfold gof_copula. destruct (duplicated_ranks data); [|discriminate]. cbn [bind]. destruct (gof_pobs data ties fit_ties) as [[u v]|] eqn:E; [|discriminate]. cbn [bind fst snd].
  destruct (fit v) as [cdf|]; [|discriminate]. cbn [bind]. assert (Ru : nr u = nr data).
  { unfold gof_pobs in E. destruct (pseudo_obs Rleb data ties) as [w|] eqn:Ew; [|discriminate]. cbn [bind] in E. destruct (pseudo_obs_Ok Rleb _ _ _ Ew) as [_ [_ [Rw _]]].
    destruct (has_ties data && _); [destruct (pseudo_obs Rleb data fit_ties); [|discriminate]; cbn [rmap] in E|]; injection E as <- _; exact Rw. }
  rewrite C75_statistic by (rewrite Ru; exact Hn). cbn [bind]. match goal with |- context [mapM ?f ?l] => destruct (mapM f l) as [ts|] end; [|discriminate]. cbn [bind]. intros [= <- _].
  apply rsum_nonneg. intros. apply pow2_ge_0.
Qed.
Print Assumptions C75_nonnegative.
(** When the data contain ties, every bootstrap sample is made comonotone: all columns ascend together, whatever the fitted copula ... *)
Theorem C75_comonotone_refuted data dup u v : nr u = nr data -> nc u = nc data -> duplicated_ranks data = Ok dup -> sort_data_by_column dup u = Ok v -> comonotone v.
Proof.
  intros Hr Hc Hd Hv. destruct (sort_data_Ok data dup u Hd Hr Hc) as [v' [E [Rv [Cv G]]]]. assert (v' = v) by congruence. subst v'.
  destruct (duplicated_ranks_Ok data) as [d [Ed [_ [_ [B M]]]]]. assert (d = dup) by congruence. subst d. intros i k j Hik Hk Hj. rewrite !G by lia.
  pose proof (B i j ltac:(lia)). pose proof (B k j ltac:(lia)). pose proof (M i k j Hik ltac:(lia)). apply sort_columns_mono; lia.
Qed.
Print Assumptions C75_comonotone_refuted.
(** ... so two samples with the same columns but different dependence give the same bootstrap sample. *)
Theorem C75_dependence_lost_refuted data dup u u' v v' : nr u = nr data -> nc u = nc data -> same_columns u u' -> duplicated_ranks data = Ok dup ->
  sort_data_by_column dup u = Ok v -> sort_data_by_column dup u' = Ok v' -> forall i j, (i < nr data)%nat -> (j < nc data)%nat -> get v i j = get v' i j.
Proof.
  intros Hr Hc [S1 [S2 S3]] Hd Hv Hv' i j Hi Hj. destruct (sort_data_Ok data dup u Hd Hr Hc) as [w [E [_ [_ G]]]]. assert (w = v) by congruence. subst w.
  destruct (sort_data_Ok data dup u' Hd ltac:(congruence) ltac:(congruence)) as [w [E' [_ [_ G']]]]. assert (w = v') by congruence. subst w.
  rewrite G, G' by (congruence || lia). cbn [sort_columns get]. unfold column. rewrite (sorted_unique _ _ (S3 j ltac:(lia))). reflexivity.
Qed.
Print Assumptions C75_dependence_lost_refuted.
(** Therefore the p-value of data with ties does not depend on the dependence of the samples drawn from the fitted copula. *)
Lemma agree_column a b j : agree a b -> (j < nc a)%nat -> column a j = column b j.
Proof. intros [H1 [H2 H3]] Hj. unfold column. rewrite <- H1. apply map_ext_in. intros i Hi. apply in_seq in Hi. apply H3; lia. Qed.
Lemma agree_ties a b : agree a b -> has_ties a = has_ties b.
Proof.
  intros H. unfold has_ties. f_equal. destruct H as [H1 [H2 H3]]. rewrite <- H2. assert (X : forall l, (forall j, In j l -> (j < nc a)%nat) -> forallb (fun j => distinct (column a j)) l = forallb (fun j => distinct (column b j)) l).
  { induction l as [|j l IH]; intros Hl; [reflexivity|]. cbn [forallb]. rewrite (agree_column a b j) by (repeat split; assumption || (apply Hl; left; reflexivity)). rewrite IH by (intros; apply Hl; right; assumption). reflexivity. }
  apply X. intros j Hj. apply in_seq in Hj. lia.
Qed.
Lemma agree_pobs a b s : agree a b -> match pseudo_obs Rleb a s, pseudo_obs Rleb b s with Ok p, Ok q => agree (real_mat p) (real_mat q) /\ nr p = nr a | Err e, Err e' => e = e' | _, _ => False end.
Proof.
  intros [H1 [H2 H3]]. unfold pseudo_obs, rank_data2. destruct (parse_ties s) as [t|e]; cbn [bind rmap]; [|reflexivity]. split; [|reflexivity]. repeat split; cbn [real_mat nr nc get]; [exact H1|exact H2|].
  intros i j Hi Hj. rewrite <- H1. rewrite (rankdata_iso Rleb Rleb t (nr a) (fun k => get a k j) (fun k => get b k j) i); [reflexivity| |exact Hi]. intros k k' Hk Hk'. rewrite !H3 by assumption. reflexivity.
Qed.
Lemma agree_stat fit a b ties fit_ties : reads_entries fit -> agree a b -> (0 < nr a)%nat ->
  bind (gof_pobs a ties fit_ties) (fun p => bind (fit (snd p)) (fun cdf => gof_t_stat cdf (fst p))) = bind (gof_pobs b ties fit_ties) (fun p => bind (fit (snd p)) (fun cdf => gof_t_stat cdf (fst p))).
Proof.
  intros Hf Hab Hn. unfold gof_pobs. rewrite <- (agree_ties a b Hab). pose proof (agree_pobs a b ties Hab) as P. destruct (pseudo_obs Rleb a ties) as [p|e]; destruct (pseudo_obs Rleb b ties) as [q|e']; try contradiction; [|cbn; congruence].
  cbn [bind]. destruct P as [P Rp].
  assert (X : forall c d, agree c d -> bind (fit c) (fun cdf => gof_t_stat cdf (real_mat p)) = bind (fit d) (fun cdf => gof_t_stat cdf (real_mat q))).
  { intros c d Hcd. specialize (Hf c d Hcd). destruct (fit c) as [f|]; destruct (fit d) as [g|]; try contradiction; [|cbn; congruence]. cbn [bind].
    destruct P as [P1 [P2 P3]]. assert (P : agree (real_mat p) (real_mat q)) by (repeat split; assumption). assert (Hp : (0 < nr (real_mat p))%nat) by (cbn [real_mat nr]; lia).
    rewrite !C75_statistic by (rewrite <- ?P1; exact Hp). rewrite <- P1, <- P2. f_equal. apply rsum_ext. intros k Hk. rewrite (Hf _ _ k P Hk). f_equal. f_equal. unfold share. f_equal. f_equal. apply count_ext. intros i Hi. apply in_seq in Hi.
    assert (Y : forall l, (forall j, In j l -> (j < nc (real_mat p))%nat) -> forallb (fun j => Rleb (get (real_mat p) i j) (get (real_mat p) k j)) l = forallb (fun j => Rleb (get (real_mat q) i j) (get (real_mat q) k j)) l).
    { induction l as [|j l IH]; intros Hl; [reflexivity|]. cbn [forallb]. rewrite IH by (intros; apply Hl; right; assumption). rewrite !P3 by (lia || (apply Hl; left; reflexivity)). reflexivity. }
    apply Y. intros j Hj. apply in_seq in Hj. lia. }
  destruct (has_ties a && _).
  - pose proof (agree_pobs a b fit_ties Hab) as P'. destruct (pseudo_obs Rleb a fit_ties) as [p'|e]; destruct (pseudo_obs Rleb b fit_ties) as [q'|e']; try contradiction; [|cbn; congruence]. cbn [rmap bind fst snd]. apply X, P'.
  - cbn [bind fst snd]. apply X, P.
Qed.
Lemma mapM_ext {A B} (f g : A -> result B) l : (forall x, In x l -> f x = g x) -> mapM f l = mapM g l.
Proof. induction l as [|x l IH]; intros H; [reflexivity|]. cbn [mapM]. rewrite (H x), IH; [reflexivity|intros; apply H; right; assumption|left; reflexivity]. Qed.
Theorem C75_p_value_refuted fit sample sample' data reps ties fit_ties : reads_entries fit -> (0 < nr data)%nat -> has_ties data = true ->
  (forall k, (k < reps)%nat -> nr (sample k) = nr data /\ nc (sample k) = nc data /\ same_columns (sample k) (sample' k)) ->
  gof_copula fit sample data reps ties fit_ties = gof_copula fit sample' data reps ties fit_ties.
Proof.
  intros Hf Hn Ht Hs. unfold gof_copula. rewrite Ht. destruct (duplicated_ranks data) as [dup|] eqn:Hd; [|reflexivity]. cbn [bind].
  match goal with |- bind ?a _ = _ => destruct a as [t|]; [|reflexivity] end. cbn [bind]. erewrite mapM_ext; [reflexivity|]. intros k Hk. apply in_seq in Hk. destruct (Hs k ltac:(lia)) as [Hr [Hc Hsc]].
  destruct (sort_data_Ok data dup (sample k) Hd Hr Hc) as [v [E [Rv [Cv _]]]]. destruct Hsc as [S1 [S2 S3]].
  destruct (sort_data_Ok data dup (sample' k) Hd ltac:(congruence) ltac:(congruence)) as [v' [E' [Rv' [Cv' _]]]]. rewrite E, E'. cbn [bind]. apply agree_stat; [exact Hf| |lia].
  split; [congruence|]. split; [congruence|]. intros i j Hi Hj. apply (C75_dependence_lost_refuted data dup (sample k) (sample' k) v v'); try assumption; [repeat split; assumption|lia|lia].
Qed.
Print Assumptions C75_p_value_refuted.
(** Opposite columns (1,2,3) and (3,2,1) come out in the same order. *)
Example C75_case : exists u u', ~ comonotone u /\ comonotone u' /\ same_columns u u' /\ nr u = 3%nat /\ nc u = 2%nat.
Proof.
  exists (mkMat 3 2 (fun i j => nth j (nth i [[1; 3]; [2; 2]; [3; 1]] []) 0)), (mkMat 3 2 (fun i j => nth j (nth i [[1; 1]; [2; 2]; [3; 3]] []) 0)). repeat split.
  - intros H. specialize (H 0%nat 1%nat 1%nat ltac:(lia) ltac:(cbn; lia) ltac:(cbn; lia)). cbn in H. lra.
  - intros [|[|[|i]]] [|[|[|k]]] [|[|j]] H H' H''; cbn in *; (lia || lra).
  - intros [|[|j]] H; cbn in *; [reflexivity| |lia]. apply perm_trans with [3; 1; 2]; [apply perm_skip, perm_swap|]. apply perm_trans with [1; 3; 2]; [apply perm_swap|apply perm_skip, perm_swap].
Qed.
