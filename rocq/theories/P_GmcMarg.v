(** Lemmas about the marginal distribution functions of mixtures. *)
From Verif Require Import Base RSumLib CountLib Ext S_Matrix S_Linalg M_Special M_Stats M_Linalg P_Linalg M_Gmc S_Gmc P_Gmc.
From Coq Require Import Permutation Sorted.
Local Close Scope Z_scope. Open Scope R_scope.

(** ** The approximation of the normal distribution function *)
Definition tail (za : R) : R :=
  let t := 1 / (1 + 47047 / 100000 * za) in
  / 2 * (3480242 / 10000000 * t + (- 958798 / 10000000) * t ^ 2 + 7478556 / 10000000 * t ^ 3) * exp (- (za ^ 2)).
Definition phi (z : R) : R := if Rltb z 0 then tail (Rabs z) else 1 - tail (Rabs z).
Lemma phi_approx_eq x mu sigma : phi_approx x mu sigma = phi ((x - mu) / (sigma * sqrt2)).
Proof. reflexivity. Qed.

Definition poly (t : R) : R := 3480242 / 10000000 * t + (- 958798 / 10000000) * t ^ 2 + 7478556 / 10000000 * t ^ 3.
Lemma poly_incr s t : 0 <= s -> s < t -> poly s < poly t.
Proof.
  intros H0 H. unfold poly.
  assert (E : 3480242 / 10000000 * t + - 958798 / 10000000 * t ^ 2 + 7478556 / 10000000 * t ^ 3 - (3480242 / 10000000 * s + - 958798 / 10000000 * s ^ 2 + 7478556 / 10000000 * s ^ 3)
    = (t - s) * (3480242 / 10000000 + - 958798 / 10000000 * (t + s) + 7478556 / 10000000 * (t * t + t * s + s * s))) by ring.
  assert (0 < 3480242 / 10000000 + - 958798 / 10000000 * (t + s) + 7478556 / 10000000 * (t * t + t * s + s * s)).
  { clear E. assert (0 <= (t - s) * (t - s)) by apply Rle_0_sqr. assert (0 <= (t + s - / 10) * (t + s - / 10)) by apply Rle_0_sqr. nra. }
  assert (0 < (t - s) * (3480242 / 10000000 + - 958798 / 10000000 * (t + s) + 7478556 / 10000000 * (t * t + t * s + s * s))) by (apply Rmult_lt_0_compat; lra). lra.
Qed.
Lemma poly_1 : poly 1 = 1. Proof. unfold poly. lra. Qed.
Lemma poly_0 : poly 0 = 0. Proof. unfold poly. ring. Qed.
Definition tt_ (za : R) : R := 1 / (1 + 47047 / 100000 * za).
Lemma tt_range za : 0 <= za -> 0 < tt_ za <= 1.
Proof.
  intros H. unfold tt_. split; [apply Rdiv_lt_0_compat; lra|]. apply (Rmult_le_reg_r (1 + 47047 / 100000 * za)); [lra|].
  unfold Rdiv. rewrite Rmult_assoc, Rinv_l by lra. lra.
Qed.
Lemma tt_decr a b : 0 <= a -> a < b -> tt_ b < tt_ a.
Proof. intros H0 H. unfold tt_. unfold Rdiv. rewrite !Rmult_1_l. apply Rinv_lt_contravar; [apply Rmult_lt_0_compat; lra|lra]. Qed.
Lemma tail_eq za : tail za = / 2 * poly (tt_ za) * exp (- (za ^ 2)).
Proof. reflexivity. Qed.
Lemma poly_tt za : 0 <= za -> 0 < poly (tt_ za) <= 1.
Proof.
  intros H. destruct (tt_range za H) as [T0 T1]. split; [rewrite <- poly_0; apply poly_incr; lra|].
  destruct T1 as [T1|T1]; [rewrite <- poly_1; left; apply poly_incr; lra|rewrite T1, poly_1; lra].
Qed.
Lemma tail_bound za : 0 <= za -> 0 < tail za <= / 2 * exp (- (za ^ 2)).
Proof.
  intros H. rewrite tail_eq. pose proof (poly_tt za H). pose proof (exp_pos (- (za ^ 2))). split; [apply Rmult_lt_0_compat; lra|].
  apply Rmult_le_compat_r; lra.
Qed.
Lemma tail_half za : 0 <= za -> tail za <= / 2.
Proof.
  intros H. pose proof (tail_bound za H). assert (exp (- (za ^ 2)) <= 1).
  { rewrite <- exp_0. destruct (Req_dec za 0) as [->|N]; [right; f_equal; ring|left; apply exp_increasing; nra]. } lra.
Qed.
Lemma tail_0 : tail 0 = / 2.
Proof. rewrite tail_eq. unfold tt_. replace (1 / (1 + 47047 / 100000 * 0)) with 1 by field. rewrite poly_1. replace (- 0 ^ 2) with 0 by ring. rewrite exp_0. ring. Qed.
Lemma tail_decr a b : 0 <= a -> a < b -> tail b < tail a.
Proof.
  intros H0 H. rewrite !tail_eq. pose proof (tt_range b ltac:(lra)). pose proof (tt_decr a b H0 H).
  assert (poly (tt_ b) < poly (tt_ a)) by (apply poly_incr; lra). pose proof (poly_tt b ltac:(lra)).
  assert (exp (- b ^ 2) < exp (- a ^ 2)) by (apply exp_increasing; nra). pose proof (exp_pos (- b ^ 2)). nra.
Qed.
Lemma tail_small eps : 0 < eps -> exists z, 0 <= z /\ forall y, z <= y -> tail y < eps.
Proof.
  intros H. exists (/ eps). assert (0 < / eps) by (apply Rinv_0_lt_compat; lra). split; [lra|]. intros y Hy.
  pose proof (tail_bound y ltac:(lra)). destruct (Rle_lt_dec 1 eps) as [L|L]; [pose proof (tail_half y ltac:(lra)); lra|].
  assert (E1 : 1 < / eps) by (rewrite <- Rinv_1; apply Rinv_lt_contravar; lra).
  assert (exp (- (y ^ 2)) < eps); [|lra]. rewrite exp_Ropp. rewrite <- (Rinv_inv eps). apply Rinv_lt_contravar; [apply Rmult_lt_0_compat; [lra|apply exp_pos]|].
  assert (1 + y ^ 2 < exp (y ^ 2)) by (apply exp_ineq1; nra). nra.
Qed.
Lemma phi_range z : 0 < phi z < 1.
Proof. unfold phi. pose proof (tail_bound (Rabs z) (Rabs_pos z)). pose proof (tail_half (Rabs z) (Rabs_pos z)). destruct (Rltb z 0); lra. Qed.
Lemma phi_incr a b : a < b -> phi a < phi b.
Proof.
  intros H. unfold phi. destruct (Rltb a 0) eqn:Ea, (Rltb b 0) eqn:Eb; rewrite ?Rltb_true, ?Rltb_false in *; try lra.
  - rewrite !Rabs_left by lra. apply tail_decr; lra.
  - rewrite (Rabs_left a), (Rabs_pos_eq b) by lra. pose proof (tail_half b Eb). assert (tail (- a) < / 2) by (rewrite <- tail_0; apply tail_decr; lra). lra.
  - rewrite !Rabs_pos_eq by lra. assert (tail b < tail a) by (apply tail_decr; lra). lra.
Qed.
Lemma phi_sym z : phi (- z) + phi z = 1.
Proof.
  unfold phi. rewrite Rabs_Ropp. destruct (Rtotal_order z 0) as [H|[->|H]].
  - rewrite (proj2 (Rltb_false (- z) 0)), (proj2 (Rltb_true z 0)) by lra. ring.
  - rewrite Ropp_0, Rltb_irrefl, Rabs_R0, tail_0. lra.
  - rewrite (proj2 (Rltb_true (- z) 0)), (proj2 (Rltb_false z 0)) by lra. ring.
Qed.
Lemma phi_0 : phi 0 = / 2.
Proof. pose proof (phi_sym 0) as H. rewrite Ropp_0 in H. lra. Qed.
Lemma phi_high eps : 0 < eps -> exists z, forall y, z <= y -> 1 - eps < phi y.
Proof.
  intros H. destruct (tail_small eps H) as [z [Hz Ht]]. exists z. intros y Hy. unfold phi. rewrite (proj2 (Rltb_false y 0)) by lra.
  rewrite Rabs_pos_eq by lra. specialize (Ht y Hy). lra.
Qed.

(** ** Mixtures of it *)
Lemma sqrt2_pos : 0 < sqrt2. Proof. unfold sqrt2. lra. Qed.
Lemma marginal_cdf_eq p j x : marginal_cdf p j x = rsum (n_clusters p) (fun k => weight p k * phi ((x - centre p k j) / (deviation p k j * sqrt2))).
Proof. unfold marginal_cdf. rewrite rsum_lsum. apply lsum_map_ext. intros k _. cbn. rewrite phi_approx_eq. unfold weight, deviation, centre, spread_of. ring. Qed.
Lemma rsum_nth l : rsum (length l) (fun k => nth k l 0) = lsum l.
Proof. induction l as [|x l IH]; [reflexivity|]. cbn [length]. rewrite rsum_Sl. cbn [nth lsum]. rewrite IH. reflexivity. Qed.
Lemma weight_sum p : valid p -> rsum (n_clusters p) (weight p) = lsum (prob p).
Proof. intros [V1 _]. rewrite <- V1. apply rsum_nth. Qed.
Lemma weight_nonneg p k : valid p -> 0 <= weight p k <= 1.
Proof.
  intros [V1 [[W _] _]]. unfold weight. destruct (Nat.lt_ge_cases k (length (prob p))) as [H|H].
  - rewrite Forall_forall in W. apply W, nth_In, H.
  - rewrite nth_overflow by exact H. lra.
Qed.
Lemma lsum_weights p : valid p -> 0 < lsum (prob p).
Proof. intros [_ [[_ W] _]]. revert W. unfold Rabs. destruct (Rcase_abs _); lra. Qed.
Lemma some_weight p : valid p -> exists k, (k < n_clusters p)%nat /\ 0 < weight p k.
Proof.
  intros V. pose proof (lsum_weights p V) as H. rewrite <- (weight_sum p V) in H.
  assert (G : forall n, 0 < rsum n (weight p) -> exists k, (k < n)%nat /\ 0 < weight p k).
  { induction n as [|n IH]; cbn [rsum]; intros Hn; [lra|]. destruct (Rlt_dec 0 (weight p n)) as [P|P]; [exists n; auto|].
    pose proof (weight_nonneg p n V). destruct IH as [k [Hk Pk]]; [lra|]. exists k. auto. }
  apply G, H.
Qed.
(** sums of weighted terms *)
Lemma wsum_lt n (w f g : nat -> R) : (forall k, (k < n)%nat -> 0 <= w k) -> (exists k, (k < n)%nat /\ 0 < w k) -> (forall k, (k < n)%nat -> f k < g k) ->
  rsum n (fun k => w k * f k) < rsum n (fun k => w k * g k).
Proof.
  intros Hw [k0 [Hk0 P0]] H. assert (0 < rsum n (fun k => w k * g k - w k * f k)).
  { apply rsum_pos; [intros k Hk; specialize (Hw k Hk); specialize (H k Hk); nra|exists k0; split; [exact Hk0|specialize (H k0 Hk0); nra]]. }
  rewrite rsum_minus in H0. lra.
Qed.
Section Marg.
  Variables (p : gmc) (j : nat).
  Hypothesis V : valid p. Hypothesis P : forall k, (k < n_clusters p)%nat -> 0 < get (spread_of p k) j j.
  Lemma dev_pos k : (k < n_clusters p)%nat -> 0 < deviation p k j.
  Proof. intros H. apply sqrt_lt_R0, P, H. Qed.
  Lemma marginal_range x : 0 < marginal_cdf p j x < lsum (prob p).
  Proof.
    rewrite marginal_cdf_eq, <- (weight_sum p V). split.
    - rewrite <- (rsum_zero (n_clusters p) (fun k => weight p k * 0)) by (intros; ring). apply wsum_lt; [intros; apply weight_nonneg, V|apply some_weight, V|intros; apply phi_range].
    - rewrite (rsum_ext (n_clusters p) (weight p) (fun k => weight p k * 1)) by (intros; ring). apply wsum_lt; [intros; apply weight_nonneg, V|apply some_weight, V|intros; apply phi_range].
  Qed.
  Lemma marginal_incr x y : x < y -> marginal_cdf p j x < marginal_cdf p j y.
  Proof.
    intros H. rewrite !marginal_cdf_eq. apply wsum_lt; [intros; apply weight_nonneg, V|apply some_weight, V|]. intros k Hk. apply phi_incr.
    pose proof (dev_pos k Hk). pose proof sqrt2_pos. apply Rmult_lt_compat_r; [apply Rinv_0_lt_compat; apply Rmult_lt_0_compat; lra|lra].
  Qed.
  Lemma marginal_mono x y : x <= y -> marginal_cdf p j x <= marginal_cdf p j y.
  Proof. intros [H| ->]; [left; apply marginal_incr, H|right; reflexivity]. Qed.
  Lemma marginal_inj_le x y : marginal_cdf p j x <= marginal_cdf p j y -> x <= y.
  Proof. intros H. destruct (Rle_lt_dec x y) as [L|L]; [exact L|]. pose proof (marginal_incr y x L). lra. Qed.
  (** the limits: [sgn] tells the side *)
  Lemma common_bound n (f : nat -> R) (Q : nat -> R -> Prop) : (forall k, (k < n)%nat -> forall x, f k <= x -> Q k x) -> exists X, forall x, X <= x -> forall k, (k < n)%nat -> Q k x.
  Proof.
    induction n as [|n IH]; intros H; [exists 0; intros; lia|]. destruct IH as [X HX]; [intros; apply H; [lia|assumption]|].
    exists (Rmax X (f n)). intros x Hx k Hk. pose proof (Rmax_l X (f n)). pose proof (Rmax_r X (f n)).
    destruct (Nat.eq_dec k n) as [->|N]; [apply H; [lia|lra]|apply HX; [lra|lia]].
  Qed.
  Lemma marginal_high eps : 0 < eps -> exists X, forall x, X <= x -> (1 - eps) * lsum (prob p) < marginal_cdf p j x.
  Proof.
    intros He. destruct (phi_high eps He) as [z Hz].
    destruct (common_bound (n_clusters p) (fun k => centre p k j + z * (deviation p k j * sqrt2)) (fun k x => 1 - eps < phi ((x - centre p k j) / (deviation p k j * sqrt2)))) as [X HX].
    - intros k Hk x Hx. apply Hz. pose proof (dev_pos k Hk). pose proof sqrt2_pos. assert (0 < deviation p k j * sqrt2) by (apply Rmult_lt_0_compat; lra).
      apply (Rmult_le_reg_r (deviation p k j * sqrt2)); [assumption|]. unfold Rdiv. rewrite Rmult_assoc, Rinv_l by lra. lra.
    - exists X. intros x Hx. rewrite marginal_cdf_eq, <- (weight_sum p V), <- rsum_scal.
      rewrite (rsum_ext _ _ (fun k => weight p k * (1 - eps))) by (intros; ring). apply wsum_lt; [intros; apply weight_nonneg, V|apply some_weight, V|].
      intros k Hk. apply (HX x Hx k Hk).
  Qed.
  Lemma marginal_low eps : 0 < eps -> exists X, forall x, x <= X -> marginal_cdf p j x < eps * lsum (prob p).
  Proof.
    intros He. destruct (phi_high eps He) as [z Hz].
    destruct (common_bound (n_clusters p) (fun k => - centre p k j + z * (deviation p k j * sqrt2)) (fun k x => 1 - eps < phi ((x + centre p k j) / (deviation p k j * sqrt2)))) as [X HX].
    - intros k Hk x Hx. apply Hz. pose proof (dev_pos k Hk). pose proof sqrt2_pos. assert (0 < deviation p k j * sqrt2) by (apply Rmult_lt_0_compat; lra).
      apply (Rmult_le_reg_r (deviation p k j * sqrt2)); [assumption|]. unfold Rdiv. rewrite Rmult_assoc, Rinv_l by lra. lra.
    - exists (- X). intros x Hx. rewrite marginal_cdf_eq, <- (weight_sum p V), <- rsum_scal.
      rewrite (rsum_ext _ (fun k => eps * weight p k) (fun k => weight p k * eps)) by (intros; ring). apply wsum_lt; [intros; apply weight_nonneg, V|apply some_weight, V|].
      intros k Hk. specialize (HX (- x) ltac:(lra) k Hk). pose proof (phi_sym ((x - centre p k j) / (deviation p k j * sqrt2))) as S1.
      replace (- ((x - centre p k j) / (deviation p k j * sqrt2))) with ((- x + centre p k j) / (deviation p k j * sqrt2)) in S1; [lra|].
      pose proof (dev_pos k Hk). pose proof sqrt2_pos. field. lra.
  Qed.
End Marg.

(** ** The grid *)
Lemma linspace_length a b n : length (linspace a b n) = n.
Proof. unfold linspace. rewrite map_length, seq_length. reflexivity. Qed.
Lemma linspace_in a b n x : a <= b -> (2 <= n)%nat -> In x (linspace a b n) -> a <= x <= b.
Proof.
  intros Hab Hn H. apply in_map_iff in H. destruct H as [k [<- Hk]]. apply in_seq in Hk. destruct (Nat.eqb_spec (S k) n) as [E|N]; [lra|].
  assert (0 <= INR k) by apply pos_INR. assert (INR k + 1 <= INR n) by (rewrite <- S_INR; apply le_INR; lia). assert (1 < INR n) by (apply (lt_INR 1); lia).
  assert (0 <= (b - a) / (INR n - 1)) by (apply Rmult_le_pos; [lra|left; apply Rinv_0_lt_compat; lra]).
  assert ((INR n - 1) * ((b - a) / (INR n - 1)) = b - a) by (field; lra). nra.
Qed.
Lemma linspace_ends a b n : (2 <= n)%nat -> In a (linspace a b n) /\ In b (linspace a b n).
Proof.
  intros Hn. split; apply in_map_iff.
  - exists 0%nat. rewrite (proj2 (Nat.eqb_neq 1 n)) by lia. split; [cbn; ring|]. apply in_seq. lia.
  - exists (n - 1)%nat. split; [|apply in_seq; lia]. replace (Datatypes.S (n - 1)) with n by lia. rewrite Nat.eqb_refl. reflexivity.
Qed.
Lemma n_samples_ge round r w : (2 <= n_samples round r w)%nat.
Proof. unfold n_samples. lia. Qed.

(** ** interp1d *)
Lemma insert_pair_perm a l : Permutation (a :: l) (insert_pair a l).
Proof. induction l as [|b l IH]; cbn; [reflexivity|]. destruct (Rleb (fst a) (fst b)); [reflexivity|]. rewrite perm_swap. constructor. exact IH. Qed.
Lemma sort_pairs_perm l : Permutation l (sort_pairs l).
Proof. induction l as [|a l IH]; cbn; [reflexivity|]. rewrite IH at 1. apply insert_pair_perm. Qed.
Definition le_fst (a b : R * R) : Prop := fst a <= fst b.
Lemma insert_pair_sorted a l : StronglySorted le_fst l -> StronglySorted le_fst (insert_pair a l).
Proof.
  induction 1 as [|b l Sl IH F]; cbn; [repeat constructor|]. destruct (Rleb (fst a) (fst b)) eqn:E.
  - apply Rleb_true in E. constructor; [constructor; assumption|]. constructor; [exact E|]. eapply Forall_impl; [|exact F]. unfold le_fst. intros c Hc. lra.
  - apply Rleb_false in E. constructor; [exact IH|]. eapply Permutation_Forall; [apply insert_pair_perm|]. constructor; [unfold le_fst; lra|exact F].
Qed.
Lemma sort_pairs_sorted l : StronglySorted le_fst (sort_pairs l).
Proof. induction l as [|a l IH]; cbn; [constructor|]. apply insert_pair_sorted, IH. Qed.

(** two neighbours of the sorted pairs around q *)
Lemma interp_between l : forall x0 y0 q, x0 <= q -> q <= fst (last l (x0, y0)) -> StronglySorted le_fst ((x0, y0) :: l) ->
  exists a b, In a ((x0, y0) :: l) /\ In b ((x0, y0) :: l) /\ fst a <= q <= fst b
    /\ ((q = fst a /\ interp x0 y0 l q = snd a) \/ (fst a < fst b /\ interp x0 y0 l q = (snd b - snd a) / (fst b - fst a) * (q - fst a) + snd a))
    /\ (forall c, In c ((x0, y0) :: l) -> fst c <= fst a \/ fst b <= fst c).
Proof.
  induction l as [|[x1 y1] l IH]; intros x0 y0 q H0 H1 So.
  - cbn in H1. exists (x0, y0), (x0, y0). cbn. split; [auto|]. split; [auto|]. split; [lra|]. split; [left; split; [lra|reflexivity]|]. intros c [<-|[]]; cbn; left; lra.
  - inversion So as [|? ? So1 F]; subst. cbn [interp]. destruct (Rltb q x1) eqn:E.
    + apply Rltb_true in E. exists (x0, y0), (x1, y1). cbn [fst snd]. split; [left; reflexivity|]. split; [right; left; reflexivity|]. split; [lra|].
      split; [right; split; [lra|reflexivity]|]. intros c [<-|[<-|Hc]]; cbn; [left; lra|right; lra|]. right. inversion So1 as [|? ? _ F1]; subst. rewrite Forall_forall in F1. apply (F1 c Hc).
    + apply Rltb_false in E. assert (EL : last ((x1, y1) :: l) (x0, y0) = last l (x1, y1)).
      { clear. revert x1 y1. induction l as [|z l IH]; intros; [reflexivity|]. change (last ((x1, y1) :: z :: l) (x0, y0)) with (last (z :: l) (x0, y0)). destruct z as [z1 z2]. rewrite IH.
        destruct l as [|w l]; [reflexivity|]. change (last ((z1, z2) :: w :: l) (x1, y1)) with (last (w :: l) (x1, y1)). clear. revert w. induction l as [|v l IH]; intros w; [reflexivity|]. exact (IH v). }
      rewrite EL in H1. destruct (IH x1 y1 q E H1 So1) as [a [b [Ha [Hb [Hq [Hv Hn]]]]]]. exists a, b. split; [right; exact Ha|]. split; [right; exact Hb|]. split; [exact Hq|]. split; [exact Hv|].
      intros c [<-|Hc]; [|apply Hn, Hc]. left. rewrite Forall_forall in F. apply (F a Ha).
Qed.
Lemma last_in {A} (l : list A) a : In (last l a) (a :: l).
Proof.
  destruct l as [|x l]; [left; reflexivity|]. right. revert x. induction l as [|y l IH]; intros x; [left; reflexivity|].
  change (last (x :: y :: l) a) with (last (y :: l) a). right. apply IH.
Qed.
Lemma last_max l x0 : StronglySorted le_fst (x0 :: l) -> forall c, In c (x0 :: l) -> fst c <= fst (last l x0).
Proof.
  revert x0. induction l as [|y l IH]; intros x0 So c Hc; [destruct Hc as [<-|[]]; cbn; lra|].
  inversion So as [|? ? So1 F]; subst. assert (EL : last (y :: l) x0 = last l y).
  { clear. revert y. induction l as [|z l IH]; intros; [reflexivity|]. change (last (y :: z :: l) x0) with (last (z :: l) x0). rewrite IH. symmetry.
    destruct l as [|w l]; [reflexivity|]. change (last (z :: w :: l) y) with (last (w :: l) y). clear. revert w. induction l as [|v l IH]; intros w; [reflexivity|]. exact (IH v). }
  rewrite EL. destruct Hc as [<-|Hc]; [|apply IH; assumption]. rewrite Forall_forall in F. apply (F (last l y)). apply last_in.
Qed.

Section Ppf.
  Variables (p : gmc) (j : nat) (round : R -> Z) (resolution spread : R).
  Hypothesis V : valid p. Hypothesis P : forall k, (k < n_clusters p)%nat -> 0 < get (spread_of p k) j j.
  Let grid := ppf_grid round p resolution spread j.
  Let F := marginal_cdf p j.

  Lemma grid_in x : In x grid -> exists k, (k < n_clusters p)%nat /\ In x (linspace (centre p k j - spread * deviation p k j) (centre p k j + spread * deviation p k j) (n_samples round resolution (weight p k))).
  Proof. unfold grid, ppf_grid. rewrite in_flat_map. intros [k [Hk H]]. apply in_seq in Hk. exists k. split; [lia|exact H]. Qed.
  Lemma grid_fwd k x : (k < n_clusters p)%nat -> In x (linspace (centre p k j - spread * deviation p k j) (centre p k j + spread * deviation p k j) (n_samples round resolution (weight p k))) -> In x grid.
  Proof. intros Hk H. unfold grid, ppf_grid. apply in_flat_map. exists k. split; [apply in_seq; lia|exact H]. Qed.
  Lemma grid_nonempty : grid <> [].
  Proof.
    destruct (some_weight p V) as [k [Hk _]]. intros E. assert (H : In (centre p k j - spread * deviation p k j) grid) by (apply (grid_fwd k _ Hk); apply linspace_ends, n_samples_ge).
    rewrite E in H. destruct H.
  Qed.
  Lemma pairs_in c : In c (combine (map F grid) grid) <-> In (snd c) grid /\ fst c = F (snd c).
  Proof.
    induction grid as [|x l IH]; cbn; [tauto|]. rewrite IH. destruct c as [a b]. cbn. split.
    - intros [E|[H1 H2]]; [injection E as <- <-; auto|auto].
    - intros [[->|H] E]; [left; congruence|right; auto].
  Qed.
  Lemma marginal_ppf_ok q : (exists a b, In a grid /\ In b grid /\ F a <= q <= F b) <-> exists y, marginal_ppf round p resolution spread j q = Ok y.
  Proof.
    unfold marginal_ppf, interp1d. fold grid. fold F. pose proof (sort_pairs_perm (combine (map F grid) grid)) as Hp. pose proof (sort_pairs_sorted (combine (map F grid) grid)) as So.
    destruct (sort_pairs (combine (map F grid) grid)) as [|[x0 y0] l] eqn:E.
    - exfalso. apply Permutation_sym, Permutation_nil in Hp. pose proof grid_nonempty as N. destruct grid; [contradiction|discriminate].
    - split.
      + intros [a [b [Ha [Hb Hq]]]].
        assert (Ia : In (F a, a) ((x0, y0) :: l)) by (eapply Permutation_in; [exact Hp|]; apply pairs_in; auto).
        assert (Ib : In (F b, b) ((x0, y0) :: l)) by (eapply Permutation_in; [exact Hp|]; apply pairs_in; auto).
        pose proof (last_max l (x0, y0) So _ Ib) as M. cbn [fst] in M.
        assert (M0 : x0 <= F a) by (inversion So as [|? ? _ Fa]; subst; destruct Ia as [Ia|Ia]; [injection Ia as -> ->; lra|rewrite Forall_forall in Fa; apply (Fa _ Ia)]).
        rewrite (proj2 (Rltb_false q x0)), (proj2 (Rltb_false _ q)) by lra. cbn [orb]. eexists. reflexivity.
      + intros [y H]. destruct (Rltb q x0) eqn:E0; [discriminate|]. destruct (Rltb (fst (last l (x0, y0))) q) eqn:E1; [discriminate|].
        apply Rltb_false in E0. apply Rltb_false in E1.
        assert (I0 : In (x0, y0) (combine (map F grid) grid)) by (eapply Permutation_in; [apply Permutation_sym, Hp|left; reflexivity]).
        assert (I1 : In (last l (x0, y0)) (combine (map F grid) grid)) by (eapply Permutation_in; [apply Permutation_sym, Hp|apply last_in]).
        apply pairs_in in I0. apply pairs_in in I1. cbn in I0. exists y0, (snd (last l (x0, y0))). destruct I0 as [I0 ->], I1 as [I1 I2]. rewrite <- I2. auto.
  Qed.
  Lemma marginal_ppf_between q y : marginal_ppf round p resolution spread j q = Ok y ->
    exists a b, In a grid /\ In b grid /\ F a <= q <= F b /\ a <= y <= b /\ (forall c, In c grid -> c <= a \/ b <= c)
      /\ ((q = F a /\ y = a) \/ (a < b /\ y = a + (b - a) * ((q - F a) / (F b - F a)))).
  Proof.
    unfold marginal_ppf, interp1d. fold grid. fold F. pose proof (sort_pairs_perm (combine (map F grid) grid)) as Hp. pose proof (sort_pairs_sorted (combine (map F grid) grid)) as So.
    destruct (sort_pairs (combine (map F grid) grid)) as [|[x0 y0] l]; [discriminate|].
    destruct (Rltb q x0) eqn:E0; [discriminate|]. destruct (Rltb (fst (last l (x0, y0))) q) eqn:E1; [discriminate|]. cbn [orb]. intros H. injection H as <-.
    apply Rltb_false in E0. apply Rltb_false in E1. destruct (interp_between l x0 y0 q E0 E1 So) as [a [b [Ha [Hb [Hq [Hv Hn]]]]]].
    apply (Permutation_in _ (Permutation_sym Hp)) in Ha. apply (Permutation_in _ (Permutation_sym Hp)) in Hb. apply pairs_in in Ha. apply pairs_in in Hb.
    destruct Ha as [Ia Ea], Hb as [Ib Eb]. exists (snd a), (snd b). rewrite Ea, Eb in *. split; [exact Ia|]. split; [exact Ib|]. split; [exact Hq|].
    assert (Le : snd a <= snd b) by (apply (marginal_inj_le p j V P); fold F; lra).
    split; [|split].
    - destruct Hv as [[Q ->]|[L ->]]; [lra|].
      assert (Q0 : 0 <= (q - F (snd a)) / (F (snd b) - F (snd a)) <= 1).
      { split; [apply Rmult_le_pos; [lra|left; apply Rinv_0_lt_compat; lra]|]. apply (Rmult_le_reg_r (F (snd b) - F (snd a))); [lra|]. unfold Rdiv. rewrite Rmult_assoc, Rinv_l by lra. lra. }
      replace ((snd b - snd a) / (F (snd b) - F (snd a)) * (q - F (snd a)) + snd a) with (snd a + (snd b - snd a) * ((q - F (snd a)) / (F (snd b) - F (snd a)))) by (field; lra). nra.
    - intros c Hc. destruct (Hn (F c, c)) as [H|H]; [eapply Permutation_in; [exact Hp|]; apply pairs_in; auto| |]; cbn [fst] in H.
      + left. apply (marginal_inj_le p j V P). exact H.
      + right. apply (marginal_inj_le p j V P). exact H.
    - destruct Hv as [[Q ->]|[L ->]]; [left; auto|right]. split; [|field; lra].
      destruct Le as [Le|Le]; [exact Le|]. rewrite Le in L. lra.
  Qed.
  Lemma marginal_ppf_mono q q' y y' : q <= q' -> marginal_ppf round p resolution spread j q = Ok y -> marginal_ppf round p resolution spread j q' = Ok y' -> y <= y'.
  Proof.
    intros [Hq| ->] H H'; [|rewrite H in H'; injection H' as ->; lra].
    destruct (marginal_ppf_between q y H) as [a [b [Ia [Ib [Fq [Hy [Hn Hv]]]]]]]. destruct (marginal_ppf_between q' y' H') as [a' [b' [Ia' [Ib' [Fq' [Hy' [Hn' Hv']]]]]]].
    destruct (Rle_lt_dec y y') as [L|L]; [exact L|]. exfalso.
    assert (a' <= a) by (destruct (Hn a' Ia'); lra).
    assert (a <= a').
    { destruct (Hn' a Ia) as [G|G]; [exact G|]. pose proof (marginal_mono p j V P b' a G) as M. fold F in M. lra. }
    assert (a' = a) by lra. subst a'.
    destruct Hv as [[E E1]|[Lab Ev]]; [lra|]. destruct Hv' as [[E E1]|[Lab' Ev']]; [lra|].
    assert (b' <= b) by (destruct (Hn' b Ib); lra). assert (b <= b') by (destruct (Hn b' Ib'); lra). assert (b' = b) by lra. subst b'.
    assert (Fab : F a < F b) by (apply (marginal_incr p j V P); exact Lab).
    assert ((q - F a) / (F b - F a) < (q' - F a) / (F b - F a)) by (apply Rmult_lt_compat_r; [apply Rinv_0_lt_compat; lra|lra]). nra.
  Qed.
  Lemma marginal_ppf_grid x : In x grid -> marginal_ppf round p resolution spread j (F x) = Ok x.
  Proof.
    intros Hx. destruct (proj1 (marginal_ppf_ok (F x))) as [y Hy]; [exists x, x; split; [exact Hx|split; [exact Hx|lra]]|].
    rewrite Hy. f_equal. destruct (marginal_ppf_between _ _ Hy) as [a [b [Ia [Ib [Fq [Hab [Hn Hv]]]]]]].
    assert (Ax : a <= x) by (apply (marginal_inj_le p j V P); apply Fq). assert (Xb : x <= b) by (apply (marginal_inj_le p j V P); apply Fq).
    destruct (Hn x Hx) as [G|G].
    - assert (x = a) by lra. subst x. destruct Hv as [[_ E]|[L E]]; [exact E|]. rewrite E. unfold Rdiv. ring.
    - assert (x = b) by lra. subst x. destruct Hv as [[E1 E]|[L E]].
      + rewrite E. assert (b <= a) by (apply (marginal_inj_le p j V P); fold F; lra). lra.
      + assert (F a < F b) by (apply (marginal_incr p j V P); exact L). rewrite E. field. lra.
  Qed.
End Ppf.
