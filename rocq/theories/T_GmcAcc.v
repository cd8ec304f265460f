(** C119: accuracy of the marginal distribution functions of mixtures. *)
From Coq Require Import Reals.
From Coquelicot Require Import Coquelicot.
From Verif Require Import Base RSumLib Ext S_Matrix M_Gmc S_Gmc P_Gmc P_GmcMarg S_Normal P_GaussInt P_GmcAcc T_Gmc.
From Coq Require Import Psatz.
Local Close Scope Z_scope. Open Scope R_scope.

(** the distribution function of coordinate j of the mixture of normal laws *)
Definition mixture_cdf (F : R -> R) (p : gmc) (j : nat) (x : R) : R := rsum (n_clusters p) (fun k => weight p k * F ((x - centre p k j) / deviation p k j)).

Theorem C119_accuracy : forall F p j x, normal_cdf F -> valid p -> (forall k, (k < n_clusters p)%nat -> 0 < get (spread_of p k) j j) ->
  Rabs (marginal_cdf p j x - mixture_cdf F p j x) <= 125 / 10000000 * lsum (prob p).
Proof.
  intros F p j x HF V P. rewrite marginal_cdf_eq. unfold mixture_cdf. rewrite <- (weight_sum p V).
  assert (G : forall n, (n <= n_clusters p)%nat -> Rabs (rsum n (fun k => weight p k * phi ((x - centre p k j) / (deviation p k j * sqrt2))) - rsum n (fun k => weight p k * F ((x - centre p k j) / deviation p k j))) <= 125 / 10000000 * rsum n (weight p)).
  { induction n as [|n IH]; intros H; [cbn [rsum]; rewrite Rminus_0_r, Rabs_R0; lra|]. specialize (IH ltac:(lia)). cbn [rsum].
    pose proof (component_close F HF x (centre p n j) (deviation p n j) (sqrt_lt_R0 _ (P n ltac:(lia)))) as B. pose proof (weight_nonneg p n V) as W.
    apply Rabs_le_between in IH, B. apply Rabs_le_between. set (a := phi _) in *. set (b := F _) in *. clearbody a b. nra. }
  apply G, Nat.le_refl.
Qed.
Print Assumptions C119_accuracy.

(** A coordinate drawn from the mixture and passed through the marginal distribution function (gmc/random.py) is uniform up to 1.25e-5: the draws sent below u are
    those up to some y, whose probability is within 1.25e-5 of u. *)
Theorem C119_sample_margins : forall F p j u, normal_cdf F -> valid p -> lsum (prob p) = 1 -> (forall k, (k < n_clusters p)%nat -> 0 < get (spread_of p k) j j) -> 0 < u < 1 ->
  exists y, (forall x, marginal_cdf p j x <= u <-> x <= y) /\ Rabs (mixture_cdf F p j y - u) <= 125 / 10000000.
Proof.
  intros F p j u HF V S P Hu. destruct (C66_cdf p j V P) as [_ [I [Hi Lo]]]. rewrite S in *.
  destruct (Hi (1 - u) ltac:(lra)) as [b Hb]. destruct (Lo u ltac:(lra)) as [a Ha]. specialize (Hb b (Rle_refl b)). specialize (Ha a (Rle_refl a)).
  destruct (IVT_gen (marginal_cdf p j) a b u) as [y [_ E]].
  - intros x. apply continuity_pt_filterlim, marginal_cont.
  - rewrite Rmin_left, Rmax_right by lra. lra.
  - exists y. split.
    + intros x. rewrite <- E. split; intros H.
      * apply Rnot_lt_le. intros G. specialize (I _ _ G). lra.
      * destruct H as [H| ->]; [left; apply I, H|apply Rle_refl].
    + rewrite <- E at 1. rewrite Rabs_minus_sym. pose proof (C119_accuracy F p j y HF V P) as B. rewrite S in B. lra.
Qed.
Print Assumptions C119_sample_margins.

Lemma cdf_pos F z : normal_cdf F -> 0 < F z.
Proof.
  intros HF. assert (N : 0 <= F (z - 1)).
  { pose proof HF as [D [L _]]. apply (is_lim_le_loc F (fun _ => F (z - 1)) m_infty 0 (F (z - 1))); [|exact L|apply is_lim_const]. exists (z - 1). intros y Hy. apply (F_incr F HF). lra. }
  destruct HF as [D _]. destruct (MVT_gen F (z - 1) z (fun z => exp (- (z * z) / 2) / sqrt (2 * PI))) as [c [_ E]]; [intros y _; apply D|intros y _; apply cont_of_derive with (exp (- (y * y) / 2) / sqrt (2 * PI)), D|].
  assert (0 < exp (- (c * c) / 2) / sqrt (2 * PI)); [|lra]. apply Rdiv_lt_0_compat; [apply exp_pos|apply sqrt_lt_R0; pose proof PI_RGT_0; lra].
Qed.
Lemma mixture_pos F p j x : normal_cdf F -> valid p -> 0 < mixture_cdf F p j x.
Proof.
  intros HF V. destruct (some_weight p V) as [k [Hk W]]. unfold mixture_cdf.
  assert (G : forall n, 0 <= rsum n (fun k => weight p k * F ((x - centre p k j) / deviation p k j)) /\ ((k < n)%nat -> 0 < rsum n (fun k => weight p k * F ((x - centre p k j) / deviation p k j)))).
  { induction n as [|n [I1 I2]]; [cbn [rsum]; split; [lra|lia]|]. cbn [rsum]. pose proof (cdf_pos F ((x - centre p n j) / deviation p n j) HF) as Q. pose proof (weight_nonneg p n V) as Wn. split; [nra|]. intros H. destruct (Nat.eq_dec k n) as [->|N]; [nra|]. specialize (I2 ltac:(lia)). nra. }
  apply G, Hk.
Qed.

(** Small probabilities are not approximated in proportion: more than 7.1 standard deviations below every mean the result is at least 3 per cent too large. *)
Theorem C119_relative_accuracy_refuted : forall F p j x, normal_cdf F -> valid p -> (forall k, (k < n_clusters p)%nat -> 0 < get (spread_of p k) j j) ->
  (forall k, (k < n_clusters p)%nat -> x <= centre p k j - 71 / 10 * deviation p k j) -> 0 < mixture_cdf F p j x /\ 103 / 100 * mixture_cdf F p j x <= marginal_cdf p j x.
Proof.
  intros F p j x HF V P L. split; [apply mixture_pos; assumption|]. rewrite marginal_cdf_eq. unfold mixture_cdf.
  assert (G : forall n, (n <= n_clusters p)%nat -> 103 / 100 * rsum n (fun k => weight p k * F ((x - centre p k j) / deviation p k j)) <= rsum n (fun k => weight p k * phi ((x - centre p k j) / (deviation p k j * sqrt2)))).
  { induction n as [|n IH]; intros H; [cbn [rsum]; lra|]. specialize (IH ltac:(lia)). cbn [rsum].
    pose proof (component_tail F HF x (centre p n j) (deviation p n j) (sqrt_lt_R0 _ (P n ltac:(lia))) (L n ltac:(lia))) as B. pose proof (weight_nonneg p n V) as W.
    set (a := phi _) in *. set (b := F _) in *. clearbody a b. nra. }
  apply G, Nat.le_refl.
Qed.
Print Assumptions C119_relative_accuracy_refuted.

(** there is a normal distribution function, and a mixture of two components meets the hypotheses *)
Definition gauss_cdf (z : R) : R := / 2 + gI z * / sqrt (2 * PI).
Lemma gauss_cdf_ok : normal_cdf gauss_cdf.
Proof.
  assert (S : 0 < sqrt (2 * PI)) by (apply sqrt_lt_R0; pose proof PI_RGT_0; lra).
  assert (E : sqrt (PI / 2) * / sqrt (2 * PI) = / 2).
  { replace (2 * PI) with (PI / 2 * (2 * 2)) by field. rewrite sqrt_mult by (pose proof PI_RGT_0; lra). rewrite sqrt_square by lra. pose proof (sqrt_lt_R0 (PI / 2) ltac:(pose proof PI_RGT_0; lra)). field. lra. }
  assert (L1 : is_lim gauss_cdf p_infty 1).
  { unfold gauss_cdf. replace (Finite 1) with (Finite (/ 2 + sqrt (PI / 2) * / sqrt (2 * PI))) by (rewrite E; f_equal; field). apply (is_lim_plus (fun _ => / 2) _ p_infty (/ 2) (sqrt (PI / 2) * / sqrt (2 * PI))); [apply is_lim_const| |reflexivity].
    apply (is_lim_scal_r gI (/ sqrt (2 * PI)) p_infty (sqrt (PI / 2))), gI_lim. }
  split; [|split; [|exact L1]].
  - intros z. unfold gauss_cdf. replace (exp (- (z * z) / 2) / sqrt (2 * PI)) with (0 + gk z * / sqrt (2 * PI)) by (unfold gk, Rdiv; ring).
    apply (is_derive_plus (V := R_NormedModule)); [apply (is_derive_const (V := R_NormedModule))|]. apply (is_derive_ext (fun z => / sqrt (2 * PI) * gI z)); [intros; apply Rmult_comm|]. rewrite (Rmult_comm (gk z)). apply (is_derive_scal gI), gI_derive.
  - apply (is_lim_ext (fun z => 1 - gauss_cdf (- z))); [intros z; unfold gauss_cdf; rewrite gI_odd; field; lra|]. replace (Finite 0) with (Finite (1 - 1)) by (f_equal; ring).
    apply (is_lim_minus (fun _ => 1) _ m_infty 1 1); [apply is_lim_const| |reflexivity]. apply (is_lim_comp gauss_cdf Ropp m_infty 1 p_infty); [exact L1| |exists 0; discriminate]. apply (is_lim_opp (fun x => x) m_infty m_infty), is_lim_id.
Qed.
Example C119_case : let p := two (/ 4) (3 / 4) in normal_cdf gauss_cdf /\ valid p /\ lsum (prob p) = 1 /\ (forall k, (k < n_clusters p)%nat -> 0 < get (spread_of p k) 0 0)
  /\ (forall k, (k < n_clusters p)%nat -> -8 <= centre p k 0 - 71 / 10 * deviation p k 0) /\ Rabs (mixture_cdf gauss_cdf p 0 0 - marginal_cdf p 0 0) <= 125 / 10000000.
Proof.
  cbv zeta. pose proof gauss_cdf_ok as G. destruct C66_case as [V P]. assert (S : lsum (prob (two (/ 4) (3 / 4))) = 1) by (cbn; field).
  split; [exact G|]. split; [exact V|]. split; [exact S|]. split; [exact P|]. split.
  - intros [|[|k]] H; [| |cbn in H; lia]; unfold deviation; cbn; rewrite sqrt_1; lra.
  - rewrite Rabs_minus_sym. pose proof (C119_accuracy gauss_cdf _ 0%nat 0 G V P) as B. rewrite S in B. lra.
Qed.
