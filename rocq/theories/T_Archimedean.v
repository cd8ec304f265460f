(** C16-C24, C26, C27, C30: the Archimedean copulas. *)
From Coq Require Import Permutation.
From Coquelicot Require Import Coquelicot.
From Verif Require Import Base RSumLib Ext S_Archimedean P_Gen M_Archimedean P_Arch P_ArchCode P_CM P_Arch2 P_Debye P_Arch3.
Open Scope R_scope.

(** The distribution functions covered by the unrestricted theorems: Clayton with any non-zero theta, Gumbel with theta >= 1. *)
Definition clayton_or_gumbel (C : list ext -> result ext) : Prop :=
  (exists th, th <> 0 /\ C = clayton_cdf th) \/ (exists th, 1 <= th /\ C = gumbel_cdf th).
(** ... in two dimensions Clayton needs theta >= -1 *)
Definition clayton_or_gumbel2 (C : list ext -> result ext) : Prop :=
  (exists th, -1 <= th /\ th <> 0 /\ C = clayton_cdf th) \/ (exists th, 1 <= th /\ C = gumbel_cdf th).
(** Frank: theta <> 0 above the approximation used from -36 on *)
Definition frank (C : list ext -> result ext) : Prop := exists th, th <> 0 /\ -36 < th /\ C = frank_cdf th.

Lemma cg_rcdf C : clayton_or_gumbel C -> exists psi f, gen 0 psi f /\ forall l, unit_cube l -> C (map Fin l) = Ok (Fin (rcdf psi f l)).
Proof.
  intros [[th [H ->]]|[th [H ->]]].
  - destruct (Rlt_le_dec th 0) as [L|L].
    + exists (cn_psi th), (cn_f th). split; [apply cn_gen; exact L|]. intros l. apply clayton_cdf_neg. exact L.
    + exists (cp_psi th), (cp_f th). split; [apply cp_gen; lra|]. intros l. apply clayton_cdf_pos. lra.
  - exists (gu_psi th), (gu_f th). split; [apply gu_gen; exact H|]. intros l. apply gumbel_cdf_ok. exact H.
Qed.
Lemma cg2_rcdf C : clayton_or_gumbel2 C -> exists psi f, gen 0 psi f /\ convex_gen psi /\
  forall l, unit_cube l -> C (map Fin l) = Ok (Fin (rcdf psi f l)).
Proof.
  intros [[th [H1 [H ->]]]|[th [H ->]]].
  - destruct (Rlt_le_dec th 0) as [L|L].
    + exists (cn_psi th), (cn_f th). split; [apply cn_gen; exact L|]. split; [apply cn_convex; lra|]. intros l. apply clayton_cdf_neg. exact L.
    + exists (cp_psi th), (cp_f th). split; [apply cp_gen; lra|]. split; [apply cp_convex; lra|]. intros l. apply clayton_cdf_pos. lra.
  - exists (gu_psi th), (gu_f th). split; [apply gu_gen; exact H|]. split; [apply gu_convex; exact H|]. intros l. apply gumbel_cdf_ok. exact H.
Qed.
Lemma frank_rcdf C : frank C -> exists psi f, gen 0 psi f /\ convex_gen psi /\
  forall l, frank_region l -> C (map Fin l) = Ok (Fin (rcdf psi f l)).
Proof.
  intros [th [H [H36 ->]]]. exists (fr_psi th), (fr_f th). split; [apply fr_gen; exact H|]. split; [apply fr_convex; exact H|].
  intros l. apply frank_cdf_ok; assumption.
Qed.
Lemma cg_clayton th : th <> 0 -> clayton_or_gumbel (clayton_cdf th).
Proof. intros H. left. exists th. auto. Qed.
Lemma cg_gumbel th : 1 <= th -> clayton_or_gumbel (gumbel_cdf th).
Proof. intros H. right. exists th. auto. Qed.
Lemma gen_pt l : unit_cube l -> Forall (pt 0) l.
Proof. intros H. eapply Forall_impl; [|exact H]. intros x Hx. unfold pt. destruct (Req_dec x 0); [left; assumption|right; lra]. Qed.
Lemma region_cube l : frank_region l -> unit_cube l.
Proof. intros H. eapply Forall_impl; [|exact H]. cbn. intros x Hx. lra. Qed.
Lemma one_but_Forall (P : R -> Prop) d k u : P 1 -> P u -> Forall P (one_but d k u).
Proof.
  intros H1 Hu. unfold one_but. rewrite Forall_forall. intros x I. apply in_map_iff in I. destruct I as [i [<- _]]. destruct (Nat.eqb i k); assumption.
Qed.

(** ** C16 *)
Theorem C16_clayton_cancel : forall th, th <> 0 ->
  (forall u, 0 < u <= 1 -> clayton_psi th (clayton_ipsi th (Fin u)) = Ok (Fin u)) /\
  (forall s, 0 <= s -> (th < 0 -> s < 1) -> exists u, clayton_psi th (Fin s) = Ok (Fin u) /\ 0 < u <= 1 /\ clayton_ipsi th (Fin u) = Fin s).
Proof.
  intros th H. destruct (Rlt_le_dec th 0) as [L|L].
  - split.
    + intros u Hu. rewrite clayton_ipsi_neg, clayton_psi_neg by lra. do 2 f_equal. apply (g_inv _ _ _ (cn_gen th L)). exact Hu.
    + intros s Hs H1. specialize (H1 L). destruct (cn_inv2 th s L ltac:(lra)) as [B E]. exists (cn_psi th s).
      rewrite clayton_psi_neg by exact L. split; [reflexivity|]. split; [exact B|]. rewrite clayton_ipsi_neg by lra. f_equal. exact E.
  - assert (P : 0 < th) by lra. split.
    + intros u Hu. pose proof (g_pos _ _ _ (cp_gen th P) u Hu). rewrite clayton_ipsi_pos, clayton_psi_pos by lra. do 2 f_equal.
      apply (g_inv _ _ _ (cp_gen th P)). exact Hu.
    + intros s Hs _. destruct (cp_inv2 th s P Hs) as [B E]. exists (cp_psi th s). rewrite clayton_psi_pos by assumption.
      split; [reflexivity|]. split; [exact B|]. rewrite clayton_ipsi_pos by lra. f_equal. exact E.
Qed.
Print Assumptions C16_clayton_cancel.
Theorem C16_gumbel_cancel : forall th, 1 <= th ->
  (forall u, 0 < u <= 1 -> gumbel_psi th (gumbel_ipsi th (Fin u)) = Ok (Fin u)) /\
  (forall s, 0 <= s -> exists u, gumbel_psi th (Fin s) = Ok (Fin u) /\ 0 < u <= 1 /\ gumbel_ipsi th (Fin u) = Fin s).
Proof.
  intros th H. split.
  - intros u Hu. pose proof (g_pos _ _ _ (gu_gen th H) u Hu). rewrite gumbel_ipsi_pos, gumbel_psi_pos by lra. do 2 f_equal.
    apply (g_inv _ _ _ (gu_gen th H)). exact Hu.
  - intros s Hs. destruct (gu_inv2 th s H Hs) as [B E]. exists (gu_psi th s). rewrite gumbel_psi_pos by assumption.
    split; [reflexivity|]. split; [exact B|]. rewrite gumbel_ipsi_pos by assumption. f_equal. exact E.
Qed.
Print Assumptions C16_gumbel_cancel.
(** Missing: u <= 1/100 (refuted below) and theta = 0 (refuted under C17). *)
Theorem C16_frank_cancel_partial : forall th, th <> 0 ->
  (forall u, 1 / 100 < u <= 1 -> exists r, frank_psi th (frank_ipsi th (Fin u)) = Ok (Fin r) /\
     (-36 < th -> r = u) /\ (th <= -36 -> u <= r <= u + exp th)) /\
  (forall s, 0 <= s -> -36 < th -> exists u, frank_psi th (Fin s) = Ok (Fin u) /\ (1 / 100 < u <= 1 -> frank_ipsi th (Fin u) = Fin s)).
Proof.
  intros th H. split.
  - intros u Hu. destruct (Rlt_le_dec (-36) th) as [L|L].
    + exists u. split; [|split; [reflexivity|intros; lra]]. rewrite frank_ipsi_pos, frank_psi_pos; try assumption.
      * do 2 f_equal. apply fr_inv; lra.
      * apply (g_pos _ _ _ (fr_gen th H)). lra.
    + destruct (frank_psi_far th u L Hu) as [r [E B]]. exists r. split; [exact E|]. split; [intros; lra|auto].
  - intros s Hs L. exists (fr_psi th s). rewrite frank_psi_pos by assumption. split; [reflexivity|]. intros B.
    rewrite frank_ipsi_pos by assumption. f_equal. apply fr_inv2; assumption.
Qed.
Print Assumptions C16_frank_cancel_partial.
Theorem C16_clayton_independence_refuted : forall s, clayton_psi 0 s = Err ZeroDivisionError.
Proof. intros s. unfold clayton_psi. rewrite Reqb_refl. reflexivity. Qed.
Print Assumptions C16_clayton_independence_refuted.
(** for theta in (0,1] every u up to 1/100 comes back as at least 1/2 *)
Theorem C16_frank_small_u_refuted : forall th u, 0 < th <= 1 -> 0 < u <= 1 / 100 ->
  exists r, frank_psi th (frank_ipsi th (Fin u)) = Ok (Fin r) /\ 1 / 2 <= r /\ r <> u.
Proof. intros th u H Hu. destruct (frank_small th u H ltac:(lra)) as [r [E B]]. exists r. split; [exact E|]. split; lra. Qed.
Print Assumptions C16_frank_small_u_refuted.
Example C16_case : clayton_psi 2 (clayton_ipsi 2 (Fin (1 / 2))) = Ok (Fin (1 / 2)) /\
  gumbel_psi 3 (gumbel_ipsi 3 (Fin (1 / 2))) = Ok (Fin (1 / 2)).
Proof. split; [apply C16_clayton_cancel; lra|apply C16_gumbel_cancel; lra]. Qed.

(** ** C17 *)
Theorem C17_margins_and_grounded : forall C, clayton_or_gumbel C ->
  (forall d k u, (k < d)%nat -> 0 <= u <= 1 -> C (map Fin (one_but d k u)) = Ok (Fin u)) /\
  (forall l, unit_cube l -> In 0 l -> C (map Fin l) = Ok (Fin 0)).
Proof.
  intros C HC. destruct (cg_rcdf C HC) as [psi [f [G E]]].
  assert (Z : forall l, unit_cube l -> In 0 l -> C (map Fin l) = Ok (Fin 0)).
  { intros l Hl I. rewrite E by exact Hl. do 2 f_equal. apply rcdf_zero. exact I. }
  split; [|exact Z]. intros d k u Hk Hu.
  assert (UC : unit_cube (one_but d k u)) by (apply one_but_Forall; lra).
  destruct (Req_dec u 0) as [->|Hne].
  - apply Z; [exact UC|]. unfold one_but. apply in_map_iff. exists k. rewrite Nat.eqb_refl. split; [reflexivity|]. apply in_seq. lia.
  - rewrite E by exact UC. do 2 f_equal. apply (rcdf_margin 0 psi f G); try assumption; lra.
Qed.
Print Assumptions C17_margins_and_grounded.
(** Missing: coordinates up to 1/100 (refuted below). *)
Theorem C17_frank_margins_partial : forall C, frank C -> forall d k u, (k < d)%nat -> 1 / 100 < u <= 1 ->
  C (map Fin (one_but d k u)) = Ok (Fin u).
Proof.
  intros C HC d k u Hk Hu. destruct (frank_rcdf C HC) as [psi [f [G [_ E]]]].
  rewrite E by (apply one_but_Forall; lra). do 2 f_equal. apply (rcdf_margin 0 psi f G); try assumption; lra.
Qed.
Print Assumptions C17_frank_margins_partial.
(** a point with all coordinates 0 or 1 - such as (0, 1) - has cdf 1; and theta = 0 gives cdf 1 at every point *)
Theorem C17_frank_zero_coordinates_refuted : forall C, frank C -> forall l, (forall x, In x l -> x = 0 \/ x = 1) ->
  C (map Fin l) = Ok (Fin 1).
Proof.
  intros C [th [H [H36 ->]]] l F. apply frank_zero_coordinate; try assumption. intros x I. apply in_map_iff in I. destruct I as [y [<- I]].
  destruct (F y I); subst; auto.
Qed.
Print Assumptions C17_frank_zero_coordinates_refuted.
Theorem C17_frank_zero_theta_refuted : forall l, frank_cdf 0 (map Fin l) = Ok (Fin 1).
Proof. exact frank_zero_theta. Qed.
Print Assumptions C17_frank_zero_theta_refuted.
Theorem C17_clayton_zero_theta_refuted : forall l, clayton_cdf 0 l = Err ZeroDivisionError.
Proof. intros l. unfold clayton_cdf, arch_cdf. apply C16_clayton_independence_refuted. Qed.
Print Assumptions C17_clayton_zero_theta_refuted.
Example C17_case : clayton_cdf 2 [Fin 1; Fin (1 / 3); Fin 1] = Ok (Fin (1 / 3)) /\ gumbel_cdf 2 [Fin 0; Fin (1 / 3)] = Ok (Fin 0).
Proof.
  split.
  - pose proof (proj1 (C17_margins_and_grounded (clayton_cdf 2) (cg_clayton 2 ltac:(lra))) 3%nat 1%nat (1 / 3) ltac:(lia) ltac:(lra)) as H.
    exact H.
  - apply (proj2 (C17_margins_and_grounded (gumbel_cdf 2) (cg_gumbel 2 ltac:(lra))) [0; 1 / 3]);
      [apply Forall_cons; [lra|apply Forall_cons; [lra|constructor]]|left; reflexivity].
Qed.

(** ** C18 *)
Lemma min_bound_in l x : In x l -> fold_right Rmin 1 l <= x.
Proof.
  induction l as [|a l IH]; intros I; [destruct I|]. cbn [fold_right]. destruct I as [->|I].
  - apply Rmin_l.
  - apply Rle_trans with (fold_right Rmin 1 l); [apply Rmin_r|auto].
Qed.
Theorem C18_probability_and_monotone : forall C, clayton_or_gumbel C ->
  (forall l, unit_cube l -> exists p, C (map Fin l) = Ok (Fin p) /\ 0 <= p /\ (l <> [] -> p <= 1) /\ forall x, In x l -> p <= x) /\
  (forall l l' p p', unit_cube l -> unit_cube l' -> below l l' -> C (map Fin l) = Ok (Fin p) -> C (map Fin l') = Ok (Fin p') -> p <= p').
Proof.
  intros C HC. destruct (cg_rcdf C HC) as [psi [f [G E]]]. split.
  - intros l Hl. exists (rcdf psi f l). split; [apply E; exact Hl|]. pose proof (gen_pt l Hl) as Pl.
    assert (LE : forall x, In x l -> rcdf psi f l <= x) by (intros x I; apply (rcdf_le_coord 0 psi f G); try assumption; lra).
    split; [apply (rcdf_nonneg 0 psi f G); exact Pl|]. split; [|exact LE].
    intros Hne. destruct l as [|x l]; [congruence|]. pose proof (LE x (or_introl eq_refl)) as LX. inversion Hl as [|? ? Hx ?]; subst. cbv beta in Hx. lra.
  - intros l l' p p' Hl Hl' B Ep Ep'. rewrite E in Ep, Ep' by assumption. injection Ep as <-. injection Ep' as <-.
    apply (rcdf_mono 0 psi f G); auto using gen_pt; lra.
Qed.
Print Assumptions C18_probability_and_monotone.
Theorem C18_frechet_lower : forall C, clayton_or_gumbel2 C -> forall u v, 0 <= u <= 1 -> 0 <= v <= 1 ->
  exists p, C [Fin u; Fin v] = Ok (Fin p) /\ Rmax (u + v - 1) 0 <= p <= Rmin u v.
Proof.
  intros C HC u v Hu Hv. destruct (cg2_rcdf C HC) as [psi [f [G [K E]]]].
  assert (UC : unit_cube [u; v]) by (apply Forall_cons; [lra|apply Forall_cons; [lra|constructor]]).
  pose proof (gen_pt _ UC) as P. exists (rcdf psi f [u; v]). split; [apply (E [u; v]); exact UC|].
  inversion P as [|? ? Pu P']; subst. inversion P' as [|? ? Pv ?]; subst. split.
  - apply Rmax_lub; [apply (rcdf_frechet_lower 0 psi f G K); try assumption; lra|apply (rcdf_nonneg 0 psi f G); exact P].
  - apply Rmin_glb; apply (rcdf_le_coord 0 psi f G); try assumption; try lra; [left|right; left]; reflexivity.
Qed.
Print Assumptions C18_frechet_lower.
Theorem C18_frank_partial : forall C, frank C ->
  (forall l, frank_region l -> exists p, C (map Fin l) = Ok (Fin p) /\ 0 <= p /\ (l <> [] -> p <= 1) /\ forall x, In x l -> p <= x) /\
  (forall l l' p p', frank_region l -> frank_region l' -> below l l' -> C (map Fin l) = Ok (Fin p) -> C (map Fin l') = Ok (Fin p') -> p <= p') /\
  (forall u v, 1 / 100 < u <= 1 -> 1 / 100 < v <= 1 -> exists p, C [Fin u; Fin v] = Ok (Fin p) /\ Rmax (u + v - 1) 0 <= p <= Rmin u v).
Proof.
  intros C HC. destruct (frank_rcdf C HC) as [psi [f [G [K E]]]]. split; [|split].
  - intros l Hl. exists (rcdf psi f l). split; [apply E; exact Hl|]. pose proof (gen_pt l (region_cube l Hl)) as Pl.
    assert (LE : forall x, In x l -> rcdf psi f l <= x) by (intros x I; apply (rcdf_le_coord 0 psi f G); try assumption; lra).
    split; [apply (rcdf_nonneg 0 psi f G); exact Pl|]. split; [|exact LE].
    intros Hne. destruct l as [|x l]; [congruence|]. pose proof (LE x (or_introl eq_refl)) as LX. inversion Hl as [|? ? Hx ?]; subst. cbv beta in Hx. lra.
  - intros l l' p p' Hl Hl' B Ep Ep'. rewrite E in Ep, Ep' by assumption. injection Ep as <-. injection Ep' as <-.
    apply (rcdf_mono 0 psi f G); auto using gen_pt, region_cube; lra.
  - intros u v Hu Hv.
    assert (UC : frank_region [u; v]) by (apply Forall_cons; [lra|apply Forall_cons; [lra|constructor]]).
    pose proof (gen_pt _ (region_cube _ UC)) as P. exists (rcdf psi f [u; v]). split; [apply (E [u; v]); exact UC|].
    inversion P as [|? ? Pu P']; subst. inversion P' as [|? ? Pv ?]; subst. split.
    + apply Rmax_lub; [apply (rcdf_frechet_lower 0 psi f G K); try assumption; lra|apply (rcdf_nonneg 0 psi f G); exact P].
    + apply Rmin_glb; apply (rcdf_le_coord 0 psi f G); try assumption; try lra; [left|right; left]; reflexivity.
Qed.
Print Assumptions C18_frank_partial.
(** the code computes the textbook bivariate formulas *)
(** below 0.01 both fail: (0, 1) has cdf 1, above its smallest coordinate and above the cdf at (1/2, 1) *)
Theorem C18_frank_refuted : forall C, frank C -> exists p p', C [Fin 0; Fin 1] = Ok (Fin p) /\ C [Fin (1 / 2); Fin 1] = Ok (Fin p') /\ Rmin 0 1 < p /\ p' < p.
Proof.
  intros C HC. exists 1, (1 / 2). split; [apply (C17_frank_zero_coordinates_refuted C HC [0; 1]); intros x [<-|[<-|[]]]; auto|].
  split; [exact (C17_frank_margins_partial C HC 2 0 (1 / 2) ltac:(lia) ltac:(lra))|]. rewrite Rmin_left by lra. lra.
Qed.
Print Assumptions C18_frank_refuted.
Theorem C18_closed_forms : forall u v,
  (forall th, 0 < th -> 0 < u <= 1 -> 0 < v <= 1 -> clayton_cdf th [Fin u; Fin v] = Ok (Fin (clayton_C th u v))) /\
  (forall th, 1 <= th -> 0 < u < 1 -> 0 < v < 1 -> gumbel_cdf th [Fin u; Fin v] = Ok (Fin (gumbel_C th u v))) /\
  (forall th, th <> 0 -> -36 < th -> 1 / 100 < u <= 1 -> 1 / 100 < v <= 1 -> frank_cdf th [Fin u; Fin v] = Ok (Fin (frank_C th u v))).
Proof. intros u v. split; [|split]; intros; [apply clayton_closed|apply gumbel_closed|apply frank_closed]; assumption. Qed.
Print Assumptions C18_closed_forms.
Example C18_case : clayton_or_gumbel2 (clayton_cdf (- (1 / 2))) /\ frank (frank_cdf (-5)) /\ clayton_or_gumbel (clayton_cdf 2).
Proof. split; [left; exists (- (1 / 2)); repeat split; lra|]. split; [exists (-5); repeat split; lra|left; exists 2; split; [lra|reflexivity]]. Qed.

(** ** C19: every family, every parameter, every input (nan and infinities included) *)
Theorem C19_exchangeable : forall th l l', Permutation l l' ->
  clayton_cdf th l = clayton_cdf th l' /\ gumbel_cdf th l = gumbel_cdf th l' /\ frank_cdf th l = frank_cdf th l'.
Proof. intros th l l' P. repeat split; apply arch_cdf_perm; exact P. Qed.
Print Assumptions C19_exchangeable.
Example C19_case : gumbel_cdf 2 [Fin (1 / 2); Fin (1 / 3); Fin (1 / 5)] = gumbel_cdf 2 [Fin (1 / 5); Fin (1 / 2); Fin (1 / 3)].
Proof. apply C19_exchangeable. apply perm_trans with [Fin (1 / 2); Fin (1 / 5); Fin (1 / 3)]; [apply perm_skip; apply perm_swap|apply perm_swap]. Qed.

(** ** C20 *)
Theorem C20_rectangles : forall C, clayton_or_gumbel2 C -> forall a1 b1 a2 b2, 0 <= a1 -> a1 <= b1 -> b1 <= 1 -> 0 <= a2 -> a2 <= b2 -> b2 <= 1 ->
  exists p11 p01 p10 p00, C [Fin b1; Fin b2] = Ok (Fin p11) /\ C [Fin a1; Fin b2] = Ok (Fin p01) /\
    C [Fin b1; Fin a2] = Ok (Fin p10) /\ C [Fin a1; Fin a2] = Ok (Fin p00) /\ 0 <= p11 - p01 - p10 + p00.
Proof.
  intros C HC a1 b1 a2 b2 H1 H2 H3 H4 H5 H6. destruct (cg2_rcdf C HC) as [psi [f [G [K E]]]].
  assert (UC : forall x y, 0 <= x <= 1 -> 0 <= y <= 1 -> unit_cube [x; y]) by (intros; apply Forall_cons; [lra|apply Forall_cons; [lra|constructor]]).
  assert (Pt : forall x, 0 <= x <= 1 -> pt 0 x) by (intros x Hx; unfold pt; destruct (Req_dec x 0); [left; assumption|right; lra]).
  exists (rcdf psi f [b1; b2]), (rcdf psi f [a1; b2]), (rcdf psi f [b1; a2]), (rcdf psi f [a1; a2]).
  split; [apply (E [b1; b2]); apply UC; lra|]. split; [apply (E [a1; b2]); apply UC; lra|].
  split; [apply (E [b1; a2]); apply UC; lra|]. split; [apply (E [a1; a2]); apply UC; lra|].
  apply (rcdf_rectangle 0 psi f G K); try apply Pt; lra.
Qed.
Print Assumptions C20_rectangles.
Theorem C20_frank_rectangles_partial : forall C, frank C -> forall a1 b1 a2 b2,
  1 / 100 < a1 -> a1 <= b1 -> b1 <= 1 -> 1 / 100 < a2 -> a2 <= b2 -> b2 <= 1 ->
  exists p11 p01 p10 p00, C [Fin b1; Fin b2] = Ok (Fin p11) /\ C [Fin a1; Fin b2] = Ok (Fin p01) /\
    C [Fin b1; Fin a2] = Ok (Fin p10) /\ C [Fin a1; Fin a2] = Ok (Fin p00) /\ 0 <= p11 - p01 - p10 + p00.
Proof.
  intros C HC a1 b1 a2 b2 H1 H2 H3 H4 H5 H6. destruct (frank_rcdf C HC) as [psi [f [G [K E]]]].
  assert (UC : forall x y, 1 / 100 < x <= 1 -> 1 / 100 < y <= 1 -> frank_region [x; y]) by (intros; apply Forall_cons; [lra|apply Forall_cons; [lra|constructor]]).
  exists (rcdf psi f [b1; b2]), (rcdf psi f [a1; b2]), (rcdf psi f [b1; a2]), (rcdf psi f [a1; a2]).
  split; [apply (E [b1; b2]); apply UC; lra|]. split; [apply (E [a1; b2]); apply UC; lra|].
  split; [apply (E [b1; a2]); apply UC; lra|]. split; [apply (E [a1; a2]); apply UC; lra|].
  apply (rcdf_rectangle 0 psi f G K); try (right; lra); lra.
Qed.
Print Assumptions C20_frank_rectangles_partial.
(** the rectangle (0,1/2] x (1/2,1] gets mass -C(1/2,1/2) < 0 *)
Theorem C20_frank_negative_mass_refuted : forall C, frank C ->
  exists p11 p01 p10 p00, C [Fin (1 / 2); Fin 1] = Ok (Fin p11) /\ C [Fin 0; Fin 1] = Ok (Fin p01) /\
    C [Fin (1 / 2); Fin (1 / 2)] = Ok (Fin p10) /\ C [Fin 0; Fin (1 / 2)] = Ok (Fin p00) /\ p11 - p01 - p10 + p00 < 0.
Proof.
  intros C HC. pose proof HC as [th [H [H36 EC]]].
  pose proof (C17_frank_margins_partial C HC 2 0 (1 / 2) ltac:(lia) ltac:(lra)) as M. cbn in M.
  pose proof (C17_frank_zero_coordinates_refuted C HC [0; 1] ltac:(intros x [<-|[<-|[]]]; auto)) as Z. cbn in Z.
  assert (H0 : C [Fin 0; Fin (1 / 2)] = Ok (Fin (1 / 2))).
  { subst C. unfold frank_cdf, arch_cdf. cbn [map]. rewrite (frank_ipsi_pos th (1 / 2)) by lra.
    unfold frank_ipsi. rewrite Rmult_0_l, Rabs_R0, (proj2 (Rleb_true 0 _)) by (pose proof (Rabs_pos th); lra).
    cbn [esum fold_right eadd]. rewrite Rplus_0_r, Rplus_0_l, frank_psi_pos; try assumption.
    - do 2 f_equal. apply fr_inv; lra.
    - apply (g_pos _ _ _ (fr_gen th H)). lra. }
  assert (Hp : exists p, C [Fin (1 / 2); Fin (1 / 2)] = Ok (Fin p) /\ 0 < p).
  { subst C. exists (rcdf (fr_psi th) (fr_f th) [1 / 2; 1 / 2]). split.
    - apply (frank_cdf_ok th [1 / 2; 1 / 2]); try assumption. apply Forall_cons; [lra|apply Forall_cons; [lra|constructor]].
    - rewrite rcdf2 by lra. unfold fr_psi. set (s := fr_f th (1 / 2) + fr_f th (1 / 2)).
      assert (Hs : 0 <= s) by (pose proof (g_pos _ _ _ (fr_gen th H) (1 / 2) ltac:(lra)); unfold s; lra).
      pose proof (fr_arg th s Hs) as A. pose proof (exp_pos (- s)). destruct (Rlt_le_dec th 0) as [L|L].
      + pose proof (em_pos th L). assert (0 < ln (1 + (exp (- th) - 1) * exp (- s))) by (rewrite <- ln_1; apply ln_increasing; nra).
        pose proof (Rinv_lt_0_compat th L). unfold Rdiv. nra.
      + pose proof (em_neg th ltac:(lra)). assert (ln (1 + (exp (- th) - 1) * exp (- s)) < 0) by (rewrite <- ln_1; apply ln_increasing; nra).
        pose proof (Rinv_0_lt_compat th ltac:(lra)). unfold Rdiv. nra. }
  destruct Hp as [p [Ep Hp]]. exists (1 / 2), 1, p, (1 / 2). split; [exact M|]. split; [exact Z|]. split; [exact Ep|]. split; [exact H0|]. lra.
Qed.
Print Assumptions C20_frank_negative_mass_refuted.
(** every dimension: the mass of any box is non-negative (theta > 0 for Clayton and Frank) *)
Theorem C20_boxes_in_every_dimension : forall sides, Forall (fun s => 0 <= fst s /\ fst s <= snd s /\ snd s <= 1) sides ->
  (forall th, 0 < th -> 0 <= box_mass (fun l => val (clayton_cdf th (map Fin l))) sides []) /\
  (forall th, 1 <= th -> 0 <= box_mass (fun l => val (gumbel_cdf th (map Fin l))) sides []).
Proof.
  intros sides F.
  assert (FP : Forall (fun s => pt 0 (fst s) /\ pt 0 (snd s) /\ fst s <= snd s) sides).
  { eapply Forall_impl; [|exact F]. intros [a b] Hs; cbn in *. unfold pt. repeat split; [| |lra].
    - destruct (Req_dec a 0); [left; assumption|right; lra].
    - destruct (Req_dec b 0); [left; assumption|right; lra]. }
  assert (F01 : Forall (fun s => (0 <= fst s <= 1) /\ (0 <= snd s <= 1)) sides).
  { eapply Forall_impl; [|exact F]. intros [a b] Hs; cbn in *. lra. }
  split; intros th H.
  - rewrite (box_mass_ext _ (rcdf (cp_psi th) (cp_f th)) sides [] (fun x => 0 <= x <= 1)); [|constructor|exact F01|].
    + apply (box_nonneg 0 _ _ (cp_gen th H)); [lra| |exact FP]. intros hs s Fh Hs. apply D_nonneg0; auto using CM_clayton, cp_cont.
    + intros l Hl. rewrite clayton_cdf_pos by assumption. reflexivity.
  - rewrite (box_mass_ext _ (rcdf (gu_psi th) (gu_f th)) sides [] (fun x => 0 <= x <= 1)); [|constructor|exact F01|].
    + apply (box_nonneg 0 _ _ (gu_gen th H)); [lra| |exact FP]. intros hs s Fh Hs. apply D_nonneg0; auto using CM_gumbel, gu_cont.
    + intros l Hl. rewrite gumbel_cdf_ok by assumption. reflexivity.
Qed.
Print Assumptions C20_boxes_in_every_dimension.
Theorem C20_frank_boxes_partial : forall sides th, 0 < th -> Forall (fun s => 1 / 100 < fst s /\ fst s <= snd s /\ snd s <= 1) sides ->
  0 <= box_mass (fun l => val (frank_cdf th (map Fin l))) sides [].
Proof.
  intros sides th H F.
  rewrite (box_mass_ext _ (rcdf (fr_psi th) (fr_f th)) sides [] (fun x => 1 / 100 < x <= 1)); [|constructor| |].
  - apply (box_nonneg 0 _ _ (fr_gen th ltac:(lra))); [lra| |].
    + intros hs s Fh Hs. apply D_nonneg0; auto using CM_frank. intros t Ht. apply fr_cont; lra.
    + eapply Forall_impl; [|exact F]. intros [a b] Hs; cbn in *. repeat split; try (right; lra); lra.
  - eapply Forall_impl; [|exact F]. intros [a b] Hs; cbn in *. lra.
  - intros l Hl. rewrite frank_cdf_ok; [reflexivity|lra|lra|exact Hl].
Qed.
Print Assumptions C20_frank_boxes_partial.
Example C20_case : Forall (fun s => 0 <= fst s /\ fst s <= snd s /\ snd s <= 1) [(0, 1 / 2); (1 / 4, 1); (1 / 3, 2 / 3)].
Proof. repeat (apply Forall_cons; [cbn; lra|]). constructor. Qed.

(** ** C21: dipsi is the signed derivative; with log the logarithm of its absolute value *)
Theorem C21_clayton_dipsi : forall th, 0 < th -> exists g d1 d2,
  (forall u, 0 < u < 1 -> clayton_ipsi th (Fin u) = Fin (g u) /\ derivable_pt_lim g u (d1 u) /\ derivable_pt_lim d1 u (d2 u) /\
     clayton_dipsi th 1 false (Fin u) = Ok (Fin (d1 u)) /\ clayton_dipsi th 2 false (Fin u) = Ok (Fin (d2 u)) /\
     clayton_dipsi th 1 true (Fin u) = Ok (Fin (ln (- d1 u))) /\ clayton_dipsi th 2 true (Fin u) = Ok (Fin (ln (d2 u)))).
Proof.
  intros th H. exists (cp_f th), (fun u => - th * Rpower u (- th - 1)), (fun u => th * (1 + th) * Rpower u (- th - 2)).
  intros u Hu. split; [apply clayton_ipsi_pos; lra|]. split; [apply is_derive_Reals, cp_f_derive; lra|].
  split; [apply is_derive_Reals, cp_f_derive2; lra|].
  assert (L1 : ln th + - ((1 + th) * ln u) = ln (th * Rpower u (- th - 1))).
  { rewrite ln_mult by (try lra; apply Rpower_pos). unfold Rpower. rewrite ln_exp. ring. }
  assert (L2 : ln th + ln (1 + th) + - ((th + 2) * ln u) = ln (th * (1 + th) * Rpower u (- th - 2))).
  { rewrite !ln_mult by (try lra; try nra; apply Rpower_pos). unfold Rpower. rewrite ln_exp. ring. }
  pose proof (Rpower_pos u (- th - 1)) as P1. pose proof (Rpower_pos u (- th - 2)) as P2.
  unfold clayton_dipsi. change (1 mod 2 =? 0)%Z with false. change (2 mod 2 =? 0)%Z with true. cbn [Z.eqb Pos.eqb orb negb]. rewrite !elog_pos by lra.
  cbn [escal esub eadd eopp eexp]. rewrite L1, L2, !exp_ln by (try nra; apply Rmult_lt_0_compat; nra).
  repeat split; cbn; do 2 f_equal; try ring.
  rewrite Rmult_1_l. f_equal. ring.
Qed.
Print Assumptions C21_clayton_dipsi.
Theorem C21_gumbel_dipsi : forall th, 1 <= th -> exists g d1 d2,
  (forall u, 0 < u < 1 -> gumbel_ipsi th (Fin u) = Fin (g u) /\ derivable_pt_lim g u (d1 u) /\ derivable_pt_lim d1 u (d2 u) /\
     gumbel_dipsi th 1 false u = Ok (Fin (d1 u)) /\ gumbel_dipsi th 2 false u = Ok (Fin (d2 u)) /\
     gumbel_dipsi th 1 true u = Ok (Fin (ln (- d1 u))) /\ gumbel_dipsi th 2 true u = Ok (Fin (ln (d2 u)))).
Proof.
  intros th H. exists (gu_g th), (gu_d1 th), (gu_d2 th). intros u Hu. pose proof (ln_neg u Hu) as LN.
  split. { rewrite gumbel_ipsi_pos by lra. unfold gu_f, gu_g. rewrite Reqb_neq by lra. reflexivity. }
  split; [apply is_derive_Reals, gu_g_derive; exact Hu|]. split; [apply is_derive_Reals, gu_d1_derive; exact Hu|].
  pose proof (Rpower_pos (- ln u) (th - 1)) as P1. pose proof (Rpower_pos (- ln u) (th - 2)) as P2.
  assert (Pu : 0 < / u) by (apply Rinv_0_lt_compat; lra). assert (Pu2 : 0 < / u ^ 2) by (apply Rinv_0_lt_compat; nra).
  unfold gumbel_dipsi. change (1 mod 2 =? 0)%Z with false. change (2 mod 2 =? 0)%Z with true. cbn [Z.eqb Pos.eqb orb negb]. rewrite !epow_pos by lra. cbn [escal].
  rewrite !elog_pos.
  - unfold gu_d1, gu_d2. repeat split; cbn [escal]; do 2 f_equal; try (field; lra).
    1, 2: rewrite Rmult_1_l; f_equal; field; lra.
  - apply Rmult_lt_0_compat; [exact Pu2|]. apply Rmult_lt_0_compat; [nra|exact P2].
  - apply Rmult_lt_0_compat; [exact Pu|]. apply Rmult_lt_0_compat; [lra|exact P1].
Qed.
Print Assumptions C21_gumbel_dipsi.
(** g is the textbook generator: on (0,1] it inverts psi (C16), above 1/100 the code computes it *)
Theorem C21_frank_dipsi : forall th, th <> 0 -> exists g d1 d2,
  (forall u, 1 / 100 < u < 1 -> frank_ipsi th (Fin u) = Fin (g u)) /\
  (forall u, 0 < u < 1 -> derivable_pt_lim g u (d1 u) /\ derivable_pt_lim d1 u (d2 u) /\
     frank_dipsi th 1 false u = Ok (Fin (d1 u)) /\ frank_dipsi th 2 false u = Ok (Fin (d2 u)) /\
     frank_dipsi th 1 true u = Ok (Fin (ln (- d1 u))) /\ frank_dipsi th 2 true u = Ok (Fin (ln (d2 u)))).
Proof.
  intros th H. exists (fr_f th), (fun u => - (th / (exp (u * th) - 1))), (fun u => th ^ 2 * exp (u * th) / (exp (u * th) - 1) ^ 2).
  split; [intros u Hu; apply frank_ipsi_pos; lra|]. intros u Hu.
  split; [apply is_derive_Reals, fr_f_derive; lra|]. split; [apply is_derive_Reals, fr_d1_derive; lra|].
  assert (U : u * th <> 0) by (apply Rmult_integral_contrapositive_currified; lra). pose proof (expm1_nz _ U) as NZ.
  assert (P1 : 0 < th / (exp (u * th) - 1)).
  { destruct (Rlt_le_dec th 0) as [L|L].
    - replace (th / (exp (u * th) - 1)) with (- th / (1 - exp (u * th))) by (field; split; lra).
      apply Rdiv_lt_0_compat; [lra|]. pose proof (exp_lt_1 (u * th) ltac:(nra)). lra.
    - apply Rdiv_lt_0_compat; [lra|]. apply expm1_pos. nra. }
  assert (P2 : 0 < th ^ 2 * exp (u * th) / (exp (u * th) - 1) ^ 2).
  { apply Rdiv_lt_0_compat; [apply Rmult_lt_0_compat; [|apply exp_pos]|]; rewrite <- Rsqr_pow2; apply Rsqr_pos_lt; assumption. }
  unfold frank_dipsi. change (1 mod 2 =? 0)%Z with false. change (2 mod 2 =? 0)%Z with true. cbn [Z.eqb Pos.eqb orb negb]. rewrite !elog_pos by assumption. cbn [escal].
  repeat split; do 2 f_equal; try ring. rewrite Rmult_1_l. f_equal. ring.
Qed.
Print Assumptions C21_frank_dipsi.
Theorem C21_other_degrees_rejected : forall th k log u x, k <> 1%Z -> k <> 2%Z ->
  clayton_dipsi th k log u = Err AssertionError /\ gumbel_dipsi th k log x = Err AssertionError /\ frank_dipsi th k log x = Err AssertionError.
Proof.
  intros th k log u x H1 H2. unfold clayton_dipsi, gumbel_dipsi, frank_dipsi.
  apply Z.eqb_neq in H1, H2. rewrite H1, H2. repeat split.
Qed.
Print Assumptions C21_other_degrees_rejected.
Theorem C21_clayton_negative_theta_refuted : forall th k log u, th < 0 -> k = 1%Z \/ k = 2%Z -> clayton_dipsi th k log u = Ok Nan.
Proof.
  intros th k log u H [->| ->]; unfold clayton_dipsi; cbn [Z.eqb Pos.eqb orb negb].
  all: assert (E : elog (Fin th) = Nan) by (unfold elog; rewrite Rltb_ge, Reqb_neq by lra; reflexivity); rewrite E.
  all: cbn [esub eadd]; destruct log; reflexivity.
Qed.
Print Assumptions C21_clayton_negative_theta_refuted.
Example C21_case : exists d, clayton_dipsi 2 1 false (Fin (1 / 2)) = Ok (Fin d).
Proof. destruct (C21_clayton_dipsi 2 ltac:(lra)) as [g [d1 [d2 H]]]. exists (d1 (1 / 2)). apply H. lra. Qed.

(** ** C22 *)
Theorem C22_tau_itau_cancel :
  (forall th, -1 <= th -> clayton_itau (clayton_tau th) = th) /\
  (forall t, -1 <= t < 1 -> clayton_tau (clayton_itau t) = t) /\
  (forall th, 1 <= th -> gumbel_itau (gumbel_tau th) = th) /\
  (forall t, 0 <= t < 1 -> gumbel_tau (gumbel_itau t) = t) /\
  (forall th, -1 <= th -> -1 <= clayton_tau th < 1) /\ (forall th, 1 <= th -> 0 <= gumbel_tau th < 1) /\
  (forall t, -1 <= t < 1 -> -1 <= clayton_itau t) /\ (forall t, t < 1 -> 1 <= gumbel_itau t).
Proof.
  unfold clayton_itau, clayton_tau, gumbel_itau, gumbel_tau.
  split; [intros th H; field; lra|]. split; [intros t H; field; lra|].
  split; [intros th H; pose proof (inv_01 th H); rewrite Rltb_ge by lra; field; lra|].
  split; [intros t H; rewrite Rltb_ge by lra; field; lra|].
  split; [|split; [|split]].
  - intros th H. split.
    + apply Rmult_le_reg_r with (th + 2); [lra|]. unfold Rdiv. rewrite Rmult_assoc, Rinv_l by lra. lra.
    + apply Rmult_lt_reg_r with (th + 2); [lra|]. unfold Rdiv. rewrite Rmult_assoc, Rinv_l by lra. lra.
  - intros th H. pose proof (inv_01 th H). lra.
  - intros t H. apply Rmult_le_reg_r with (1 - t); [lra|]. unfold Rdiv. rewrite Rmult_assoc, Rinv_l by lra. lra.
  - intros t H. destruct (Rltb t 0) eqn:E; [lra|]. apply Rltb_false in E. apply Rmult_le_reg_r with (1 - t); [lra|].
    unfold Rdiv. rewrite Rmult_assoc, Rinv_l by lra. lra.
Qed.
Print Assumptions C22_tau_itau_cancel.
Example C22_case : clayton_itau (clayton_tau 3) = 3 /\ gumbel_itau (gumbel_tau 3) = 3.
Proof. split; apply C22_tau_itau_cancel; lra. Qed.

(** ** C23 *)
Theorem C23_clayton_gumbel_dtau :
  (forall th, -1 < th -> derivable_pt_lim clayton_tau th (clayton_dtau th)) /\
  (forall th, 1 < th -> derivable_pt_lim gumbel_tau th (gumbel_dtau th)).
Proof.
  split; intros th H; apply is_derive_Reals.
  - unfold clayton_tau, clayton_dtau. auto_derive; [lra|]. field. lra.
  - unfold gumbel_tau, gumbel_dtau. auto_derive; [lra|].
    replace (-2) with (- (1 + 1)) by ring. rewrite Rpower_Ropp, Rpower_plus, Rpower_1 by lra. field. lra.
Qed.
Print Assumptions C23_clayton_gumbel_dtau.
(** with the true first Debye function the code's dtau is wrong at every theta > 1e-8 other than 1/2 *)
Theorem C23_frank_dtau_refuted : forall x d, / 100000000 < x -> x <> 1 / 2 ->
  derivable_pt_lim (frank_tau (debye 1)) x d -> frank_dtau (debye 1) x <> d.
Proof.
  intros x d H Hx D. assert (P : 0 < x) by lra.
  assert (E : d = (x / (exp x - 1) + 1 - 2 * debye 1 x) * (2 / x) ^ 2).
  { apply (uniqueness_limite (frank_tau (debye 1)) x); [exact D|]. apply is_derive_Reals.
    apply (is_derive_ext_loc (frank_tau_ (debye 1))); [|apply frank_tau_derive; exact P].
    assert (K : 0 < x - / 100000000) by lra. exists (mkposreal _ K). intros y Hy.
    unfold ball in Hy; cbn in Hy; unfold AbsRing_ball, abs, minus, plus, opp in Hy; cbn in Hy. apply Rabs_def2 in Hy.
    unfold frank_tau. rewrite Rabs_right by lra. rewrite (proj2 (Rleb_false y (/ 100000000))) by lra. reflexivity. }
  rewrite E. unfold frank_dtau. intros Q. apply Rmult_eq_reg_r in Q.
  - pose proof (debye1_pos x P) as PD. assert (S : debye 1 x / x = 2 * debye 1 x) by lra.
    assert (debye 1 x = 2 * debye 1 x * x) by (rewrite <- S; field; lra).
    assert (debye 1 x * (1 - 2 * x) = 0) by nra. apply Rmult_integral in H1. destruct H1; lra.
  - apply pow_nonzero. unfold Rdiv. apply Rmult_integral_contrapositive_currified; [lra|]. apply Rinv_neq_0_compat. lra.
Qed.
Print Assumptions C23_frank_dtau_refuted.
Example C23_case : exists d, derivable_pt_lim (frank_tau_ (debye 1)) 2 d.
Proof. eexists. apply is_derive_Reals. apply frank_tau_derive. lra. Qed.

(** ** C24 *)
Lemma Rpower2_range th : 0 < th -> 0 <= Rpower 2 (-1 / th) <= 1.
Proof.
  intros H. pose proof (inv_neg th H). split; [left; apply Rpower_pos|]. left. apply exp_lt_1. pose proof (ln_increasing 1 2 ltac:(lra) ltac:(lra)) as Q.
  rewrite ln_1 in Q. nra.
Qed.
Theorem C24_clayton_tail : forall th, -1 <= th -> th <> 0 ->
  lim_0 (fun u => val (clayton_cdf th [Fin u; Fin u]) / u) (fst (clayton_lambda th)) /\
  lim_1 (fun u => (1 - 2 * u + val (clayton_cdf th [Fin u; Fin u])) / (1 - u)) (snd (clayton_lambda th)) /\
  0 <= fst (clayton_lambda th) <= 1 /\ 0 <= snd (clayton_lambda th) <= 1.
Proof.
  intros th H1 H. unfold clayton_lambda. cbn [fst snd].
  assert (U : exists a, a < 1 /\ forall u, a < u < 1 -> val (clayton_cdf th [Fin u; Fin u]) = clayton_C th u u).
  { destruct (Rlt_le_dec th 0) as [L|L].
    - exists (Rpower (1 / 2) (-1 / th)). split.
      + apply exp_lt_1. pose proof (ln_neg (1 / 2) ltac:(lra)). pose proof (inv_pos th L). nra.
      + intros u Hu. pose proof (Rpower_pos (1 / 2) (-1 / th)). rewrite clayton_closed_neg by lra. cbn [val].
        rewrite Rltb_lt; [reflexivity|]. assert (1 / 2 < Rpower u (- th)); [|lra].
        replace (1 / 2) with (Rpower (Rpower (1 / 2) (-1 / th)) (- th)) by (apply Rpower_inv2; [lra|field; lra]).
        unfold Rpower at 1 3. apply exp_increasing. apply Rmult_lt_compat_l; [lra|]. apply ln_increasing; lra.
    - exists 0. split; [lra|]. intros u Hu. rewrite clayton_closed by lra. reflexivity. }
  split; [|split].
  - destruct (Rlt_le_dec th 0) as [L|L].
    + rewrite Rltb_ge by lra. apply (lim_0_ext (fun _ => 0) _ _ (Rpower (1 / 2) (-1 / th))); [apply Rpower_pos| |apply lim_0_const].
      intros u Hu. assert (Rpower (1 / 2) (-1 / th) <= 1) by (apply Rpower_le_1; [lra|]; pose proof (inv_pos th L); lra).
      rewrite clayton_closed_neg by lra. cbn [val]. rewrite Rltb_ge; [unfold Rdiv; ring|].
      assert (Rpower u (- th) <= 1 / 2); [|lra].
      replace (1 / 2) with (Rpower (Rpower (1 / 2) (-1 / th)) (- th)) by (apply Rpower_inv2; [lra|field; lra]).
      apply Rpower_mono; lra.
    + rewrite Rltb_lt by lra. apply (lim_0_ext (fun u => clayton_C th u u / u) _ _ 1); [lra| |apply clayton_lower; lra].
      intros u Hu. rewrite clayton_closed by lra. reflexivity.
  - destruct U as [a [Ha U]]. apply (lim_1_ext (fun u => (1 - 2 * u + clayton_C th u u) / (1 - u)) _ _ a); [exact Ha| |].
    + intros u Hu. rewrite U by exact Hu. reflexivity.
    + replace 0 with (2 - 2) by ring. apply lim_1_of_derivative; [apply clayton_C_11|apply clayton_diag_derive; exact H].
  - split; [|lra]. destruct (Rltb 0 th) eqn:E; [|lra]. apply Rltb_true in E. apply Rpower2_range. exact E.
Qed.
Print Assumptions C24_clayton_tail.
(** Frank: the textbook limits; near 1 they are those of the code's cdf *)
Theorem C24_frank_tail : forall th, th <> 0 ->
  lim_0 (fun u => frank_C th u u / u) (fst (frank_lambda th)) /\
  lim_1 (fun u => (1 - 2 * u + frank_C th u u) / (1 - u)) (snd (frank_lambda th)) /\
  (-36 < th -> lim_1 (fun u => (1 - 2 * u + val (frank_cdf th [Fin u; Fin u])) / (1 - u)) (snd (frank_lambda th))).
Proof.
  intros th H. cbn [frank_lambda fst snd].
  assert (L1 : lim_1 (fun u => (1 - 2 * u + frank_C th u u) / (1 - u)) 0).
  { replace 0 with (2 - 2) by ring. apply lim_1_of_derivative; [apply frank_C_11; exact H|apply frank_diag_derive_1; exact H]. }
  split; [apply lim_0_of_derivative; [apply frank_C_00|apply frank_diag_derive_0; exact H]|]. split; [exact L1|].
  intros H36. apply (lim_1_ext (fun u => (1 - 2 * u + frank_C th u u) / (1 - u)) _ _ (1 / 100)); [lra| |exact L1].
  intros u Hu. rewrite frank_closed by (try assumption; lra). reflexivity.
Qed.
Print Assumptions C24_frank_tail.
(** Gumbel: the true upper coefficient is 2 - 2^(1/theta); the code reports 2 * 2^(1/theta) > 1 *)
Theorem C24_gumbel_lambda_refuted : forall th, 1 <= th ->
  lim_1 (fun u => (1 - 2 * u + val (gumbel_cdf th [Fin u; Fin u])) / (1 - u)) (2 - Rpower 2 (1 / th)) /\
  1 < snd (gumbel_lambda th) /\ snd (gumbel_lambda th) <> 2 - Rpower 2 (1 / th).
Proof.
  intros th H. pose proof (inv_01 th H). cbn [gumbel_lambda snd].
  assert (G1 : 1 < Rpower 2 (1 / th)).
  { apply exp_gt_1. pose proof (ln_increasing 1 2 ltac:(lra) ltac:(lra)) as Q. rewrite ln_1 in Q. nra. }
  split; [|split; lra].
  apply (lim_1_ext (fun u => (1 - 2 * u + Rpower u (Rpower 2 (1 / th))) / (1 - u)) _ _ 0); [lra| |].
  - intros u Hu. rewrite gumbel_closed by lra. cbn [val]. rewrite gumbel_diag by lra. reflexivity.
  - apply lim_1_of_derivative; [apply Rpower_1_base|]. evar_last; [apply Rpower_derive; lra|]. rewrite Rpower_1_base. ring.
Qed.
Print Assumptions C24_gumbel_lambda_refuted.
Example C24_case : clayton_lambda 1 = (Rpower 2 (-1 / 1), 0).
Proof. unfold clayton_lambda. rewrite Rltb_lt by lra. reflexivity. Qed.

(** ** C26 *)
(** the parameter space of each family and dimension *)
Definition admissible (f : family) (d : nat) (th : R) : Prop :=
  match f with
  | Clayton => if Nat.eqb d 2 then -1 <= th else 0 <= th
  | Frank => d = 2%nat \/ 0 <= th
  | Gumbel => 1 <= th
  end.
Definition theta_ok (a : arch) : Prop :=
  match a_theta a with Fin th => admissible (a_fam a) (a_dim a) th | Ninf => a_fam a = Frank /\ a_dim a = 2%nat | _ => True end.
Lemma eltb_fin x y : eltb (Fin x) (Fin y) = false -> y <= x.
Proof. intros H. cbn in H. apply Rltb_false in H. exact H. Qed.
Lemma set_ok a th : (2 <= a_dim a)%nat -> theta_ok a -> theta_ok (fst (arch_set a th)) /\ a_dim (fst (arch_set a th)) = a_dim a /\ a_fam (fst (arch_set a th)) = a_fam a.
Proof.
  intros Hd H. destruct a as [f d t]. cbn [a_dim a_fam a_theta] in *. unfold arch_set; cbn [a_dim a_fam a_theta]. destruct f; cbv zeta.
  - destruct (Nat.eqb d 2) eqn:Ed; cbn [andb fst snd a_dim a_fam a_theta].
    + destruct (eltb th (Fin (-1))) eqn:E1; cbn [andb fst snd a_dim a_fam a_theta]; [auto|]. apply Nat.eqb_eq in Ed. subst. change (2 <? 2)%nat with false. cbn [andb fst snd a_dim a_fam a_theta]. split; [|auto]. unfold theta_ok, admissible; cbn [a_dim a_fam a_theta Nat.eqb].
      destruct th; auto; [apply eltb_fin in E1; exact E1|cbn in E1; discriminate].
    + apply Nat.eqb_neq in Ed. rewrite (proj2 (Nat.ltb_lt 2 d)) by lia. cbn [andb fst snd a_dim a_fam a_theta]. destruct (eltb th (Fin 0)) eqn:E1; cbn [andb fst snd a_dim a_fam a_theta]; [auto|].
      split; [|auto]. unfold theta_ok, admissible; cbn [a_dim a_fam a_theta Nat.eqb]. apply Nat.eqb_neq in Ed. destruct th; auto; [rewrite Ed; apply eltb_fin in E1; exact E1|cbn in E1; discriminate].
  - destruct (Nat.ltb_spec 2 d) as [L|L]; cbn [andb fst snd a_dim a_fam a_theta].
    + destruct (eltb th (Fin 0)) eqn:E1; cbn [andb fst snd a_dim a_fam a_theta]; [auto|]. split; [|auto]. unfold theta_ok, admissible; cbn [a_dim a_fam a_theta Nat.eqb].
      destruct th; auto; [right; apply eltb_fin in E1; exact E1|cbn in E1; discriminate].
    + split; [|auto]. unfold theta_ok, admissible; cbn [a_dim a_fam a_theta Nat.eqb]. assert (d = 2%nat) by lia. destruct th; auto.
  - destruct (eltb th (Fin 1)) eqn:E1; cbn [andb fst snd a_dim a_fam a_theta]; [auto|]. split; [|auto]. unfold theta_ok, admissible; cbn [a_dim a_fam a_theta Nat.eqb].
    destruct th; auto; [apply eltb_fin in E1; exact E1|cbn in E1; discriminate].
Qed.
(** every history of assignments keeps an admissible theta admissible; and the constructor establishes it for Gumbel, Frank
    and Clayton in more than two dimensions (missing: the two-dimensional Clayton constructor, refuted below) *)
Theorem C26_parameter_space : forall f d th a ths, arch_new f d th = Ok a -> (2 <= d)%nat ->
  (f <> Clayton \/ d <> 2%nat \/ eltb th (Fin (-1)) = false) -> theta_ok (arch_run a ths) /\ a_dim (arch_run a ths) = d /\ a_fam (arch_run a ths) = f.
Proof.
  intros f d th a ths E Hd Hx.
  assert (I : theta_ok a /\ a_dim a = d /\ a_fam a = f).
  { destruct f; unfold arch_new in E.
    - rewrite (proj2 (Nat.ltb_lt 1 d)) in E by lia. cbn [negb] in E. destruct (negb (Nat.eqb d 2) && eltb th (Fin 0)) eqn:E1; [discriminate|].
      injection E as <-. cbn [a_dim a_fam]. split; [|auto]. unfold theta_ok, admissible; cbn [a_dim a_fam a_theta Nat.eqb]. destruct (Nat.eqb d 2) eqn:Ed; cbn [andb negb] in E1.
      + apply Nat.eqb_eq in Ed. assert (eltb th (Fin (-1)) = false) by (destruct Hx as [?|[?|?]]; [congruence|congruence|assumption]).
        destruct th; auto; [apply eltb_fin in H; exact H|cbn in H; discriminate].
      + destruct th; auto; [apply eltb_fin in E1; exact E1|cbn in E1; discriminate].
    - destruct ((2 <? d)%nat && eltb th (Fin 0)) eqn:E1; [discriminate|]. rewrite (proj2 (Nat.ltb_lt 1 d)) in E by lia. cbn [negb] in E.
      injection E as <-. cbn [a_dim a_fam]. split; [|auto]. unfold theta_ok, admissible; cbn [a_dim a_fam a_theta Nat.eqb]. destruct (Nat.ltb_spec 2 d) as [L|L]; cbn [andb negb] in E1.
      + destruct th; auto; [right; apply eltb_fin in E1; exact E1|cbn in E1; discriminate].
      + assert (d = 2%nat) by lia. destruct th; auto.
    - destruct (negb (negb (eltb th (Fin 1)) || match th with Nan => true | _ => false end)) eqn:E1; [discriminate|].
      rewrite (proj2 (Nat.ltb_lt 1 d)) in E by lia. cbn [negb] in E. injection E as <-. cbn [a_dim a_fam]. split; [|auto]. unfold theta_ok; cbn.
      destruct th; auto; [|cbn in E1; discriminate]. cbn [andb negb] in E1. rewrite orb_false_r, negb_involutive in E1. apply Rltb_false in E1. exact E1. }
  clear E Hx. revert a I. induction ths as [|t ths IH]; intros a [H1 [H2 H3]]; [auto|]. cbn [arch_run fold_left].
  destruct (set_ok a t ltac:(lia) H1) as [K1 [K2 K3]]. apply IH. rewrite K2, K3. auto.
Qed.
Print Assumptions C26_parameter_space.
Theorem C26_rejected_assignment_unchanged : forall a th e, snd (arch_set a th) = Err e -> fst (arch_set a th) = a.
Proof.
  intros [f d t] th e H. unfold arch_set in *. cbn [a_dim a_fam a_theta] in *. cbv zeta in *. destruct f.
  - destruct (Nat.eqb d 2 && eltb th (Fin (-1))); [reflexivity|]. destruct ((2 <? d)%nat && eltb th (Fin 0)); [reflexivity|discriminate].
  - destruct ((2 <? d)%nat && eltb th (Fin 0)); [reflexivity|discriminate].
  - destruct (eltb th (Fin 1)); [reflexivity|discriminate].
Qed.
Print Assumptions C26_rejected_assignment_unchanged.
(** an inadmissible value is refused by every setter *)
Theorem C26_inadmissible_rejected : forall a th, (2 <= a_dim a)%nat -> ~ admissible (a_fam a) (a_dim a) th ->
  snd (arch_set a (Fin th)) = Err ValueError.
Proof.
  intros [f d t] th Hd N. cbn [a_dim a_fam a_theta] in *. unfold arch_set, admissible in *; cbn [a_dim a_fam a_theta]. cbv zeta. destruct f.
  - destruct (Nat.eqb d 2) eqn:Ed; cbn [andb eltb].
    + rewrite Rltb_lt by lra. reflexivity.
    + apply Nat.eqb_neq in Ed. rewrite (proj2 (Nat.ltb_lt 2 d)), Rltb_lt by (try lia; lra). reflexivity.
  - destruct (Nat.ltb_spec 2 d) as [L|L]; cbn [andb eltb].
    + rewrite Rltb_lt; [reflexivity|]. apply Rnot_le_lt. tauto.
    + exfalso. apply N. left. lia.
  - cbn [eltb]. rewrite Rltb_lt by lra. reflexivity.
Qed.
Print Assumptions C26_inadmissible_rejected.
Theorem C26_clayton_constructor_refuted : exists a, arch_new Clayton 2 (Fin (-5)) = Ok a /\ a_theta a = Fin (-5) /\ ~ admissible Clayton 2 (-5) /\
  snd (arch_set a (Fin (-5))) = Err ValueError.
Proof.
  eexists. split; [reflexivity|]. split; [reflexivity|]. split; [cbn; lra|]. unfold arch_set; cbn. rewrite Rltb_lt by lra. reflexivity.
Qed.
Print Assumptions C26_clayton_constructor_refuted.
Example C26_case : exists a, arch_new Gumbel 3 (Fin 2) = Ok a /\ a_theta (arch_run a [Fin 3; Fin 0; Nan]) = Nan.
Proof.
  eexists. split; [unfold arch_new; cbn; rewrite Rltb_ge by lra; reflexivity|]. unfold arch_run, arch_set; cbn.
  rewrite (Rltb_ge 3 1), (Rltb_lt 0 1) by lra. reflexivity.
Qed.

(** ** C27 *)
Theorem C27_clayton_conditional_inversion : forall th u t, -1 < th -> / 10000000 <= Rabs th -> 0 < u < 1 -> 0 < t < 1 ->
  exists v, clayton_random2 th u t = Ok (Fin u, Fin v) /\ 0 < v < 1 /\
    derivable_pt_lim (fun x => val (clayton_cdf th [Fin x; Fin v])) u t.
Proof.
  intros th u t H1 Ha Hu Ht. assert (H : th <> 0) by (intros ->; rewrite Rabs_R0 in Ha; lra).
  destruct (clayton_draw_ok th u t H1 H Hu Ht) as [v [E [Hv EV]]]. exists v.
  unfold clayton_random2. rewrite Rltb_ge by exact Ha. rewrite E. split; [reflexivity|]. split; [exact Hv|].
  assert (HS : 0 < Rpower u (- th) + Rpower v (- th) - 1).
  { rewrite EV. pose proof (Rpower_pos u (- th)). pose proof (Rpower_pos t (- th / (th + 1))). nra. }
  apply is_derive_Reals. apply (is_derive_ext_loc (fun x => clayton_C th x v)).
  - destruct (Rlt_le_dec th 0) as [L|L].
    + assert (C : continuous (fun x => Rpower x (- th) + Rpower v (- th) - 1) u).
      { apply (@ex_derive_continuous R_AbsRing R_NormedModule). eexists.
        apply (@is_derive_minus R_AbsRing R_NormedModule); [apply (@is_derive_plus R_AbsRing R_NormedModule)|];
        [apply Rpower_derive; lra|apply (@is_derive_const R_AbsRing R_NormedModule)|apply (@is_derive_const R_AbsRing R_NormedModule)]. }
      assert (LP : locally u (fun x => 0 < Rpower x (- th) + Rpower v (- th) - 1)) by (exact (C _ (open_gt 0 _ HS))).
      pose proof (loc_01 (fun x => 0 < x < 1) u 0 Hu (fun y Hy => Hy)) as L01.
      generalize (filter_and _ _ LP L01). apply (filter_imp (fun x => 0 < Rpower x (- th) + Rpower v (- th) - 1 /\ 0 < x < 1)). intros x [Q Qx]. rewrite clayton_closed_neg by lra. cbn [val].
      rewrite Rltb_lt; [reflexivity|exact Q].
    + apply (loc_01 _ u 0 Hu). intros x Hx. rewrite clayton_closed by lra. reflexivity.
  - pose proof (clayton_cond th u v H ltac:(lra) HS) as D. rewrite (clayton_cond_draw th u t v H1 H Hu Ht EV) in D. exact D.
Qed.
Print Assumptions C27_clayton_conditional_inversion.
(** Frank: the conditional probability is t for theta < 0 and 1 - t for theta > 0 (both uniform when t is) *)
Theorem C27_frank_conditional_inversion : forall th u t, / 10000000 <= Rabs th -> 0 < u < 1 -> 0 < t < 1 ->
  exists v, frank_random2 th u t = (Fin u, Fin v) /\ 0 < v < 1 /\
    derivable_pt_lim (fun x => frank_C th x v) u (if Rltb 0 th then 1 - t else t) /\
    (-36 < th -> 1 / 100 < u -> 1 / 100 < v -> derivable_pt_lim (fun x => val (frank_cdf th [Fin x; Fin v])) u (if Rltb 0 th then 1 - t else t)).
Proof.
  intros th u t Ha Hu Ht. assert (H : th <> 0) by (intros ->; rewrite Rabs_R0 in Ha; lra).
  assert (HA : - Rabs th < 0) by (pose proof (Rabs_pos_lt th H); lra).
  pose proof (frank_draw_neg (- Rabs th) u t HA Hu Ht) as Q. cbv zeta in Q. unfold frank_random2. rewrite Rltb_ge by exact Ha. unfold frank_draw2.
  set (a := - Rabs th) in *. set (w := - t * (exp (- a) - 1) / (exp (- a * u) * (t - 1) - t)) in *. set (v := -1 / a * ln (1 + w)) in *.
  destruct Q as [Pw [Lw [Ev [Hv Q]]]].
  assert (HA2 : 0 < 1 + (exp (- a * u) - 1) * (exp (- a * v) - 1) / (exp (- a) - 1)).
  { rewrite Ev. assert (0 < exp (- a * u) - 1) by (apply expm1_pos; nra). assert (0 < exp (- a) - 1) by lra.
    assert (0 < (exp (- a * u) - 1) * (1 + w - 1) / (exp (- a) - 1)) by (apply Rdiv_lt_0_compat; nra). lra. }
  pose proof (frank_cond a u v ltac:(lra) HA2) as D. rewrite Q in D.
  cbv zeta. rewrite elog_pos by lra. cbn [escal]. fold v.
  assert (K : exists v', (if Rltb 0 th then esub (Fin 1) (Fin v) else Fin v) = Fin v' /\ 0 < v' < 1 /\
     is_derive (fun x => frank_C th x v') u (if Rltb 0 th then 1 - t else t)).
  { destruct (Rltb 0 th) eqn:S.
    - apply Rltb_true in S. exists (1 - v). split; [reflexivity|]. split; [lra|].
      assert (Ea : a = - th) by (unfold a; rewrite Rabs_right by lra; reflexivity).
      apply (is_derive_ext_loc (fun x => x - frank_C a x v)).
      + apply (loc_01 _ u 0 Hu). intros x Hx. rewrite (frank_reflect th x v H Hx Hv), Ea. reflexivity.
      + apply (@is_derive_minus R_AbsRing R_NormedModule); [apply (@is_derive_id R_AbsRing)|exact D].
    - apply Rltb_false in S. exists v. split; [reflexivity|]. split; [exact Hv|].
      assert (Ea : a = th) by (unfold a; rewrite Rabs_left by lra; ring). rewrite <- Ea. exact D. }
  destruct K as [v' [E' [Hv' D']]]. exists v'. rewrite E'. split; [reflexivity|]. split; [exact Hv'|].
  split; [apply is_derive_Reals; exact D'|]. intros H36 Hu1 Hv1. apply is_derive_Reals.
  apply (is_derive_ext_loc (fun x => frank_C th x v')); [|exact D'].
  apply (loc_01 _ u (1 / 100)); [lra|]. intros x Hx. rewrite frank_closed by (try assumption; lra). reflexivity.
Qed.
Print Assumptions C27_frank_conditional_inversion.
Theorem C27_clayton_minus_one_refuted : forall u t, clayton_random2 (-1) u t = Err ZeroDivisionError.
Proof.
  intros u t. unfold clayton_random2. rewrite Rltb_ge by (rewrite Rabs_left; lra). unfold clayton_draw2.
  replace (-1 + 1) with 0 by ring. rewrite Reqb_refl. reflexivity.
Qed.
Print Assumptions C27_clayton_minus_one_refuted.
Example C27_case : exists v, clayton_random2 2 (1 / 2) (1 / 3) = Ok (Fin (1 / 2), Fin v).
Proof.
  destruct (C27_clayton_conditional_inversion 2 (1 / 2) (1 / 3)) as [v [E _]]; try lra.
  - rewrite Rabs_right by lra. lra.
  - exists v. exact E.
Qed.

(** ** C30 *)
Theorem C30_pickands : forall th w, 1 <= th -> 0 <= w <= 1 -> exists a,
  gumbel_A th w = Fin a /\ Rmax w (1 - w) <= a <= 1 /\ gumbel_A th (1 - w) = Fin a /\ ((w = 0 \/ w = 1) -> a = 1).
Proof.
  intros th w H Hw. pose proof (inv_01 th H) as Ha.
  assert (B : forall z, z = 0 \/ z = 1 -> gumbel_A th z = Fin 1).
  { intros z [->| ->]; unfold gumbel_A; rewrite Reqb_refl; [reflexivity|rewrite orb_true_r; reflexivity]. }
  destruct (Req_dec w 0) as [->|N0].
  { exists 1. rewrite !B by (try (left; reflexivity); right; ring). repeat split; try lra. rewrite Rmax_right; lra. }
  destruct (Req_dec w 1) as [->|N1].
  { exists 1. rewrite !B by (try (right; reflexivity); left; ring). repeat split; try lra. rewrite Rmax_left; lra. }
  assert (G : forall z, 0 < z < 1 -> gumbel_A th z = Fin (Rpower (Rpower z th + Rpower (1 - z) th) (1 / th))).
  { intros z Hz. unfold gumbel_A. rewrite !Reqb_neq by lra. cbn [orb]. rewrite !epow_pos by lra. cbn [eadd].
    pose proof (Rpower_pos z th). pose proof (Rpower_pos (1 - z) th). apply epow_pos. lra. }
  destruct (pow_sum_le th w H ltac:(lra)) as [L1 [L2 L3]]. pose proof (Rpower_pos w th). pose proof (Rpower_pos (1 - w) th).
  set (S := Rpower w th + Rpower (1 - w) th) in *.
  exists (Rpower S (1 / th)). rewrite (G w) by lra. split; [reflexivity|]. split; [|split].
  - split.
    + apply Rmax_lub.
      * rewrite <- (Rpower_inv2 w th (1 / th)) at 1 by (try lra; field; lra). apply Rpower_mono; lra.
      * rewrite <- (Rpower_inv2 (1 - w) th (1 / th)) at 1 by (try lra; field; lra). apply Rpower_mono; lra.
    + apply Rpower_le_1; lra.
  - rewrite G by lra. do 2 f_equal. replace (1 - (1 - w)) with w by ring. unfold S. ring.
  - intros [?|?]; lra.
Qed.
Print Assumptions C30_pickands.
Theorem C30_extreme_value_form : forall th u v, 1 <= th -> 0 < u <= 1 -> 0 < v <= 1 -> ~ (u = 1 /\ v = 1) -> exists a,
  gumbel_A th (ln v / ln (u * v)) = Fin a /\ gumbel_cdf th [Fin u; Fin v] = Ok (Fin (Rpower (u * v) a)).
Proof.
  intros th u v H Hu Hv N. pose proof (inv_01 th H) as Ha.
  assert (LU : u < 1 -> ln u < 0) by (intros; apply ln_neg; lra). assert (LV : v < 1 -> ln v < 0) by (intros; apply ln_neg; lra).
  rewrite ln_mult by lra.
  destruct (Req_dec u 1) as [->|U1]; [|destruct (Req_dec v 1) as [->|V1]].
  - assert (v < 1) by (destruct (Req_dec v 1) as [->|]; [exfalso; apply N; auto|lra]). specialize (LV H0). exists 1. split.
    + rewrite ln_1. replace (ln v / (0 + ln v)) with 1 by (field; lra). unfold gumbel_A. rewrite Reqb_refl, orb_true_r. reflexivity.
    + rewrite Rmult_1_l, Rpower_1 by lra.
      pose proof (proj1 (C17_margins_and_grounded (gumbel_cdf th) (cg_gumbel th H)) 2%nat 1%nat v ltac:(lia) ltac:(lra)) as M. exact M.
  - assert (u < 1) by lra. specialize (LU H0). exists 1. split.
    + rewrite ln_1. replace (0 / (ln u + 0)) with 0 by (field; lra). unfold gumbel_A. rewrite Reqb_refl. reflexivity.
    + rewrite Rmult_1_r, Rpower_1 by lra.
      pose proof (proj1 (C17_margins_and_grounded (gumbel_cdf th) (cg_gumbel th H)) 2%nat 0%nat u ltac:(lia) ltac:(lra)) as M. exact M.
  - specialize (LU ltac:(lra)). specialize (LV ltac:(lra)). set (w := ln v / (ln u + ln v)).
    assert (W1 : 1 - w = ln u / (ln u + ln v)) by (unfold w; field; lra).
    assert (Pw : 0 < w) by (unfold w; replace (ln v / (ln u + ln v)) with ((- ln v) / (- (ln u + ln v))) by (field; lra); apply Rdiv_lt_0_compat; lra).
    assert (Pw1 : 0 < 1 - w) by (rewrite W1; replace (ln u / (ln u + ln v)) with ((- ln u) / (- (ln u + ln v))) by (field; lra); apply Rdiv_lt_0_compat; lra).
    exists (Rpower (Rpower w th + Rpower (1 - w) th) (1 / th)). split.
    + unfold gumbel_A. rewrite !Reqb_neq by lra. cbn [orb]. rewrite !epow_pos by lra. cbn [eadd].
      pose proof (Rpower_pos w th). pose proof (Rpower_pos (1 - w) th). apply epow_pos. lra.
    + rewrite gumbel_closed by lra. do 2 f_equal. unfold gumbel_C. unfold Rpower at 4. f_equal. rewrite ln_mult by lra.
      set (L := - (ln u + ln v)). assert (PL : 0 < L) by (unfold L; lra).
      replace (- ln u) with (L * (1 - w)) by (rewrite W1; unfold L; field; lra).
      replace (- ln v) with (L * w) by (unfold w, L; field; lra).
      rewrite <- !Rpower_mult_distr by lra. rewrite <- Rmult_plus_distr_l.
      pose proof (Rpower_pos w th). pose proof (Rpower_pos (1 - w) th).
      rewrite <- Rpower_mult_distr by (try apply Rpower_pos; lra). rewrite (Rpower_inv2 L) by (try lra; field; lra).
      rewrite (Rplus_comm (Rpower (1 - w) th)). unfold L. ring.
Qed.
Print Assumptions C30_extreme_value_form.
Example C30_case : exists a, gumbel_A 2 (1 / 3) = Fin a /\ 2 / 3 <= a <= 1.
Proof.
  destruct (C30_pickands 2 (1 / 3)) as [a [E [B _]]]; try lra. exists a. split; [exact E|]. rewrite Rmax_right in B by lra. lra.
Qed.
