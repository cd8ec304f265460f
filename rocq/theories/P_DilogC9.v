(** Signs, the real axis and the array loop. *)
From Coquelicot Require Import Coquelicot.
From Verif Require Import Base RSumLib S_Clausen P_Clausen P_Specfunc P_Clausen5 P_Dilog S_DilogC P_DilogC P_DilogC2 P_DilogC3 P_DilogC4 P_DilogC5 P_DilogC6 P_DilogC7 P_DilogC8 M_Specfunc M_Clausen M_Dilog M_DilogC.
From Coq Require Import Psatz Permutation.
Open Scope R_scope.

Lemma arg_sign u v : off u v -> v < 0 -> arg u v < 0.
Proof.
  intros O H. pose proof (off_den u v O) as D. unfold arg. assert (v / (u + sqrt (u ^ 2 + v ^ 2)) < 0) by (unfold Rdiv; pose proof (Rinv_0_lt_compat _ D); nra).
  pose proof (atan_increasing _ _ H0) as K. rewrite atan_0 in K. lra.
Qed.
Lemma dilV_pos x y : 0 < y -> 0 < dilV x y.
Proof.
  intros Hy. assert (S0 : slit x y) by (left; lra). destruct (dilC_is x y S0) as [_ [_ [_ [LV D]]]].
  assert (I : forall a b, 0 < a -> a < b -> b <= 1 -> dilV (a * x) (a * y) < dilV (b * x) (b * y)).
  { intros a b A B B1. destruct (MVT_gen (fun t => dilV (t * x) (t * y)) a b (fun t => - arg (1 - t * x) (- (t * y)) / t)) as [c [Hc E]].
    - intros t H. rewrite Rmin_left, Rmax_right in H by lra. apply D. lra.
    - intros t H. rewrite Rmin_left, Rmax_right in H by lra. apply continuity_pt_filterlim, (ex_derive_continuous (fun t => dilV (t * x) (t * y))). eexists. apply D. lra.
    - rewrite Rmin_left, Rmax_right in Hc by lra. assert (N : - (c * y) < 0) by nra. pose proof (arg_sign (1 - c * x) (- (c * y)) ltac:(right; lra) N) as G.
      assert (0 < - arg (1 - c * x) (- (c * y)) / c) by (apply Rdiv_lt_0_compat; lra). assert (0 < - arg (1 - c * x) (- (c * y)) / c * (b - a)) by (apply Rmult_lt_0_compat; lra). lra. }
  assert (H2 : 0 <= dilV (/ 2 * x) (/ 2 * y)).
  { destruct (Rle_dec 0 (dilV (/ 2 * x) (/ 2 * y))) as [|K]; [assumption|]. exfalso. assert (K' : 0 < - dilV (/ 2 * x) (/ 2 * y)) by lra.
    specialize (LV (ball 0 (mkposreal _ K')) (locally_ball _ _)). unfold filtermap, at_right, within in LV. destruct LV as [d HL].
    pose proof (cond_pos d) as Pd. set (a := Rmin (d / 2) (/ 4)). assert (A0 : 0 < a) by (unfold a; apply Rmin_glb_lt; lra). assert (A1 : a <= / 4) by apply Rmin_r. assert (A2 : a <= d / 2) by apply Rmin_l.
    specialize (HL a). assert (B1 : ball 0 d a) by (change (Rabs (a - 0) < d); rewrite Rminus_0_r, Rabs_pos_eq; lra). specialize (HL B1 A0).
    change (Rabs (dilV (a * x) (a * y) - 0) < - dilV (/ 2 * x) (/ 2 * y)) in HL. specialize (I a (/ 2) A0 ltac:(lra) ltac:(lra)). apply Rabs_def2 in HL. lra. }
  specialize (I (/ 2) 1 ltac:(lra) ltac:(lra) ltac:(lra)). rewrite !Rmult_1_l in I. lra.
Qed.

(** the array loop *)
Lemma upd_same {A} (m : nat -> A) i a : upd m i a i = a. Proof. unfold upd. rewrite Nat.eqb_refl. reflexivity. Qed.
Lemma upd_other {A} (m : nat -> A) i a j : j <> i -> upd m i a j = m j. Proof. unfold upd. intros H. rewrite (proj2 (Nat.eqb_neq j i) H). reflexivity. Qed.
Lemma loop_untouched {A} (f : A -> A -> A * A) r t l : forall m j, (forall i, In i l -> j <> (r + i)%nat /\ j <> (t + i)%nat) -> mapc_dbl f r t l m j = m j.
Proof.
  induction l as [|a l IH]; intros m j H; [reflexivity|]. unfold mapc_dbl in *. cbn [fold_left]. rewrite IH by (intros i Hi; apply H; right; exact Hi). destruct (H a (or_introl eq_refl)) as [H1 H2]. unfold mapc_step. rewrite !upd_other by assumption. reflexivity.
Qed.
Lemma loop_apart {A} (f : A -> A -> A * A) r t n l : ((r + n <= t) \/ (t + n <= r))%nat -> NoDup l -> (forall i, In i l -> (i < n)%nat) -> forall m i, In i l ->
  mapc_dbl f r t l m (r + i)%nat = fst (f (m (r + i)%nat) (m (t + i)%nat)) /\ mapc_dbl f r t l m (t + i)%nat = snd (f (m (r + i)%nat) (m (t + i)%nat)).
Proof.
  intros Ap. induction l as [|a l IH]; intros ND B m i Hi; [contradiction|]. inversion ND as [|? ? Na ND']; subst. assert (Ba : (a < n)%nat) by (apply B; left; reflexivity).
  unfold mapc_dbl. cbn [fold_left]. fold (mapc_dbl f r t l (mapc_step f r t m a)). destruct Hi as [<-|Hi].
  - assert (U : forall j, j = (r + a)%nat \/ j = (t + a)%nat -> mapc_dbl f r t l (mapc_step f r t m a) j = mapc_step f r t m a j).
    { intros j Hj. apply loop_untouched. intros i Hi. assert (i <> a) by (intros ->; contradiction). assert (i < n)%nat by (apply B; right; exact Hi). lia. }
    rewrite !U by (lia). unfold mapc_step. split; [rewrite upd_other by lia; rewrite upd_same; reflexivity|apply upd_same].
  - assert (Bi : (i < n)%nat) by (apply B; right; exact Hi). assert (i <> a) by (intros ->; contradiction). destruct (IH ND' ltac:(intros k Hk; apply B; right; exact Hk) (mapc_step f r t m a) i Hi) as [E1 E2]. rewrite E1, E2.
    unfold mapc_step. rewrite !upd_other by lia. split; reflexivity.
Qed.
Lemma loop_same {A} (f : A -> A -> A * A) r l : NoDup l -> forall m i, In i l -> mapc_dbl f r r l m (r + i)%nat = snd (f (m (r + i)%nat) (m (r + i)%nat)).
Proof.
  induction l as [|a l IH]; intros ND m i Hi; [contradiction|]. inversion ND as [|? ? Na ND']; subst. unfold mapc_dbl. cbn [fold_left]. fold (mapc_dbl f r r l (mapc_step f r r m a)). destruct Hi as [<-|Hi].
  - rewrite loop_untouched; [unfold mapc_step; apply upd_same|]. intros i Hi. assert (i <> a) by (intros ->; contradiction). lia.
  - assert (i <> a) by (intros ->; contradiction). rewrite IH by assumption. unfold mapc_step. rewrite !upd_other by lia. reflexivity.
Qed.

(** the lower side of the cut *)
Lemma path_arc x s : 0 < x -> locally s (fun s : R => is_derive (fun s => cos s / x) s (- sin s / x) /\ is_derive (fun s => - sin s / x) s (- cos s / x)).
Proof. intros H. apply filter_forall. intros t. split; auto_derive; try exact Logic.I; field; lra. Qed.
Lemma arc_cont x : 1 < x -> continuous (fun s => dilV (cos s / x) (- sin s / x)) 0.
Proof.
  intros H. apply (ex_derive_continuous (fun s => dilV (cos s / x) (- sin s / x))). eexists.
  refine (V_path0 (fun s => cos s / x) (fun s => - sin s / x) (fun s => - sin s / x) (fun s => - cos s / x) 0 (path_arc x 0 ltac:(lra)) _ _ _).
  - apply continuity_pt_filterlim, (ex_derive_continuous (fun s => - sin s / x)). auto_derive. exact Logic.I.
  - apply continuity_pt_filterlim, (ex_derive_continuous (fun s => - cos s / x)). auto_derive. exact Logic.I.
  - right. rewrite cos_0. unfold Rdiv. rewrite Rmult_1_l, <- Rinv_1. apply Rinv_lt_contravar; lra.
Qed.
Lemma cut_below x : 1 < x -> filterlim (fun t => dilV (x * cos t) (x * sin t)) (at_left 0) (locally (- PI * ln x)).
Proof.
  intros H. pose proof PI_RGT_0 as P0.
  apply (filterlim_ext_loc (fun t => - dilV (cos t / x) (- sin t / x) - 1 / 2 * (2 * ln x * (t + PI)))).
  - exists (mkposreal _ P0). intros t Bt Lt. change (Rabs (t - 0) < PI) in Bt. apply Rabs_def2 in Bt. destruct (invert_any x t ltac:(lra) ltac:(lra) ltac:(lra)) as [_ ->]. rewrite (proj2 (Rltb_true t 0) Lt), Rabs_left by lra. ring.
  - assert (Ct : continuous (fun t => - dilV (cos t / x) (- sin t / x) - 1 / 2 * (2 * ln x * (t + PI))) 0).
    { apply (continuous_minus (V := R_NormedModule)).
      - apply (continuous_opp (V := R_NormedModule)). apply arc_cont, H.
      - apply (ex_derive_continuous (fun t => 1 / 2 * (2 * ln x * (t + PI)))). auto_derive. exact Logic.I. }
    unfold continuous in Ct. cbv beta in Ct. replace (- dilV (cos 0 / x) (- sin 0 / x) - 1 / 2 * (2 * ln x * (0 + PI))) with (- PI * ln x) in Ct.
    + eapply filterlim_filter_le_1; [|exact Ct]. intros Q HQ. unfold at_left, within. apply filter_imp with (2 := HQ). auto.
    + rewrite sin_0. replace (- 0 / x) with 0 by (field; lra). rewrite dilV_real. field.
Qed.
