(** The complex dilogarithm: reflection, unit circle, inversion. *)
From Coquelicot Require Import Coquelicot.
From Verif Require Import Base RSumLib S_Dilog P_Basel P_Dilog P_Dilog2 P_Dilog3 S_Clausen P_Clausen S_DilogC P_DilogC P_DilogC2.
From Coq Require Import Psatz.
Open Scope R_scope.

Lemma const_everywhere (f : R -> R) : (forall t, is_derive f t 0) -> forall a b, f a = f b.
Proof.
  intros D a b. assert (C : forall t, continuity_pt f t) by (intros t; eapply cont_of_derive, D). destruct (Rle_or_lt a b).
  - apply derive_const_eq; auto.
  - symmetry. apply derive_const_eq; auto. lra.
Qed.
Lemma L_1' : Li2 1 = PI ^ 2 / 6. Proof. exact (L_1 Li2 Li2_is_dilog). Qed.
(** ** reflection *)
Lemma lnabs_line a b c d s : off (a + s * b) (c + s * d) -> is_derive (fun s => lnabs (a + s * b) (c + s * d)) s (((a + s * b) * b + (c + s * d) * d) / ((a + s * b) ^ 2 + (c + s * d) ^ 2)).
Proof. intros H. exact (lnabs_derive (fun s => a + s * b) (fun s => c + s * d) b d s (lin_derive a b s) (lin_derive c d s) H). Qed.
Lemma arg_line a b c d s : off (a + s * b) (c + s * d) -> is_derive (fun s => arg (a + s * b) (c + s * d)) s (((a + s * b) * d - (c + s * d) * b) / ((a + s * b) ^ 2 + (c + s * d) ^ 2)).
Proof. intros H. exact (arg_derive (fun s => a + s * b) (fun s => c + s * d) b d s (lin_derive a b s) (lin_derive c d s) H). Qed.
Section Reflect.
  Variable x : R.
  Hypothesis Hx : 0 < x < 1.
  Let n1 s := x ^ 2 + s ^ 2.
  Let n2 s := (1 - x) ^ 2 + s ^ 2.
  Lemma N1 s : 0 < n1 s. Proof. unfold n1. pose proof (pow2_ge_0 s). nra. Qed.
  Lemma N2 s : 0 < n2 s. Proof. unfold n2. pose proof (pow2_ge_0 s). nra. Qed.
  Lemma dl1 s : is_derive (fun s => lnabs x s) s (s / n1 s).
  Proof.
    pose proof (N1 s) as N. apply (is_derive_ext (fun s => lnabs (x + s * 0) (0 + s * 1))); [intros; f_equal; ring|]. evar_last; [apply lnabs_line; left; lra|]. unfold n1 in *. field. nra.
  Qed.
  Lemma da1 s : is_derive (fun s => arg x s) s (x / n1 s).
  Proof.
    pose proof (N1 s) as N. apply (is_derive_ext (fun s => arg (x + s * 0) (0 + s * 1))); [intros; f_equal; ring|]. evar_last; [apply arg_line; left; lra|]. unfold n1 in *. field. nra.
  Qed.
  Lemma dl2 s : is_derive (fun s => lnabs (1 - x) (- s)) s (s / n2 s).
  Proof.
    pose proof (N2 s) as N. apply (is_derive_ext (fun s => lnabs ((1 - x) + s * 0) (0 + s * (- 1)))); [intros; f_equal; ring|]. evar_last; [apply lnabs_line; left; lra|]. unfold n2 in *. field. nra.
  Qed.
  Lemma da2 s : is_derive (fun s => arg (1 - x) (- s)) s (- (1 - x) / n2 s).
  Proof.
    pose proof (N2 s) as N. apply (is_derive_ext (fun s => arg ((1 - x) + s * 0) (0 + s * (- 1)))); [intros; f_equal; ring|]. evar_last; [apply arg_line; left; lra|]. unfold n2 in *. field. nra.
  Qed.
  Lemma dU1 s : is_derive (fun s => dilU x s) s (- (s / n1 s * lnabs (1 - x) (- s) - x / n1 s * arg (1 - x) (- s))).
  Proof.
    pose proof (N1 s) as N. apply (is_derive_ext (fun s => dilU (x + s * 0) (0 + s * 1))); [intros; f_equal; ring|]. evar_last; [apply U_line; [right; lra|left; lra]|].
    assert (E1 : (x + s * 0)%R = x) by ring. assert (E2 : (0 + s * 1)%R = s) by ring. rewrite E1, E2. unfold n1 in *. field. nra.
  Qed.
  Lemma dV1 s : is_derive (fun s => dilV x s) s (- (s / n1 s * arg (1 - x) (- s) + x / n1 s * lnabs (1 - x) (- s))).
  Proof.
    pose proof (N1 s) as N. apply (is_derive_ext (fun s => dilV (x + s * 0) (0 + s * 1))); [intros; f_equal; ring|]. evar_last; [apply V_line; [right; lra|left; lra]|].
    assert (E1 : (x + s * 0)%R = x) by ring. assert (E2 : (0 + s * 1)%R = s) by ring. rewrite E1, E2. unfold n1 in *. field. nra.
  Qed.
  Lemma dU2 s : is_derive (fun s => dilU (1 - x) (- s)) s (- (s / n2 s * lnabs x s + (1 - x) / n2 s * arg x s)).
  Proof.
    pose proof (N2 s) as N. apply (is_derive_ext (fun s => dilU ((1 - x) + s * 0) (0 + s * (- 1)))); [intros; f_equal; ring|]. evar_last; [apply U_line; [right; lra|left; lra]|].
    assert (E1 : (1 - x + s * 0)%R = 1 - x) by ring. assert (E2 : (0 + s * -1)%R = - s) by ring. assert (E3 : 1 - (1 - x) = x) by ring. rewrite E1, E2, E3, Ropp_involutive. unfold n2 in *. field. nra.
  Qed.
  Lemma dV2 s : is_derive (fun s => dilV (1 - x) (- s)) s (- (s / n2 s * arg x s - (1 - x) / n2 s * lnabs x s)).
  Proof.
    pose proof (N2 s) as N. apply (is_derive_ext (fun s => dilV ((1 - x) + s * 0) (0 + s * (- 1)))); [intros; f_equal; ring|]. evar_last; [apply V_line; [right; lra|left; lra]|].
    assert (E1 : (1 - x + s * 0)%R = 1 - x) by ring. assert (E2 : (0 + s * -1)%R = - s) by ring. assert (E3 : 1 - (1 - x) = x) by ring. rewrite E1, E2, E3, Ropp_involutive. unfold n2 in *. field. nra.
  Qed.
  Lemma reflectU y : dilU x y + dilU (1 - x) (- y) = PI ^ 2 / 6 - lnabs x y * lnabs (1 - x) (- y) + arg x y * arg (1 - x) (- y).
  Proof.
    assert (E : (fun s => dilU x s + dilU (1 - x) (- s) + lnabs x s * lnabs (1 - x) (- s) - arg x s * arg (1 - x) (- s)) y
      = (fun s => dilU x s + dilU (1 - x) (- s) + lnabs x s * lnabs (1 - x) (- s) - arg x s * arg (1 - x) (- s)) 0).
    { apply (const_everywhere (fun s => dilU x s + dilU (1 - x) (- s) + lnabs x s * lnabs (1 - x) (- s) - arg x s * arg (1 - x) (- s))). intros s. pose proof (N1 s). pose proof (N2 s). evar_last.
      { apply (is_derive_minus (V := R_NormedModule)); [apply (is_derive_plus (V := R_NormedModule)); [apply (is_derive_plus (V := R_NormedModule)); [apply dU1|apply dU2]|]|].
        - apply (is_derive_mult (fun s => lnabs x s) (fun s => lnabs (1 - x) (- s))); [apply dl1|apply dl2|intros; apply Rmult_comm].
        - apply (is_derive_mult (fun s => arg x s) (fun s => arg (1 - x) (- s))); [apply da1|apply da2|intros; apply Rmult_comm]. }
      unfold minus, plus, opp, mult; cbn. field. split; lra. }
    cbv beta in E. rewrite Ropp_0, !(dilU_real Li2), !lnabs_real, !arg_pos in E by (exact Li2_is_dilog || lra). pose proof (reflection Li2 Li2_is_dilog x Hx). lra.
  Qed.
  Lemma reflectV y : dilV x y + dilV (1 - x) (- y) = - lnabs x y * arg (1 - x) (- y) - arg x y * lnabs (1 - x) (- y).
  Proof.
    assert (E : (fun s => dilV x s + dilV (1 - x) (- s) + lnabs x s * arg (1 - x) (- s) + arg x s * lnabs (1 - x) (- s)) y
      = (fun s => dilV x s + dilV (1 - x) (- s) + lnabs x s * arg (1 - x) (- s) + arg x s * lnabs (1 - x) (- s)) 0).
    { apply (const_everywhere (fun s => dilV x s + dilV (1 - x) (- s) + lnabs x s * arg (1 - x) (- s) + arg x s * lnabs (1 - x) (- s))). intros s. pose proof (N1 s). pose proof (N2 s). evar_last.
      { apply (is_derive_plus (V := R_NormedModule)); [apply (is_derive_plus (V := R_NormedModule)); [apply (is_derive_plus (V := R_NormedModule)); [apply dV1|apply dV2]|]|].
        - apply (is_derive_mult (fun s => lnabs x s) (fun s => arg (1 - x) (- s))); [apply dl1|apply da2|intros; apply Rmult_comm].
        - apply (is_derive_mult (fun s => arg x s) (fun s => lnabs (1 - x) (- s))); [apply da1|apply dl2|intros; apply Rmult_comm]. }
      unfold minus, plus, opp, mult; cbn. field. split; lra. }
    cbv beta in E. rewrite Ropp_0, !dilV_real, !arg_pos in E. lra.
  Qed.
End Reflect.

(** ** polar coordinates *)
Lemma arg_polar r a : 0 < r -> - PI < a < PI -> arg (r * cos a) (r * sin a) = a.
Proof.
  intros Hr Ha. unfold arg. replace ((r * cos a) ^ 2 + (r * sin a) ^ 2) with (r * r) by (pose proof (sin2_cos2 a) as E; unfold Rsqr in E; transitivity (r * r * (sin a * sin a + cos a * cos a)); [rewrite E; ring|ring]).
  rewrite sqrt_square by lra. assert (C : 0 < cos (a / 2)) by (apply cos_gt_0; lra).
  replace (r * sin a / (r * cos a + r)) with (tan (a / 2)); [rewrite atan_tan by lra; lra|].
  assert (E1 : cos a = 2 * cos (a / 2) * cos (a / 2) - 1) by (replace a with (2 * (a / 2)) at 1 by lra; apply cos_2a_cos). assert (E2 : sin a = 2 * sin (a / 2) * cos (a / 2)) by (replace a with (2 * (a / 2)) at 1 by lra; apply sin_2a).
  rewrite E1, E2. unfold tan. pose proof (Rmult_lt_0_compat _ _ C C). field. split; nra.
Qed.
Lemma lnabs_polar r a : 0 < r -> lnabs (r * cos a) (r * sin a) = ln r.
Proof.
  intros Hr. unfold lnabs. replace ((r * cos a) ^ 2 + (r * sin a) ^ 2) with (r * r) by (pose proof (sin2_cos2 a) as E; unfold Rsqr in E; transitivity (r * r * (sin a * sin a + cos a * cos a)); [rewrite E; ring|ring]).
  rewrite ln_mult by assumption. field.
Qed.
(** 1 - exp(i t) in polar form *)
Lemma one_minus t : 1 - cos t = (2 * sin (t / 2)) * cos ((t - PI) / 2) /\ - sin t = (2 * sin (t / 2)) * sin ((t - PI) / 2).
Proof.
  replace ((t - PI) / 2) with (t / 2 - PI / 2) by lra. rewrite cos_minus, sin_minus, cos_PI2, sin_PI2. split.
  - replace t with (2 * (t / 2)) at 1 by lra. rewrite cos_2a_sin. ring.
  - replace t with (2 * (t / 2)) at 1 by lra. rewrite sin_2a. ring.
Qed.
Lemma half_pos t : 0 < t < 2 * PI -> 0 < 2 * sin (t / 2).
Proof. intros H. assert (0 < sin (t / 2)) by (apply sin_gt_0; lra). lra. Qed.
Lemma arg_om t : 0 < t < 2 * PI -> arg (1 - cos t) (- sin t) = (t - PI) / 2.
Proof. intros H. pose proof (half_pos t H). destruct (one_minus t) as [-> ->]. apply arg_polar; [assumption|lra]. Qed.
Lemma lnabs_om t : 0 < t < 2 * PI -> lnabs (1 - cos t) (- sin t) = ln (2 * sin (t / 2)).
Proof. intros H. pose proof (half_pos t H). destruct (one_minus t) as [-> ->]. apply lnabs_polar; assumption. Qed.
Lemma sin_zero t : 0 < t < 2 * PI -> sin t = 0 -> t = PI.
Proof.
  intros H E. destruct (Rtotal_order t PI) as [G|[G|G]]; [|exact G|]; exfalso.
  - pose proof (sin_gt_0 t ltac:(lra) G). lra.
  - pose proof (sin_lt_0 t G ltac:(lra)). lra.
Qed.
Lemma slit_polar r t : 0 < r -> 0 < t < 2 * PI -> slit (r * cos t) (r * sin t).
Proof.
  intros Hr H. destruct (Req_dec (sin t) 0) as [E|E]; [|left; apply Rmult_integral_contrapositive; split; lra]. right. rewrite (sin_zero t H E), cos_PI. lra.
Qed.
(** ** unit circle *)
Lemma path_circle t : locally t (fun s : R => is_derive cos s (- sin s) /\ is_derive sin s (cos s)).
Proof. apply filter_forall. intros s. split; auto_derive; [exact Logic.I|ring|exact Logic.I|ring]. Qed.
Lemma slit_circle t : 0 < t < 2 * PI -> slit (cos t) (sin t).
Proof. intros H. pose proof (slit_polar 1 t ltac:(lra) H) as S1. rewrite !Rmult_1_l in S1. exact S1. Qed.
Lemma circ_n t : cos t ^ 2 + sin t ^ 2 = 1. Proof. pose proof (sin2_cos2 t) as E. unfold Rsqr in E. lra. Qed.
Lemma circ_nz t : cos t <> 0 \/ sin t <> 0.
Proof. destruct (Req_dec (cos t) 0) as [E|E]; [right|left; exact E]. intros F. pose proof (circ_n t) as G. rewrite E, F in G. lra. Qed.
Lemma c_msin t : continuity_pt (fun s => - sin s) t. Proof. reg. Qed.
Lemma U_circle_d t : 0 < t < 2 * PI -> is_derive (fun t => dilU (cos t) (sin t)) t ((t - PI) / 2).
Proof.
  intros H. evar_last; [exact (U_path cos sin (fun s => - sin s) cos t (path_circle t) (c_msin t) (continuity_cos t) (slit_circle t H) (circ_nz t))|]. cbv zeta.
  rewrite (arg_om t H). rewrite circ_n. pose proof (circ_n t) as E. replace (cos t * cos t - - sin t * sin t) with 1 by (rewrite <- E; ring). field.
Qed.
Lemma V_circle_d t : 0 < t < 2 * PI -> is_derive (fun t => dilV (cos t) (sin t)) t (- ln (2 * sin (t / 2))).
Proof.
  intros H. evar_last; [exact (V_path cos sin (fun s => - sin s) cos t (path_circle t) (c_msin t) (continuity_cos t) (slit_circle t H) (circ_nz t))|]. cbv zeta.
  rewrite (lnabs_om t H). rewrite circ_n. pose proof (circ_n t) as E. replace (cos t * cos t - - sin t * sin t) with 1 by (rewrite <- E; ring). field.
Qed.
Lemma Li2_m1 : Li2 (- 1) = - PI ^ 2 / 12.
Proof. pose proof (square Li2 Li2_is_dilog 1 ltac:(lra)) as E. rewrite Rmult_1_r in E. replace (- (1)) with (-1) in E by lra. rewrite E, L_1'. field. Qed.
Lemma const_between' f (g : R -> R) a b : (forall t, a < t < b -> is_derive f t (g t)) -> forall h, (forall t, a < t < b -> is_derive h t (g t)) -> forall s t, a < s < b -> a < t < b -> f s - h s = f t - h t.
Proof.
  intros F h G s t Hs Ht. apply (const_between (fun s => f s - h s) a b); [|exact Hs|exact Ht]. intros u Hu. evar_last; [apply (is_derive_minus (V := R_NormedModule)); [apply F, Hu|apply G, Hu]|]. unfold minus, plus, opp; cbn. ring.
Qed.
Lemma circleU t : 0 < t < 2 * PI -> dilU (cos t) (sin t) = PI ^ 2 / 6 + t ^ 2 / 4 - PI * t / 2.
Proof.
  intros H. pose proof PI_RGT_0.
  pose proof (const_between' (fun t => dilU (cos t) (sin t)) (fun t => (t - PI) / 2) 0 (2 * PI) U_circle_d (fun t => PI ^ 2 / 6 + t ^ 2 / 4 - PI * t / 2)) as K.
  specialize (K ltac:(intros; auto_derive; [exact Logic.I|field]) t PI H ltac:(lra)). cbv beta in K. rewrite cos_PI, sin_PI, (dilU_real Li2) in K by (exact Li2_is_dilog || lra). replace (- (1)) with (-1) in K by lra. rewrite Li2_m1 in K. lra.
Qed.
Lemma circleV f t : is_clausen f -> 0 < t < 2 * PI -> dilV (cos t) (sin t) = f t.
Proof.
  intros C H. pose proof PI_RGT_0. pose proof (const_between' (fun t => dilV (cos t) (sin t)) (fun t => - ln (2 * sin (t / 2))) 0 (2 * PI) V_circle_d f (fun t => clausen_derive f t C) t PI H ltac:(lra)) as K.
  cbv beta in K. rewrite cos_PI, sin_PI, dilV_real, (clausen_PI f C) in K. lra.
Qed.

(** ** inversion *)
Lemma const_from1 (f : R -> R) : (forall r, 0 < r -> is_derive f r 0) -> forall r, 0 < r -> f r = f 1.
Proof.
  intros D r Hr. assert (C : forall t, 0 < t -> continuity_pt f t) by (intros t Ht; eapply cont_of_derive, D, Ht). destruct (Rle_or_lt r 1).
  - apply derive_const_eq; [lra| |]; intros; [apply D|apply C]; lra.
  - symmetry. apply derive_const_eq; [lra| |]; intros; [apply D|apply C]; lra.
Qed.
Section Invert.
  Variable t : R.
  Hypothesis Ht : 0 < t < 2 * PI.
  Let c := cos t.
  Let s := sin t.
  Lemma cs1 : c ^ 2 + s ^ 2 = 1. Proof. apply circ_n. Qed.
  Lemma slit_in r : 0 < r -> slit (c / r) (- s / r).
  Proof.
    intros Hr. pose proof (slit_polar (/ r) t (Rinv_0_lt_compat r Hr) Ht) as [S1|S1]; [left|right].
    - fold s in S1. intros E. apply S1. transitivity (- (- s / r)); [field; lra|rewrite E; ring].
    - fold c in S1. replace (c / r) with (/ r * c) by (unfold Rdiv; ring). exact S1.
  Qed.
  Lemma off1 r : 0 < r -> off (1 - r * c) (- (r * s)).
  Proof. intros Hr. pose proof (slit_off (r * c) (r * s) 1 (slit_polar r t Hr Ht) ltac:(lra)) as O. rewrite !Rmult_1_l in O. exact O. Qed.
  Lemma off2 r : 0 < r -> off (1 - c / r) (- (- s / r)).
  Proof. intros Hr. pose proof (slit_off (c / r) (- s / r) 1 (slit_in r Hr) ltac:(lra)) as O. rewrite !Rmult_1_l in O. exact O. Qed.
  Lemma den r : 0 < r -> 0 < (1 - r * c) ^ 2 + (r * s) ^ 2.
  Proof. intros Hr. pose proof (off_norm _ _ (off1 r Hr)) as N. replace ((- (r * s)) ^ 2) with ((r * s) ^ 2) in N by ring. exact N. Qed.
  Lemma dx_in r : 0 < r -> is_derive (fun r => c / r) r (- c / r ^ 2). Proof. intros H. auto_derive; [lra|field; lra]. Qed.
  Lemma dy_in r : 0 < r -> is_derive (fun r => - s / r) r (s / r ^ 2). Proof. intros H. auto_derive; [lra|field; lra]. Qed.
  Lemma path_in r : 0 < r -> locally r (fun r : R => is_derive (fun r => c / r) r (- c / r ^ 2) /\ is_derive (fun r => - s / r) r (s / r ^ 2)).
  Proof.
    intros H. exists (mkposreal r H). intros u Hu. change (Rabs (u - r) < r) in Hu. apply Rabs_def2 in Hu. split; [apply dx_in|apply dy_in]; lra.
  Qed.
  Lemma cont_dx r : 0 < r -> continuity_pt (fun r => - c / r ^ 2) r.
  Proof. intros H. apply (cont_of_derive _ r (2 * c / r ^ 3)). auto_derive; [nra|field; lra]. Qed.
  Lemma cont_dy r : 0 < r -> continuity_pt (fun r => s / r ^ 2) r.
  Proof. intros H. apply (cont_of_derive _ r (- 2 * s / r ^ 3)). auto_derive; [nra|field; lra]. Qed.
  Lemma nz_in r : 0 < r -> c / r <> 0 \/ - s / r <> 0.
  Proof.
    intros H. destruct (circ_nz t) as [N|N]; [left|right]; intros E; apply N; fold c s.
    - transitivity (c / r * r); [field; lra|rewrite E; ring].
    - transitivity (- (- s / r) * r); [field; lra|rewrite E; ring].
  Qed.
  Lemma n_in r : 0 < r -> (c / r) ^ 2 + (- s / r) ^ 2 = / r ^ 2.
  Proof. intros H. transitivity ((c ^ 2 + s ^ 2) / r ^ 2); [field; lra|rewrite cs1; field; lra]. Qed.
  Lemma dU_out r : 0 < r -> is_derive (fun r => dilU (r * c) (r * s)) r (- lnabs (1 - r * c) (- (r * s)) / r).
  Proof.
    intros H. apply (is_derive_ext (fun r => dilU (0 + r * c) (0 + r * s))); [intros; rewrite !Rplus_0_l; reflexivity|].
    pose proof cs1 as E. assert (N : (r * c) ^ 2 + (r * s) ^ 2 = r ^ 2) by (transitivity (r ^ 2 * (c ^ 2 + s ^ 2)); [ring|rewrite E; ring]).
    evar_last; [apply U_line; rewrite !Rplus_0_l; [apply slit_polar; assumption|]|].
    - destruct (circ_nz t) as [Z|Z]; [left|right]; apply Rmult_integral_contrapositive; (split; [lra|exact Z]).
    - rewrite !Rplus_0_l, N. replace (c * (r * c) + s * (r * s)) with (r * (c ^ 2 + s ^ 2)) by ring. rewrite E. field. lra.
  Qed.
  Lemma dV_out r : 0 < r -> is_derive (fun r => dilV (r * c) (r * s)) r (- arg (1 - r * c) (- (r * s)) / r).
  Proof.
    intros H. apply (is_derive_ext (fun r => dilV (0 + r * c) (0 + r * s))); [intros; rewrite !Rplus_0_l; reflexivity|].
    pose proof cs1 as E. assert (N : (r * c) ^ 2 + (r * s) ^ 2 = r ^ 2) by (transitivity (r ^ 2 * (c ^ 2 + s ^ 2)); [ring|rewrite E; ring]).
    evar_last; [apply V_line; rewrite !Rplus_0_l; [apply slit_polar; assumption|]|].
    - destruct (circ_nz t) as [Z|Z]; [left|right]; apply Rmult_integral_contrapositive; (split; [lra|exact Z]).
    - rewrite !Rplus_0_l, N. replace (c * (r * c) + s * (r * s)) with (r * (c ^ 2 + s ^ 2)) by ring. rewrite E. field. lra.
  Qed.
  Lemma dU_in r : 0 < r -> is_derive (fun r => dilU (c / r) (- s / r)) r (lnabs (1 - c / r) (- (- s / r)) / r).
  Proof.
    intros H. evar_last; [exact (U_path (fun r => c / r) (fun r => - s / r) (fun r => - c / r ^ 2) (fun r => s / r ^ 2) r (path_in r H) (cont_dx r H) (cont_dy r H) (slit_in r H) (nz_in r H))|].
    cbv zeta beta. rewrite (n_in r H). replace (- c / r ^ 2 * (c / r) + s / r ^ 2 * (- s / r)) with (- (c ^ 2 + s ^ 2) / r ^ 3) by (field; lra). rewrite cs1. field. lra.
  Qed.
  Lemma dV_in r : 0 < r -> is_derive (fun r => dilV (c / r) (- s / r)) r (arg (1 - c / r) (- (- s / r)) / r).
  Proof.
    intros H. evar_last; [exact (V_path (fun r => c / r) (fun r => - s / r) (fun r => - c / r ^ 2) (fun r => s / r ^ 2) r (path_in r H) (cont_dx r H) (cont_dy r H) (slit_in r H) (nz_in r H))|].
    cbv zeta beta. rewrite (n_in r H). replace (- c / r ^ 2 * (c / r) + s / r ^ 2 * (- s / r)) with (- (c ^ 2 + s ^ 2) / r ^ 3) by (field; lra). rewrite cs1. field. lra.
  Qed.
  Lemma ln_in r : 0 < r -> lnabs (1 - c / r) (- (- s / r)) = lnabs (1 - r * c) (- (r * s)) - ln r.
  Proof.
    intros H. pose proof (den r H) as D. pose proof cs1 as E. unfold lnabs. replace ((- (r * s)) ^ 2) with ((r * s) ^ 2) by ring.
    replace ((1 - c / r) ^ 2 + (- (- s / r)) ^ 2) with (((1 - r * c) ^ 2 + (r * s) ^ 2) * (/ r * / r)).
    - rewrite ln_mult; [|exact D|apply Rmult_lt_0_compat; apply Rinv_0_lt_compat, H]. rewrite ln_mult by (apply Rinv_0_lt_compat, H). rewrite ln_Rinv by exact H. field.
    - transitivity ((1 - 2 * r * c + r ^ 2 * (c ^ 2 + s ^ 2)) / r ^ 2); [field; lra|]. rewrite E. transitivity ((r ^ 2 - 2 * r * c + (c ^ 2 + s ^ 2)) / r ^ 2); [rewrite E; field; lra|field; lra].
  Qed.
  Lemma arg_in r : 0 < r -> arg (1 - c / r) (- (- s / r)) = arg (1 - r * c) (- (r * s)) - (t - PI).
  Proof.
    intros H. assert (E : (fun r => arg (1 - c / r) (- (- s / r)) - arg (1 - r * c) (- (r * s))) r = (fun r => arg (1 - c / r) (- (- s / r)) - arg (1 - r * c) (- (r * s))) 1).
    { apply (const_from1 (fun r => arg (1 - c / r) (- (- s / r)) - arg (1 - r * c) (- (r * s)))); [|exact H]. clear r H. intros r H. pose proof (den r H) as D. pose proof cs1 as E. evar_last.
      - apply (is_derive_minus (V := R_NormedModule)).
        + apply (arg_derive (fun r => 1 - c / r) (fun r => - (- s / r)) (c / r ^ 2) (- s / r ^ 2) r); [auto_derive; [lra|field; lra]|auto_derive; [lra|field; lra]|apply off2, H].
        + apply (arg_derive (fun r => 1 - r * c) (fun r => - (r * s)) (- c) (- s) r); [auto_derive; [exact Logic.I|ring]|auto_derive; [exact Logic.I|ring]|apply off1, H].
      - unfold minus, plus, opp; cbn. assert (N : (1 - c / r) ^ 2 + (- (- s / r)) ^ 2 = ((1 - r * c) ^ 2 + (r * s) ^ 2) / r ^ 2).
        { transitivity ((1 - 2 * r * c + r ^ 2 * (c ^ 2 + s ^ 2)) / r ^ 2); [|field; lra]. transitivity ((r ^ 2 - 2 * r * c + (c ^ 2 + s ^ 2)) / r ^ 2); [field; lra|]. rewrite E. field; lra. }
        cbn in N. rewrite N. cbn in D. field. repeat split; try lra; nra. }
    cbv beta in E. replace (1 - c / 1) with (1 - c) in E by field. replace (- (- s / 1)) with (- - s) in E by field. rewrite !Rmult_1_l, (arg_conj (1 - c) (- s)) in E. unfold c, s in E |- *. rewrite (arg_om t Ht) in E. lra.
  Qed.
  Lemma invertU r : 0 < r -> dilU (r * c) (r * s) = - dilU (c / r) (- s / r) - / 2 * (ln r ^ 2 - (t - PI) ^ 2) - PI ^ 2 / 6.
  Proof.
    intros H. assert (E : (fun r => dilU (r * c) (r * s) + dilU (c / r) (- s / r) + / 2 * ln r ^ 2) r = (fun r => dilU (r * c) (r * s) + dilU (c / r) (- s / r) + / 2 * ln r ^ 2) 1).
    { apply (const_from1 (fun r => dilU (r * c) (r * s) + dilU (c / r) (- s / r) + / 2 * ln r ^ 2)); [|exact H]. clear r H. intros r H. evar_last.
      - apply (is_derive_plus (V := R_NormedModule)); [apply (is_derive_plus (V := R_NormedModule)); [apply dU_out, H|apply dU_in, H]|]. instantiate (1 := ln r / r). auto_derive; [exact H|field; lra].
      - unfold plus; cbn. rewrite (ln_in r H). field. lra. }
    cbv beta in E. replace (c / 1) with c in E by field. replace (- s / 1) with (- s) in E by field. rewrite !Rmult_1_l, ln_1, dilU_conj in E. unfold c, s in E |- *. rewrite (circleU t Ht) in E. lra.
  Qed.
  Lemma invertV r : 0 < r -> dilV (r * c) (r * s) = - dilV (c / r) (- s / r) - ln r * (t - PI).
  Proof.
    intros H. assert (E : (fun r => dilV (r * c) (r * s) + dilV (c / r) (- s / r) + ln r * (t - PI)) r = (fun r => dilV (r * c) (r * s) + dilV (c / r) (- s / r) + ln r * (t - PI)) 1).
    { apply (const_from1 (fun r => dilV (r * c) (r * s) + dilV (c / r) (- s / r) + ln r * (t - PI))); [|exact H]. clear r H. intros r H. evar_last.
      - apply (is_derive_plus (V := R_NormedModule)); [apply (is_derive_plus (V := R_NormedModule)); [apply dV_out, H|apply dV_in, H]|]. instantiate (1 := (t - PI) / r). auto_derive; [exact H|field; lra].
      - unfold plus; cbn. rewrite (arg_in r H). field. lra. }
    cbv beta in E. replace (c / 1) with c in E by field. replace (- s / 1) with (- s) in E by field. rewrite !Rmult_1_l, ln_1, dilV_conj in E by (apply slit_circle, Ht). lra.
  Qed.
End Invert.
