(** Where the exponent is 1; the integral at alpha = 1/2, beta = 1; the case the code takes for an empty interval. *)
From Coquelicot Require Import Coquelicot.
From Coq Require Import Classical.
From Verif Require Import Base RSumLib Ext S_StablePdf P_StableInt M_Archimedean M_Special M_Specfunc M_Stable M_StablePdf P_StablePdf P_StablePdf2 P_StablePdf3 P_StablePdf4 P_GaussInt.
Open Scope R_scope.

Lemma blow (h : R -> R) (a sg c k : R) : Rabs sg = 1 -> continuous h a -> 0 < c -> 0 < k ->
  forall K eta, 0 < eta -> exists s, 0 < s < eta /\ forall l, l <= ln (k * s) -> K < h (a + sg * s) - c * l.
Proof.
  intros G C Hc Hk K eta He. destruct (proj1 (filterlim_locally h (h a)) C (mkposreal 1 Rlt_0_1)) as (d & D).
  set (M := (Rabs K + Rabs (h a) + 1) / c). set (s := Rmin (Rmin (d / 2) (eta / 2)) (exp (- M) / k)).
  assert (P : 0 < exp (- M) / k) by (apply Rdiv_lt_0_compat; [apply exp_pos|exact Hk]). pose proof (cond_pos d) as Pd.
  assert (S0 : 0 < s) by (unfold s; repeat apply Rmin_glb_lt; lra).
  assert (S1 : s <= d / 2) by (unfold s; eapply Rle_trans; [apply Rmin_l|apply Rmin_l]).
  assert (S2 : s <= eta / 2) by (unfold s; eapply Rle_trans; [apply Rmin_l|apply Rmin_r]).
  assert (S3 : s <= exp (- M) / k) by apply Rmin_r.
  exists s. split; [lra|]. intros l Hl.
  assert (B : Rabs (h (a + sg * s) - h a) < 1). { apply (D (a + sg * s)). change (Rabs (a + sg * s + - a) < d). replace (a + sg * s + - a) with (sg * s) by ring. rewrite Rabs_mult, G, (Rabs_pos_eq s) by lra. lra. }
  assert (L : l <= - M). { eapply Rle_trans; [exact Hl|]. rewrite <- (ln_exp (- M)). apply ln_le; [apply Rmult_lt_0_compat; assumption|]. apply (Rmult_le_compat_l k) in S3; [|lra]. replace (k * (exp (- M) / k)) with (exp (- M)) in S3 by (field; lra). exact S3. }
  assert (E : c * M = Rabs K + Rabs (h a) + 1) by (unfold M; field; lra).
  apply Rabs_lt_between in B. pose proof (Rle_abs K). pose proof (Rle_abs (- h a)) as Q. rewrite Rabs_Ropp in Q. nra.
Qed.
Lemma sin_lt' u : 0 < u -> sin u < u.
Proof. apply sin_lt_x. Qed.
Lemma W_left al t0 xm : ok al t0 xm -> t0 < PI / 2 -> forall K v, inside t0 v -> exists u, inside t0 u /\ u < v /\ (1 < al -> K < W al t0 xm u) /\ (al < 1 -> W al t0 xm u < - K).
Proof.
  intros O T K v V. pose proof O as (A & N & T0 & L & C0 & X). pose proof PI_RGT_0 as PP.
  set (h := fun th => ln (cos ((th + t0) * al - th)) + (ln (cos (al * t0)) + ln (cos th) + al * ln xm) / (al - 1)).
  assert (Ct : 0 < cos t0) by (apply cos_gt_0; lra).
  assert (H : continuous h (- t0)). { apply (ex_derive_continuous (K := R_AbsRing) (V := R_NormedModule)). unfold h. auto_derive. repeat split; rewrite ?cos_neg; try exact Ct; try lra. replace ((- t0 + t0) * al + - - t0) with t0 by ring. exact Ct. }
  assert (B : forall u, inside t0 u -> ln (sin ((u + t0) * al)) <= ln (al * (u - - t0))).
  { intros u U. destruct (angles al t0 xm u O U) as (_ & R & S & _). left. apply ln_increasing; [exact S|]. replace (al * (u - - t0)) with ((u + t0) * al) by ring. apply sin_lt', R. }
  unfold inside in V. destruct (Rlt_le_dec 1 al) as [H1|H1].
  - destruct (blow h (- t0) 1 (al / (al - 1)) al Rabs_R1 H ltac:(apply Rdiv_lt_0_compat; lra) ltac:(lra) K (v + t0) ltac:(lra)) as (s & S & Q).
    assert (U : inside t0 (- t0 + 1 * s)) by (unfold inside; lra).
    exists (- t0 + 1 * s). split; [exact U|]. split; [lra|]. split; [intros _|lra]. specialize (B _ U). replace (- t0 + 1 * s - - t0) with s in B by ring. specialize (Q _ B). unfold h in Q. unfold W.
    match goal with |- K < ?r => match type of Q with K < ?q => replace r with q; [exact Q|field; lra] end end.
  - assert (H2 : al < 1) by lra. assert (H' : continuous (fun th => - h th) (- t0)) by (apply (continuous_opp (V := R_NormedModule) h), H).
    destruct (blow (fun th => - h th) (- t0) 1 (al / (1 - al)) al Rabs_R1 H' ltac:(apply Rdiv_lt_0_compat; lra) ltac:(lra) K (v + t0) ltac:(lra)) as (s & S & Q).
    assert (U : inside t0 (- t0 + 1 * s)) by (unfold inside; lra).
    exists (- t0 + 1 * s). split; [exact U|]. split; [lra|]. split; [lra|intros _]. specialize (B _ U). replace (- t0 + 1 * s - - t0) with s in B by ring. specialize (Q _ B). cbv beta in Q. unfold h in Q. unfold W.
    apply Ropp_lt_cancel. rewrite Ropp_involutive. match goal with |- K < ?r => match type of Q with K < ?q => replace r with q; [exact Q|field; lra] end end.
Qed.
Lemma W_right al t0 xm : ok al t0 xm -> al * (PI / 2 + t0) < PI -> forall K v, inside t0 v -> exists u, inside t0 u /\ v < u /\ (1 < al -> W al t0 xm u < - K) /\ (al < 1 -> K < W al t0 xm u).
Proof.
  intros O T K v V. pose proof O as (A & N & T0 & L & C0 & X). pose proof PI_RGT_0 as PP.
  set (h := fun th => ln (cos ((th + t0) * al - th)) + (ln (cos (al * t0)) + al * (ln xm - ln (sin ((th + t0) * al)))) / (al - 1)).
  assert (Ct : 0 < sin (al * (PI / 2 + t0))) by (apply sin_gt_0; [apply Rmult_lt_0_compat; lra|lra]).
  assert (H : continuous h (PI / 2)). { apply (ex_derive_continuous (K := R_AbsRing) (V := R_NormedModule)). unfold h. auto_derive. repeat split; try lra.
    - replace ((PI / 2 + t0) * al + - (PI / 2)) with (- (PI / 2 - al * (PI / 2 + t0))) by ring. rewrite cos_neg, cos_shift. exact Ct.
    - rewrite Rmult_comm. exact Ct. }
  assert (B : forall u, inside t0 u -> ln (cos u) <= ln (1 * (PI / 2 - u))).
  { intros u U. destruct (angles al t0 xm u O U) as (S & _). left. apply ln_increasing; [exact S|]. rewrite <- sin_shift, Rmult_1_l. apply sin_lt'. unfold inside in U. lra. }
  assert (M1 : Rabs (-1) = 1) by (rewrite Rabs_left; lra).
  unfold inside in V. destruct (Rlt_le_dec 1 al) as [H1|H1].
  - assert (H' : continuous (fun th => - h th) (PI / 2)) by (apply (continuous_opp (V := R_NormedModule) h), H).
    destruct (blow (fun th => - h th) (PI / 2) (-1) (1 / (al - 1)) 1 M1 H' ltac:(apply Rdiv_lt_0_compat; lra) ltac:(lra) K (PI / 2 - v) ltac:(lra)) as (s & S & Q).
    assert (U : inside t0 (PI / 2 + -1 * s)) by (unfold inside; lra).
    exists (PI / 2 + -1 * s). split; [exact U|]. split; [lra|]. split; [intros _|lra]. specialize (B _ U). replace (PI / 2 - (PI / 2 + -1 * s)) with s in B by ring. specialize (Q _ B). cbv beta in Q. unfold h in Q. unfold W.
    apply Ropp_lt_cancel. rewrite Ropp_involutive. match goal with |- K < ?r => match type of Q with K < ?q => replace r with q; [exact Q|field; lra] end end.
  - assert (H2 : al < 1) by lra.
    destruct (blow h (PI / 2) (-1) (1 / (1 - al)) 1 M1 H ltac:(apply Rdiv_lt_0_compat; lra) ltac:(lra) K (PI / 2 - v) ltac:(lra)) as (s & S & Q).
    assert (U : inside t0 (PI / 2 + -1 * s)) by (unfold inside; lra).
    exists (PI / 2 + -1 * s). split; [exact U|]. split; [lra|]. split; [lra|intros _]. specialize (B _ U). replace (PI / 2 - (PI / 2 + -1 * s)) with s in B by ring. specialize (Q _ B). unfold h in Q. unfold W.
    match goal with |- K < ?r => match type of Q with K < ?q => replace r with q; [exact Q|field; lra] end end.
Qed.
Lemma peak_ex al t0 xm : ok al t0 xm -> t0 < PI / 2 -> al * (PI / 2 + t0) < PI -> exists t, inside t0 t /\ W al t0 xm t = 0.
Proof.
  intros O T L. pose proof O as (A & N & T0 & _). assert (V : inside t0 ((- t0 + PI / 2) / 2)) by (unfold inside; lra).
  destruct (W_left al t0 xm O T 1 _ V) as (u & U & UV & U1 & U2). destruct (W_right al t0 xm O L 1 _ V) as (w & Hw & VW & W1 & W2).
  destruct (W_level al t0 xm u w 0 O U Hw ltac:(lra)) as (s & S & E).
  - destruct (Rlt_le_dec 1 al) as [H|H]; [specialize (U1 H); specialize (W1 H); nra|]. assert (H2 : al < 1) by lra. specialize (U2 H2). specialize (W2 H2). nra.
  - exists s. split; [unfold inside in *; lra|exact E].
Qed.
(** the exponent at one point decides on which side of it the value 1 is taken *)
Lemma peak_left al t0 xm v : ok al t0 xm -> t0 < PI / 2 -> 1 < al -> inside t0 v -> W al t0 xm v < 0 -> exists t, inside t0 t /\ W al t0 xm t = 0 /\ t < v.
Proof.
  intros O T A V Hv. destruct (W_left al t0 xm O T 1 v V) as (u & U & UV & U1 & _). specialize (U1 A).
  destruct (W_level al t0 xm u v 0 O U V UV ltac:(nra)) as (s & S & E). exists s. unfold inside in *. split; [lra|]. split; [exact E|lra].
Qed.
