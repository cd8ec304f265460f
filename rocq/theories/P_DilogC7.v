(** The tables of dilogc_series_3 are the derivatives on the unit circle. *)
From Coquelicot Require Import Coquelicot.
From Verif Require Import Base RSumLib S_Clausen P_Clausen P_Specfunc P_Clausen5 P_Dilog S_DilogC P_DilogC P_DilogC2 P_DilogC3 P_DilogC4 P_DilogC5 P_DilogC6 M_Specfunc M_Clausen M_Dilog M_DilogC.
From Coq Require Import Psatz.
Open Scope R_scope.
Local Notation C := Complex.C.

Section Values.
  Variables c s : R.
  Hypothesis Hu : c ^ 2 + s ^ 2 = 1.
  Hypothesis Hc : c < 1.
  Let u : C := (c, s).
  Let o := 1 - c.
  Let w := Cinv (Cminus (RtoC 1) u).
  Let p := - (1 / 2) / o.
  Let q := s / o.
  Lemma o_pos : 0 < o. Proof. unfold o. lra. Qed.
  Lemma n_o : (1 - c) ^ 2 + s ^ 2 = 2 * o. Proof. unfold o. nra. Qed.
  Lemma w_val : w = (1 / 2, q / 2).
  Proof.
    pose proof o_pos as O. unfold w, u, Cinv, Cminus, Cplus, Copp, RtoC. cbn [fst snd]. replace ((1 + - c) ^ 2 + (0 + - s) ^ 2) with (2 * o) by (pose proof n_o; nra). unfold q, o in *. f_equal; field; lra.
  Qed.
  Lemma om_nz : Cminus (RtoC 1) u <> RtoC 0.
  Proof. intros E. apply (f_equal fst) in E. unfold u in E. cbn in E. lra. Qed.
  Lemma q_sq : q * q = (1 + c) / o.
  Proof. pose proof o_pos as O. unfold q, o in *. assert (S2 : s * s = (1 + c) * (1 - c)) by nra. replace (s / (1 - c) * (s / (1 - c))) with (s * s / ((1 - c) * (1 - c))) by (field; lra). rewrite S2. field. lra. Qed.
  Lemma w2w : Cminus (Cmult w w) w = RtoC p.
  Proof.
    pose proof o_pos as O. rewrite w_val. unfold Cminus, Cmult, Cplus, Copp, RtoC. cbn [fst snd]. f_equal; [|field].
    transitivity (- (1 / 4) - q * q / 4); [field|]. rewrite q_sq. unfold p, o in *. field. lra.
  Qed.
  Lemma ww1 : Cminus (Cplus w w) (RtoC 1) = (0, q).
  Proof. rewrite w_val. unfold Cminus, Cplus, Copp, RtoC. cbn [fst snd]. f_equal; field. Qed.
  Lemma g2 : gam 2 u = (- (1 / 2), q / 2).
  Proof.
    pose proof om_nz as N. transitivity (Cminus w (RtoC 1)); [unfold gam, w; field; exact N|]. rewrite w_val. unfold Cminus, Cplus, Copp, RtoC. cbn [fst snd]. f_equal; field.
  Qed.
  Lemma g3 : gam 3 u = (p, 0).
  Proof. pose proof om_nz as N. transitivity (Cminus (Cmult w w) w); [unfold gam, w; cbn [cpow]; field; exact N|]. rewrite w2w. reflexivity. Qed.
  Lemma g4 : gam 4 u = (0, q * p).
  Proof.
    pose proof om_nz as N. transitivity (Cmult (Cminus (Cplus w w) (RtoC 1)) (Cminus (Cmult w w) w)); [unfold gam, w; cbn [cpow]; field; exact N|]. rewrite w2w, ww1. unfold Cmult, RtoC. cbn [fst snd]. f_equal; ring.
  Qed.
  Lemma c6 : RtoC 6 = Cplus (Cplus (RtoC 1) (RtoC 1)) (Cplus (Cplus (RtoC 1) (RtoC 1)) (Cplus (RtoC 1) (RtoC 1))).
  Proof. rewrite <- !RtoC_plus. f_equal; ring. Qed.
  Lemma g5 : gam 5 u = ((6 * p + 1) * p, 0).
  Proof.
    pose proof om_nz as N. transitivity (Cmult (Cplus (Cmult (RtoC 6) (Cminus (Cmult w w) w)) (RtoC 1)) (Cminus (Cmult w w) w)); [unfold gam, w; rewrite c6, c4; cbn [cpow]; field; exact N|].
    rewrite w2w, <- !RtoC_mult, <- RtoC_plus, <- RtoC_mult. reflexivity.
  Qed.
  Lemma g6 : gam 6 u = (0, q * ((12 * p + 1) * p)).
  Proof.
    pose proof om_nz as N. transitivity (Cmult (Cminus (Cplus w w) (RtoC 1)) (Cmult (Cplus (Cmult (Cplus (RtoC 6) (RtoC 6)) (Cminus (Cmult w w) w)) (RtoC 1)) (Cminus (Cmult w w) w))); [unfold gam, w; rewrite c6, c11; cbn [cpow]; field; exact N|].
    rewrite w2w, ww1, <- RtoC_plus, <- !RtoC_mult, <- RtoC_plus, <- RtoC_mult. unfold Cmult, RtoC. cbn [fst snd]. f_equal; ring.
  Qed.
  Lemma g1 : gam 1 u = (- (1 / 2) * ln (2 * o), - atan2 (- s) o).
  Proof.
    pose proof o_pos as O. rewrite (atan2_arg o (- s)) by (left; exact O). unfold gam, u, Lg, Cminus, Cplus, Copp, RtoC. cbn [fst snd]. rewrite Rplus_0_l. change (1 + - c) with o. f_equal. unfold lnabs.
    replace (o ^ 2 + (- s) ^ 2) with (2 * o) by (pose proof n_o as K; unfold o in *; nra). field.
  Qed.
End Values.
(** the value on the unit circle *)
Lemma circle_any f t : is_clausen f -> - PI < t < PI -> t <> 0 ->
  LiZ (cos t, sin t) = (PI ^ 2 / 6 + 1 / 4 * (t ^ 2 - 2 * PI * Rabs t), if Rltb t 0 then - f (- t) else f t).
Proof.
  intros F Ht Nt. unfold LiZ. cbn [fst snd]. destruct (Rltb t 0) eqn:B; [apply Rltb_true in B|apply Rltb_false in B].
  - replace (cos t) with (cos (- t)) by apply cos_neg. replace (sin t) with (- sin (- t)) by (rewrite sin_neg; ring). rewrite dilU_conj, dilV_conj by (apply slit_circle; lra). rewrite circleU, (circleV f) by (assumption || lra). rewrite Rabs_left by lra. f_equal. field.
  - rewrite circleU, (circleV f) by (assumption || lra). rewrite Rabs_pos_eq by lra. f_equal. field.
Qed.
Lemma clausen_any f t : is_clausen f -> - PI < t < PI -> t <> 0 -> exists v, clausen_fn t = Some v /\ Rabs (v - (if Rltb t 0 then - f (- t) else f t)) <= 2 / 10 ^ 18.
Proof.
  intros F Ht Nt. pose proof PI_4 as P4. destruct (Rltb t 0) eqn:B; [apply Rltb_true in B|apply Rltb_false in B].
  - destruct (clausen_fn_accurate f (- t) F ltac:(lra)) as [v [E A]]. exists (- v). split; [unfold clausen_fn in *; rewrite <- (Ropp_involutive t), clausen_odd, E; reflexivity|].
    rewrite Rmin_left in A by lra. replace (- v - - f (- t)) with (- (v - f (- t))) by ring. rewrite Rabs_Ropp. lra.
  - destruct (clausen_fn_accurate f t F ltac:(lra)) as [v [E A]]. exists v. split; [exact E|]. rewrite Rmin_left in A by lra. lra.
Qed.
Lemma arg_nz x y : y <> 0 -> arg x y <> 0.
Proof. intros H E. destruct (arg_cs x y (or_intror H)) as [_ [_ [_ Ev]]]. rewrite E, sin_0, Rmult_0_r in Ev. exact (H Ev). Qed.
Lemma series_3_acc x y : 98 / 100 < Cmod (x, y) < 1 -> x <= 732 / 1000 -> y <> 0 -> exists p, dilogc_series_3 (Cmod (x, y)) x y = some2 p /\ cle (Cminus p (LiZ (x, y))) (5 / 10 ^ 13).
Proof.
  intros H Hx Ny. set (r := Cmod (x, y)) in *. destruct (arg_cs x y (or_intror Ny)) as [_ [Bt [Ex Ey]]]. pose proof (arg_nz x y Ny) as Nt. fold r in Ex, Ey. set (t := arg x y) in *.
  assert (Ec : x / r = cos t) by (rewrite Ex; field; lra). assert (Es : y / r = sin t) by (rewrite Ey; field; lra).
  unfold dilogc_series_3. rewrite (atan2_arg x y (or_intror Ny)). fold t. rewrite Ec, Es.
  destruct (clausen_any cl t cl_is_clausen Bt Nt) as [v [Ev Av]]. rewrite Ev. match goal with |- exists p, (Some ?A, Some ?B) = some2 p /\ _ => exists (A, B); split; [reflexivity|] end.
  set (a := ln r). assert (Ha : - (205 / 10000) <= a <= 0).
  { unfold a. split; [|left; rewrite <- ln_1; apply ln_increasing; lra]. pose proof (exp_ineq1_le (- ln r)) as K. rewrite exp_Ropp, exp_ln in K by lra. assert (/ r <= / (98 / 100)) by (apply Rinv_le_contravar; lra). lra. }
  assert (Cu : cos t ^ 2 + sin t ^ 2 = 1) by apply circ_n. assert (Hu : Cmod (cos t, sin t) = 1) by (unfold Cmod; cbn [fst snd]; rewrite Cu; apply sqrt_1).
  assert (Hc : cos t <= 3 / 4). { rewrite <- Ec. apply Rmult_le_reg_r with r; [lra|]. unfold Rdiv. rewrite Rmult_assoc, Rinv_l by lra. lra. }
  destruct (arc_bound (cos t, sin t) a Hu Hc Ha) as [B1 B2]. rewrite Rmult_1_r in B1, B2. unfold a in B1, B2. rewrite exp_ln in B1, B2 by lra. fold a in B1, B2.
  assert (Ez : Cmult (RtoC r) (cos t, sin t) = (x, y)) by (unfold Cmult, RtoC; cbn [fst snd]; rewrite Ex, Ey; f_equal; ring). rewrite Ez in B1, B2.
  assert (O : 0 < 1 - cos t) by lra. assert (Hc1 : cos t < 1) by lra. unfold poly6 in B1, B2. cbn [rsum] in B1, B2.
  rewrite (g1 (cos t) (sin t) Cu Hc1), (g2 (cos t) (sin t) Cu Hc1), (g3 (cos t) (sin t) Cu Hc1), (g4 (cos t) (sin t) Cu Hc1), (g5 (cos t) (sin t) Cu Hc1), (g6 (cos t) (sin t) Cu Hc1) in B1, B2.
  change (gam 0 (cos t, sin t)) with (LiZ (cos t, sin t)) in B1, B2. rewrite (circle_any cl t cl_is_clausen Bt Nt) in B1, B2. cbn [fst snd] in B1, B2. rewrite !pow1 in B1, B2.
  replace (INR (fact 0)) with 1 in B1, B2 by (cbn; ring). replace (INR (fact 1)) with 1 in B1, B2 by (cbn; ring). replace (INR (fact 2)) with 2 in B1, B2 by (cbn; ring). replace (INR (fact 3)) with 6 in B1, B2 by (cbn; ring). replace (INR (fact 4)) with 24 in B1, B2 by (cbn; ring). replace (INR (fact 5)) with 120 in B1, B2 by (cbn; ring). replace (INR (fact 6)) with 720 in B1, B2 by (cbn; ring).
  assert (S2 : sin t * sin t = (1 - cos t) * (1 + cos t)) by (cbn in Cu; lra).
  split; cbn [fst snd Cminus Cplus Copp].
  - match type of B1 with Rabs (_ - ?P) <= _ => match goal with |- Rabs (?Q + _) <= _ => assert (EQ : Q = P) end end.
    { unfold taylor. cbn [fold_left tl hd snd INR]. field. lra. }
    rewrite EQ. rewrite <- Rabs_Ropp. match goal with |- Rabs ?e <= _ => match type of B1 with Rabs ?e' <= _ => replace e with e' by ring end end. lra.
  - match type of B2 with Rabs (_ - ?P) <= _ => match goal with |- Rabs (?Q + _) <= _ => assert (EQ : Q = P + (v - (if Rltb t 0 then - cl (- t) else cl t))) end end.
    { unfold taylor. cbn [fold_left tl hd snd INR]. set (k := if Rltb t 0 then - cl (- t) else cl t). set (A := atan2 (- sin t) (1 - cos t)). 
      replace (8 * (1 - cos t) - sin t * sin t * (3 + cos t)) with ((1 - cos t) ^ 2 * (5 + cos t)) by (rewrite S2; ring). field. lra. }
    rewrite EQ. set (k := if Rltb t 0 then - cl (- t) else cl t) in *. match type of B2 with Rabs (?l - ?P) <= _ => replace (P + (v - k) + - l) with (- (l - P) + (v - k)) by ring end. eapply Rle_trans; [apply Rabs_triang|]. rewrite Rabs_Ropp. lra.
Qed.
