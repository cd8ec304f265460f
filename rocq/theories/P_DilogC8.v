(** dilogc_unit_disk and dilog_complex off the real axis. *)
From Coquelicot Require Import Coquelicot.
From Verif Require Import Base RSumLib S_Clausen P_Clausen P_Specfunc P_Clausen5 P_Dilog S_DilogC P_DilogC P_DilogC2 P_DilogC3 P_DilogC4 P_DilogC5 P_DilogC6 P_DilogC7 M_Specfunc M_Clausen M_Dilog M_DilogC.
From Coq Require Import Psatz.
Open Scope R_scope.
Local Notation C := Complex.C.

Lemma cle_weaken z a b : cle z a -> a <= b -> cle z b.
Proof. intros [A B] H. split; lra. Qed.
Lemma fundamental_acc x y : 0 < Cmod (x, y) < 1 -> x <= 732 / 1000 -> y <> 0 -> exists p, dilogc_fundamental (Cmod (x, y)) x y = some2 p /\ cle (Cminus p (LiZ (x, y))) (2 / 10 ^ 12).
Proof.
  intros H Hx Ny. unfold dilogc_fundamental. destruct (Rltb (98 / 100) (Cmod (x, y))) eqn:B1; [apply Rltb_true in B1|apply Rltb_false in B1; destruct (Rltb (1 / 4) (Cmod (x, y))) eqn:B2; [apply Rltb_true in B2|apply Rltb_false in B2]].
  - destruct (series_3_acc x y ltac:(lra) Hx Ny) as [p [E A]]. exists p. split; [exact E|]. eapply cle_weaken; [exact A|lra].
  - apply series_2_acc. lra.
  - eexists. split; [reflexivity|]. eapply cle_weaken; [apply series_1_acc; lra|]. pose proof eps_pos. lra.
Qed.
Lemma mod_sq x y : Cmod (x, y) ^ 2 = x ^ 2 + y ^ 2.
Proof. unfold Cmod. cbn [fst snd]. rewrite pow2_sqrt; [reflexivity|nra]. Qed.
Lemma mod_pos x y : y <> 0 -> 0 < Cmod (x, y).
Proof. intros H. apply Cmod_gt_0. intros E. apply (f_equal snd) in E. cbn in E. exact (H E). Qed.
Lemma unit_disk_acc x y : Cmod (x, y) < 1 -> y <> 0 -> exists p, dilogc_unit_disk x y = some2 p /\ cle (Cminus p (LiZ (x, y))) (2 / 10 ^ 12).
Proof.
  intros H Ny. pose proof (mod_pos x y Ny) as P. unfold dilogc_unit_disk. rewrite !hypot_mod. destruct (Rltb (732 / 1000) x) eqn:B; [apply Rltb_true in B|apply Rltb_false in B; apply fundamental_acc; [lra|lra|exact Ny]].
  pose proof (mod_sq x y) as Q. assert (Y2 : 0 < y ^ 2) by (apply pow2_gt_0, Ny). assert (X1 : x < 1) by nra.
  assert (Ny' : - y <> 0) by lra. pose proof (mod_pos (1 - x) (- y) Ny') as P'. pose proof (mod_sq (1 - x) (- y)) as Q'.
  assert (L : Cmod (1 - x, - y) < 1) by nra. destruct (fundamental_acc (1 - x) (- y) ltac:(lra) ltac:(lra) Ny') as [[a b] [E [A1 A2]]]. rewrite E. cbn [some2 fst snd option_map].
  rewrite (atan2_arg x y (or_intror Ny)), (atan2_arg (1 - x) (- y) (or_intror Ny')), <- (lnabs_mod x y P), <- (lnabs_mod (1 - x) (- y) P').
  match goal with |- exists p, (Some ?A, Some ?B) = some2 p /\ _ => exists (A, B); split; [reflexivity|] end.
  pose proof (reflectU x ltac:(lra) y) as RU. pose proof (reflectV x ltac:(lra) y) as RV. unfold LiZ, Cminus, Cplus, Copp, cle in *. cbn [fst snd] in *. split.
  - rewrite <- Rabs_Ropp. eapply Rle_trans; [|exact A1]. right. f_equal. lra.
  - rewrite <- Rabs_Ropp. eapply Rle_trans; [|exact A2]. right. f_equal. lra.
Qed.
(** the angle of a point off the real axis *)
Lemma theta_nz r t : r * sin t <> 0 -> - PI <= t <= PI -> - PI < t < PI /\ t <> 0.
Proof.
  intros N H. split; [split|].
  - destruct (Req_dec t (- PI)) as [->|]; [|lra]. exfalso. apply N. rewrite sin_neg, sin_PI. ring.
  - destruct (Req_dec t PI) as [->|]; [|lra]. exfalso. apply N. rewrite sin_PI. ring.
  - intros ->. apply N. rewrite sin_0. ring.
Qed.
Lemma invert_any r t : 0 < r -> - PI < t < PI -> t <> 0 ->
  dilU (r * cos t) (r * sin t) = - dilU (cos t / r) (- sin t / r) - 1 / 2 * (ln r ^ 2 - ((if Rltb t 0 then - (1) else 1) * (Rabs t - PI)) ^ 2) - PI ^ 2 / 6 /\
  dilV (r * cos t) (r * sin t) = - dilV (cos t / r) (- sin t / r) - 1 / 2 * (2 * ln r * ((if Rltb t 0 then - (1) else 1) * (Rabs t - PI))).
Proof.
  intros Hr Ht Nt. destruct (Rltb t 0) eqn:B; [apply Rltb_true in B|apply Rltb_false in B].
  - assert (H0 : 0 < - t < 2 * PI) by lra. pose proof (invertU (- t) H0 r Hr) as IU. pose proof (invertV (- t) H0 r Hr) as IV. rewrite cos_neg, sin_neg in IU, IV. rewrite Rabs_left by lra.
    replace (r * - sin t) with (- (r * sin t)) in IU, IV by ring. replace (- - sin t / r) with (- (- sin t / r)) in IU, IV by (field; lra).
    pose proof (slit_polar r (- t) Hr H0) as S1. rewrite cos_neg, sin_neg in S1. assert (S1' : slit (r * cos t) (r * sin t)) by (destruct S1 as [S1|S1]; [left|right; exact S1]; intros K; apply S1; rewrite Ropp_mult_distr_r_reverse, K; ring).
    assert (Hi : 0 < / r) by (apply Rinv_0_lt_compat, Hr). pose proof (slit_polar (/ r) (- t) Hi H0) as S2. rewrite cos_neg, sin_neg in S2. replace (/ r * cos t) with (cos t / r) in S2 by (unfold Rdiv; ring). replace (/ r * - sin t) with (- sin t / r) in S2 by (unfold Rdiv; ring).
    rewrite !dilU_conj in IU. rewrite !dilV_conj in IV by assumption. split; lra.
  - assert (H0 : 0 < t < 2 * PI) by lra. rewrite (invertU t H0 r Hr), (invertV t H0 r Hr), Rabs_pos_eq by lra. split; field.
Qed.
(** a bound on |Log (1 - z)| *)
Lemma arg_abs u v : off u v -> Rabs (arg u v) <= 4.
Proof. intros H. destruct (arg_cs u v H) as [_ [B _]]. pose proof PI_4. apply Rabs_le. lra. Qed.
Lemma ln_abs_bound q k : (/ 2) ^ k <= q <= 2 ^ k -> Rabs (ln q) <= INR k.
Proof.
  intros [A B]. assert (L2 : 0 < ln 2 <= 1). { split; [rewrite <- ln_1; apply ln_increasing; lra|]. rewrite <- (ln_exp 1). apply ln_le; [lra|]. pose proof (exp_ineq1_le 1). lra. }
  assert (P : 0 < (/ 2) ^ k) by (apply pow_lt; lra). pose proof (pos_INR k) as K. apply Rabs_le. split.
  - assert (ln ((/ 2) ^ k) <= ln q) by (apply ln_le; lra). rewrite ln_pow in H by lra. rewrite ln_Rinv in H by lra. nra.
  - assert (ln q <= ln (2 ^ k)) by (apply ln_le; lra). rewrite ln_pow in H by lra. nra.
Qed.
Lemma lnabs_bound u v k : (/ 2) ^ (2 * k) <= u ^ 2 + v ^ 2 <= 2 ^ (2 * k) -> Rabs (lnabs u v) <= INR k.
Proof.
  intros H. unfold lnabs. pose proof (ln_abs_bound _ _ H) as B. rewrite mult_INR in B. cbn [INR] in B. unfold Rdiv. rewrite Rabs_mult, (Rabs_pos_eq (/ 2)) by lra. lra.
Qed.
Lemma mvt_bound f df a b k : (forall x, Rmin a b <= x <= Rmax a b -> is_derive f x (df x)) -> (forall x, Rmin a b <= x <= Rmax a b -> Rabs (df x) <= k) -> Rabs (f b - f a) <= k * Rabs (b - a).
Proof.
  intros D B. destruct (MVT_gen f a b df) as [c [Hc E]].
  - intros x H. apply D. lra.
  - intros x H. apply continuity_pt_filterlim, (ex_derive_continuous f). eexists. apply D, H.
  - rewrite E, Rabs_mult. apply Rmult_le_compat_r; [apply Rabs_pos|]. apply B, Hc.
Qed.
(** the unit circle in the code has a width *)
Lemma ring_acc t r : 0 < t < PI -> 0 < r -> Rabs (r ^ 2 - 1) <= DBL_EPSILON -> 10 * DBL_EPSILON <= r * sin t ->
  Rabs (dilU (cos t) (sin t) - dilU (r * cos t) (r * sin t)) <= 1 / 10 ^ 13 /\ Rabs (dilV (cos t) (sin t) - dilV (r * cos t) (r * sin t)) <= 1 / 10 ^ 13.
Proof.
  intros Ht Hr H1 Hs. assert (H0 : 0 < t < 2 * PI) by lra. pose proof eps_pos as E. set (e := DBL_EPSILON) in *. assert (He : e = / 4503599627370496) by reflexivity. clearbody e. apply Rabs_le_between in H1.
  assert (R1 : Rabs (1 - r) <= e) by (apply Rabs_le; destruct (Rle_dec r 1); split; nra). assert (Rb : 1 - e <= r <= 1 + e) by (apply Rabs_le_between in R1; lra).
  assert (S0 : 9 * e <= sin t) by nra. pose proof (circ_n t) as N1. assert (SB : sin t <= 1) by apply SIN_bound. pose proof (COS_bound t) as CB.
  assert (BB : forall x, Rmin r 1 <= x <= Rmax r 1 -> 1 - e <= x <= 1 + e) by (intros x; unfold Rmin, Rmax; destruct (Rle_dec r 1); lra).
  assert (Nn : forall x, 1 - e <= x <= 1 + e -> (/ 2) ^ (2 * 49) <= (1 - x * cos t) ^ 2 + (- (x * sin t)) ^ 2 <= 2 ^ (2 * 49)).
  { intros x Hx. assert (8 * e <= x * sin t) by nra. split.
    - apply Rle_trans with ((8 * e) ^ 2); [right; replace (2 * 49)%nat with (49 * 2)%nat by reflexivity; rewrite pow_mult; f_equal; rewrite He; cbn [pow]; field|]. assert ((8 * e) ^ 2 <= (x * sin t) ^ 2) by (apply pow_incr; lra). nra.
    - apply Rle_trans with 9; [|apply Rle_trans with (2 ^ 4); [cbn; lra|apply Rle_pow; [lra|lia]]]. replace ((1 - x * cos t) ^ 2 + (- (x * sin t)) ^ 2) with (1 - 2 * (x * cos t) + x ^ 2 * (cos t ^ 2 + sin t ^ 2)) by ring. rewrite N1. nra. }
  split.
  - pose proof (mvt_bound (fun r => dilU (r * cos t) (r * sin t)) (fun r => - lnabs (1 - r * cos t) (- (r * sin t)) / r) r 1 60) as M. cbv beta in M. rewrite !Rmult_1_l in M.
    eapply Rle_trans; [apply M|].
    + intros x Hx. apply dU_out; [exact H0|]. apply BB in Hx. lra.
    + intros x Hx. apply BB in Hx. unfold Rdiv. rewrite Rabs_mult, Rabs_Ropp, (Rabs_pos_eq (/ x)) by (left; apply Rinv_0_lt_compat; lra). pose proof (lnabs_bound _ _ _ (Nn x Hx)) as K. replace (INR 49) with 49 in K by (cbn; ring). pose proof (Rabs_pos (lnabs (1 - x * cos t) (- (x * sin t)))). assert (/ x <= 60 / 49) by (replace (60 / 49) with (/ (49 / 60)) by field; apply Rinv_le_contravar; lra). nra.
    + nra.
  - pose proof (mvt_bound (fun r => dilV (r * cos t) (r * sin t)) (fun r => - arg (1 - r * cos t) (- (r * sin t)) / r) r 1 60) as M. cbv beta in M. rewrite !Rmult_1_l in M.
    eapply Rle_trans; [apply M|].
    + intros x Hx. apply dV_out; [exact H0|]. apply BB in Hx. lra.
    + intros x Hx. apply BB in Hx. unfold Rdiv. rewrite Rabs_mult, Rabs_Ropp, (Rabs_pos_eq (/ x)) by (left; apply Rinv_0_lt_compat; lra). assert (K : Rabs (arg (1 - x * cos t) (- (x * sin t))) <= 4) by (apply arg_abs; right; nra). pose proof (Rabs_pos (arg (1 - x * cos t) (- (x * sin t)))). assert (/ x <= 15) by (replace 15 with (/ (1 / 15)) by field; apply Rinv_le_contravar; lra). nra.
    + nra.
Qed.
Lemma ring_any t r : - PI < t < PI -> t <> 0 -> 0 < r -> Rabs (r ^ 2 - 1) <= DBL_EPSILON -> 10 * DBL_EPSILON <= Rabs (r * sin t) ->
  Rabs (dilU (cos t) (sin t) - dilU (r * cos t) (r * sin t)) <= 1 / 10 ^ 13 /\ Rabs (dilV (cos t) (sin t) - dilV (r * cos t) (r * sin t)) <= 1 / 10 ^ 13.
Proof.
  intros Ht Nt Hr H1 Hs. assert (0 < t < PI \/ 0 < - t < PI) as [H|H] by lra.
  - apply ring_acc; try assumption. assert (0 < sin t) by (apply sin_gt_0; lra). rewrite Rabs_pos_eq in Hs by nra. exact Hs.
  - assert (S0 : 0 < sin (- t)) by (apply sin_gt_0; lra). destruct (ring_acc (- t) r H Hr H1) as [A B]; [rewrite sin_neg in *; rewrite Rabs_left in Hs by nra; lra|].
    rewrite cos_neg, sin_neg in A, B. rewrite sin_neg in S0. replace (r * - sin t) with (- (r * sin t)) in A, B by ring. rewrite !dilU_conj in A. rewrite !dilV_conj in B by (left; nra). split; [exact A|]. rewrite <- Rabs_Ropp. eapply Rle_trans; [|exact B]. right. f_equal. ring.
Qed.
Lemma dilog_complex_acc r t : 0 < r -> - PI <= t <= PI -> 10 * DBL_EPSILON <= Rabs (r * sin t) ->
  exists p, dilog_complex r t = some2 p /\ cle (Cminus p (LiZ (r * cos t, r * sin t))) (2 / 10 ^ 12).
Proof.
  intros Hr Ht Hy. pose proof eps_pos as E. assert (Ny : r * sin t <> 0) by (intros K; rewrite K, Rabs_R0 in Hy; lra). destruct (theta_nz r t Ny Ht) as [Ht' Nt]. clear Ht.
  pose proof (circ_n t) as N1. assert (Q : r * cos t * (r * cos t) + r * sin t * (r * sin t) = r ^ 2) by (transitivity (r ^ 2 * (cos t ^ 2 + sin t ^ 2)); [ring|rewrite N1; ring]).
  assert (QM : Cmod (r * cos t, r * sin t) = r). { unfold Cmod. cbn [fst snd]. replace ((r * cos t) ^ 2 + (r * sin t) ^ 2) with (r ^ 2) by lra. apply sqrt_pow2. lra. }
  unfold dilog_complex. rewrite (proj2 (Rltb_false _ _)) by lra. rewrite Q. destruct (Rleb (Rabs (r ^ 2 - 1)) DBL_EPSILON) eqn:B1; [apply Rleb_true in B1|apply Rleb_false in B1; destruct (Rltb (r ^ 2) 1) eqn:B2; [apply Rltb_true in B2|apply Rltb_false in B2]].
  - destruct (clausen_any cl t cl_is_clausen Ht' Nt) as [v [Ev Av]]. rewrite Ev. match goal with |- exists p, (Some ?A, Some ?B) = some2 p /\ _ => exists (A, B); split; [reflexivity|] end.
    destruct (ring_any t r Ht' Nt Hr B1 Hy) as [A1 A2]. pose proof (circle_any cl t cl_is_clausen Ht' Nt) as CA. unfold LiZ in CA. cbn [fst snd] in CA. pose proof (f_equal fst CA) as C1. pose proof (f_equal snd CA) as C2. cbn [fst snd] in C1, C2. rewrite C1 in A1. rewrite C2 in A2.
    unfold LiZ, Cminus, Cplus, Copp, cle. cbn [fst snd]. split.
    + eapply Rle_trans with (1 / 10 ^ 13); [|lra]. eapply Rle_trans; [|exact A1]. right. f_equal. field.
    + set (k := if Rltb t 0 then - cl (- t) else cl t) in *. replace (v + - dilV (r * cos t) (r * sin t)) with ((v - k) + (k - dilV (r * cos t) (r * sin t))) by ring. eapply Rle_trans; [apply Rabs_triang|]. lra.
  - apply unit_disk_acc; [rewrite QM; nra|exact Ny].
  - assert (R1 : 1 < r). { destruct (Req_dec r 1) as [->|]; [|nra]. replace (1 ^ 2 - 1) with 0 in B1 by ring. rewrite Rabs_R0 in B1. lra. }
    replace (r * cos t / r ^ 2) with (cos t / r) by (field; lra). replace (- (r * sin t) / r ^ 2) with (- sin t / r) by (field; lra).
    assert (M : Cmod (cos t / r, - sin t / r) < 1). { assert (Q2 : Cmod (cos t / r, - sin t / r) ^ 2 = (/ r) ^ 2) by (rewrite mod_sq; transitivity ((/ r) ^ 2 * (cos t ^ 2 + sin t ^ 2)); [field; lra|rewrite N1; ring]). assert (0 < / r < 1) by (split; [apply Rinv_0_lt_compat; lra|rewrite <- Rinv_1; apply Rinv_lt_contravar; lra]). pose proof (Cmod_ge_0 (cos t / r, - sin t / r)). nra. }
    assert (Nz : - sin t / r <> 0). { intros K. apply Ny. assert (sin t = - (- sin t / r) * r) by (field; lra). rewrite H, K. ring. }
    destruct (unit_disk_acc _ _ M Nz) as [[a b] [Ed [A1 A2]]]. rewrite Ed. cbn [some2 fst snd option_map]. match goal with |- exists p, (Some ?A, Some ?B) = some2 p /\ _ => exists (A, B); split; [reflexivity|] end.
    destruct (invert_any r t Hr Ht' Nt) as [IU IV]. unfold LiZ, Cminus, Cplus, Copp, cle in *. cbn [fst snd] in *. rewrite IU, IV. split.
    + rewrite <- Rabs_Ropp. eapply Rle_trans; [|exact A1]. right. f_equal. ring.
    + rewrite <- Rabs_Ropp. eapply Rle_trans; [|exact A2]. right. f_equal. ring.
Qed.
