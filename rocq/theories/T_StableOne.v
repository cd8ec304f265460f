(** C93, C94: the density of the stable law for alpha = 1, beta <> 0 (stats/stable/pdf.py aux_f2). *)
From Coquelicot Require Import Coquelicot.
From Coq Require Import Classical.
From Verif Require Import Base RSumLib Ext S_StablePdf S_StableOne P_StableInt M_Archimedean M_Special M_Specfunc M_Stable M_StablePdf M_StableOne P_StablePdf P_StablePdf3 P_StableOne.
From Verif Require T_Stable.
Open Scope R_scope.

(** * C93: beta > 0 *)
(** the specification has exactly one, positive, value *)
Theorem C93_density_exists : forall beta x, 0 < beta <= 1 -> exists d, 0 < d /\ nolan1_density beta x d /\ forall d', nolan1_density beta x d' -> d' = d.
Proof.
  intros be x B. pose proof PI_RGT_0 as PP. destruct (f1_primitive be x B) as (P & HP). assert (ab : - (PI / 2) < PI / 2) by lra. pose proof (integral_of_primitive _ _ _ _ _ ab HP) as HI.
  set (I := P (PI / 2) - P (- (PI / 2))) in *. assert (Ip : 0 < I).
  { assert (F : forall u, 0 <= f1 be x u <= 1) by (intros u; pose proof (f1_bound be x u); lra).
    pose proof (primitive_bound (- (PI / 2)) (PI / 2) 1 (f1 be x) P (- (PI / 2)) (-1) 1 ab ltac:(pose proof PI2_1; lra) ltac:(lra) HP ltac:(lra) (fun u _ => F u)) as B1.
    pose proof (primitive_bound (- (PI / 2)) (PI / 2) 1 (f1 be x) P 1 (PI / 2) 1 ab ltac:(pose proof PI2_1; lra) ltac:(lra) HP ltac:(lra) (fun u _ => F u)) as B2.
    assert (M : 0 < P 1 - P (-1)). { pose proof PI2_1. pose proof (proj2 HP (-1) 1 ltac:(lra) ltac:(lra)) as Iw. rewrite <- (is_RInt_unique _ _ _ _ Iw). apply RInt_gt_0; [lra|intros u U; apply f1_bound|]. intros u U. apply f1_cont; [exact B|unfold ang; lra]. }
    unfold I. lra. }
  assert (HI' : integral_on (- (PI / 2)) (PI / 2) (fun th => nolan1_g be x th * exp (- nolan1_g be x th)) I).
  { apply (integral_on_ext _ _ (f1 be x)); [exact ab| |exact HI]. intros u U. rewrite (g_W1 be x B u U). reflexivity. }
  exists (1 / (2 * Rabs be) * I). split; [apply Rmult_lt_0_compat; [apply Rdiv_lt_0_compat; [lra|rewrite Rabs_pos_eq; lra]|exact Ip]|]. split; [exists I; split; [exact HI'|reflexivity]|].
  intros d' (J & HJ & ->). f_equal. exact (integral_unique _ _ _ _ _ ab HJ HI').
Qed.
Print Assumptions C93_density_exists.
(** the exponent increases with the angle *)
Theorem C93_exponent : forall beta x u v, 0 < beta <= 1 -> - (PI / 2) < u -> u < v -> v < PI / 2 -> 0 < nolan1_g beta x u < nolan1_g beta x v.
Proof.
  intros be x u v B U UV V. assert (Au : ang u) by (unfold ang; lra). assert (Av : ang v) by (unfold ang; lra). rewrite !(g_W1 be x B) by assumption. split; [apply exp_pos|]. apply exp_increasing, (W1_order be x B); assumption.
Qed.
Print Assumptions C93_exponent.
(** value and log: the density less what is cut off at the lower end (an angle of pi/2 * 1e-10) and where the integrand is below 1e-20 *)
Theorem C93_aux_f2 : forall brentq quad x beta, exact_brentq brentq -> exact_quad quad -> 0 < beta <= 1 ->
  exists d v, nolan1_density beta x d /\ 0 <= v /\ 0 <= d - v <= PI / (4 * beta) * (11 / 10 ^ 11) /\
    aux_f2 brentq quad x beta false = Ok (Fin v) /\ aux_f2 brentq quad x beta true = Ok (elog (Fin v)).
Proof.
  intros brentq quad x be HB HQ B. pose proof PI_RGT_0 as PP. destruct (code_one be x B brentq quad HB HQ) as (I & r1 & r2 & root & HI & Rt & Q1 & Q2 & P & D).
  assert (I2 : Rabs (1 / (2 * be)) = 1 / (2 * be)) by (apply Rabs_pos_eq; left; apply Rdiv_lt_0_compat; lra).
  assert (C : 0 < PI2 * (1 / (2 * be))) by (apply Rmult_lt_0_compat; [unfold PI2; lra|apply Rdiv_lt_0_compat; lra]).
  exists (1 / (2 * Rabs be) * I), (PI2 * (1 / (2 * be)) * (r1 + r2)). split; [|split; [|split; [|split]]].
  - exists I. split; [|reflexivity]. apply (integral_on_ext _ _ (f1 be x)); [lra| |exact HI]. intros u U. rewrite (g_W1 be x B u U). reflexivity.
  - apply Rmult_le_pos; lra.
  - rewrite (Rabs_pos_eq be) by lra. replace (1 / (2 * be) * I - PI2 * (1 / (2 * be)) * (r1 + r2)) with (PI2 * (1 / (2 * be)) * (2 / PI * I - (r1 + r2))) by (unfold PI2; field; lra).
    replace (PI / (4 * be)) with (PI2 * (1 / (2 * be))) by (unfold PI2; field; lra). split; [apply Rmult_le_pos; lra|apply Rmult_le_compat_l; lra].
  - unfold aux_f2. rewrite Rt. cbn [bind]. rewrite Q1, Q2, I2. reflexivity.
  - unfold aux_f2. rewrite Rt. cbn [bind]. rewrite Q1, Q2, I2. cbn [eadd]. f_equal. destruct P as [P|P].
    + rewrite (elog_pos _ P). rewrite (elog_pos (PI2 * (1 / (2 * be)) * (r1 + r2))) by (apply Rmult_lt_0_compat; assumption). cbn [eadd]. f_equal. unfold PI2 in *. assert (0 < 1 / (2 * be)) by (apply Rdiv_lt_0_compat; lra). rewrite (ln_mult (PI / 2 * (1 / (2 * be)))), (ln_mult (PI / 2)) by (assumption || lra). ring.
    + rewrite <- P, Rmult_0_r, elog_0. reflexivity.
Qed.
Print Assumptions C93_aux_f2.
(** * C94: beta < 0 *)
(** the law is the mirror image of the law with -beta *)
Lemma primitive_opp c M f P : primitive_on (- c) c M f P -> primitive_on (- c) c M (fun u => f (- u)) (fun u => - P (- u)).
Proof.
  intros (L & IN). split.
  - intros u v. replace (- P (- u) - - P (- v)) with (- (P (- u) - P (- v))) by ring. rewrite Rabs_Ropp. eapply Rle_trans; [apply L|]. replace (- u - - v) with (- (u - v)) by ring. rewrite Rabs_Ropp. lra.
  - intros u w U V. pose proof (IN (- u) (- w) ltac:(lra) ltac:(lra)) as I. apply (is_RInt_comp_opp (V := R_NormedModule)) in I. apply (is_RInt_opp (V := R_NormedModule)) in I.
    replace (- P (- w) - - P (- u)) with (opp (P (- w) - P (- u))) by (unfold opp; cbn; ring). apply (is_RInt_ext (fun y => opp (opp (f (- y))))); [|exact I]. intros y _. unfold opp; cbn. ring.
Qed.
Lemma nolan1_g_opp be x th : be <> 0 -> nolan1_g (- be) (- x) (- th) = nolan1_g be x th.
Proof.
  intros N. unfold nolan1_g, nolan1_V. rewrite cos_neg, tan_neg. replace (- be * - th) with (be * th) by ring. replace (1 / - be * (PI / 2 + be * th) * - tan th) with (1 / be * (PI / 2 + be * th) * tan th) by (field; exact N).
  replace (- PI * - x / (2 * - be)) with (- PI * x / (2 * be)) by (field; exact N). reflexivity.
Qed.
Theorem C94_mirrored_law : forall beta x, -1 <= beta < 0 -> exists d, 0 < d /\ nolan1_density (- beta) (- x) d /\ nolan1_density beta x d /\ forall d', nolan1_density beta x d' -> d' = d.
Proof.
  intros be x B. pose proof PI_RGT_0 as PP. destruct (f1_primitive (- be) (- x) ltac:(lra)) as (P & HP). assert (ab : - (PI / 2) < PI / 2) by lra.
  pose proof (integral_of_primitive _ _ _ _ _ ab HP) as HI. pose proof (integral_of_primitive _ _ _ _ _ ab (primitive_opp _ _ _ _ HP)) as HJ. cbv beta in HJ. rewrite Ropp_involutive in HJ. replace (- P (- (PI / 2)) - - P (PI / 2)) with (P (PI / 2) - P (- (PI / 2))) in HJ by ring.
  set (I := P (PI / 2) - P (- (PI / 2))) in *.
  assert (J1 : integral_on (- (PI / 2)) (PI / 2) (fun th => nolan1_g (- be) (- x) th * exp (- nolan1_g (- be) (- x) th)) I).
  { apply (integral_on_ext _ _ (f1 (- be) (- x))); [exact ab| |exact HI]. intros u U. rewrite (g_W1 (- be) (- x) ltac:(lra) u U). reflexivity. }
  assert (J2 : integral_on (- (PI / 2)) (PI / 2) (fun th => nolan1_g be x th * exp (- nolan1_g be x th)) I).
  { apply (integral_on_ext _ _ (fun u => f1 (- be) (- x) (- u))); [exact ab| |exact HJ]. intros u U. rewrite <- (nolan1_g_opp be x u) by lra. rewrite (g_W1 (- be) (- x) ltac:(lra) (- u)) by (unfold ang; lra). reflexivity. }
  destruct (C93_density_exists (- be) (- x) ltac:(lra)) as (d & D & HD & Un). assert (E : 1 / (2 * Rabs (- be)) * I = d) by (apply Un; exists I; split; [exact J1|reflexivity]).
  exists d. split; [exact D|]. split; [exact HD|]. rewrite Rabs_Ropp in E. split; [exists I; split; [exact J2|symmetry; exact E]|].
  intros d' (K & HK & ->). rewrite <- E. f_equal. exact (integral_unique _ _ _ _ _ ab HK J2).
Qed.
Print Assumptions C94_mirrored_law.
(** the points the root finder visits: powers of 101/100, none of them an odd integer *)
Lemma pow_not_int n k : (0 < n)%nat -> (101 / 100) ^ n <> IZR k.
Proof.
  intros Hn E. assert (P : (101 / 100) ^ n * 100 ^ n = 101 ^ n) by (rewrite <- Rpow_mult_distr; f_equal; field). rewrite E in P. rewrite !(pow_IZR _ n), <- mult_IZR in P. apply eq_IZR in P.
  assert (M : (101 ^ Z.of_nat n mod 10 = 1)%Z). { clear. induction n as [|n IH]; [reflexivity|]. rewrite Nat2Z.inj_succ, Z.pow_succ_r by lia. rewrite Z.mul_mod, IH by lia. reflexivity. }
  rewrite <- P in M. destruct n as [|n]; [lia|]. rewrite Nat2Z.inj_succ, Z.pow_succ_r in M by lia. replace (k * (100 * 100 ^ Z.of_nat n))%Z with (k * 10 * 100 ^ Z.of_nat n * 10)%Z in M by ring. rewrite Z.mod_mul in M by lia. lia.
Qed.
Lemma cos_visited n sg : (0 < n)%nat -> sg = 1 \/ sg = -1 -> cospi2 (sg * (101 / 100) ^ n) <> 0.
Proof.
  intros Hn Sg E. unfold cospi2 in E. assert (E2 : cos ((101 / 100) ^ n * PI / 2) = 0). { destruct Sg as [->| ->]; [rewrite <- E; f_equal; lra|]. rewrite <- E, <- cos_neg. f_equal. lra. }
  apply cos_eq_0_0 in E2. destruct E2 as (k & E2). pose proof PI_RGT_0. apply (pow_not_int n (2 * k + 1) Hn). rewrite plus_IZR, mult_IZR. apply (Rmult_eq_reg_r (PI / 2)); [|lra]. lra.
Qed.
Lemma small_at be n sg : -1 < be < 0 -> sg = 1 \/ sg = -1 -> exists X, forall x, x <= X -> exists y, esub (one_g1 be x (sg * (101 / 100) ^ n)) (Fin 1) = Fin y /\ y < 0.
Proof.
  intros B Sg. pose proof PI_RGT_0 as PP. destruct n as [|n].
  - exists 0. intros x _. exists (-1). split; [|lra]. rewrite pow_O, Rmult_1_r. unfold one_g1. cbv zeta. destruct Sg as [->| ->].
    + rewrite (proj2 (Rleb_false _ _)) by (rewrite Rabs_Rabsolu, Rabs_pos_eq by lra; lra). unfold cospi2. rewrite Rmult_1_l, cos_PI2, (proj2 (Reqb_true 0 0) eq_refl). rewrite (proj2 (Rltb_false 0 _)); [cbn; f_equal; ring|].
      unfold PI2. assert (1 / (2 * be) < - (1 / 2)). { apply Ropp_lt_cancel. rewrite Ropp_involutive. replace (- (1 / (2 * be))) with (/ (2 * - be)) by (field; lra). replace (1 / 2) with (/ 2) by field. apply Rinv_lt_contravar; lra. } nra.
    + rewrite (proj2 (Rleb_true _ _)); [cbn; f_equal; ring|]. replace (-1 + 1) with 0 by ring. rewrite !Rabs_R0. left. apply Rinv_0_lt_compat, pow_lt. lra.
  - set (u := sg * (101 / 100) ^ S n). assert (C : cospi2 u <> 0) by (apply cos_visited; [lia|exact Sg]).
    assert (Q : 101 / 100 <= (101 / 100) ^ S n). { rewrite <- tech_pow_Rmult. pose proof (pow_R1_Rle (101 / 100) n ltac:(lra)). nra. }
    set (p := PI * (1 / (2 * be))). assert (Pn : p < 0). { unfold p. assert (0 < / (2 * - be)) by (apply Rinv_0_lt_compat; lra). replace (PI * (1 / (2 * be))) with (- (PI * / (2 * - be))) by (field; lra). nra. }
    set (A := (p + u * PI2) / p * exp ((p + u * PI2) * tanpi2 u) / cospi2 u). set (X := ln (1 + Rabs A) / p). exists X. intros x Hx.
    assert (Ap : 0 < 1 + Rabs A) by (pose proof (Rabs_pos A); lra).
    assert (Z : - p * x + ln (1 + Rabs A) <= 0). { assert (H : - p * x <= - p * X) by (apply Rmult_le_compat_l; lra). replace (- p * X) with (- ln (1 + Rabs A)) in H by (unfold X; field; lra). lra. }
    assert (E1 : exp (- p * x) * (1 + Rabs A) <= 1). { replace (exp (- p * x) * (1 + Rabs A)) with (exp (- p * x + ln (1 + Rabs A))) by (rewrite exp_plus, exp_ln by exact Ap; reflexivity).
      destruct Z as [Z|Z]; [apply exp_increasing in Z; rewrite exp_0 in Z; lra|rewrite Z, exp_0; lra]. }
    exists (A * exp (- p * x) - 1). split.
    + unfold one_g1. cbv zeta. fold p. rewrite (proj2 (Rleb_false _ _)). 2:{ rewrite Rabs_Rabsolu. unfold u. destruct Sg as [->| ->]; [rewrite Rabs_pos_eq; lra|rewrite Rabs_left; lra]. }
      rewrite (proj2 (Reqb_false _ _) C). cbn. f_equal. rewrite exp_plus. unfold A. field. split; (exact C || lra).
    + pose proof (exp_pos (- p * x)). pose proof (Rle_abs A). nra.
Qed.
Lemma small_upto be n : -1 < be < 0 -> exists X, forall x k sg, x <= X -> (k <= n)%nat -> sg = 1 \/ sg = -1 -> exists y, esub (one_g1 be x (sg * (101 / 100) ^ k)) (Fin 1) = Fin y /\ y < 0.
Proof.
  intros B. induction n as [|n (X & IH)].
  - destruct (small_at be 0 1 B ltac:(left; reflexivity)) as (X1 & H1). destruct (small_at be 0 (-1) B ltac:(right; reflexivity)) as (X2 & H2). exists (Rmin X1 X2). intros x k sg Hx Hk Sg. replace k with 0%nat by lia.
    pose proof (Rmin_l X1 X2). pose proof (Rmin_r X1 X2). destruct Sg as [->| ->]; [apply H1; lra|apply H2; lra].
  - destruct (small_at be (S n) 1 B ltac:(left; reflexivity)) as (X1 & H1). destruct (small_at be (S n) (-1) B ltac:(right; reflexivity)) as (X2 & H2). exists (Rmin X (Rmin X1 X2)). intros x k sg Hx Hk Sg.
    pose proof (Rmin_l X (Rmin X1 X2)). pose proof (Rmin_r X (Rmin X1 X2)). pose proof (Rmin_l X1 X2). pose proof (Rmin_r X1 X2).
    destruct (Nat.eq_dec k (S n)) as [->|]; [destruct Sg as [->| ->]; [apply H1; lra|apply H2; lra]|]. apply IH; [lra|lia|exact Sg].
Qed.
(** np.size(beta) where the sign of beta is meant: left of some point no bracket changes sign and every call fails, though the law has a
    positive density there *)
Theorem C94_negative_beta_refuted : forall beta, -1 < beta < 0 -> exists X, forall brentq quad x log, x <= X ->
  aux_f2 brentq quad x beta log = Err AssertionError /\ exists d, 0 < d /\ nolan1_density beta x d.
Proof.
  intros be B. destruct (small_upto be 1001 B) as (X & H). exists X. intros brentq quad x log Hx. split.
  - unfold aux_f2. set (f := fun u => esub (one_g1 be x u) (Fin 1)).
    assert (Sm : forall k sg, (k <= 1001)%nat -> sg = 1 \/ sg = -1 -> exists y, f (sg * (101 / 100) ^ k) = Fin y /\ y < 0) by (intros k sg Hk Sg; apply (H x k sg Hx Hk Sg)).
    assert (Pr : forall k, (k <= 1001)%nat -> exists p, eprod f (-1 * (101 / 100) ^ k) (1 * (101 / 100) ^ k) = Fin p /\ 0 < p).
    { intros k Hk. destruct (Sm k (-1) Hk ltac:(right; reflexivity)) as (y1 & E1 & Y1). destruct (Sm k 1 Hk ltac:(left; reflexivity)) as (y2 & E2 & Y2). exists (y1 * y2). split; [|nra]. unfold eprod. rewrite E1, E2. reflexivity. }
    assert (Ex : forall m k, (k + m <= 1001)%nat -> expand_x f m (-1 * (101 / 100) ^ k) (1 * (101 / 100) ^ k) = (-1 * (101 / 100) ^ (k + m), 1 * (101 / 100) ^ (k + m))).
    { induction m as [|m IH]; intros k Hk; [rewrite Nat.add_0_r; reflexivity|]. cbn [expand_x]. destruct (Pr k ltac:(lia)) as (p & -> & Pp). rewrite (proj2 (Rleb_true 0 p)) by lra.
      pose proof (pow_R1_Rle (101 / 100) k ltac:(lra)) as G.
      assert (S1 : step_of (/ 10 ^ 6) (-1 * (101 / 100) ^ k) = 1 / 100 * (101 / 100) ^ k). { unfold step_of. rewrite Rabs_left by lra. rewrite Rmax_left; lra. }
      assert (S2 : step_of (/ 10 ^ 6) (1 * (101 / 100) ^ k) = 1 / 100 * (101 / 100) ^ k). { unfold step_of. rewrite Rabs_pos_eq by lra. rewrite Rmax_left; lra. }
      rewrite S1, S2. replace (k + S m)%nat with (S k + m)%nat by lia. rewrite <- (IH (S k) ltac:(lia)). rewrite <- tech_pow_Rmult. f_equal; lra. }
    assert (F : find_root_x brentq f (-1) 1 = Err AssertionError).
    { unfold find_root_x. rewrite (proj2 (Rltb_false 1 (-1))) by lra. pose proof (Ex 1000%nat 0%nat ltac:(lia)) as E. rewrite !pow_O, !Rmult_1_r in E. rewrite E. destruct (Pr (0 + 1000)%nat ltac:(lia)) as (p & -> & Pp). cbn [eltb]. rewrite (proj2 (Rltb_false p 0)) by lra. reflexivity. }
    rewrite F. reflexivity.
  - destruct (C94_mirrored_law be x ltac:(lra)) as (d & D & _ & HD & _). exists d. split; assumption.
Qed.
Print Assumptions C94_negative_beta_refuted.
(** so skew_stable.pdf with alpha = 1 raises on the left for negative beta *)
Theorem C94_pdf_refuted : forall beta, -1 < beta < 0 -> exists X, forall gamma normal cauchy aux argmax brentq quad x log, x <= X ->
  stable_pdf gamma normal cauchy (fun x beta log => Some (aux_f2 brentq quad x beta log)) aux argmax 1 beta 1 0 0 log [x] = Some (Err AssertionError).
Proof.
  intros be B. destruct (C94_negative_beta_refuted be B) as (X & H). exists X. intros gamma normal cauchy aux argmax brentq quad x log Hx. unfold stable_pdf.
  rewrite (proj2 (proj1 (T_Stable.C72_validation 1 be 1 0))) by (repeat split; try lra; lia). cbn [parameterize map]. rewrite (proj2 (Reqb_false 1 2)), (proj2 (Reqb_true 1 1) eq_refl), (proj2 (Reqb_false be 0)) by lra. cbn [andb].
  replace ((x - 0) / 1) with x by field. rewrite (proj1 (H brentq quad x log Hx)). reflexivity.
Qed.
Print Assumptions C94_pdf_refuted.

(** * Cases *)
Example C93_case : 0 < 1 / 2 <= 1 /\ nolan1_g (1 / 2) 0 0 = 1.
Proof.
  split; [lra|]. pose proof PI_RGT_0. unfold nolan1_g, nolan1_V. rewrite Rmult_0_r, cos_0, tan_0, !Rmult_0_r, Rplus_0_r. replace (0 / (2 * (1 / 2))) with 0 by field. rewrite exp_0. field. lra.
Qed.
Example C94_case : -1 < - (1 / 2) < 0 /\ exists d, 0 < d /\ nolan1_density (- (1 / 2)) 3 d.
Proof. split; [lra|]. destruct (C94_mirrored_law (- (1 / 2)) 3 ltac:(lra)) as (d & D & _ & HD & _). exists d. split; assumption. Qed.
