(** The exponent for alpha = 1: positive, monotone, unbounded; what the code integrates. *)
From Coquelicot Require Import Coquelicot.
From Coq Require Import Classical Ranalysis5.
From Verif Require Import Base RSumLib Ext S_StablePdf S_StableOne P_StableInt M_Archimedean M_Special M_Specfunc M_Stable M_StablePdf M_StableOne P_StablePdf P_StablePdf3.
Open Scope R_scope.

Definition ang (th : R) : Prop := - (PI / 2) < th < PI / 2.
Definition W1 (be x th : R) : R := - PI * x / (2 * be) + ln (2 / PI) + ln (PI / 2 + be * th) - ln (cos th) + 1 / be * (PI / 2 + be * th) * tan th.
Section One.
  Variables (be x : R).
  Hypothesis B : 0 < be <= 1.
  Lemma lin_pos th : ang th -> 0 < PI / 2 + be * th.
  Proof. intros (H1 & H2). pose proof PI_RGT_0. nra. Qed.
  Lemma cos_ang th : ang th -> 0 < cos th.
  Proof. intros (H1 & H2). apply cos_gt_0; lra. Qed.
  Lemma g_W1 th : ang th -> nolan1_g be x th = exp (W1 be x th).
  Proof.
    intros A. pose proof (lin_pos th A) as L. pose proof (cos_ang th A) as C. pose proof PI_RGT_0 as PP. unfold nolan1_g, nolan1_V, W1. unfold Rminus. rewrite !exp_plus, exp_Ropp, !exp_ln; [|exact C|exact L|apply Rdiv_lt_0_compat; lra].
    field. repeat split; lra.
  Qed.
  Lemma W1_derive th : ang th -> is_derive (W1 be x) th (let k := (PI / 2 + be * th) / be in (1 + k * tan th) ^ 2 / k + k).
  Proof.
    intros A. pose proof (lin_pos th A) as L. pose proof (cos_ang th A) as C. pose proof PI_RGT_0 as PP. unfold W1, tan. auto_derive; [repeat split; lra|]. cbv zeta.
    pose proof (sin2_cos2 th) as SC. unfold Rsqr in SC. assert (be <> 0) by lra.
    set (S := sin th) in *. set (c := cos th) in *. set (l := PI / 2 + be * th) in *. 
    transitivity (be / l + 2 * S / c + l / be * ((S * S + c * c) / (c * c))); [field; repeat split; lra|]. rewrite SC. transitivity (be / l + 2 * S / c + l / be * (S * S / (c * c)) + l / be).
    - replace (S * S) with (1 - c * c) by lra. field. repeat split; lra.
    - field. repeat split; lra.
  Qed.
  Lemma W1_order u v : ang u -> ang v -> u < v -> W1 be x u < W1 be x v.
  Proof.
    intros U V UV. apply (incr_function (W1 be x) (Finite (- (PI / 2))) (Finite (PI / 2)) (fun th => let k := (PI / 2 + be * th) / be in (1 + k * tan th) ^ 2 / k + k)); cbn; try assumption; try (unfold ang in *; lra).
    - intros z Z1 Z2. apply W1_derive. split; assumption.
    - intros z Z1 Z2. assert (K : 0 < (PI / 2 + be * z) / be) by (apply Rdiv_lt_0_compat; [apply lin_pos; split; assumption|lra]). cbv zeta. set (k := (PI / 2 + be * z) / be) in *.
      assert (0 <= (1 + k * tan z) ^ 2 / k) by (apply Rdiv_le_0_compat; [apply pow2_ge_0|exact K]). unfold pow in *. lra.
  Qed.
  Lemma W1_cont th : ang th -> continuous (W1 be x) th.
  Proof. intros A. apply (ex_derive_continuous (K := R_AbsRing) (V := R_NormedModule)). eexists. apply W1_derive, A. Qed.
  Lemma W1_unbounded M : exists w, 0 < w < PI / 2 /\ M < W1 be x w.
  Proof.
    pose proof PI_RGT_0 as PP. pose proof PI2_1 as P1. set (c := - PI * x / (2 * be)). set (s := Rmin (1 / 2) (exp (- (Rabs M + Rabs c)) / 2)). pose proof (exp_pos (- (Rabs M + Rabs c))) as E.
    assert (S : 0 < s <= 1 / 2) by (unfold s; split; [apply Rmin_glb_lt; lra|apply Rmin_l]). assert (S2 : s <= exp (- (Rabs M + Rabs c)) / 2) by apply Rmin_r.
    exists (PI / 2 - s). split; [lra|]. assert (A : ang (PI / 2 - s)) by (unfold ang; lra). pose proof (cos_ang _ A) as C. pose proof (lin_pos _ A) as L.
    assert (C2 : cos (PI / 2 - s) < exp (- (Rabs M + Rabs c))). { rewrite cos_shift. pose proof (sin_lt_x s ltac:(lra)). lra. }
    assert (L2 : ln (cos (PI / 2 - s)) < - (Rabs M + Rabs c)). { rewrite <- (ln_exp (- (Rabs M + Rabs c))). apply ln_increasing; assumption. }
    assert (T : 0 <= tan (PI / 2 - s)). { left. apply tan_gt_0; lra. }
    assert (L3 : 0 <= ln (2 / PI) + ln (PI / 2 + be * (PI / 2 - s))).
    { rewrite <- ln_mult; [|apply Rdiv_lt_0_compat; lra|exact L]. rewrite <- ln_1. apply ln_le; [lra|]. replace (2 / PI * (PI / 2 + be * (PI / 2 - s))) with (1 + 2 / PI * (be * (PI / 2 - s))) by (field; lra).
      assert (0 <= 2 / PI * (be * (PI / 2 - s))); [|lra]. apply Rmult_le_pos; [left; apply Rdiv_lt_0_compat; lra|]. apply Rmult_le_pos; lra. }
    unfold W1. fold c. assert (0 <= 1 / be * (PI / 2 + be * (PI / 2 - s)) * tan (PI / 2 - s)). { apply Rmult_le_pos; [|exact T]. apply Rmult_le_pos; [left; apply Rdiv_lt_0_compat; lra|lra]. }
    pose proof (Rle_abs M). pose proof (Rle_abs (- c)) as Q. rewrite Rabs_Ropp in Q. lra.
  Qed.
  Definition f1 (th : R) : R := exp (W1 be x th) * exp (- exp (W1 be x th)).
  Lemma f1_bound th : 0 < f1 th <= 1.
  Proof. apply xe_bound, exp_pos. Qed.
  Lemma f1_cont th : ang th -> continuous f1 th.
  Proof.
    intros A. unfold f1. pose proof (W1_cont th A) as C. apply (continuous_mult (K := R_AbsRing)); [apply (continuous_comp (W1 be x) exp); [exact C|apply continuous_exp]|].
    apply (continuous_comp (fun th => - exp (W1 be x th)) exp); [|apply continuous_exp]. apply (continuous_opp (V := R_NormedModule)). apply (continuous_comp (W1 be x) exp); [exact C|apply continuous_exp].
  Qed.
  Lemma f1_far th : LARGE_EXP_POW < exp (W1 be x th) -> f1 th <= / 10 ^ 20.
  Proof.
    intros H. unfold f1. set (v := exp (W1 be x th)) in *. assert (V : 708 < v) by (unfold LARGE_EXP_POW in H; lra).
    pose proof (xe_bound (v / 2) ltac:(lra)) as (B1 & B2).
    replace (- v) with (- (v / 2) + - (v / 2)) by field. rewrite exp_plus. replace (v * (exp (- (v / 2)) * exp (- (v / 2)))) with (2 * (v / 2 * exp (- (v / 2))) * exp (- (v / 2))) by field.
    assert (E : exp (- (v / 2)) <= / 2 ^ 70). { rewrite exp_Ropp. apply Rinv_le_contravar; [apply pow_lt; lra|].
      apply Rle_trans with (exp 1 ^ 70). { apply pow_incr. pose proof (exp_ineq1 1 ltac:(lra)). lra. }
      rewrite <- Rpower_pow by apply exp_pos. unfold Rpower. rewrite ln_exp, Rmult_1_r, INR_IZR_INZ. left. apply exp_increasing. simpl. lra. }
    pose proof (exp_pos (- (v / 2))). assert (2 * / 2 ^ 70 <= / 10 ^ 20) by lra. nra.
  Qed.
  Definition cut1 : R := / 10 ^ 10.
  Lemma cut1_small : 0 < cut1 < 1 / 10 ^ 9. Proof. unfold cut1. split; lra. Qed.
  Lemma ang_u u : -1 < u < 1 -> ang (u * PI / 2).
  Proof. intros U. pose proof PI_RGT_0. unfold ang. nra. Qed.
  Lemma one_in u : -1 + cut1 < u < 1 -> one_g1 be x u = Fin (exp (W1 be x (u * PI / 2))).
  Proof.
    intros U. pose proof cut1_small as CS. pose proof PI_RGT_0 as PP. unfold one_g1. cbv zeta. rewrite (proj2 (Rleb_false _ _)) by (rewrite Rabs_Rabsolu, Rabs_pos_eq by lra; fold cut1; lra).
    pose proof (ang_u u ltac:(lra)) as A. pose proof (cos_ang _ A) as C. rewrite (proj2 (Reqb_false (cospi2 u) 0)) by (unfold cospi2; lra). f_equal. rewrite <- g_W1 by exact A. unfold nolan1_g, nolan1_V, cospi2, tanpi2.
    replace (1 / be * (PI / 2 + be * (u * PI / 2))) with (PI * (1 / (2 * be)) + u * PI2) by (unfold PI2; field; lra). rewrite exp_plus.
    replace (- (PI * (1 / (2 * be))) * x) with (- PI * x / (2 * be)) by (field; lra).
    replace ((PI * (1 / (2 * be)) + u * PI2) / (PI * (1 / (2 * be)))) with (2 / PI * (PI / 2 + be * (u * PI / 2))) by (unfold PI2; field; lra). field. lra.
  Qed.
  Lemma one_cut u : -1 <= u <= -1 + cut1 -> one_g1 be x u = Fin 0.
  Proof. intros U. pose proof cut1_small. unfold one_g1. cbv zeta. rewrite (proj2 (Rleb_true _ _)) by (rewrite Rabs_Rabsolu, Rabs_pos_eq by lra; fold cut1; lra). reflexivity. Qed.
  Lemma one_right : one_g1 be x 1 = Pinf.
  Proof.
    pose proof PI_RGT_0 as PP. unfold one_g1. cbv zeta. rewrite (proj2 (Rleb_false _ _)) by (rewrite Rabs_Rabsolu, Rabs_pos_eq by lra; lra). unfold cospi2. rewrite Rmult_1_l, cos_PI2, (proj2 (Reqb_true 0 0) eq_refl).
    rewrite (proj2 (Rltb_true 0 _)); [reflexivity|]. unfold PI2. assert (0 < 1 / (2 * be)) by (apply Rdiv_lt_0_compat; lra). nra.
  Qed.
  Definition fu (u : R) : R := f1 (u * PI / 2).
  Lemma xexp_in u : -1 + cut1 < u < 1 -> xexp (one_g1 be x u) = Fin (if Rltb LARGE_EXP_POW (exp (W1 be x (u * PI / 2))) then 0 else fu u).
  Proof. intros U. rewrite one_in by exact U. cbn. destruct (Rltb _ _); reflexivity. Qed.
  Lemma kept1 : exists e, -1 + cut1 <= e <= 1 /\ (forall u, -1 + cut1 < u < e -> exp (W1 be x (u * PI / 2)) <= LARGE_EXP_POW) /\ (forall u, e < u < 1 -> LARGE_EXP_POW < exp (W1 be x (u * PI / 2))).
  Proof.
    pose proof cut1_small as CS. pose proof PI_RGT_0 as PP. assert (LP : 0 < LARGE_EXP_POW) by (unfold LARGE_EXP_POW; lra). set (s := -1 + cut1). assert (As : ang (s * PI / 2)) by (apply ang_u; unfold s; lra).
    assert (Ord : forall u v, -1 < u -> u < v -> v < 1 -> exp (W1 be x (u * PI / 2)) < exp (W1 be x (v * PI / 2))) by (intros u v U UV V; apply exp_increasing, W1_order; [apply ang_u; lra|apply ang_u; lra|nra]).
    destruct (Rlt_le_dec LARGE_EXP_POW (exp (W1 be x (s * PI / 2)))) as [H|H].
    - exists s. split; [unfold s; lra|]. split; [intros u U; lra|]. intros u U. eapply Rlt_trans; [exact H|]. apply Ord; unfold s in *; lra.
    - destruct (W1_unbounded (ln LARGE_EXP_POW)) as (w & Hw & Mw). set (z := w * 2 / PI). assert (Ez : z * PI / 2 = w) by (unfold z; field; lra).
      assert (Z : 0 < z < 1). { unfold z. split; [apply Rdiv_lt_0_compat; lra|]. apply (Rmult_lt_reg_r PI); [lra|]. unfold Rdiv. rewrite Rmult_assoc, Rinv_l by lra. lra. }
      assert (Hs : W1 be x (s * PI / 2) <= ln LARGE_EXP_POW). { rewrite <- (ln_exp (W1 be x (s * PI / 2))). apply ln_le; [apply exp_pos|exact H]. }
      assert (E : exists e, s <= e < 1 /\ W1 be x (e * PI / 2) = ln LARGE_EXP_POW).
      { destruct Hs as [Hs|Hs]; [|exists s; split; [unfold s; lra|exact Hs]].
        destruct (IVT_interv (fun u => W1 be x (u * PI / 2) - ln LARGE_EXP_POW) s z) as (e & E1 & E2).
        - intros u U. apply continuity_pt_minus; [|apply continuity_pt_const; intros ? ?; reflexivity]. apply continuity_pt_filterlim. apply (continuous_comp (fun u => u * PI / 2) (W1 be x)); [|apply W1_cont, ang_u; unfold s in U; lra].
          apply (ex_derive_continuous (K := R_AbsRing) (V := R_NormedModule)). auto_derive. exact Logic.I.
        - unfold s. lra.
        - lra.
        - rewrite Ez. lra.
        - exists e. split; [lra|]. lra. }
      destruct E as (e & E1 & E2). assert (E3 : exp (W1 be x (e * PI / 2)) = LARGE_EXP_POW) by (rewrite E2; apply exp_ln, LP). exists e. split; [lra|]. rewrite <- E3. split; intros u U; [left|]; apply Ord; unfold s in *; lra.
  Qed.
  Lemma fu_primitive P : primitive_on (- (PI / 2)) (PI / 2) 1 f1 P -> primitive_on (-1) 1 1 fu (fun u => P (u * PI / 2) * (2 / PI)).
  Proof.
    intros (L & IN). pose proof PI_RGT_0 as PP. assert (D : 0 < 2 / PI) by (apply Rdiv_lt_0_compat; lra). split.
    - intros u v. rewrite <- Rmult_minus_distr_r, Rabs_mult, (Rabs_pos_eq (2 / PI)) by lra. pose proof (L (u * PI / 2) (v * PI / 2)) as Q. rewrite Rmult_1_l in *. replace (u * PI / 2 - v * PI / 2) with ((u - v) * (PI / 2)) in Q by field. rewrite Rabs_mult, (Rabs_pos_eq (PI / 2)) in Q by lra.
      apply (Rmult_le_compat_r (2 / PI)) in Q; [|lra]. replace (Rabs (u - v) * (PI / 2) * (2 / PI)) with (Rabs (u - v)) in Q by (field; lra). exact Q.
    - intros u w U V. pose proof (IN (u * PI / 2) (w * PI / 2) (ang_u u U) (ang_u w V)) as I.
      replace (u * PI / 2) with (PI / 2 * u + 0) in I by field. replace (w * PI / 2) with (PI / 2 * w + 0) in I by field. apply (is_RInt_comp_lin (V := R_NormedModule)) in I.
      replace (P (w * PI / 2) * (2 / PI) - P (u * PI / 2) * (2 / PI)) with (scal (2 / PI) (P (PI / 2 * w + 0) - P (PI / 2 * u + 0))).
      2:{ unfold scal; cbn; unfold mult; cbn. replace (PI / 2 * w + 0) with (w * PI / 2) by field. replace (PI / 2 * u + 0) with (u * PI / 2) by field. ring. }
      apply (is_RInt_ext (fun y => scal (2 / PI) (scal (PI / 2) (f1 (PI / 2 * y + 0))))); [|apply (is_RInt_scal (V := R_NormedModule)); exact I].
      intros y _. unfold scal; cbn; unfold mult; cbn. unfold fu. replace (PI / 2 * y + 0) with (y * PI / 2) by field. field. lra.
  Qed.
  Lemma f1_primitive : exists P, primitive_on (- (PI / 2)) (PI / 2) 1 f1 P.
  Proof.
    pose proof PI_RGT_0. apply bounded_primitive; [lra|lra|intros y Y; apply f1_cont; exact Y|]. intros y Y. pose proof (f1_bound y). rewrite Rabs_pos_eq; lra.
  Qed.
  (** the two integrals of the code, added *)
  Lemma code_one brentq quad : exact_brentq brentq -> exact_quad quad -> exists I r1 r2 root, integral_on (- (PI / 2)) (PI / 2) f1 I /\
    find_root_x brentq (fun u => esub (one_g1 be x u) (Fin 1)) (-1) 1 = Ok root /\
    quad (fun u => xexp (one_g1 be x u)) (-1) root = Fin r1 /\ quad (fun u => xexp (one_g1 be x u)) root 1 = Fin r2 /\ 0 <= r1 + r2 /\ 0 <= 2 / PI * I - (r1 + r2) <= 11 / 10 ^ 11.
  Proof.
    intros HB HQ. pose proof cut1_small as CS. pose proof PI_RGT_0 as PP. destruct f1_primitive as (P & HP). pose proof (fu_primitive P HP) as HU. set (Pu := fun u => P (u * PI / 2) * (2 / PI)) in *.
    destruct kept1 as (e & E & K1 & K2). set (s := -1 + cut1) in *.
    set (f' := fun u => match xexp (one_g1 be x u) with Fin r => r | _ => 0 end).
    assert (Small : xexp (Fin 0) = Fin 0) by (cbn; rewrite (proj2 (Rltb_false _ _)) by (unfold LARGE_EXP_POW; lra); f_equal; ring).
    assert (V : forall u, -1 < u < 1 -> xexp (one_g1 be x u) = Fin (f' u)).
    { intros u U. unfold f'. destruct (Rlt_le_dec s u) as [D|D]; [rewrite xexp_in by (unfold s in D; lra); reflexivity|]. rewrite one_cut by (unfold s in D; lra). rewrite Small. reflexivity. }
    assert (HP' : primitive_on (-1) 1 1 f' (fun u => Pu (clamp_to s e u))).
    { apply (primitive_clamp (-1) 1 1 fu); try (unfold s in *; lra); [exact HU| |].
      - intros u U D. unfold f'. rewrite xexp_in by (unfold s in D; lra). rewrite (proj2 (Rltb_false _ _)) by (apply K1; lra). reflexivity.
      - intros u U [D|D]; unfold f'.
        + rewrite one_cut by (unfold s in D; lra). rewrite Small. reflexivity.
        + rewrite xexp_in by (unfold s in E; lra). rewrite (proj2 (Rltb_true _ _)) by (apply K2; lra). reflexivity. }
    set (f := fun u => esub (one_g1 be x u) (Fin 1)).
    assert (Sg : opposite_signs (f (-1)) (f 1)). { unfold f. rewrite one_cut by lra. rewrite one_right. cbn. lra. }
    destruct (HB f (-1) 1 ltac:(lra) Sg) as (R & _). set (root := brentq f (-1) 1) in *.
    assert (Q : forall a b, -1 <= a <= b -> b <= 1 -> quad (fun u => xexp (one_g1 be x u)) a b = Fin (Pu (clamp_to s e b) - Pu (clamp_to s e a))).
    { intros a b AB Hb. destruct (Req_dec a b) as [->|Ne]; [rewrite (proj1 HQ); f_equal; ring|]. apply (proj2 HQ _ f'); [lra|intros u U; apply V; lra|].
      apply (integral_of_primitive a b 1 f' (fun u => Pu (clamp_to s e u))); [lra|]. apply (primitive_sub (-1) 1); [lra|lra|exact HP']. }
    exists (P (PI / 2) - P (- (PI / 2))), (Pu (clamp_to s e root) - Pu (clamp_to s e (-1))), (Pu (clamp_to s e 1) - Pu (clamp_to s e root)), root.
    split; [apply (integral_of_primitive _ _ 1); [lra|exact HP]|]. split; [apply (find_ok brentq f); [lra|exact Sg]|]. split; [apply Q; lra|]. split; [apply Q; lra|].
    assert (C1 : clamp_to s e 1 = e) by (unfold clamp_to, Rmin, Rmax; repeat destruct (Rle_dec _ _); lra).
    assert (C2 : clamp_to s e (-1) = s) by (unfold clamp_to, Rmin, Rmax, s in *; repeat destruct (Rle_dec _ _); lra).
    rewrite C1, C2. replace (Pu (clamp_to s e root) - Pu s + (Pu e - Pu (clamp_to s e root))) with (Pu e - Pu s) by ring.
    replace (2 / PI * (P (PI / 2) - P (- (PI / 2)))) with (Pu 1 - Pu (-1)). 2:{ unfold Pu. replace (1 * PI / 2) with (PI / 2) by field. replace (-1 * PI / 2) with (- (PI / 2)) by field. ring. }
    assert (Fb : forall u, 0 <= fu u <= 1) by (intros u; pose proof (f1_bound (u * PI / 2)); unfold fu; lra).
    pose proof (primitive_bound (-1) 1 1 fu Pu s e 1 ltac:(lra) ltac:(unfold s in *; lra) ltac:(lra) HU ltac:(lra) (fun u _ => Fb u)) as B1.
    pose proof (primitive_bound (-1) 1 1 fu Pu (-1) s 1 ltac:(lra) ltac:(unfold s; lra) ltac:(unfold s; lra) HU ltac:(lra) (fun u _ => Fb u)) as B2.
    assert (B3 : 0 <= Pu 1 - Pu e <= / 10 ^ 20 * (1 - e)). { apply (primitive_bound (-1) 1 1 fu Pu); try lra; [exact HU|]. intros u U. split; [apply Fb|]. apply f1_far. apply K2, U. }
    split; [lra|]. unfold s, cut1 in *. split; [lra|]. assert (1 - e <= 2) by lra. lra.
  Qed.
End One.
