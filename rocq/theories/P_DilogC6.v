(** The Taylor polynomial in ln r of the complex dilogarithm near the unit circle. *)
From Coquelicot Require Import Coquelicot.
From Verif Require Import Base RSumLib S_Clausen P_Clausen P_Clausen5 P_Dilog S_DilogC P_DilogC P_DilogC2 P_DilogC3 P_DilogC4 P_DilogC5 M_Clausen M_Dilog M_DilogC.
From Coq Require Import Psatz.
Open Scope R_scope.
Local Notation C := Complex.C.

(** g_0' = g_1, g_1' = g_2, ...: the Taylor polynomial *)
Lemma vanish_der (f : R -> R) d : is_derive f 0 d -> f 0 = 0 -> vanishes_at_0 f.
Proof. intros D E. apply vanish_cont; [apply (continuity_pt_filterlim f); eapply cont_of_derive, D|exact E]. Qed.
Lemma taylor_chain n : forall (g : nat -> R -> R) K, 0 <= K -> (forall i t, (i < n)%nat -> 0 <= t <= 1 -> is_derive (g i) t (g (S i) t)) -> (forall t, 0 < t <= 1 -> Rabs (g n t) <= K) ->
  forall t, 0 < t <= 1 -> Rabs (g 0%nat t - rsum n (fun i => g i 0 * (t ^ i / INR (fact i)))) <= K / INR (fact n) * t ^ n.
Proof.
  induction n as [|n IH]; intros g K HK D B t Ht.
  - cbn. rewrite Rminus_0_r. replace (K / 1 * 1) with K by field. apply B, Ht.
  - assert (Hd : forall t, 0 <= t <= 1 -> is_derive (fun t => g 0%nat t - rsum (S n) (fun i => g i 0 * (t ^ i / INR (fact i)))) t (g 1%nat t - rsum n (fun i => g (S i) 0 * (t ^ i / INR (fact i))))).
    { intros u Hu. apply dminus; [apply D; [lia|exact Hu]|].
      apply (is_derive_ext (fun u => g 0%nat 0 + rsum n (fun i => g (S i) 0 * (u ^ S i / INR (fact (S i)))))).
      - intros v. rewrite (rsum_Sl n). cbn [pow fact INR Nat.mul Nat.add]. match goal with |- ?a = ?b => change (@eq R a b) end. f_equal. field.
      - evar_last; [apply dplus; [apply (is_derive_const (V := R_NormedModule))|apply (is_derive_rsum n (fun i u => g (S i) 0 * (u ^ S i / INR (fact (S i)))) (fun i => g (S i) 0 * (u ^ i / INR (fact i))))]|].
        + intros i Hi. apply (is_derive_ext (fun u => (g (S i) 0 / INR (fact (S i))) * u ^ S i)); [intros v; match goal with |- ?a = ?b => change (@eq R a b) end; unfold Rdiv; ring|].
          evar_last; [apply dpow|]. rewrite fact_simpl, mult_INR. pose proof (INR_fact_lt_0 i). assert (0 < INR (S i)) by apply lt_0_INR, Nat.lt_0_succ. field. split; lra.
        + unfold zero; cbn. ring. }
    pose proof (pow_bound (fun t => g 0%nat t - rsum (S n) (fun i => g i 0 * (t ^ i / INR (fact i)))) (fun t => g 1%nat t - rsum n (fun i => g (S i) 0 * (t ^ i / INR (fact i)))) (K / INR (fact n)) n) as PB.
    replace (K / INR (fact (S n))) with (K / INR (fact n) / INR (S n)).
    + apply PB; [apply Rcomplements.Rdiv_le_0_compat; [exact HK|apply INR_fact_lt_0]|intros; apply Hd; lra| | |exact Ht].
      * intros u Hu. apply (IH (fun i => g (S i)) K HK); [intros; apply D; [lia|assumption]|exact B|exact Hu].
      * eapply vanish_der; [apply Hd; lra|]. rewrite (rsum_Sl n), rsum_zero; [cbn; field|]. intros i _. cbn [pow]. unfold Rdiv. ring.
    + rewrite fact_simpl, mult_INR. pose proof (INR_fact_lt_0 n). assert (0 < INR (S n)) by apply lt_0_INR, Nat.lt_0_succ. field. split; lra.
Qed.

Lemma cder_inv f t d : cder f t d -> f t <> RtoC 0 -> cder (fun t => Cinv (f t)) t (Copp (Cmult d (Cmult (Cinv (f t)) (Cinv (f t))))).
Proof.
  intros [A B] N. assert (P : 0 < fst (f t) ^ 2 + snd (f t) ^ 2). { rewrite <- Cmod_sq. apply pow_lt, Cmod_gt_0, N. }
  assert (D : is_derive (fun t => fst (f t) ^ 2 + snd (f t) ^ 2) t (2 * fst d * fst (f t) + 2 * snd d * snd (f t))).
  { evar_last; [apply dplus; apply is_derive_pow; eassumption|]. cbn. ring. }
  assert (Q : forall h e, is_derive h t e -> is_derive (fun t => h t / (fst (f t) ^ 2 + snd (f t) ^ 2)) t ((e * (fst (f t) ^ 2 + snd (f t) ^ 2) - h t * (2 * fst d * fst (f t) + 2 * snd d * snd (f t))) / (fst (f t) ^ 2 + snd (f t) ^ 2) ^ 2)).
  { intros h e H. evar_last; [apply (is_derive_div h (fun t => fst (f t) ^ 2 + snd (f t) ^ 2)); [exact H|exact D|lra]|]. reflexivity. }
  split; cbn [fst snd Cinv Copp Cmult].
  - evar_last; [apply (Q (fun t => fst (f t))); exact A|]. cbn [pow] in *. field. lra.
  - evar_last; [apply (Q (fun t => - snd (f t))); apply (is_derive_opp (V := R_NormedModule)), B|]. unfold opp; cbn. cbn [pow] in P. field. lra.
Qed.
Lemma dstep (f : R -> R) (t a g d : R) i : is_derive f t d -> d = a * g -> is_derive (fun t => a ^ i * f t) t (a ^ S i * g).
Proof. intros D ->. evar_last; [apply (is_derive_scal f t (a ^ i)); exact D|]. cbn [pow]. req. ring. Qed.
Lemma fst_scal a (c : C) : fst (Cmult (RtoC a) c) = a * fst c. Proof. cbn. ring. Qed.
Lemma snd_scal a (c : C) : snd (Cmult (RtoC a) c) = a * snd c. Proof. cbn. ring. Qed.
(** the derivatives of Li2(exp(a + i t)) in a *)
Definition gam (i : nat) (z : C) : C :=
  let w := Cinv (Cminus (RtoC 1) z) in
  let one := RtoC 1 in
  match i with
  | 0 => LiZ z
  | 1 => Copp (Lg (Cminus (RtoC 1) z))
  | 2 => Cmult z w
  | 3 => Cmult z (cpow w 2)
  | 4 => Cmult (Cmult z (Cplus one z)) (cpow w 3)
  | 5 => Cmult (Cmult z (Cplus (Cplus one (Cmult (RtoC 4) z)) (cpow z 2))) (cpow w 4)
  | 6 => Cmult (Cmult z (Cplus (Cplus (Cplus one (Cmult (RtoC 11) z)) (Cmult (RtoC 11) (cpow z 2))) (cpow z 3))) (cpow w 5)
  | _ => Cmult (Cmult z (Cplus (Cplus (Cplus (Cplus one (Cmult (RtoC 26) z)) (Cmult (RtoC 66) (cpow z 2))) (Cmult (RtoC 26) (cpow z 3))) (cpow z 4))) (cpow w 6)
  end%nat.
Section Arc.
  Variables (u : C) (a : R).
  Hypothesis Hu : Cmod u = 1.
  Hypothesis Hc : fst u <= 3 / 4.
  Hypothesis Ha : - (205 / 10000) <= a <= 0.
  Let z (t : R) : C := Cmult (RtoC (exp (a * t))) u.
  Let v (t : R) : C := Cminus (RtoC 1) (z t).
  Lemma u2 : fst u ^ 2 + snd u ^ 2 = 1. Proof. rewrite <- Cmod_sq, Hu. ring. Qed.
  Lemma rho t : 0 <= t <= 1 -> 9795 / 10000 <= exp (a * t) <= 1.
  Proof.
    intros H. split; [pose proof (exp_ineq1_le (a * t)); nra|]. rewrite <- exp_0. destruct (Req_dec (a * t) 0) as [E|E]; [rewrite E; lra|]. left. apply exp_increasing. nra.
  Qed.
  Lemma z_eq t : z t = (exp (a * t) * fst u, exp (a * t) * snd u).
  Proof. unfold z, Cmult, RtoC. cbn. f_equal; ring. Qed.
  Lemma v_sq t : 0 <= t <= 1 -> 49 / 100 <= Cmod (v t) ^ 2.
  Proof.
    intros H. pose proof (rho t H) as R. rewrite Cmod_sq. unfold v. rewrite z_eq. cbn [fst snd Cminus Cplus Copp RtoC]. pose proof u2 as U.
    replace ((1 + - (exp (a * t) * fst u)) ^ 2 + (0 + - (exp (a * t) * snd u)) ^ 2) with (1 - 2 * exp (a * t) * fst u + exp (a * t) ^ 2 * (fst u ^ 2 + snd u ^ 2)) by ring. rewrite U. nra.
  Qed.
  Lemma v_nz t : 0 <= t <= 1 -> v t <> RtoC 0.
  Proof. intros H E. pose proof (v_sq t H) as K. rewrite E, Cmod_0 in K. lra. Qed.
  Lemma v_off3 t : 0 <= t <= 1 -> offC (v t).
  Proof.
    intros H. unfold offC, v. rewrite z_eq. cbn [fst snd Cminus Cplus Copp RtoC]. left. pose proof (rho t H). nra.
  Qed.
  Lemma dz t : cder z t (Cmult (RtoC a) (z t)).
  Proof. unfold z. eapply cder_eq; [apply cder_mult; [apply (cder_real (fun t => exp (a * t)) t (a * exp (a * t))); auto_derive; [exact Logic.I|ring]|apply cder_const]|]. cbv beta. rewrite RtoC_mult. ring. Qed.
  Lemma dv3 t : cder v t (Copp (Cmult (RtoC a) (z t))).
  Proof. unfold v. eapply cder_eq; [apply cder_minus; [apply cder_const|apply dz]|]. cbv beta. ring. Qed.
  Lemma dw3 t : 0 <= t <= 1 -> cder (fun t => Cinv (v t)) t (Cmult (Cmult (RtoC a) (z t)) (cpow (Cinv (v t)) 2)).
  Proof. intros H. eapply cder_eq; [apply cder_inv; [apply dv3|apply v_nz, H]|]. cbn [cpow]. ring. Qed.
  Lemma z_slit3 t : 0 <= t <= 1 -> slit (exp (a * t) * fst u) (exp (a * t) * snd u).
  Proof. intros H. right. pose proof (rho t H). nra. Qed.
  Lemma d0 t : 0 <= t <= 1 -> cder (fun t => gam 0 (z t)) t (Cmult (RtoC a) (gam 1 (z t))).
  Proof.
    intros H. pose proof (rho t H) as Rh. pose proof u2 as U.
    assert (D : forall b t, is_derive (fun t => exp (a * t) * b) t (a * exp (a * t) * b)) by (intros; auto_derive; [exact Logic.I|ring]).
    assert (Cn : forall b, continuity_pt (fun t => a * exp (a * t) * b) t) by (intros b; apply (cont_of_derive _ _ (a * a * exp (a * t) * b)); auto_derive; [exact Logic.I|ring]).
    assert (Nz : exp (a * t) * fst u <> 0 \/ exp (a * t) * snd u <> 0). { destruct (Req_dec (fst u) 0) as [E|E]; [right|left]; apply Rmult_integral_contrapositive; (split; [lra|]); [intros F; rewrite E, F in U; lra|exact E]. }
    assert (Lc : locally t (fun t : R => is_derive (fun t => exp (a * t) * fst u) t (a * exp (a * t) * fst u) /\ is_derive (fun t => exp (a * t) * snd u) t (a * exp (a * t) * snd u))) by (apply filter_forall; intros; split; apply D).
    assert (N2 : (exp (a * t) * fst u) ^ 2 + (exp (a * t) * snd u) ^ 2 = exp (a * t) ^ 2) by (transitivity (exp (a * t) ^ 2 * (fst u ^ 2 + snd u ^ 2)); [ring|rewrite U; ring]).
    unfold gam. split; cbn [fst snd LiZ].
    - apply (is_derive_ext (fun t => dilU (exp (a * t) * fst u) (exp (a * t) * snd u))); [intros; rewrite z_eq; reflexivity|].
      evar_last; [exact (U_path (fun t => exp (a * t) * fst u) (fun t => exp (a * t) * snd u) (fun t => a * exp (a * t) * fst u) (fun t => a * exp (a * t) * snd u) t Lc (Cn _) (Cn _) (z_slit3 t H) Nz)|].
      cbv zeta beta. rewrite N2, z_eq. cbn [fst snd Lg Cmult RtoC Copp Cminus Cplus]. rewrite Rplus_0_l.
      replace (a * exp (a * t) * fst u * (exp (a * t) * fst u) + a * exp (a * t) * snd u * (exp (a * t) * snd u)) with (a * exp (a * t) ^ 2 * (fst u ^ 2 + snd u ^ 2)) by ring. rewrite U.
      replace (a * exp (a * t) * snd u * (exp (a * t) * fst u) - a * exp (a * t) * fst u * (exp (a * t) * snd u)) with 0 by ring. change (1 + - (exp (a * t) * fst u)) with (1 - exp (a * t) * fst u). field. lra.
    - apply (is_derive_ext (fun t => dilV (exp (a * t) * fst u) (exp (a * t) * snd u))); [intros; rewrite z_eq; reflexivity|].
      evar_last; [exact (V_path (fun t => exp (a * t) * fst u) (fun t => exp (a * t) * snd u) (fun t => a * exp (a * t) * fst u) (fun t => a * exp (a * t) * snd u) t Lc (Cn _) (Cn _) (z_slit3 t H) Nz)|].
      cbv zeta beta. rewrite N2, z_eq. cbn [fst snd Lg Cmult RtoC Copp Cminus Cplus]. rewrite Rplus_0_l.
      replace (a * exp (a * t) * fst u * (exp (a * t) * fst u) + a * exp (a * t) * snd u * (exp (a * t) * snd u)) with (a * exp (a * t) ^ 2 * (fst u ^ 2 + snd u ^ 2)) by ring. rewrite U.
      replace (a * exp (a * t) * snd u * (exp (a * t) * fst u) - a * exp (a * t) * fst u * (exp (a * t) * snd u)) with 0 by ring. change (1 + - (exp (a * t) * fst u)) with (1 - exp (a * t) * fst u). field. lra.
  Qed.
  Lemma d1 t : 0 <= t <= 1 -> cder (fun t => gam 1 (z t)) t (Cmult (RtoC a) (gam 2 (z t))).
  Proof.
    intros H. pose proof (v_nz t H) as N. unfold gam. fold (v t). eapply cder_eq; [apply cder_opp; apply (cder_Lg v); [apply dv3|apply v_off3, H]|]. cbv beta. unfold Cdiv. ring.
  Qed.
  Let two := Cplus (RtoC 1) (RtoC 1).
  Lemma n2 : RtoC (INR 2) = two. Proof. unfold two. rewrite <- !RtoC_plus. f_equal. Qed.
  Lemma n3 : RtoC (INR 3) = Cplus (RtoC 1) two. Proof. unfold two. rewrite <- !RtoC_plus. f_equal. cbn. ring. Qed.
  Lemma n4 : RtoC (INR 4) = Cmult two two. Proof. unfold two. rewrite <- !RtoC_plus, <- RtoC_mult. f_equal. cbn. ring. Qed.
  Lemma n5 : RtoC (INR 5) = Cplus (RtoC 1) (Cmult two two). Proof. unfold two. rewrite <- !RtoC_plus, <- RtoC_mult, <- RtoC_plus. f_equal. cbn. ring. Qed.
  Lemma c4 : RtoC 4 = Cmult two two. Proof. unfold two. rewrite <- !RtoC_plus, <- RtoC_mult. f_equal; ring. Qed.
  Lemma c11 : RtoC 11 = Cplus (RtoC 1) (Cmult two (Cplus (RtoC 1) (Cmult two two))). Proof. unfold two. rewrite <- RtoC_plus, <- RtoC_mult, <- RtoC_plus, <- RtoC_mult, <- RtoC_plus. f_equal; ring. Qed.
  Lemma c26 : RtoC 26 = Cmult two (Cplus (RtoC 1) (Cmult (Cmult two two) (Cplus (RtoC 1) two))). Proof. unfold two. repeat rewrite <- ?RtoC_plus, <- ?RtoC_mult. f_equal; ring. Qed.
  Lemma c66 : RtoC 66 = Cmult two (Cplus (RtoC 1) (Cmult (Cmult (Cmult two two) (Cmult two two)) two)). Proof. unfold two. repeat rewrite <- ?RtoC_plus, <- ?RtoC_mult. f_equal; ring. Qed.
  Lemma d2 t : 0 <= t <= 1 -> cder (fun t => gam 2 (z t)) t (Cmult (RtoC a) (gam 3 (z t))).
  Proof.
    intros H. pose proof (v_nz t H) as N. pose proof (dw3 t H) as W. unfold gam. fold (v t). eapply cder_eq; [apply cder_mult; [apply dz|exact W]|]. cbv beta. cbn [cpow]. unfold v in N |- *. field. exact N.
  Qed.
  Lemma d3 t : 0 <= t <= 1 -> cder (fun t => gam 3 (z t)) t (Cmult (RtoC a) (gam 4 (z t))).
  Proof.
    intros H. pose proof (v_nz t H) as N. pose proof (cder_pow _ t _ 1 (dw3 t H)) as W. unfold gam. fold (v t). eapply cder_eq; [apply cder_mult; [apply dz|exact W]|]. cbv beta. rewrite n2. cbn [cpow]. unfold two, v in N |- *. field. exact N.
  Qed.
  Lemma d4 t : 0 <= t <= 1 -> cder (fun t => gam 4 (z t)) t (Cmult (RtoC a) (gam 5 (z t))).
  Proof.
    intros H. pose proof (v_nz t H) as N. pose proof (cder_pow _ t _ 2 (dw3 t H)) as W. unfold gam. fold (v t). eapply cder_eq; [apply cder_mult; [apply cder_mult; [apply dz|apply cder_plus; [apply cder_const|apply dz]]|exact W]|]. cbv beta.
    rewrite n3, c4. cbn [cpow]. unfold two, v in N |- *. field. exact N.
  Qed.
  Lemma d5 t : 0 <= t <= 1 -> cder (fun t => gam 5 (z t)) t (Cmult (RtoC a) (gam 6 (z t))).
  Proof.
    intros H. pose proof (v_nz t H) as N. pose proof (cder_pow _ t _ 3 (dw3 t H)) as W. unfold gam. fold (v t).
    eapply cder_eq; [apply cder_mult; [apply cder_mult; [apply dz|apply cder_plus; [apply cder_plus; [apply cder_const|apply cder_cmul, dz]|apply cder_pow, dz]]|exact W]|]. cbv beta.
    rewrite n4, n2, c4, c11. cbn [cpow]. unfold two, v in N |- *. field. exact N.
  Qed.
  Lemma d6 t : 0 <= t <= 1 -> cder (fun t => gam 6 (z t)) t (Cmult (RtoC a) (gam 7 (z t))).
  Proof.
    intros H. pose proof (v_nz t H) as N. pose proof (cder_pow _ t _ 4 (dw3 t H)) as W. unfold gam. fold (v t).
    eapply cder_eq; [apply cder_mult; [apply cder_mult; [apply dz|apply cder_plus; [apply cder_plus; [apply cder_plus; [apply cder_const|apply cder_cmul, dz]|apply cder_cmul, cder_pow, dz]|apply cder_pow, dz]]|exact W]|]. cbv beta.
    rewrite n5, n2, n3, c11, c26, c66. cbn [cpow]. unfold two, v in N |- *. field. exact N.
  Qed.
  Lemma gam_der i t : (i < 7)%nat -> 0 <= t <= 1 -> cder (fun t => gam i (z t)) t (Cmult (RtoC a) (gam (S i) (z t))).
  Proof.
    intros Hi Ht. destruct i as [|[|[|[|[|[|[|i]]]]]]]; [apply d0|apply d1|apply d2|apply d3|apply d4|apply d5|apply d6|lia]; exact Ht.
  Qed.
  Lemma z_mod t : 0 <= t <= 1 -> Cmod (z t) <= 1.
  Proof. intros H. pose proof (rho t H). unfold z. rewrite Cmod_mult, Hu, Cmod_R, Rabs_pos_eq by lra. lra. Qed.
  Lemma gam7 t : 0 <= t <= 1 -> Cmod (gam 7 (z t)) <= 1021.
  Proof.
    intros H. pose proof (z_mod t H) as Z. pose proof (Cmod_ge_0 (z t)) as Z0. pose proof (v_sq t H) as V. pose proof (v_nz t H) as N. unfold gam. fold (v t). rewrite !Cmod_mult, Cmod_pow, Cmod_inv by exact N.
    assert (Zp : forall n, Cmod (cpow (z t) n) <= 1). { intros n. rewrite Cmod_pow, <- (pow1 n). apply pow_incr. lra. }
    assert (M : forall k n, 0 <= k -> Cmod (Cmult (RtoC k) (cpow (z t) n)) <= k). { intros k n Hk. rewrite Cmod_mult, Cmod_R, Rabs_pos_eq by exact Hk. pose proof (Zp n). nra. }
    assert (P : Cmod (Cplus (Cplus (Cplus (Cplus (RtoC 1) (Cmult (RtoC 26) (z t))) (Cmult (RtoC 66) (cpow (z t) 2))) (Cmult (RtoC 26) (cpow (z t) 3))) (cpow (z t) 4)) <= 120).
    { eapply Rle_trans; [apply Cmod_triangle|]. eapply Rle_trans; [apply Rplus_le_compat_r, Cmod_triangle|]. eapply Rle_trans; [apply Rplus_le_compat_r, Rplus_le_compat_r, Cmod_triangle|]. eapply Rle_trans; [apply Rplus_le_compat_r, Rplus_le_compat_r, Rplus_le_compat_r, Cmod_triangle|].
      rewrite Cmod_1. pose proof (M 66 2%nat ltac:(lra)). pose proof (M 26 3%nat ltac:(lra)). pose proof (Zp 4%nat). assert (Cmod (Cmult (RtoC 26) (z t)) <= 26) by (rewrite Cmod_mult, Cmod_R, Rabs_pos_eq by lra; lra). lra. }
    assert (V0 : 0 < Cmod (v t)) by (apply Cmod_gt_0, N). assert (W : (/ Cmod (v t)) ^ 6 <= / (49 / 100) ^ 3).
    { replace ((/ Cmod (v t)) ^ 6) with (/ (Cmod (v t) ^ 2) ^ 3) by (field; lra). apply Rinv_le_contravar; [lra|]. apply pow_incr. lra. }
    assert (W0 : 0 <= (/ Cmod (v t)) ^ 6) by (apply pow_le; left; apply Rinv_0_lt_compat, V0). apply Rle_trans with (1 * 120 * / (49 / 100) ^ 3); [|lra].
    apply Rmult_le_compat; [apply Rmult_le_pos; apply Cmod_ge_0|exact W0| |exact W]. apply Rmult_le_compat; try apply Cmod_ge_0; assumption.
  Qed.
  Lemma z_0 : z 0 = u. Proof. unfold z. rewrite Rmult_0_r, exp_0. ring. Qed.
  Definition poly6 (f : C -> R) : R := rsum 7 (fun i => a ^ i * f (gam i u) * (1 ^ i / INR (fact i))).
  Lemma a7 : 1021 * Rabs a ^ 7 / INR (fact 7) <= 4 / 10 ^ 13.
  Proof.
    assert (A : Rabs a <= 205 / 10000) by (apply Rabs_le; lra). assert (Q : Rabs a ^ 7 <= (205 / 10000) ^ 7) by (apply pow_incr; split; [apply Rabs_pos|exact A]). replace (INR (fact 7)) with 5040 by (cbn; ring). lra.
  Qed.
  Lemma arc_bound : Rabs (fst (LiZ (z 1)) - poly6 fst) <= 4 / 10 ^ 13 /\ Rabs (snd (LiZ (z 1)) - poly6 snd) <= 4 / 10 ^ 13.
  Proof.
    assert (K0 : 0 <= 1021 * Rabs a ^ 7) by (apply Rmult_le_pos; [lra|apply pow_le, Rabs_pos]).
    assert (E7 : forall f : C -> R, (forall c : C, Rabs (f c) <= Cmod c) -> forall t, 0 < t <= 1 -> Rabs (a ^ 7 * f (gam 7 (z t))) <= 1021 * Rabs a ^ 7).
    { intros f Hf t Ht. rewrite Rabs_mult, <- RPow_abs, Rmult_comm. apply Rmult_le_compat_r; [apply pow_le, Rabs_pos|]. eapply Rle_trans; [apply Hf|apply gam7; lra]. }
    pose proof a7 as A7. split.
    - pose proof (taylor_chain 7 (fun i t => a ^ i * fst (gam i (z t))) (1021 * Rabs a ^ 7) K0) as TC. specialize (TC ltac:(intros i t Hi Ht; destruct (gam_der i t Hi Ht) as [D _]; apply (dstep _ _ _ _ _ _ D); apply fst_scal) (E7 fst re_le) 1 ltac:(lra)).
      rewrite pow1, Rmult_1_r in TC. unfold poly6. cbv beta in TC. rewrite z_0 in TC. change (a ^ 0 * fst (gam 0 (z 1))) with (1 * fst (LiZ (z 1))) in TC. rewrite Rmult_1_l in TC. eapply Rle_trans; [exact TC|exact A7].
    - pose proof (taylor_chain 7 (fun i t => a ^ i * snd (gam i (z t))) (1021 * Rabs a ^ 7) K0) as TC. specialize (TC ltac:(intros i t Hi Ht; destruct (gam_der i t Hi Ht) as [_ D]; apply (dstep _ _ _ _ _ _ D); apply snd_scal) (E7 snd im_le) 1 ltac:(lra)).
      rewrite pow1, Rmult_1_r in TC. unfold poly6. cbv beta in TC. rewrite z_0 in TC. change (a ^ 0 * snd (gam 0 (z 1))) with (1 * snd (LiZ (z 1))) in TC. rewrite Rmult_1_l in TC. eapply Rle_trans; [exact TC|exact A7].
  Qed.
End Arc.
