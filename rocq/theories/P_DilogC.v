(** Complex logarithm and dilogarithm as pairs of real functions: derivatives along paths. *)
From Coq Require Import Reals Lra Lia.
From Coquelicot Require Import Coquelicot.
From Verif Require Import S_DilogC.
Open Scope R_scope.

Definition off (u v : R) : Prop := 0 < u \/ v <> 0.
Lemma off_norm u v : off u v -> 0 < u ^ 2 + v ^ 2.
Proof. intros [H|H]; [nra|]. assert (0 < v ^ 2) by (apply pow2_gt_0, H). nra. Qed.
Lemma off_den u v : off u v -> 0 < u + sqrt (u ^ 2 + v ^ 2).
Proof.
  intros H. pose proof (off_norm u v H) as N. pose proof (sqrt_pos (u ^ 2 + v ^ 2)). pose proof (sqrt_sqrt (u ^ 2 + v ^ 2) ltac:(lra)) as Q. set (w := sqrt (u ^ 2 + v ^ 2)) in *.
  destruct H as [H|H]; [lra|]. assert (0 < v ^ 2) by (apply pow2_gt_0, H). nra.
Qed.
Lemma lnabs_derive u v (du dv s : R) : is_derive u s du -> is_derive v s dv -> off (u s) (v s) ->
  is_derive (fun s => lnabs (u s) (v s)) s ((u s * du + v s * dv) / (u s ^ 2 + v s ^ 2)).
Proof.
  intros Hu Hv H. pose proof (off_norm _ _ H) as N. unfold lnabs.
  assert (E : is_derive (fun w => ln w / 2) (u s ^ 2 + v s ^ 2) (/ (u s ^ 2 + v s ^ 2) / 2)) by (auto_derive; [exact N|field; lra]).
  evar_last. { apply (is_derive_comp (fun w => ln w / 2) (fun s => u s ^ 2 + v s ^ 2)); [exact E|]. apply (is_derive_plus (V := R_NormedModule) (fun s => u s ^ 2) (fun s => v s ^ 2)); apply is_derive_pow; eassumption. }
  unfold scal, plus; cbn; unfold mult; cbn. field. cbn in N. lra.
Qed.
Lemma arg_derive u v (du dv s : R) : is_derive u s du -> is_derive v s dv -> off (u s) (v s) ->
  is_derive (fun s => arg (u s) (v s)) s ((u s * dv - v s * du) / (u s ^ 2 + v s ^ 2)).
Proof.
  intros Hu Hv H. pose proof (off_norm _ _ H) as N. pose proof (off_den _ _ H) as D. unfold arg.
  assert (Eu : ex_derive u s) by (exists du; exact Hu). assert (Ev : ex_derive v s) by (exists dv; exact Hv).
  pose proof (is_derive_unique _ _ _ Hu) as Du. pose proof (is_derive_unique _ _ _ Hv) as Dv.
  auto_derive.
  - repeat split; try assumption; cbn in *; lra.
  - cbn [pow] in *. rewrite !Rmult_1_r in *. pose proof (sqrt_sqrt (u s * u s + v s * v s) ltac:(lra)) as Q. pose proof (sqrt_lt_R0 _ N) as W.
    change (Derive (fun x => u x) s) with (Derive u s). change (Derive (fun x => v x) s) with (Derive v s). rewrite Du, Dv. clear Du Dv.
    set (w := sqrt (u s * u s + v s * v s)) in *. set (a := u s) in *. set (b := v s) in *. rewrite <- Q in *.
    assert (E : b * b = w * w - a * a) by lra. assert (K : (a + w) * (a + w) + b * b = 2 * w * (a + w)) by (rewrite E; ring).
    replace (1 + b * / (a + w) * (b * / (a + w))) with (2 * w / (a + w)).
    2:{ replace (1 + b * / (a + w) * (b * / (a + w))) with (((a + w) * (a + w) + b * b) / ((a + w) * (a + w))) by (field; lra). rewrite K. field. lra. }
    apply (Rmult_eq_reg_r (w * w * (a + w) * w * 2)); [|apply Rgt_not_eq; repeat apply Rmult_lt_0_compat; lra]. field_simplify; try (split; lra); try lra.
    replace (b ^ 2) with (w * w - a * a) by (rewrite <- E; ring). ring.
Qed.

(** ** the integrals *)
Lemma quot_cont (g : R -> R) d : g 0 = 0 -> is_derive g 0 d -> continuous (fun t => if Req_EM_T t 0 then d else g t / t) 0.
Proof.
  intros G0 H. apply is_derive_Reals in H. apply filterlim_locally. intros eps. destruct (H eps (cond_pos eps)) as [del Hd]. exists del. intros t Ht.
  destruct (Req_EM_T 0 0) as [_|C]; [|contradiction]. destruct (Req_EM_T t 0) as [->|Nt]; [apply ball_center|].
  specialize (Hd t Nt). unfold ball, AbsRing_ball, abs, minus, plus, opp in Ht; cbn in Ht; unfold AbsRing_ball, abs, minus, plus, opp in Ht; cbn in Ht. rewrite Ropp_0, Rplus_0_r in Ht. specialize (Hd Ht).
  rewrite Rplus_0_l, G0, Rminus_0_r in Hd. exact Hd.
Qed.
Definition Afun x y t : R := if Req_EM_T t 0 then x else - lnabs (1 - t * x) (- (t * y)) / t.
Definition Bfun x y t : R := if Req_EM_T t 0 then y else - arg (1 - t * x) (- (t * y)) / t.
Definition dilU x y : R := RInt (Afun x y) 0 1.
Definition dilV x y : R := RInt (Bfun x y) 0 1.

Lemma slit_off x y t : slit x y -> 0 <= t <= 1 -> off (1 - t * x) (- (t * y)).
Proof.
  intros H Ht. unfold off. destruct (Req_dec t 0) as [->|Nt]; [left; lra|]. destruct H as [H|H]; [right; apply Ropp_neq_0_compat; apply Rmult_integral_contrapositive; auto|left; nra].
Qed.
Lemma lin_derive a b t : is_derive (fun t => a + t * b) t b.
Proof. auto_derive; [trivial|ring]. Qed.
Lemma ray_re x t : is_derive (fun t => 1 - t * x) t (- x).
Proof. auto_derive; [trivial|ring]. Qed.
Lemma ray_im y t : is_derive (fun t => - (t * y)) t (- y).
Proof. auto_derive; [trivial|ring]. Qed.
Lemma lnabs_ray x y t : off (1 - t * x) (- (t * y)) ->
  is_derive (fun t => - lnabs (1 - t * x) (- (t * y))) t ((x * (1 - t * x) - y * (t * y)) / ((1 - t * x) ^ 2 + (t * y) ^ 2)).
Proof.
  intros H. pose proof (off_norm _ _ H) as N. evar_last. { apply (is_derive_opp (V := R_NormedModule)), lnabs_derive; [apply ray_re|apply ray_im|exact H]. }
  unfold opp; cbn. field. cbn in N. nra.
Qed.
Lemma arg_ray x y t : off (1 - t * x) (- (t * y)) ->
  is_derive (fun t => - arg (1 - t * x) (- (t * y))) t (y / ((1 - t * x) ^ 2 + (t * y) ^ 2)).
Proof.
  intros H. pose proof (off_norm _ _ H) as N. evar_last. { apply (is_derive_opp (V := R_NormedModule)), arg_derive; [apply ray_re|apply ray_im|exact H]. }
  unfold opp; cbn. field. cbn in N. nra.
Qed.
Lemma lnabs_1 : lnabs 1 0 = 0.
Proof. unfold lnabs. replace (1 ^ 2 + 0 ^ 2) with 1 by ring. rewrite ln_1. field. Qed.
Lemma arg_pos u : arg u 0 = 0.
Proof. unfold arg. unfold Rdiv. rewrite Rmult_0_l, atan_0. ring. Qed.
Lemma A_cont x y t : off (1 - t * x) (- (t * y)) -> continuous (Afun x y) t.
Proof.
  intros Ho. destruct (Req_dec t 0) as [->|Nt].
  - apply (quot_cont (fun t => - lnabs (1 - t * x) (- (t * y)))).
    + rewrite !Rmult_0_l, Rminus_0_r, Ropp_0, lnabs_1. ring.
    + evar_last; [apply lnabs_ray, Ho|]. rewrite !Rmult_0_l, Rminus_0_r. field.
  - apply (continuous_ext_loc _ (fun t => - lnabs (1 - t * x) (- (t * y)) / t)).
    + exists (mkposreal _ (Rabs_pos_lt t Nt)). intros s Hs. unfold Afun. destruct (Req_EM_T s 0) as [->|]; [|reflexivity]. exfalso.
      unfold ball in Hs; cbn in Hs; unfold AbsRing_ball, abs, minus, plus, opp in Hs; cbn in Hs. rewrite Rplus_0_l, Rabs_Ropp in Hs. lra.
    + apply (continuous_mult (fun t => - lnabs (1 - t * x) (- (t * y))) (fun t => / t)).
      * apply (ex_derive_continuous (V := R_NormedModule)). eexists. apply lnabs_ray, Ho.
      * apply continuous_Rinv, Nt.
Qed.
Lemma B_cont x y t : off (1 - t * x) (- (t * y)) -> continuous (Bfun x y) t.
Proof.
  intros Ho. destruct (Req_dec t 0) as [->|Nt].
  - apply (quot_cont (fun t => - arg (1 - t * x) (- (t * y)))).
    + rewrite !Rmult_0_l, Rminus_0_r, Ropp_0, arg_pos. ring.
    + evar_last; [apply arg_ray, Ho|]. rewrite !Rmult_0_l, Rminus_0_r. field.
  - apply (continuous_ext_loc _ (fun t => - arg (1 - t * x) (- (t * y)) / t)).
    + exists (mkposreal _ (Rabs_pos_lt t Nt)). intros s Hs. unfold Bfun. destruct (Req_EM_T s 0) as [->|]; [|reflexivity]. exfalso.
      unfold ball in Hs; cbn in Hs; unfold AbsRing_ball, abs, minus, plus, opp in Hs; cbn in Hs. rewrite Rplus_0_l, Rabs_Ropp in Hs. lra.
    + apply (continuous_mult (fun t => - arg (1 - t * x) (- (t * y))) (fun t => / t)).
      * apply (ex_derive_continuous (V := R_NormedModule)). eexists. apply arg_ray, Ho.
      * apply continuous_Rinv, Nt.
Qed.
Lemma A_int x y : slit x y -> ex_RInt (Afun x y) 0 1.
Proof. intros H. apply (ex_RInt_continuous (V := R_CompleteNormedModule)). intros t Ht. rewrite Rmin_left, Rmax_right in Ht by lra. apply A_cont, slit_off; assumption. Qed.
Lemma B_int x y : slit x y -> ex_RInt (Bfun x y) 0 1.
Proof. intros H. apply (ex_RInt_continuous (V := R_CompleteNormedModule)). intros t Ht. rewrite Rmin_left, Rmax_right in Ht by lra. apply B_cont, slit_off; assumption. Qed.

(** ** derivative along a path *)
Lemma c2_pos (h : R -> R -> R) a b : continuity_2d_pt h a b -> 0 < h a b -> locally_2d (fun u v => 0 < h u v) a b.
Proof. intros C H. specialize (C (mkposreal _ H)). revert C. apply locally_2d_impl, locally_2d_forall. intros u v K. cbn in K. apply Rabs_def2 in K. lra. Qed.
Lemma c2_neg (h : R -> R -> R) a b : continuity_2d_pt h a b -> h a b < 0 -> locally_2d (fun u v => h u v < 0) a b.
Proof. intros C H. assert (H' : 0 < - h a b) by lra. specialize (C (mkposreal _ H')). revert C. apply locally_2d_impl, locally_2d_forall. intros u v K. cbn in K. apply Rabs_def2 in K. lra. Qed.
Lemma c2_fst (f : R -> R) a b : continuity_pt f a -> continuity_2d_pt (fun u _ => f u) a b.
Proof. intros H. apply (continuity_1d_2d_pt_comp f (fun u _ => u)); [exact H|apply continuity_2d_pt_id1]. Qed.

Section Path.
  Variables (x y dx dy : R -> R) (s0 : R).
  Hypothesis Hd : locally s0 (fun s => is_derive x s (dx s) /\ is_derive y s (dy s)).
  Hypothesis Hcx : continuity_pt dx s0. Hypothesis Hcy : continuity_pt dy s0.
  Hypothesis Hs : slit (x s0) (y s0).

  Definition den s t := (1 - t * x s) ^ 2 + (t * y s) ^ 2.
  Definition Gre s t := (dx s * (1 - t * x s) - dy s * (t * y s)) / den s t.
  Definition Gim s t := (dx s * (t * y s) + dy s * (1 - t * x s)) / den s t.

  Lemma x_c2 t : continuity_2d_pt (fun s _ => x s) s0 t.
  Proof. apply c2_fst. apply locally_singleton in Hd. apply continuity_pt_filterlim, (ex_derive_continuous (V := R_NormedModule)). exists (dx s0). apply Hd. Qed.
  Lemma y_c2 t : continuity_2d_pt (fun s _ => y s) s0 t.
  Proof. apply c2_fst. apply locally_singleton in Hd. apply continuity_pt_filterlim, (ex_derive_continuous (V := R_NormedModule)). exists (dy s0). apply Hd. Qed.
  Lemma u_c2 t : continuity_2d_pt (fun s t => 1 - t * x s) s0 t.
  Proof. apply continuity_2d_pt_minus; [apply continuity_2d_pt_const|]. apply continuity_2d_pt_mult; [apply continuity_2d_pt_id2|apply x_c2]. Qed.
  Lemma v_c2 t : continuity_2d_pt (fun s t => t * y s) s0 t.
  Proof. apply continuity_2d_pt_mult; [apply continuity_2d_pt_id2|apply y_c2]. Qed.
  Lemma den_c2 t : continuity_2d_pt den s0 t.
  Proof.
    apply (continuity_2d_pt_ext (fun s t => (1 - t * x s) * (1 - t * x s) + (t * y s) * (t * y s))); [intros; unfold den; ring|].
    apply continuity_2d_pt_plus; apply continuity_2d_pt_mult; (apply u_c2 || apply v_c2).
  Qed.
  Lemma off_loc t : 0 <= t <= 1 -> locally_2d (fun s t => off (1 - t * x s) (- (t * y s))) s0 t.
  Proof.
    intros Ht. destruct (slit_off _ _ _ Hs Ht) as [H|H].
    - generalize (c2_pos _ _ _ (u_c2 t) H). apply locally_2d_impl, locally_2d_forall. intros; left; assumption.
    - destruct (Rtotal_order (t * y s0) 0) as [L|[L|L]]; [|rewrite L in H; lra|].
      + generalize (c2_neg _ _ _ (v_c2 t) L). apply locally_2d_impl, locally_2d_forall. intros; right; lra.
      + generalize (c2_pos _ _ _ (v_c2 t) L). apply locally_2d_impl, locally_2d_forall. intros; right; lra.
  Qed.
  Lemma slit_loc : locally s0 (fun s => slit (x s) (y s)).
  Proof.
    destruct Hs as [H|H].
    - destruct (Rtotal_order (y s0) 0) as [L|[L|L]]; [|contradiction|].
      + destruct (c2_neg (fun s _ => y s) s0 0 (y_c2 0) L) as [d K]. exists d. intros s Hb. left. specialize (K s 0). cbn in K. assert (y s < 0) by (apply K; [exact Hb|rewrite Rminus_eq_0, Rabs_R0; apply cond_pos]). lra.
      + destruct (c2_pos (fun s _ => y s) s0 0 (y_c2 0) L) as [d K]. exists d. intros s Hb. left. specialize (K s 0). cbn in K. assert (0 < y s) by (apply K; [exact Hb|rewrite Rminus_eq_0, Rabs_R0; apply cond_pos]). lra.
    - assert (L : 0 < 1 - x s0) by lra. assert (C : continuity_2d_pt (fun s _ => 1 - x s) s0 0) by (apply continuity_2d_pt_minus; [apply continuity_2d_pt_const|apply x_c2]).
      destruct (c2_pos (fun s _ => 1 - x s) s0 0 C L) as [d K]. exists d. intros s Hb. right. specialize (K s 0). cbn in K. assert (0 < 1 - x s) by (apply K; [exact Hb|rewrite Rminus_eq_0, Rabs_R0; apply cond_pos]). lra.
  Qed.
  Lemma A_param s t : is_derive x s (dx s) -> is_derive y s (dy s) -> off (1 - t * x s) (- (t * y s)) -> is_derive (fun s => Afun (x s) (y s) t) s (Gre s t).
  Proof.
    intros Hx Hy Ho. unfold Afun, Gre, den. destruct (Req_EM_T t 0) as [->|Nt].
    - evar_last; [exact Hx|]. rewrite !Rmult_0_l, Rminus_0_r. field.
    - pose proof (off_norm _ _ Ho) as N. evar_last.
      { apply (is_derive_ext (fun s => (- / t) * lnabs (1 - t * x s) (- (t * y s)))); [intros ?; match goal with |- ?a = ?b => change (@eq R a b) end; field; exact Nt|]. apply (is_derive_scal (fun s => lnabs (1 - t * x s) (- (t * y s))) s (- / t)).
        apply (lnabs_derive (fun s => 1 - t * x s) (fun s => - (t * y s)) (- t * dx s) (- t * dy s)).
        - evar_last; [apply (is_derive_minus (V := R_NormedModule) (fun _ => 1) (fun s => t * x s)); [apply is_derive_const|apply (is_derive_scal x s t), Hx]|]. unfold minus, plus, opp, zero; cbn. ring.
        - evar_last; [apply (is_derive_opp (V := R_NormedModule) (fun s => t * y s)), (is_derive_scal y s t), Hy|]. unfold opp; cbn. ring.
        - exact Ho. }
      cbn in N. field. split; [nra|exact Nt].
  Qed.
  Lemma B_param s t : is_derive x s (dx s) -> is_derive y s (dy s) -> off (1 - t * x s) (- (t * y s)) -> is_derive (fun s => Bfun (x s) (y s) t) s (Gim s t).
  Proof.
    intros Hx Hy Ho. unfold Bfun, Gim, den. destruct (Req_EM_T t 0) as [->|Nt].
    - evar_last; [exact Hy|]. rewrite !Rmult_0_l, Rminus_0_r. field.
    - pose proof (off_norm _ _ Ho) as N. evar_last.
      { apply (is_derive_ext (fun s => (- / t) * arg (1 - t * x s) (- (t * y s)))); [intros ?; match goal with |- ?a = ?b => change (@eq R a b) end; field; exact Nt|]. apply (is_derive_scal (fun s => arg (1 - t * x s) (- (t * y s))) s (- / t)).
        apply (arg_derive (fun s => 1 - t * x s) (fun s => - (t * y s)) (- t * dx s) (- t * dy s)).
        - evar_last; [apply (is_derive_minus (V := R_NormedModule) (fun _ => 1) (fun s => t * x s)); [apply is_derive_const|apply (is_derive_scal x s t), Hx]|]. unfold minus, plus, opp, zero; cbn. ring.
        - evar_last; [apply (is_derive_opp (V := R_NormedModule) (fun s => t * y s)), (is_derive_scal y s t), Hy|]. unfold opp; cbn. ring.
        - exact Ho. }
      cbn in N. field. split; [nra|exact Nt].
  Qed.
  Lemma den_pos t : 0 <= t <= 1 -> 0 < den s0 t.
  Proof. intros Ht. pose proof (off_norm _ _ (slit_off _ _ _ Hs Ht)) as N. unfold den. nra. Qed.
  Lemma Gre_c2 t : 0 <= t <= 1 -> continuity_2d_pt Gre s0 t.
  Proof.
    intros Ht. pose proof (den_pos t Ht) as N. unfold Gre, Rdiv. apply continuity_2d_pt_mult; [|apply continuity_2d_pt_inv; [apply den_c2|lra]].
    apply continuity_2d_pt_minus; apply continuity_2d_pt_mult; [apply c2_fst, Hcx|apply u_c2|apply c2_fst, Hcy|apply v_c2].
  Qed.
  Lemma Gim_c2 t : 0 <= t <= 1 -> continuity_2d_pt Gim s0 t.
  Proof.
    intros Ht. pose proof (den_pos t Ht) as N. unfold Gim, Rdiv. apply continuity_2d_pt_mult; [|apply continuity_2d_pt_inv; [apply den_c2|lra]].
    apply continuity_2d_pt_plus; apply continuity_2d_pt_mult; [apply c2_fst, Hcx|apply v_c2|apply c2_fst, Hcy|apply u_c2].
  Qed.
  Lemma good_loc t : 0 <= t <= 1 -> locally_2d (fun s t => is_derive x s (dx s) /\ is_derive y s (dy s) /\ off (1 - t * x s) (- (t * y s))) s0 t.
  Proof.
    intros Ht. destruct Hd as [d1 K1]. destruct (off_loc t Ht) as [d2 K2]. exists (mkposreal _ (Rmin_stable_in_posreal d1 d2)). intros u v Hu Hv. cbn in Hu, Hv.
    pose proof (Rmin_l d1 d2). pose proof (Rmin_r d1 d2). destruct (K1 u) as [A1 A2]; [change (Rabs (u - s0) < d1); lra|]. split; [exact A1|]. split; [exact A2|]. apply K2; lra.
  Qed.
  Lemma U_path0 : is_derive (fun s => dilU (x s) (y s)) s0 (RInt (Gre s0) 0 1).
  Proof.
    evar_last.
    - apply (is_derive_RInt_param (fun s t => Afun (x s) (y s) t) 0 1 s0).
      + destruct Hd as [d1 K1], slit_loc as [d2 K2]. exists (mkposreal _ (Rmin_stable_in_posreal d1 d2)). intros s Hb t Ht. rewrite Rmin_left, Rmax_right in Ht by lra.
        pose proof (Rmin_l d1 d2). pose proof (Rmin_r d1 d2). change (Rabs (s - s0) < Rmin d1 d2) in Hb. destruct (K1 s) as [A1 A2]; [change (Rabs (s - s0) < d1); lra|].
        exists (Gre s t). apply A_param; [exact A1|exact A2|]. apply slit_off; [apply K2; change (Rabs (s - s0) < d2); lra|exact Ht].
      + intros t Ht. rewrite Rmin_left, Rmax_right in Ht by lra. apply (continuity_2d_pt_ext_loc Gre); [|apply Gre_c2, Ht].
        generalize (good_loc t Ht). apply locally_2d_impl, locally_2d_forall. intros s t' [A1 [A2 A3]]. symmetry. apply is_derive_unique, A_param; assumption.
      + generalize slit_loc. apply filter_imp. intros s H. apply A_int, H.
    - apply RInt_ext. intros t Ht. rewrite Rmin_left, Rmax_right in Ht by lra. apply locally_singleton in Hd. apply is_derive_unique, A_param; [apply Hd|apply Hd|apply slit_off; [exact Hs|lra]].
  Qed.
  Lemma V_path0 : is_derive (fun s => dilV (x s) (y s)) s0 (RInt (Gim s0) 0 1).
  Proof.
    evar_last.
    - apply (is_derive_RInt_param (fun s t => Bfun (x s) (y s) t) 0 1 s0).
      + destruct Hd as [d1 K1], slit_loc as [d2 K2]. exists (mkposreal _ (Rmin_stable_in_posreal d1 d2)). intros s Hb t Ht. rewrite Rmin_left, Rmax_right in Ht by lra.
        pose proof (Rmin_l d1 d2). pose proof (Rmin_r d1 d2). change (Rabs (s - s0) < Rmin d1 d2) in Hb. destruct (K1 s) as [A1 A2]; [change (Rabs (s - s0) < d1); lra|].
        exists (Gim s t). apply B_param; [exact A1|exact A2|]. apply slit_off; [apply K2; change (Rabs (s - s0) < d2); lra|exact Ht].
      + intros t Ht. rewrite Rmin_left, Rmax_right in Ht by lra. apply (continuity_2d_pt_ext_loc Gim); [|apply Gim_c2, Ht].
        generalize (good_loc t Ht). apply locally_2d_impl, locally_2d_forall. intros s t' [A1 [A2 A3]]. symmetry. apply is_derive_unique, B_param; assumption.
      + generalize slit_loc. apply filter_imp. intros s H. apply B_int, H.
    - apply RInt_ext. intros t Ht. rewrite Rmin_left, Rmax_right in Ht by lra. apply locally_singleton in Hd. apply is_derive_unique, B_param; [apply Hd|apply Hd|apply slit_off; [exact Hs|lra]].
  Qed.
  (** away from 0 the integrals are - Log(1 - z) z' / z *)
  Let n := x s0 ^ 2 + y s0 ^ 2.
  Let p := (dx s0 * x s0 + dy s0 * y s0) / n.
  Let q := (dy s0 * x s0 - dx s0 * y s0) / n.
  Let L := lnabs (1 - x s0) (- y s0).
  Let T := arg (1 - x s0) (- y s0).
  Lemma U_path : x s0 <> 0 \/ y s0 <> 0 -> is_derive (fun s => dilU (x s) (y s)) s0 (- (p * L - q * T)).
  Proof.
    intros Nz. assert (N : 0 < n) by (unfold n; destruct Nz as [H|H]; pose proof (pow2_gt_0 _ H); nra).
    evar_last; [apply U_path0|]. apply is_RInt_unique.
    replace (- (p * L - q * T)) with (minus ((fun t => p * - lnabs (1 - t * x s0) (- (t * y s0)) - q * - arg (1 - t * x s0) (- (t * y s0))) 1) ((fun t => p * - lnabs (1 - t * x s0) (- (t * y s0)) - q * - arg (1 - t * x s0) (- (t * y s0))) 0)).
    2:{ unfold minus, plus, opp; cbn. rewrite !Rmult_0_l, !Rmult_1_l, Rminus_0_r, Ropp_0, lnabs_1, arg_pos. fold L T. ring. }
    apply (is_RInt_derive (V := R_CompleteNormedModule) (fun t => p * - lnabs (1 - t * x s0) (- (t * y s0)) - q * - arg (1 - t * x s0) (- (t * y s0))) (Gre s0) 0 1).
    - intros t Ht. rewrite Rmin_left, Rmax_right in Ht by lra. pose proof (slit_off _ _ _ Hs Ht) as Ho. pose proof (off_norm _ _ Ho) as No.
      evar_last; [apply (is_derive_minus (V := R_NormedModule)); apply is_derive_scal; [apply lnabs_ray, Ho|apply arg_ray, Ho]|]. unfold minus, plus, opp; cbn. unfold Gre, den, p, q, n in *. cbn [pow] in No. field. split; nra.
    - intros t Ht. rewrite Rmin_left, Rmax_right in Ht by lra. apply continuity_pt_filterlim. intros eps He. destruct (Gre_c2 t Ht (mkposreal eps He)) as [d K]. exists d. split; [apply cond_pos|]. intros t' [_ Ht']. apply (K s0 t'); [rewrite Rminus_eq_0, Rabs_R0; apply cond_pos|exact Ht'].
  Qed.
  Lemma V_path : x s0 <> 0 \/ y s0 <> 0 -> is_derive (fun s => dilV (x s) (y s)) s0 (- (p * T + q * L)).
  Proof.
    intros Nz. assert (N : 0 < n) by (unfold n; destruct Nz as [H|H]; pose proof (pow2_gt_0 _ H); nra).
    evar_last; [apply V_path0|]. apply is_RInt_unique.
    replace (- (p * T + q * L)) with (minus ((fun t => p * - arg (1 - t * x s0) (- (t * y s0)) + q * - lnabs (1 - t * x s0) (- (t * y s0))) 1) ((fun t => p * - arg (1 - t * x s0) (- (t * y s0)) + q * - lnabs (1 - t * x s0) (- (t * y s0))) 0)).
    2:{ unfold minus, plus, opp; cbn. rewrite !Rmult_0_l, !Rmult_1_l, Rminus_0_r, Ropp_0, lnabs_1, arg_pos. fold L T. ring. }
    apply (is_RInt_derive (V := R_CompleteNormedModule) (fun t => p * - arg (1 - t * x s0) (- (t * y s0)) + q * - lnabs (1 - t * x s0) (- (t * y s0))) (Gim s0) 0 1).
    - intros t Ht. rewrite Rmin_left, Rmax_right in Ht by lra. pose proof (slit_off _ _ _ Hs Ht) as Ho. pose proof (off_norm _ _ Ho) as No.
      evar_last; [apply (is_derive_plus (V := R_NormedModule)); apply is_derive_scal; [apply arg_ray, Ho|apply lnabs_ray, Ho]|]. unfold plus; cbn. unfold Gim, den, p, q, n in *. cbn [pow] in No. field. split; nra.
    - intros t Ht. rewrite Rmin_left, Rmax_right in Ht by lra. apply continuity_pt_filterlim. intros eps He. destruct (Gim_c2 t Ht (mkposreal eps He)) as [d K]. exists d. split; [apply cond_pos|]. intros t' [_ Ht']. apply (K s0 t'); [rewrite Rminus_eq_0, Rabs_R0; apply cond_pos|exact Ht'].
  Qed.
End Path.
