(** The complex dilogarithm: uniqueness, real axis, reflection, unit circle, inversion. *)
From Coquelicot Require Import Coquelicot.
From Verif Require Import Base RSumLib S_Dilog P_Basel P_Dilog P_Dilog2 P_Dilog3 S_Clausen P_Clausen S_DilogC P_DilogC.
From Coq Require Import Psatz.
Open Scope R_scope.

Lemma path_lin a b c d s : locally s (fun s : R => is_derive (fun s => a + s * b) s b /\ is_derive (fun s => c + s * d) s d).
Proof. apply filter_forall. intros t. split; apply lin_derive. Qed.
Lemma c_const (c s : R) : continuity_pt (fun _ => c) s.
Proof. apply continuity_pt_const. intros u v. reflexivity. Qed.
(** straight lines *)
Lemma U_line a b c d s : slit (a + s * b) (c + s * d) -> a + s * b <> 0 \/ c + s * d <> 0 ->
  is_derive (fun s => dilU (a + s * b) (c + s * d)) s
    (- ((b * (a + s * b) + d * (c + s * d)) / ((a + s * b) ^ 2 + (c + s * d) ^ 2) * lnabs (1 - (a + s * b)) (- (c + s * d))
        - (d * (a + s * b) - b * (c + s * d)) / ((a + s * b) ^ 2 + (c + s * d) ^ 2) * arg (1 - (a + s * b)) (- (c + s * d)))).
Proof. intros H N. exact (U_path (fun s => a + s * b) (fun s => c + s * d) (fun _ => b) (fun _ => d) s (path_lin a b c d s) (c_const b s) (c_const d s) H N). Qed.
Lemma V_line a b c d s : slit (a + s * b) (c + s * d) -> a + s * b <> 0 \/ c + s * d <> 0 ->
  is_derive (fun s => dilV (a + s * b) (c + s * d)) s
    (- ((b * (a + s * b) + d * (c + s * d)) / ((a + s * b) ^ 2 + (c + s * d) ^ 2) * arg (1 - (a + s * b)) (- (c + s * d))
        + (d * (a + s * b) - b * (c + s * d)) / ((a + s * b) ^ 2 + (c + s * d) ^ 2) * lnabs (1 - (a + s * b)) (- (c + s * d)))).
Proof. intros H N. exact (V_path (fun s => a + s * b) (fun s => c + s * d) (fun _ => b) (fun _ => d) s (path_lin a b c d s) (c_const b s) (c_const d s) H N). Qed.
Lemma U_line_cont a b c d s : slit (a + s * b) (c + s * d) -> continuity_pt (fun s => dilU (a + s * b) (c + s * d)) s.
Proof. intros H. eapply cont_of_derive. exact (U_path0 (fun s => a + s * b) (fun s => c + s * d) (fun _ => b) (fun _ => d) s (path_lin a b c d s) (c_const b s) (c_const d s) H). Qed.
Lemma V_line_cont a b c d s : slit (a + s * b) (c + s * d) -> continuity_pt (fun s => dilV (a + s * b) (c + s * d)) s.
Proof. intros H. eapply cont_of_derive. exact (V_path0 (fun s => a + s * b) (fun s => c + s * d) (fun _ => b) (fun _ => d) s (path_lin a b c d s) (c_const b s) (c_const d s) H). Qed.

(** rays *)
Lemma slit_ray x y t : slit x y -> 0 <= t <= 1 -> slit (t * x) (t * y).
Proof.
  intros H Ht. destruct (Req_dec t 0) as [->|Nt]; [right; lra|]. destruct H as [H|H]; [left; apply Rmult_integral_contrapositive; auto|right; nra].
Qed.
Lemma dilU_0 : dilU 0 0 = 0.
Proof.
  unfold dilU. rewrite (RInt_ext _ (fun _ => 0)); [rewrite RInt_const; unfold scal; cbn; unfold mult; cbn; apply Rmult_0_r|]. intros t _. unfold Afun. destruct (Req_EM_T t 0); [reflexivity|].
  rewrite !Rmult_0_r, Rminus_0_r, Ropp_0, lnabs_1. match goal with |- ?a = ?b => change (@eq R a b) end. unfold Rdiv. ring.
Qed.
Lemma dilV_0 : dilV 0 0 = 0.
Proof.
  unfold dilV. rewrite (RInt_ext _ (fun _ => 0)); [rewrite RInt_const; unfold scal; cbn; unfold mult; cbn; apply Rmult_0_r|]. intros t _. unfold Bfun. destruct (Req_EM_T t 0); [reflexivity|].
  rewrite !Rmult_0_r, Rminus_0_r, Ropp_0, arg_pos. match goal with |- ?a = ?b => change (@eq R a b) end. unfold Rdiv. ring.
Qed.
Lemma U_ray x y t : slit x y -> 0 < t <= 1 -> is_derive (fun t => dilU (t * x) (t * y)) t (- lnabs (1 - t * x) (- (t * y)) / t).
Proof.
  intros H Ht. destruct (Req_dec x 0) as [->|Nx]; [destruct (Req_dec y 0) as [->|Ny]|].
  - apply (is_derive_ext (fun _ => 0)); [intros; rewrite !Rmult_0_r, dilU_0; reflexivity|]. evar_last; [apply is_derive_const|]. rewrite !Rmult_0_r, Rminus_0_r, Ropp_0, lnabs_1. unfold zero; cbn. field. lra.
  - pose proof (slit_ray 0 y t H ltac:(lra)) as S1. apply (is_derive_ext (fun t => dilU (0 + t * 0) (0 + t * y))); [intros; rewrite !Rplus_0_l; reflexivity|].
    assert (Nty : t * y <> 0) by (apply Rmult_integral_contrapositive; split; [lra|exact Ny]).
    evar_last; [apply U_line; rewrite !Rplus_0_l; [exact S1|right; exact Nty]|]. rewrite !Rplus_0_l. rewrite !Rmult_0_r, !Rmult_0_l, !Rplus_0_l, !Rminus_0_r. field. split; [lra|]. exact Ny.
  - pose proof (slit_ray x y t H ltac:(lra)) as S1. apply (is_derive_ext (fun t => dilU (0 + t * x) (0 + t * y))); [intros; rewrite !Rplus_0_l; reflexivity|].
    assert (Ntx : t * x <> 0) by (apply Rmult_integral_contrapositive; split; [lra|exact Nx]).
    evar_last; [apply U_line; rewrite !Rplus_0_l; [exact S1|left; exact Ntx]|]. rewrite !Rplus_0_l. pose proof (pow2_gt_0 _ Nx). field. split; [lra|]. nra.
Qed.
Lemma V_ray x y t : slit x y -> 0 < t <= 1 -> is_derive (fun t => dilV (t * x) (t * y)) t (- arg (1 - t * x) (- (t * y)) / t).
Proof.
  intros H Ht. destruct (Req_dec x 0) as [->|Nx]; [destruct (Req_dec y 0) as [->|Ny]|].
  - apply (is_derive_ext (fun _ => 0)); [intros; rewrite !Rmult_0_r, dilV_0; reflexivity|]. evar_last; [apply is_derive_const|]. rewrite !Rmult_0_r, Rminus_0_r, Ropp_0, arg_pos. unfold zero; cbn. field. lra.
  - pose proof (slit_ray 0 y t H ltac:(lra)) as S1. apply (is_derive_ext (fun t => dilV (0 + t * 0) (0 + t * y))); [intros; rewrite !Rplus_0_l; reflexivity|].
    assert (Nty : t * y <> 0) by (apply Rmult_integral_contrapositive; split; [lra|exact Ny]).
    evar_last; [apply V_line; rewrite !Rplus_0_l; [exact S1|right; exact Nty]|]. rewrite !Rplus_0_l. rewrite !Rmult_0_r, !Rmult_0_l, !Rplus_0_l, !Rminus_0_r. field. split; [lra|]. exact Ny.
  - pose proof (slit_ray x y t H ltac:(lra)) as S1. apply (is_derive_ext (fun t => dilV (0 + t * x) (0 + t * y))); [intros; rewrite !Rplus_0_l; reflexivity|].
    assert (Ntx : t * x <> 0) by (apply Rmult_integral_contrapositive; split; [lra|exact Nx]).
    evar_last; [apply V_line; rewrite !Rplus_0_l; [exact S1|left; exact Ntx]|]. rewrite !Rplus_0_l. pose proof (pow2_gt_0 _ Nx). field. split; [lra|]. nra.
Qed.
Lemma U_ray_cont x y t : slit x y -> 0 <= t <= 1 -> continuity_pt (fun t => dilU (t * x) (t * y)) t.
Proof.
  intros H Ht. apply (continuity_pt_ext (fun t => dilU (0 + t * x) (0 + t * y))); [intros; rewrite !Rplus_0_l; reflexivity|]. apply U_line_cont. rewrite !Rplus_0_l. apply slit_ray; assumption.
Qed.
Lemma V_ray_cont x y t : slit x y -> 0 <= t <= 1 -> continuity_pt (fun t => dilV (t * x) (t * y)) t.
Proof.
  intros H Ht. apply (continuity_pt_ext (fun t => dilV (0 + t * x) (0 + t * y))); [intros; rewrite !Rplus_0_l; reflexivity|]. apply V_line_cont. rewrite !Rplus_0_l. apply slit_ray; assumption.
Qed.
Lemma dilC_is : is_dilogC dilU dilV.
Proof.
  intros x y H. split; [exact dilU_0|]. split; [exact dilV_0|]. split; [|split].
  - pose proof (U_ray_cont x y 0 H ltac:(lra)) as C. apply continuity_pt_filterlim in C. unfold continuous in C. rewrite !Rmult_0_l, dilU_0 in C. eapply filterlim_filter_le_1; [apply filter_le_within|exact C].
  - pose proof (V_ray_cont x y 0 H ltac:(lra)) as C. apply continuity_pt_filterlim in C. unfold continuous in C. rewrite !Rmult_0_l, dilV_0 in C. eapply filterlim_filter_le_1; [apply filter_le_within|exact C].
  - intros t Ht. split; [apply U_ray|apply V_ray]; assumption.
Qed.
Lemma limit_const (f : R -> R) : (forall t, 0 < t <= 1 -> is_derive f t 0) -> filterlim f (at_right 0) (locally 0) -> f 1 = 0.
Proof.
  intros D L. apply cond_eq. intros eps He. rewrite Rminus_0_r. assert (K := proj1 (filterlim_locally f 0) L (mkposreal eps He)). destruct K as [d K].
  set (t := Rmin (d / 2) 1). pose proof (cond_pos d). assert (Ht : 0 < t <= 1) by (unfold t; pose proof (Rmin_r (d / 2) 1); split; [apply Rmin_glb_lt; lra|lra]).
  assert (E : f t = f 1). { apply derive_const_eq; [lra|intros; apply D; lra|]. intros u Hu. eapply cont_of_derive, D. lra. }
  rewrite <- E. specialize (K t). assert (B : ball 0 d t). { change (Rabs (t - 0) < d). rewrite Rminus_0_r, Rabs_pos_eq by lra. unfold t. pose proof (Rmin_l (d / 2) 1). lra. }
  specialize (K B ltac:(lra)). change (Rabs (f t - 0) < eps) in K. rewrite Rminus_0_r in K. exact K.
Qed.
Lemma lim_minus (f g : R -> R) : filterlim f (at_right 0) (locally 0) -> filterlim g (at_right 0) (locally 0) -> filterlim (fun t => f t - g t) (at_right 0) (locally 0).
Proof.
  intros F G. apply filterlim_locally. intros eps. assert (F1 := proj1 (filterlim_locally f 0) F (pos_div_2 eps)). assert (G1 := proj1 (filterlim_locally g 0) G (pos_div_2 eps)).
  generalize (filter_and _ _ F1 G1). apply filter_imp. intros t [A B]. change (Rabs (f t - 0) < eps / 2) in A. change (Rabs (g t - 0) < eps / 2) in B. change (Rabs (f t - g t - 0) < eps).
  rewrite Rminus_0_r in *. apply Rabs_def2 in A. apply Rabs_def2 in B. apply Rabs_def1; lra.
Qed.
Lemma dilC_unique U V U' V' : is_dilogC U V -> is_dilogC U' V' -> forall x y, slit x y -> U x y = U' x y /\ V x y = V' x y.
Proof.
  intros H H' x y S1. destruct (H x y S1) as [_ [_ [L1 [L2 D1]]]]. destruct (H' x y S1) as [_ [_ [L1' [L2' D1']]]]. split.
  - assert (E : (fun t => U (t * x) (t * y) - U' (t * x) (t * y)) 1 = 0).
    { apply (limit_const (fun t => U (t * x) (t * y) - U' (t * x) (t * y))).
      - intros t Ht. evar_last; [apply (is_derive_minus (V := R_NormedModule)); [apply (proj1 (D1 t Ht))|apply (proj1 (D1' t Ht))]|]. unfold minus, plus, opp; cbn. ring.
      - apply lim_minus; assumption. }
    cbv beta in E. rewrite !Rmult_1_l in E. lra.
  - assert (E : (fun t => V (t * x) (t * y) - V' (t * x) (t * y)) 1 = 0).
    { apply (limit_const (fun t => V (t * x) (t * y) - V' (t * x) (t * y))).
      - intros t Ht. evar_last; [apply (is_derive_minus (V := R_NormedModule)); [apply (proj2 (D1 t Ht))|apply (proj2 (D1' t Ht))]|]. unfold minus, plus, opp; cbn. ring.
      - apply lim_minus; assumption. }
    cbv beta in E. rewrite !Rmult_1_l in E. lra.
Qed.

(** ** conjugation *)
Lemma lnabs_conj u v : lnabs u (- v) = lnabs u v. Proof. unfold lnabs. replace ((- v) ^ 2) with (v ^ 2) by ring. reflexivity. Qed.
Lemma arg_conj u v : arg u (- v) = - arg u v.
Proof. unfold arg. replace ((- v) ^ 2) with (v ^ 2) by ring. unfold Rdiv. rewrite <- Ropp_mult_distr_l, atan_opp. ring. Qed.
Lemma dilU_conj x y : dilU x (- y) = dilU x y.
Proof. unfold dilU. apply RInt_ext. intros t _. unfold Afun. destruct (Req_EM_T t 0); [reflexivity|]. rewrite <- Ropp_mult_distr_r, lnabs_conj. reflexivity. Qed.
Lemma dilV_conj x y : slit x y -> dilV x (- y) = - dilV x y.
Proof.
  intros H. unfold dilV. rewrite <- (RInt_opp (V := R_CompleteNormedModule)) by (apply B_int, H). apply RInt_ext. intros t _. unfold opp; cbn. unfold Bfun.
  match goal with |- ?a = ?b => change (@eq R a b) end. destruct (Req_EM_T t 0); [reflexivity|]. rewrite <- Ropp_mult_distr_r, arg_conj. unfold Rdiv. ring.
Qed.
(** ** the real axis *)
Lemma dilV_real x : dilV x 0 = 0.
Proof.
  unfold dilV. rewrite (RInt_ext _ (fun _ => 0)); [rewrite RInt_const; unfold scal; cbn; unfold mult; cbn; apply Rmult_0_r|]. intros t _. unfold Bfun. destruct (Req_EM_T t 0); [reflexivity|].
  rewrite !Rmult_0_r, Ropp_0, arg_pos. match goal with |- ?a = ?b => change (@eq R a b) end. unfold Rdiv. ring.
Qed.
Lemma lnabs_real u : 0 < u -> lnabs u 0 = ln u.
Proof. intros H. unfold lnabs. replace (u ^ 2 + 0 ^ 2) with (u * u) by ring. rewrite ln_mult by assumption. field. Qed.
Lemma dilU_real L x : is_dilog L -> x < 1 -> dilU x 0 = L x.
Proof.
  intros D Hx. destruct (Req_dec x 0) as [->|Nx]; [rewrite dilU_0; symmetry; apply D|].
  assert (E : (fun t => dilU (t * x) (t * 0) - L (t * x)) 1 = 0); [|cbv beta in E; rewrite !Rmult_1_l in E; lra].
  destruct D as [D0 [Dc Dd]]. apply (limit_const (fun t => dilU (t * x) (t * 0) - L (t * x))).
  - intros t Ht. assert (Ht1 : t * x < 1) by (destruct (Rle_or_lt x 0); nra). evar_last. { apply (is_derive_minus (V := R_NormedModule)); [apply U_ray; [right; exact Hx|exact Ht]|].
      apply (is_derive_comp L (fun t => t * x)); [apply Dd; [apply Rmult_integral_contrapositive; split; lra|lra]|]. auto_derive; [exact Logic.I|reflexivity]. }
    unfold minus, plus, opp, scal; cbn; unfold mult; cbn. rewrite Rmult_0_r, Ropp_0, lnabs_real by lra. rewrite Rabs_pos_eq by lra. field. split; lra.
  - apply lim_minus.
    + destruct (dilC_is x 0 (or_intror Hx)) as [_ [_ [Q _]]]. exact Q.
    + assert (C : continuity_pt (fun t => L (t * x)) 0) by (apply (continuity_pt_comp (fun t => t * x) L); [reg|apply Dc]). apply continuity_pt_filterlim in C. unfold continuous in C. rewrite Rmult_0_l, D0 in C.
      eapply filterlim_filter_le_1; [apply filter_le_within|exact C].
Qed.
