(** Derivatives of complex-valued functions of a real variable and the remainders of the two series of the dilogarithm. *)
From Coquelicot Require Import Coquelicot.
From Verif Require Import Base RSumLib S_Clausen P_Clausen P_Dilog S_DilogC P_DilogC P_DilogC2 P_DilogC3.
From Coq Require Import Psatz.
Open Scope R_scope.
Local Notation C := Complex.C.
Ltac req := match goal with |- ?a = ?b => change (@eq R a b) end.
Ltac ceq := cbv beta; match goal with |- ?a = ?b => change (@eq Complex.C a b) end.

Definition cder (f : R -> C) (t : R) (d : C) : Prop := is_derive (fun t => fst (f t)) t (fst d) /\ is_derive (fun t => snd (f t)) t (snd d).
Fixpoint cpow (z : C) (n : nat) : C := match n with O => RtoC 1 | S n => Cmult z (cpow z n) end.
Fixpoint csum (n : nat) (f : nat -> C) : C := match n with O => RtoC 0 | S n => Cplus (csum n f) (f n) end.
Definition Lg (z : C) : C := (lnabs (fst z) (snd z), arg (fst z) (snd z)).
Definition offC (z : C) : Prop := off (fst z) (snd z).

Lemma cder_eq f t d d' : cder f t d -> d = d' -> cder f t d'. Proof. intros H <-. exact H. Qed.
Lemma cder_ext f g t d : (forall t, f t = g t) -> cder f t d -> cder g t d.
Proof. intros E [A B]. split; [apply (is_derive_ext (fun t => fst (f t))); [intros; rewrite E; reflexivity|exact A]|apply (is_derive_ext (fun t => snd (f t))); [intros; rewrite E; reflexivity|exact B]]. Qed.
Lemma cder_ext_loc f g t d : locally t (fun t => f t = g t) -> cder f t d -> cder g t d.
Proof.
  intros E [A B]. split.
  - apply (is_derive_ext_loc (fun t => fst (f t))); [|exact A]. revert E. apply filter_imp. intros u ->. reflexivity.
  - apply (is_derive_ext_loc (fun t => snd (f t))); [|exact B]. revert E. apply filter_imp. intros u ->. reflexivity.
Qed.
Lemma cder_const c t : cder (fun _ => c) t (RtoC 0).
Proof. split; cbn; apply (is_derive_const (V := R_NormedModule)). Qed.
Lemma cder_plus f g t d e : cder f t d -> cder g t e -> cder (fun t => Cplus (f t) (g t)) t (Cplus d e).
Proof. intros [A B] [A' B']. split; cbn; apply (is_derive_plus (V := R_NormedModule)); assumption. Qed.
Lemma cder_opp f t d : cder f t d -> cder (fun t => Copp (f t)) t (Copp d).
Proof. intros [A B]. split; cbn; apply (is_derive_opp (V := R_NormedModule)); assumption. Qed.
Lemma cder_minus f g t d e : cder f t d -> cder g t e -> cder (fun t => Cminus (f t) (g t)) t (Cminus d e).
Proof. intros A B. apply cder_plus; [exact A|apply cder_opp, B]. Qed.
Lemma dmult (f g : R -> R) (t a b : R) : is_derive f t a -> is_derive g t b -> is_derive (fun t => f t * g t) t (a * g t + f t * b).
Proof. intros A B. apply (is_derive_mult f g t a b A B). intros; apply Rmult_comm. Qed.
Lemma dminus (f g : R -> R) (t a b : R) : is_derive f t a -> is_derive g t b -> is_derive (fun t => f t - g t) t (a - b).
Proof. apply (is_derive_minus (V := R_NormedModule)). Qed.
Lemma dplus (f g : R -> R) (t a b : R) : is_derive f t a -> is_derive g t b -> is_derive (fun t => f t + g t) t (a + b).
Proof. apply (is_derive_plus (V := R_NormedModule)). Qed.
Lemma cder_mult f g t d e : cder f t d -> cder g t e -> cder (fun t => Cmult (f t) (g t)) t (Cplus (Cmult d (g t)) (Cmult (f t) e)).
Proof.
  intros [A B] [A' B']. split; cbn.
  - evar_last; [apply dminus; apply dmult; eassumption|]. cbn. req. ring.
  - evar_last; [apply dplus; apply dmult; eassumption|]. cbn. req. ring.
Qed.
Lemma cder_real (f : R -> R) (t d : R) : is_derive f t d -> cder (fun t => RtoC (f t)) t (RtoC d).
Proof. intros A. split; cbn; [exact A|apply (is_derive_const (V := R_NormedModule))]. Qed.
Lemma cder_cmul c f t d : cder f t d -> cder (fun t => Cmult c (f t)) t (Cmult c d).
Proof. intros A. eapply cder_eq; [apply cder_mult; [apply cder_const|exact A]|]. ceq. ring. Qed.
Lemma cder_pow f t d n : cder f t d -> cder (fun t => cpow (f t) (S n)) t (Cmult (Cmult (RtoC (INR (S n))) d) (cpow (f t) n)).
Proof.
  intros A. induction n as [|n IH].
  - apply (cder_ext f); [intros; cbn; ring|]. eapply cder_eq; [exact A|]. cbn. ring.
  - change (fun t => cpow (f t) (S (S n))) with (fun t => Cmult (f t) (cpow (f t) (S n))). eapply cder_eq; [apply cder_mult; [exact A|exact IH]|].
    rewrite (S_INR (S n)), RtoC_plus. cbn [cpow]. ring.
Qed.
Lemma cder_csum n (f : nat -> R -> C) (d : nat -> C) t : (forall k, (k < n)%nat -> cder (f k) t (d k)) -> cder (fun t => csum n (fun k => f k t)) t (csum n d).
Proof. induction n as [|n IH]; intros H; cbn [csum]; [apply cder_const|]. apply cder_plus; [apply IH; intros; apply H; lia|apply H; lia]. Qed.
Lemma offC_neq z : offC z -> z <> RtoC 0.
Proof. intros H E. pose proof (off_norm _ _ H) as N. rewrite E in N. cbn in N. lra. Qed.
Lemma cder_Lg f t d : cder f t d -> offC (f t) -> cder (fun t => Lg (f t)) t (Cdiv d (f t)).
Proof.
  intros [A B] H. pose proof (off_norm _ _ H) as N. split; cbn.
  - evar_last; [apply (lnabs_derive (fun t => fst (f t)) (fun t => snd (f t))); eassumption|]. cbn in *. field. lra.
  - evar_last; [apply (arg_derive (fun t => fst (f t)) (fun t => snd (f t))); eassumption|]. cbn in *. field. lra.
Qed.
Lemma csum_ext n f g : (forall k, (k < n)%nat -> f k = g k) -> csum n f = csum n g.
Proof. induction n as [|n IH]; intros H; cbn; [reflexivity|]. rewrite IH by (intros; apply H; lia). rewrite H by lia. reflexivity. Qed.
Lemma csum_mul c n f : Cmult c (csum n f) = csum n (fun k => Cmult c (f k)).
Proof. induction n as [|n IH]; cbn; [ring|]. rewrite <- IH. ring. Qed.
Lemma csum_geom z w n : Cmult (Cminus (RtoC 1) w) (csum n (fun k => Cmult z (cpow w k))) = Cmult z (Cminus (RtoC 1) (cpow w n)).
Proof. induction n as [|n IH]; cbn; [ring|]. rewrite Cmult_plus_distr_l, IH. ring. Qed.
Lemma Cmod_pow z n : Cmod (cpow z n) = Cmod z ^ n.
Proof. induction n as [|n IH]; cbn; [apply Cmod_1|]. rewrite Cmod_mult, IH. reflexivity. Qed.
Lemma re_le z : Rabs (fst z) <= Cmod z.
Proof. pose proof (Rmax_Cmod z). pose proof (Rmax_l (Rabs (fst z)) (Rabs (snd z))). lra. Qed.
Lemma im_le z : Rabs (snd z) <= Cmod z.
Proof. pose proof (Rmax_Cmod z). pose proof (Rmax_r (Rabs (fst z)) (Rabs (snd z))). lra. Qed.

(** ** bounds from bounds of the derivative *)
Lemma nonneg_from0 (g g' : R -> R) : (forall t, 0 < t <= 1 -> is_derive g t (g' t)) -> (forall t, 0 < t <= 1 -> 0 <= g' t) -> vanishes_at_0 g -> forall t, 0 < t <= 1 -> 0 <= g t.
Proof.
  intros D P V t Ht. destruct (Rle_or_lt 0 (g t)) as [K|K]; [exact K|exfalso]. destruct (V (- g t) ltac:(lra)) as [d [Hd Q]].
  set (u := Rmin (d / 2) (t / 2)). assert (Hu : 0 < u < d /\ u < t). { unfold u. pose proof (Rmin_l (d / 2) (t / 2)). pose proof (Rmin_r (d / 2) (t / 2)). assert (0 < Rmin (d / 2) (t / 2)) by (apply Rmin_glb_lt; lra). lra. }
  specialize (Q u ltac:(lra)). apply Rabs_def2 in Q. destruct (MVT_gen g u t g') as [c [Hc E]].
  - rewrite Rmin_left, Rmax_right by lra. intros v Hv. apply D. lra.
  - rewrite Rmin_left, Rmax_right by lra. intros v Hv. eapply cont_of_derive, D. lra.
  - rewrite Rmin_left, Rmax_right in Hc by lra. pose proof (P c ltac:(lra)). nra.
Qed.
Lemma dpow (K t : R) n : is_derive (fun t => K * t ^ S n) t (K * (INR (S n) * t ^ n)).
Proof. apply (is_derive_scal (fun t => t ^ S n) t K (INR (S n) * t ^ n)). apply is_derive_Reals. exact (derivable_pt_lim_pow t (S n)). Qed.
Lemma vanish_pow K n : vanishes_at_0 (fun t => K * t ^ S n).
Proof.
  apply vanish_cont; [|cbn; ring]. apply (continuity_pt_filterlim (fun t => K * t ^ S n)). eapply cont_of_derive, dpow.
Qed.
Lemma pow_bound (f f' : R -> R) K n : 0 <= K -> (forall t, 0 < t <= 1 -> is_derive f t (f' t)) -> (forall t, 0 < t <= 1 -> Rabs (f' t) <= K * t ^ n) -> vanishes_at_0 f ->
  forall t, 0 < t <= 1 -> Rabs (f t) <= K / INR (S n) * t ^ S n.
Proof.
  intros HK D B V t Ht. assert (Sn : 0 < INR (S n)) by apply lt_0_INR, Nat.lt_0_succ.
  assert (DP : forall t, is_derive (fun t => K / INR (S n) * t ^ S n) t (K * t ^ n)).
  { intros u. evar_last; [apply dpow|]. field. lra. }
  assert (A : 0 <= (fun t => K / INR (S n) * t ^ S n - f t) t).
  { apply (nonneg_from0 (fun t => K / INR (S n) * t ^ S n - f t) (fun t => K * t ^ n - f' t)); [intros u Hu; apply dminus; [apply DP|apply D, Hu]| |apply vanish_plus; [apply vanish_pow|apply vanish_opp, V]|exact Ht].
    intros u Hu. specialize (B u Hu). apply Rabs_le_between in B. lra. }
  assert (A' : 0 <= (fun t => K / INR (S n) * t ^ S n + f t) t).
  { apply (nonneg_from0 (fun t => K / INR (S n) * t ^ S n + f t) (fun t => K * t ^ n + f' t)); [intros u Hu; apply dplus; [apply DP|apply D, Hu]| |apply vanish_plus; [apply vanish_pow|exact V]|exact Ht].
    intros u Hu. specialize (B u Hu). apply Rabs_le_between in B. lra. }
  cbv beta in A, A'. apply Rabs_le. lra.
Qed.
(** both components at once *)
Definition cvan (f : R -> C) : Prop := vanishes_at_0 (fun t => fst (f t)) /\ vanishes_at_0 (fun t => snd (f t)).
Definition cle (z : C) (b : R) : Prop := Rabs (fst z) <= b /\ Rabs (snd z) <= b.
Lemma cle_mod z b : Cmod z <= b -> cle z b.
Proof. intros H. pose proof (re_le z). pose proof (im_le z). split; lra. Qed.
Lemma cbound f f' K n : 0 <= K -> (forall t, 0 < t <= 1 -> cder f t (f' t)) -> (forall t, 0 < t <= 1 -> cle (f' t) (K * t ^ n)) -> cvan f ->
  forall t, 0 < t <= 1 -> cle (f t) (K / INR (S n) * t ^ S n).
Proof.
  intros HK D B [V1 V2] t Ht. split.
  - apply (pow_bound (fun t => fst (f t)) (fun t => fst (f' t))); [exact HK|intros; apply D; assumption|intros; apply B; assumption|exact V1|exact Ht].
  - apply (pow_bound (fun t => snd (f t)) (fun t => snd (f' t))); [exact HK|intros; apply D; assumption|intros; apply B; assumption|exact V2|exact Ht].
Qed.
Lemma cvan_der f d : cder f 0 d -> f 0 = RtoC 0 -> cvan f.
Proof.
  intros [A B] E. split; apply vanish_cont; try (rewrite E; reflexivity); [apply (continuity_pt_filterlim (fun t => fst (f t)))|apply (continuity_pt_filterlim (fun t => snd (f t)))]; eapply cont_of_derive; eassumption.
Qed.

(** ** the remainders along the ray t z *)
Section Ray.
  Variable z : C.
  Hypothesis Hz : Cmod z < 1.
  Hypothesis Nz : z <> RtoC 0.
  Let r := Cmod z.
  Let w (t : R) : C := Cmult (RtoC t) z.
  Let v (t : R) : C := Cminus (RtoC 1) (w t).
  Lemma r_pos : 0 < r < 1. Proof. split; [apply Cmod_gt_0, Nz|exact Hz]. Qed.
  Lemma w_mod t : 0 <= t -> Cmod (w t) = t * r.
  Proof. intros H. unfold w, r. rewrite Cmod_mult, Cmod_R, Rabs_pos_eq by exact H. reflexivity. Qed.
  Lemma v_mod t : 0 <= t <= 1 -> 1 - r <= Cmod (v t).
  Proof.
    intros H. pose proof (w_mod t ltac:(lra)) as E. pose proof r_pos. pose proof (Cmod_triangle (v t) (w t)) as T. replace (Cplus (v t) (w t)) with (RtoC 1) in T by (unfold v; ring). rewrite Cmod_1 in T. nra.
  Qed.
  Lemma v_off t : 0 <= t <= 1 -> offC (v t).
  Proof.
    intros H. left. pose proof (w_mod t ltac:(lra)) as E. pose proof r_pos. pose proof (re_le (w t)) as R1. apply Rabs_le_between in R1. unfold v. cbn. change (fst (w t)) with (t * fst z - 0 * snd z) in R1. cbn in R1. nra.
  Qed.
  Lemma dw t : cder w t z.
  Proof. unfold w. eapply cder_eq; [apply cder_mult; [apply (cder_real (fun t => t) t 1); auto_derive; [exact Logic.I|reflexivity]|apply cder_const]|]. ceq. ring. Qed.
  Lemma dv t : cder v t (Copp z).
  Proof. unfold v. eapply cder_eq; [apply cder_minus; [apply cder_const|apply dw]|]. ceq. ring. Qed.
  Lemma dLv t : 0 <= t <= 1 -> cder (fun t => Lg (v t)) t (Cdiv (Copp z) (v t)).
  Proof. intros H. apply cder_Lg; [apply dv|apply v_off, H]. Qed.
  Let iN (k : nat) : C := RtoC (/ INR k).
  Lemma iN_inv k : Cmult (iN (S k)) (RtoC (INR (S k))) = RtoC 1.
  Proof. unfold iN. rewrite <- RtoC_mult, Rinv_l; [reflexivity|]. apply not_0_INR. lia. Qed.
  (** the logarithm *)
  Definition E0 (n : nat) (t : R) : C := Cminus (Copp (Lg (v t))) (csum n (fun k => Cmult (iN (S k)) (cpow (w t) (S k)))).
  Definition E0' (n : nat) (t : R) : C := Cdiv (Cmult z (cpow (w t) n)) (v t).
  Lemma dE0 n t : 0 <= t <= 1 -> cder (E0 n) t (E0' n t).
  Proof.
    intros H. pose proof (offC_neq _ (v_off t H)) as N. eapply cder_eq.
    - apply cder_minus; [apply cder_opp, dLv, H|]. apply (cder_csum n (fun k t => Cmult (iN (S k)) (cpow (w t) (S k))) (fun k => Cmult z (cpow (w t) k))). intros k _. eapply cder_eq; [apply cder_cmul, cder_pow, dw|]. cbv beta.
      rewrite !Cmult_assoc, iN_inv. ring.
    - cbv beta. unfold E0'. assert (G : csum n (fun k => Cmult z (cpow (w t) k)) = Cdiv (Cmult z (Cminus (RtoC 1) (cpow (w t) n))) (v t)).
      { rewrite <- (csum_geom z (w t) n). fold (v t). field. exact N. }
      rewrite G. field. exact N.
  Qed.
  Lemma w0 : w 0 = RtoC 0. Proof. unfold w. ring. Qed.
  Lemma v0 : v 0 = RtoC 1. Proof. unfold v. rewrite w0. ring. Qed.
  Lemma Lg1 : Lg (RtoC 1) = RtoC 0.
  Proof. unfold Lg. cbn [fst snd RtoC]. rewrite lnabs_1, arg_pos. reflexivity. Qed.
  Lemma csum_0 n (f : nat -> C) : (forall k, f k = RtoC 0) -> csum n f = RtoC 0.
  Proof. intros H. induction n as [|n IH]; cbn; [reflexivity|]. rewrite IH, H. ring. Qed.
  Lemma E0_0 n : E0 n 0 = RtoC 0.
  Proof. unfold E0. rewrite v0, Lg1, csum_0; [ring|]. intros k. rewrite w0. cbn [cpow]. ring. Qed.
  Lemma E0_bound n t : 0 < t <= 1 -> cle (E0 n t) (r ^ S n / (1 - r) / INR (S n) * t ^ S n).
  Proof.
    pose proof r_pos as R. revert t. apply (cbound (E0 n) (E0' n)).
    - apply Rcomplements.Rdiv_le_0_compat; [apply pow_le; lra|lra].
    - intros t Ht. apply dE0. lra.
    - intros t Ht. apply cle_mod. unfold E0'. rewrite Cmod_div by (apply offC_neq, v_off; lra). rewrite Cmod_mult, Cmod_pow, w_mod by lra. pose proof (v_mod t ltac:(lra)). fold r.
      rewrite Rpow_mult_distr. unfold Rdiv. replace (r ^ S n * / (1 - r) * t ^ n) with (r * (t ^ n * r ^ n) * / (1 - r)) by (cbn; ring). apply Rmult_le_compat_l.
      + apply Rmult_le_pos; [lra|]. apply Rmult_le_pos; apply pow_le; lra.
      + apply Rinv_le_contravar; lra.
    - eapply cvan_der; [apply dE0; lra|apply E0_0].
  Qed.
  (** its integral *)
  Definition E1 (n : nat) (t : R) : C :=
    Cminus (Cdiv (Cplus (w t) (Cmult (v t) (Lg (v t)))) z) (Cmult (RtoC t) (csum n (fun k => Cmult (Cmult (iN (S k)) (iN (S (S k)))) (cpow (w t) (S k))))).
  Lemma dE1 n t : 0 <= t <= 1 -> cder (E1 n) t (E0 n t).
  Proof.
    intros H. pose proof (offC_neq _ (v_off t H)) as N. eapply cder_eq.
    - apply cder_minus; [apply (cder_mult (fun t => Cplus (w t) (Cmult (v t) (Lg (v t)))) (fun _ => Cinv z)); [apply cder_plus; [apply dw|apply cder_mult; [apply dv|apply dLv, H]]|apply cder_const]|].
      apply cder_mult; [apply (cder_real (fun t => t) t 1); auto_derive; [exact Logic.I|reflexivity]|].
      apply (cder_csum n (fun k t => Cmult (Cmult (iN (S k)) (iN (S (S k)))) (cpow (w t) (S k))) (fun k => Cmult (iN (S (S k))) (Cmult z (cpow (w t) k)))). intros k _. eapply cder_eq; [apply cder_cmul, cder_pow, dw|]. cbv beta.
      replace (Cmult (Cmult (iN (S k)) (iN (S (S k)))) (Cmult (Cmult (RtoC (INR (S k))) z) (cpow (w t) k))) with (Cmult (Cmult (iN (S k)) (RtoC (INR (S k)))) (Cmult (iN (S (S k))) (Cmult z (cpow (w t) k)))) by ring. rewrite iN_inv. ring.
    - cbv beta. unfold E0. rewrite (csum_mul (RtoC t)).
      assert (G : Cplus (csum n (fun k => Cmult (Cmult (iN (S k)) (iN (S (S k)))) (cpow (w t) (S k)))) (csum n (fun k => Cmult (RtoC t) (Cmult (iN (S (S k))) (Cmult z (cpow (w t) k))))) = csum n (fun k => Cmult (iN (S k)) (cpow (w t) (S k)))).
      { clear. induction n as [|n IH]; cbn [csum]; [ring|]. rewrite <- IH. change (cpow (w t) (S n)) with (Cmult (w t) (cpow (w t) n)).
        assert (K : Cplus (Cmult (iN (S n)) (iN (S (S n)))) (iN (S (S n))) = iN (S n)).
        { unfold iN. rewrite <- RtoC_mult, <- RtoC_plus. f_equal. rewrite (S_INR (S n)). assert (0 < INR (S n)) by apply lt_0_INR, Nat.lt_0_succ. field. split; lra. }
        transitivity (Cplus (Cplus (csum n (fun k => Cmult (Cmult (iN (S k)) (iN (S (S k)))) (cpow (w t) (S k)))) (csum n (fun k => Cmult (RtoC t) (Cmult (iN (S (S k))) (Cmult z (cpow (w t) k)))))) (Cmult (Cplus (Cmult (iN (S n)) (iN (S (S n)))) (iN (S (S n)))) (Cmult (w t) (cpow (w t) n)))).
        - generalize (csum n (fun k => Cmult (Cmult (iN (S k)) (iN (S (S k)))) (cpow (w t) (S k)))) (csum n (fun k => Cmult (RtoC t) (Cmult (iN (S (S k))) (Cmult z (cpow (w t) k))))) (cpow (w t) n). intros A B P. unfold w. ring.
        - rewrite K. reflexivity. }
      rewrite <- G. field. split; [exact Nz|exact N].
  Qed.
  Lemma E1_0 n : E1 n 0 = RtoC 0.
  Proof. unfold E1. rewrite v0, Lg1, w0. field. exact Nz. Qed.
  Lemma E1_bound n t : 0 < t <= 1 -> cle (E1 n t) (r ^ S n / (1 - r) / INR (S n) / INR (S (S n)) * t ^ S (S n)).
  Proof.
    pose proof r_pos as R. revert t. apply (cbound (E1 n) (E0 n)).
    - apply Rcomplements.Rdiv_le_0_compat; [apply Rcomplements.Rdiv_le_0_compat; [apply pow_le; lra|lra]|apply lt_0_INR, Nat.lt_0_succ].
    - intros t Ht. apply dE1. lra.
    - intros t Ht. apply E0_bound, Ht.
    - eapply cvan_der; [apply dE1; lra|apply E1_0].
  Qed.
  (** the dilogarithm *)
  Definition Li (t : R) : C := (dilU (t * fst z) (t * snd z), dilV (t * fst z) (t * snd z)).
  Lemma z_slit : slit (fst z) (snd z).
  Proof. right. pose proof (re_le z) as K. apply Rabs_le_between in K. lra. Qed.
  Lemma v_eq t : v t = (1 - t * fst z, - (t * snd z)).
  Proof. unfold v, w, Cminus, Cplus, Copp, Cmult, RtoC. cbn. f_equal; ring. Qed.
  Lemma dLi t : 0 < t <= 1 -> cder Li t (Cmult (RtoC (/ t)) (E0 0 t)).
  Proof.
    intros H. unfold E0. cbn [csum]. rewrite v_eq. unfold Lg. cbn [fst snd]. pose proof z_slit as S1. split; cbn.
    - evar_last; [apply U_ray; [exact S1|exact H]|]. field. lra.
    - evar_last; [apply V_ray; [exact S1|exact H]|]. field. lra.
  Qed.
  Lemma Li_van : cvan Li.
  Proof.
    pose proof z_slit as S1. split; cbn; apply vanish_cont.
    - apply (continuity_pt_filterlim (fun t => dilU (t * fst z) (t * snd z))). apply U_ray_cont; [exact S1|lra].
    - rewrite !Rmult_0_l. apply dilU_0.
    - apply (continuity_pt_filterlim (fun t => dilV (t * fst z) (t * snd z))). apply V_ray_cont; [exact S1|lra].
    - rewrite !Rmult_0_l. apply dilV_0.
  Qed.
  Lemma cvan_minus f g : cvan f -> cvan g -> cvan (fun t => Cminus (f t) (g t)).
  Proof. intros [A B] [A' B']. split; cbn; apply vanish_plus; try assumption; apply vanish_opp; assumption. Qed.
  Lemma cle_scal a c b : cle c b -> cle (Cmult (RtoC a) c) (Rabs a * b).
  Proof. intros [A B]. split; cbn; [replace (a * fst c - 0 * snd c) with (a * fst c) by ring|replace (a * snd c + 0 * fst c) with (a * snd c) by ring]; rewrite Rabs_mult; apply Rmult_le_compat_l; auto using Rabs_pos. Qed.
  Lemma sum_van n (c : nat -> C) : cvan (fun t => csum n (fun k => Cmult (c k) (cpow (w t) (S k)))).
  Proof.
    eapply cvan_der.
    - apply (cder_csum n (fun k t => Cmult (c k) (cpow (w t) (S k)))). intros k _. apply cder_cmul, cder_pow, dw.
    - apply csum_0. intros k. rewrite w0. cbn [cpow]. ring.
  Qed.
  Definition S1 (n : nat) (t : R) : C := Cminus (Li t) (csum n (fun k => Cmult (Cmult (iN (S k)) (iN (S k))) (cpow (w t) (S k)))).
  Lemma tpow t k : t <> 0 -> Cmult z (cpow (w t) k) = Cmult (RtoC (/ t)) (cpow (w t) (S k)).
  Proof.
    intros H. cbn [cpow]. transitivity (Cmult (Cmult (RtoC (/ t)) (RtoC t)) (Cmult z (cpow (w t) k))).
    - rewrite <- RtoC_mult, Rinv_l by exact H. ring.
    - generalize (cpow (w t) k). intros P. unfold w. ring.
  Qed.
  Lemma dS1 n t : 0 < t <= 1 -> cder (S1 n) t (Cmult (RtoC (/ t)) (E0 n t)).
  Proof.
    intros H. eapply cder_eq.
    - apply cder_minus; [apply dLi, H|]. apply (cder_csum n (fun k t => Cmult (Cmult (iN (S k)) (iN (S k))) (cpow (w t) (S k))) (fun k => Cmult (RtoC (/ t)) (Cmult (iN (S k)) (cpow (w t) (S k))))). intros k _.
      eapply cder_eq; [apply cder_cmul, cder_pow, dw|]. cbv beta.
      transitivity (Cmult (Cmult (iN (S k)) (RtoC (INR (S k)))) (Cmult (iN (S k)) (Cmult z (cpow (w t) k)))); [ring|]. rewrite iN_inv, tpow by lra. ring.
    - rewrite <- csum_mul. unfold E0. cbn [csum]. ring.
  Qed.
  Lemma inv_scale K (t : R) n : 0 < t -> Rabs (/ t) * (K * t ^ S n) = K * t ^ n.
  Proof. intros H. rewrite Rabs_pos_eq by (left; apply Rinv_0_lt_compat, H). cbn. field. lra. Qed.
  Lemma pos1 n : 0 <= r ^ S n / (1 - r) / INR (S n).
  Proof. pose proof r_pos. apply Rcomplements.Rdiv_le_0_compat; [apply Rcomplements.Rdiv_le_0_compat; [apply pow_le; lra|lra]|apply lt_0_INR, Nat.lt_0_succ]. Qed.
  Lemma S1_bound n : cle (S1 n 1) (r ^ S n / (1 - r) / INR (S n) / INR (S n)).
  Proof.
    pose proof r_pos as R. replace (r ^ S n / (1 - r) / INR (S n) / INR (S n)) with (r ^ S n / (1 - r) / INR (S n) / INR (S n) * 1 ^ S n) by (rewrite pow1; apply Rmult_1_r). apply (cbound (S1 n) (fun t => Cmult (RtoC (/ t)) (E0 n t))); [apply pos1|intros; apply dS1; assumption| |apply cvan_minus; [apply Li_van|apply sum_van]|lra].
    intros t Ht. rewrite <- (inv_scale _ t n) by lra. apply cle_scal, E0_bound, Ht.
  Qed.
  Definition S2 (n : nat) (t : R) : C := Cminus (Cminus (Li t) (Cmult (RtoC (/ t)) (E1 0 t))) (csum n (fun k => Cmult (Cmult (Cmult (iN (S k)) (iN (S k))) (iN (S (S k)))) (cpow (w t) (S k)))).
  Lemma dS2 n t : 0 < t <= 1 -> cder (S2 n) t (Cmult (RtoC (/ t)) (Cmult (RtoC (/ t)) (E1 n t))).
  Proof.
    intros H. eapply cder_eq.
    - apply cder_minus; [apply cder_minus; [apply dLi, H|apply cder_mult; [apply (cder_real Rinv t (- / t ^ 2)); auto_derive; [lra|field; lra]|apply dE1; lra]]|].
      apply (cder_csum n (fun k t => Cmult (Cmult (Cmult (iN (S k)) (iN (S k))) (iN (S (S k)))) (cpow (w t) (S k))) (fun k => Cmult (RtoC (/ t)) (Cmult (Cmult (iN (S k)) (iN (S (S k)))) (cpow (w t) (S k))))). intros k _.
      eapply cder_eq; [apply cder_cmul, cder_pow, dw|]. cbv beta.
      transitivity (Cmult (Cmult (iN (S k)) (RtoC (INR (S k)))) (Cmult (iN (S k)) (Cmult (iN (S (S k))) (Cmult z (cpow (w t) k))))); [ring|]. rewrite iN_inv, tpow by lra. ring.
    - rewrite <- csum_mul. cbv beta. unfold E1 at 2. unfold E1. cbn [csum].
      replace (RtoC (- / t ^ 2)) with (Copp (Cmult (RtoC (/ t)) (RtoC (/ t)))) by (rewrite <- RtoC_mult, <- RtoC_opp; f_equal; cbn; field; lra).
      assert (T : Cmult (RtoC (/ t)) (RtoC t) = RtoC 1) by (rewrite <- RtoC_mult, Rinv_l by lra; reflexivity).
      generalize dependent (csum n (fun k => Cmult (Cmult (iN (S k)) (iN (S (S k)))) (cpow (w t) (S k)))). generalize (Cdiv (Cplus (w t) (Cmult (v t) (Lg (v t)))) z). intros A B.
      transitivity (Cminus (Cmult (RtoC (/ t)) (Cmult (RtoC (/ t)) A)) (Cmult (RtoC (/ t)) (Cmult (RtoC 1) B))); [ring|]. rewrite <- T. ring.
  Qed.
  Lemma E1_van : cvan (fun t => Cmult (RtoC (/ t)) (E1 0 t)).
  Proof.
    assert (B : forall t, 0 < t < 1 -> cle (Cmult (RtoC (/ t)) (E1 0 t)) (r ^ 1 / (1 - r) / INR 1 / INR 2 * t ^ 1)).
    { intros t Ht. rewrite <- (inv_scale _ t 1) by lra. apply cle_scal, E1_bound. lra. }
    assert (P : 0 <= r ^ 1 / (1 - r) / INR 1 / INR 2) by (apply Rcomplements.Rdiv_le_0_compat; [apply pos1|cbn; lra]).
    split; apply (vanish_le _ (fun t => r ^ 1 / (1 - r) / INR 1 / INR 2 * t ^ 1) 1); try lra; try apply vanish_pow; intros t Ht; (rewrite (Rabs_pos_eq (_ * _)); [apply B, Ht|apply Rmult_le_pos; [exact P|apply pow_le; lra]]).
  Qed.
  Lemma S2_bound n : cle (S2 n 1) (r ^ S n / (1 - r) / INR (S n) / INR (S (S n)) / INR (S n)).
  Proof.
    pose proof r_pos as R. replace (r ^ S n / (1 - r) / INR (S n) / INR (S (S n)) / INR (S n)) with (r ^ S n / (1 - r) / INR (S n) / INR (S (S n)) / INR (S n) * 1 ^ S n) by (rewrite pow1; apply Rmult_1_r).
    apply (cbound (S2 n) (fun t => Cmult (RtoC (/ t)) (Cmult (RtoC (/ t)) (E1 n t)))); [apply Rcomplements.Rdiv_le_0_compat; [apply pos1|apply lt_0_INR, Nat.lt_0_succ]|intros; apply dS2; assumption| |apply cvan_minus; [apply cvan_minus; [apply Li_van|apply E1_van]|apply sum_van]|lra].
    intros t Ht. rewrite <- (inv_scale _ t n) by lra. apply cle_scal. rewrite <- (inv_scale _ t (S n)) by lra. apply cle_scal, E1_bound, Ht.
  Qed.
End Ray.
