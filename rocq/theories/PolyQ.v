(** Polynomials with rational coefficients, evaluated in R; change to the Chebyshev basis and a bound on an interval.  Used to check the
    coefficient tables of the special functions by computation. *)
From Coq Require Import QArith Qreals Qabs.
From Verif Require Import Base RSumLib M_Specfunc.
Local Close Scope Q_scope. Open Scope R_scope.

Definition qplus (a b : Q) : Q := Qred (a + b)%Q.
Definition qmult (a b : Q) : Q := Qred (a * b)%Q.
Lemma Q2R_red a : Q2R (Qred a) = Q2R a. Proof. apply Qeq_eqR, Qred_correct. Qed.
Lemma qplus_R a b : Q2R (qplus a b) = Q2R a + Q2R b. Proof. unfold qplus. rewrite Q2R_red. apply Q2R_plus. Qed.
Lemma qmult_R a b : Q2R (qmult a b) = Q2R a * Q2R b. Proof. unfold qmult. rewrite Q2R_red. apply Q2R_mult. Qed.

(** ** monomial basis *)
Fixpoint peval (p : list Q) (w : R) : R := match p with [] => 0 | a :: r => Q2R a + w * peval r w end.
Fixpoint padd (p q : list Q) : list Q := match p, q with [], _ => q | _, [] => p | a :: r, b :: s => qplus a b :: padd r s end.
Definition pscal (c : Q) (p : list Q) : list Q := map (qmult c) p.
Fixpoint pmul (p q : list Q) : list Q := match p with [] => [] | a :: r => padd (pscal a q) (0%Q :: pmul r q) end.
Definition popp (p : list Q) : list Q := pscal (-1)%Q p.
Lemma Q2R_0 : Q2R 0 = 0. Proof. unfold Q2R. cbn. lra. Qed.
Lemma Q2R_m1 : Q2R (-1) = -1. Proof. unfold Q2R. cbn. lra. Qed.
Lemma peval_add p w : forall q, peval (padd p q) w = peval p w + peval q w.
Proof. induction p as [|a r IH]; intros [|b s]; cbn [padd peval]; try ring. rewrite qplus_R, IH. ring. Qed.
Lemma peval_scal c p w : peval (pscal c p) w = Q2R c * peval p w.
Proof. unfold pscal. induction p as [|a r IH]; cbn [map peval]; [ring|]. rewrite qmult_R, IH. ring. Qed.
Lemma peval_mul p q w : peval (pmul p q) w = peval p w * peval q w.
Proof. induction p as [|a r IH]; cbn [pmul peval]; [ring|]. rewrite peval_add, peval_scal. cbn [peval]. rewrite IH, Q2R_0. ring. Qed.
Lemma peval_opp p w : peval (popp p) w = - peval p w.
Proof. unfold popp. rewrite peval_scal, Q2R_m1. ring. Qed.
Lemma peval_rsum p w : peval p w = rsum (length p) (fun j => Q2R (nth j p 0%Q) * w ^ j).
Proof.
  induction p as [|a r IH]; [reflexivity|]. cbn [length peval]. rewrite rsum_Sl. cbn [nth pow]. rewrite Rmult_1_r. f_equal. rewrite IH, <- rsum_scal. apply rsum_ext. intros j _. cbn. ring.
Qed.
Lemma peval_seq f m w : peval (map f (seq 0 m)) w = rsum m (fun j => Q2R (f j) * w ^ j).
Proof.
  rewrite peval_rsum, map_length, seq_length. apply rsum_ext. intros j Hj. f_equal. f_equal. rewrite (nth_indep _ 0%Q (f 0%nat)) by (rewrite map_length, seq_length; exact Hj). rewrite map_nth, seq_nth by exact Hj. reflexivity.
Qed.

(** the polynomial that [cheb_eval] evaluates, with y given as a polynomial *)
Definition cheb_poly (c : list Q) (y : list Q) : list Q :=
  let '(d, dd) := fold_left (fun '(d, dd) ci => (padd (padd (pscal 2%Q (pmul y d)) (popp dd)) [ci], d)) (rev (tl c)) ([], []) in
  padd (padd (pmul y d) (popp dd)) [qmult (1 # 2) (hd 0%Q c)].
Lemma Q2R_2 : Q2R 2 = 2. Proof. unfold Q2R. cbn. lra. Qed.
Lemma Q2R_half : Q2R (1 # 2) = 1 / 2. Proof. unfold Q2R. cbn. lra. Qed.
Lemma cheb_poly_eval c y w : peval (cheb_poly c y) w = cheb_eval (map Q2R c) (peval y w) (-1) 1.
Proof.
  unfold cheb_poly, cheb_eval. replace ((2 * peval y w - -1 - 1) / (1 - -1)) with (peval y w) by field.
  assert (E : forall l d dd d' dd', peval d w = d' -> peval dd w = dd' ->
    let '(e, ee) := fold_left (fun '(d, dd) ci => (padd (padd (pscal 2%Q (pmul y d)) (popp dd)) [ci], d)) l (d, dd) in
    let '(e', ee') := fold_left (fun '(d, dd) ci => (2 * peval y w * d - dd + ci, d)) (map Q2R l) (d', dd') in peval e w = e' /\ peval ee w = ee').
  { induction l as [|a l IH]; intros d dd d' dd' H1 H2; cbn [fold_left map]; [auto|]. apply IH; [|exact H1].
    rewrite !peval_add, peval_scal, peval_mul, peval_opp, H1, H2, Q2R_2. cbn [peval]. ring. }
  replace (rev (tl (map Q2R c))) with (map Q2R (rev (tl c))) by (rewrite map_rev; destruct c; reflexivity).
  specialize (E (rev (tl c)) [] [] 0 0 eq_refl eq_refl). destruct (fold_left _ (rev (tl c)) _) as [d dd]. destruct (fold_left _ (map Q2R _) _) as [d' dd']. destruct E as [E1 E2].
  rewrite !peval_add, peval_mul, peval_opp, E1, E2. cbn [peval]. rewrite qmult_R, Q2R_half. replace (hd 0 (map Q2R c)) with (Q2R (hd 0%Q c)) by (destruct c; cbn; [apply Q2R_0|reflexivity]). ring.
Qed.

(** ** Chebyshev basis: a list of coefficients of cos (j t) *)
Fixpoint teval (n : nat) (c : list Q) (t : R) : R := match c with [] => 0 | a :: r => Q2R a * cos (INR n * t) + teval (S n) r t end.
Definition muly (c : list Q) : list Q :=
  match c with [] => [] | a :: r => padd (0%Q :: pscal (1 # 2) c) (padd (pscal (1 # 2) r) [0%Q; qmult (1 # 2) a]) end.
(** a polynomial in w = h (1 + cos t), by Horner's rule *)
Fixpoint tocheb (h : Q) (p : list Q) : list Q := match p with [] => [] | a :: r => let c := tocheb h r in padd [a] (pscal h (padd c (muly c))) end.
Lemma teval_add p t : forall n q, teval n (padd p q) t = teval n p t + teval n q t.
Proof. induction p as [|a r IH]; intros n [|b s]; cbn [padd teval]; try ring. rewrite qplus_R, IH. ring. Qed.
Lemma teval_scal c p t : forall n, teval n (pscal c p) t = Q2R c * teval n p t.
Proof. unfold pscal. induction p as [|a r IH]; intros n; cbn [map teval]; [ring|]. rewrite qmult_R, IH. ring. Qed.
Lemma teval_shift r t : forall n, teval (S (S n)) r t + teval n r t = 2 * cos t * teval (S n) r t.
Proof.
  induction r as [|a r IH]; intros n; cbn [teval]; [ring|]. specialize (IH (S n)).
  assert (C : cos (INR (S (S n)) * t) + cos (INR n * t) = 2 * cos t * cos (INR (S n) * t)).
  { rewrite !S_INR. replace ((INR n + 1 + 1) * t) with ((INR n + 1) * t + t) by ring. replace (INR n * t) with ((INR n + 1) * t - t) by ring. rewrite cos_plus, cos_minus. ring. }
  nra.
Qed.
Lemma teval_muly c t : teval 0 (muly c) t = cos t * teval 0 c t.
Proof.
  destruct c as [|a r]; [cbn; ring|]. unfold muly. rewrite !teval_add. change (pscal (1 # 2) (a :: r)) with (qmult (1 # 2) a :: pscal (1 # 2) r). cbn [teval]. rewrite !teval_scal, !qmult_R, Q2R_half, Q2R_0.
  pose proof (teval_shift r t 0) as S. cbn [INR] in *. rewrite (Rmult_0_l t), cos_0. rewrite !(Rmult_1_l t) in *. nra.
Qed.
Lemma tocheb_eval h p t : teval 0 (tocheb h p) t = peval p (Q2R h * (1 + cos t)).
Proof.
  induction p as [|a r IH]; [reflexivity|]. cbn [tocheb peval]. rewrite teval_add, teval_scal, teval_add, teval_muly, IH. cbn [teval INR]. rewrite (Rmult_0_l t), cos_0. ring.
Qed.
Definition sumabs (c : list Q) : Q := fold_right (fun a s => qplus (Qabs a) s) 0%Q c.
Lemma Q2R_abs a : Q2R (Qabs a) = Rabs (Q2R a).
Proof.
  unfold Q2R, Qabs. destruct a as [n d]. cbn. rewrite Rabs_mult, abs_IZR. f_equal. rewrite Rabs_pos_eq; [reflexivity|]. left. apply Rinv_0_lt_compat. apply IZR_lt. reflexivity.
Qed.
Lemma teval_bound c t : forall n, Rabs (teval n c t) <= Q2R (sumabs c).
Proof.
  induction c as [|a r IH]; intros n; cbn [teval sumabs fold_right]; [rewrite Rabs_R0, Q2R_0; lra|]. rewrite qplus_R, Q2R_abs. eapply Rle_trans; [apply Rabs_triang|]. apply Rplus_le_compat; [|apply IH].
  rewrite Rabs_mult. rewrite <- (Rmult_1_r (Rabs (Q2R a))) at 2. apply Rmult_le_compat_l; [apply Rabs_pos|]. apply Rabs_le. pose proof (COS_bound (INR n * t)). lra.
Qed.
(** a bound valid on [0, 2h] *)
Lemma peval_bound h p b w : 0 < Q2R h -> 0 <= w <= 2 * Q2R h -> Qle_bool (sumabs (tocheb h p)) b = true -> Rabs (peval p w) <= Q2R b.
Proof.
  intros Hh Hw Hb. assert (Hy : -1 <= w / Q2R h - 1 <= 1). { split; [assert (0 <= w / Q2R h) by (apply Rmult_le_pos; [lra|left; apply Rinv_0_lt_compat, Hh]); lra|]. assert (w / Q2R h <= 2); [|lra]. apply Rmult_le_reg_r with (Q2R h); [exact Hh|]. unfold Rdiv. rewrite Rmult_assoc, Rinv_l by lra. lra. }
  assert (E : w = Q2R h * (1 + cos (acos (w / Q2R h - 1)))) by (rewrite cos_acos by exact Hy; field; lra).
  rewrite E, <- tocheb_eval. eapply Rle_trans; [apply teval_bound|]. apply Qle_Rle, Qle_bool_iff, Hb.
Qed.
