(** Polynomials with integer coefficients, for checks by computation: rational polynomials are cleared of denominators first. *)
From Coq Require Import QArith Qreals Qabs.
From Verif Require Import Base RSumLib M_Specfunc PolyQ.
Local Close Scope Q_scope. Open Scope R_scope.

Fixpoint zeval (p : list Z) (z : R) : R := match p with [] => 0 | a :: r => IZR a + z * zeval r z end.
Fixpoint zadd (p q : list Z) : list Z := match p, q with [], _ => q | _, [] => p | a :: r, b :: s => (a + b)%Z :: zadd r s end.
Definition zscal (c : Z) (p : list Z) : list Z := map (Z.mul c) p.
Fixpoint zmul (p q : list Z) : list Z := match p with [] => [] | a :: r => zadd (zscal a q) (0%Z :: zmul r q) end.
Lemma zeval_add p w : forall q, zeval (zadd p q) w = zeval p w + zeval q w.
Proof. induction p as [|a r IH]; intros [|b s]; cbn [zadd zeval]; try ring. rewrite plus_IZR, IH. ring. Qed.
Lemma zeval_scal c p w : zeval (zscal c p) w = IZR c * zeval p w.
Proof. unfold zscal. induction p as [|a r IH]; cbn [map zeval]; [ring|]. rewrite mult_IZR, IH. ring. Qed.
Lemma zeval_mul p q w : zeval (zmul p q) w = zeval p w * zeval q w.
Proof. induction p as [|a r IH]; cbn [zmul zeval]; [ring|]. rewrite zeval_add, zeval_scal. cbn [zeval]. rewrite IH. ring. Qed.

(** S p(h z), if all its coefficients are integers *)
Fixpoint toZ (S h : Z) (p : list Q) : option (list Z) :=
  match p with
  | [] => Some []
  | a :: r => let q := (S / Zpos (Qden a))%Z in
              if (q * Zpos (Qden a) =? S)%Z then option_map (cons (Qnum a * q)%Z) (toZ (S * h) h r) else None
  end.
Lemma toZ_eval h z : forall p S l, toZ S h p = Some l -> zeval l z = IZR S * peval p (IZR h * z).
Proof.
  induction p as [|a r IH]; intros S l H; cbn [toZ] in H; [injection H as <-; cbn; ring|]. destruct (_ =? S)%Z eqn:E; [|discriminate]. apply Z.eqb_eq in E. set (q := (S / Zpos (Qden a))%Z) in *. clearbody q.
  destruct (toZ (S * h) h r) as [l'|] eqn:F; [|discriminate]. injection H as <-. cbn [zeval peval]. rewrite (IH _ _ F), <- E, !mult_IZR. unfold Q2R. field. apply IZR_neq. discriminate.
Qed.

Fixpoint zteval (n : nat) (c : list Z) (t : R) : R := match c with [] => 0 | a :: r => IZR a * cos (INR n * t) + zteval (S n) r t end.
Definition mul2y (c : list Z) : list Z := match c with [] => [] | a :: r => zadd (0%Z :: c) (zadd r [0%Z; a]) end.
(** 4^(length p) p(z) for z = (1 + cos t) / 2; the power is passed along *)
Fixpoint ztocheb (p : list Z) : list Z * Z :=
  match p with [] => ([], 1%Z) | a :: r => let '(c, k) := ztocheb r in (zadd [a * (4 * k)]%Z (zadd (zscal 2 c) (mul2y c)), (4 * k)%Z) end.
Lemma zteval_add p t : forall n q, zteval n (zadd p q) t = zteval n p t + zteval n q t.
Proof. induction p as [|a r IH]; intros n [|b s]; cbn [zadd zteval]; try ring. rewrite plus_IZR, IH. ring. Qed.
Lemma zteval_scal c p t : forall n, zteval n (zscal c p) t = IZR c * zteval n p t.
Proof. unfold zscal. induction p as [|a r IH]; intros n; cbn [map zteval]; [ring|]. rewrite mult_IZR, IH. ring. Qed.
Lemma zteval_shift r t : forall n, zteval (S (S n)) r t + zteval n r t = 2 * cos t * zteval (S n) r t.
Proof.
  induction r as [|a r IH]; intros n; cbn [zteval]; [ring|]. specialize (IH (S n)).
  assert (C : cos (INR (S (S n)) * t) + cos (INR n * t) = 2 * cos t * cos (INR (S n) * t)).
  { rewrite !S_INR. replace ((INR n + 1 + 1) * t) with ((INR n + 1) * t + t) by ring. replace (INR n * t) with ((INR n + 1) * t - t) by ring. rewrite cos_plus, cos_minus. ring. }
  nra.
Qed.
Lemma zteval_mul2y c t : zteval 0 (mul2y c) t = 2 * cos t * zteval 0 c t.
Proof.
  destruct c as [|a r]; [cbn; ring|]. unfold mul2y. rewrite !zteval_add. cbn [zteval]. pose proof (zteval_shift r t 0) as S. cbn [INR] in *. rewrite (Rmult_0_l t), cos_0. rewrite !(Rmult_1_l t) in *. nra.
Qed.
Lemma ztocheb_eval p t : zteval 0 (fst (ztocheb p)) t = IZR (snd (ztocheb p)) * zeval p ((1 + cos t) / 2) /\ (0 < snd (ztocheb p))%Z.
Proof.
  induction p as [|a r IH]; [cbn; split; [ring|lia]|]. cbn [ztocheb zeval]. destruct (ztocheb r) as [c k]. cbn [fst snd] in *. destruct IH as [IH Hk]. split; [|lia].
  rewrite !zteval_add, zteval_scal, zteval_mul2y, IH. cbn [zteval INR]. rewrite (Rmult_0_l t), cos_0, !mult_IZR. field.
Qed.
Definition zsumabs (c : list Z) : Z := fold_right (fun a s => (Z.abs a + s)%Z) 0%Z c.
Lemma zteval_bound c t : forall n, Rabs (zteval n c t) <= IZR (zsumabs c).
Proof.
  induction c as [|a r IH]; intros n; cbn [zteval zsumabs fold_right]; [rewrite Rabs_R0; lra|]. rewrite plus_IZR, abs_IZR. eapply Rle_trans; [apply Rabs_triang|]. apply Rplus_le_compat; [|apply IH].
  rewrite Rabs_mult. rewrite <- (Rmult_1_r (Rabs (IZR a))) at 2. apply Rmult_le_compat_l; [apply Rabs_pos|]. apply Rabs_le. pose proof (COS_bound (INR n * t)). lra.
Qed.
(** |p(z)| <= S b on [0, 1] *)
Definition zbound (p : list Z) (S : Z) (b : Q) : bool := let '(c, k) := ztocheb p in (zsumabs c * Zpos (Qden b) <=? Qnum b * S * k)%Z.
Lemma zbound_R p S b z : 0 <= z <= 1 -> zbound p S b = true -> Rabs (zeval p z) <= IZR S * Q2R b.
Proof.
  intros Hz H. unfold zbound in H. pose proof (ztocheb_eval p (acos (2 * z - 1))) as [E K]. rewrite cos_acos in E by lra. replace ((1 + (2 * z - 1)) / 2) with z in E by field. destruct (ztocheb p) as [c k]. cbn [fst snd] in *.
  apply Z.leb_le, IZR_le in H. rewrite !mult_IZR in H. pose proof (zteval_bound c (acos (2 * z - 1)) 0) as B. rewrite E, Rabs_mult, Rabs_pos_eq in B by (apply IZR_le; lia). apply IZR_lt in K. unfold Q2R. assert (D : 0 < IZR (Zpos (Qden b))) by (apply IZR_lt; reflexivity).
  set (d := IZR (Zpos (Qden b))) in *. apply (Rmult_le_reg_l (IZR k * d)); [apply Rmult_lt_0_compat; assumption|]. replace (IZR k * d * (IZR S * (IZR (Qnum b) * / d))) with (IZR (Qnum b) * IZR S * IZR k) by (field; lra). nra.
Qed.
