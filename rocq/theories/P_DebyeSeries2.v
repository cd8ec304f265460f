(** Accuracy of the Debye functions: coefficient tables up to 4, exponential series above. *)
From Coq Require Import QArith Qreals Qabs.
From Coquelicot Require Import Coquelicot.
From Verif Require Import Base RSumLib Ext S_Archimedean P_Debye P_Debye2 M_Specfunc M_DebyeSeries PolyQ PolyZ P_Basel P_Dilog P_DebyeSeries.
From Coq Require Import Psatz.
Local Close Scope Q_scope. Open Scope R_scope.

(** ** decimals as rationals *)
Definition qdec (p : Z * Z) : Q := Qred (inject_Z (fst p) / inject_Z (10 ^ snd p))%Q.
Lemma qdec_R p : (0 <= snd p)%Z -> Q2R (qdec p) = decimal p.
Proof.
  intros H. unfold qdec, decimal. rewrite Q2R_red, Q2R_div.
  - unfold Q2R, inject_Z. cbn [Qnum Qden]. replace (10 ^ Z.to_nat (snd p)) with (IZR (10 ^ snd p)); [field|rewrite <- (Z2Nat.id (snd p)) at 1 by exact H; rewrite <- pow_IZR; reflexivity].
    apply not_0_IZR. apply Z.pow_nonzero; lia.
  - unfold Qeq, inject_Z. cbn. rewrite Z.mul_1_r. intros E. apply (Z.pow_nonzero 10 (snd p)); lia.
Qed.
Lemma decimals_R l : forallb (fun p => (0 <=? snd p)%Z) l = true -> map decimal l = map Q2R (map qdec l).
Proof. intros H. rewrite map_map. apply map_ext_in. intros p Hp. symmetry. apply qdec_R. rewrite forallb_forall in H. apply Z.leb_le, H, Hp. Qed.

(** ** derivative of x^a p(x^2) *)
Definition weight (a b : nat) (p : list Q) : list Q := map (fun jc => qmult (inject_Z (Z.of_nat (a * fst jc + b))) (snd jc)) (combine (seq 0 (length p)) p).
Lemma qnat_R n : Q2R (inject_Z (Z.of_nat n)) = INR n.
Proof. unfold Q2R, inject_Z. cbn [Qnum Qden]. rewrite INR_IZR_INZ. field. Qed.
Lemma weight_gen a b w : forall p s, peval (map (fun jc => qmult (inject_Z (Z.of_nat (a * fst jc + b))) (snd jc)) (combine (seq s (length p)) p)) w
  = rsum (length p) (fun j => INR (a * (s + j) + b) * Q2R (nth j p 0%Q) * w ^ j).
Proof.
  induction p as [|c p IH]; intros s; [reflexivity|]. cbn [length seq combine map peval fst snd]. rewrite IH, qmult_R, qnat_R, rsum_Sl. cbn [nth pow]. rewrite Nat.add_0_r, Rmult_1_r. f_equal. rewrite <- rsum_scal. apply rsum_ext. intros j _. replace (S s + j)%nat with (s + S j)%nat by lia. ring.
Qed.
Lemma weight_eval a b p w : peval (weight a b p) w = rsum (length p) (fun j => INR (a * j + b) * Q2R (nth j p 0%Q) * w ^ j).
Proof. unfold weight. rewrite weight_gen. reflexivity. Qed.
Lemma pow_derive c k x : is_derive (fun x => c * x ^ S k) x (c * (INR (S k) * x ^ k)).
Proof. auto_derive; [exact Logic.I|]. fixinr. ring. Qed.
Lemma d1_poly p x : is_derive (fun x => x * peval p (x ^ 2)) x (peval (weight 2 1 p) (x ^ 2)).
Proof.
  rewrite weight_eval. apply (is_derive_ext (fun x => rsum (length p) (fun j => Q2R (nth j p 0%Q) * x ^ S (2 * j)))).
  { intros t. rewrite peval_rsum, <- rsum_scal. apply rsum_ext. intros j _. rewrite <- pow_mult. cbn [pow]. ring. }
  apply (is_derive_rsum (length p) (fun j x => Q2R (nth j p 0%Q) * x ^ S (2 * j))). intros j _. replace (2 * j + 1)%nat with (S (2 * j)) by lia. rewrite <- pow_mult. generalize (2 * j)%nat. intros k. auto_derive; [exact Logic.I|]. fixinr. ring.
Qed.
Lemma d2_poly p x : is_derive (fun x => x ^ 2 / 2 * peval p (x ^ 2)) x (x * peval (weight 1 1 p) (x ^ 2)).
Proof.
  rewrite weight_eval, <- rsum_scal. apply (is_derive_ext (fun x => rsum (length p) (fun j => Q2R (nth j p 0%Q) / 2 * x ^ S (S (2 * j))))).
  { intros t. rewrite peval_rsum, <- rsum_scal. apply rsum_ext. intros j _. rewrite <- pow_mult. cbn [pow]. field. }
  apply (is_derive_rsum (length p) (fun j x => Q2R (nth j p 0%Q) / 2 * x ^ S (S (2 * j)))). intros j _.
  rewrite <- pow_mult. replace (INR (1 * j + 1)) with (INR (S (S (2 * j))) / 2). 2:{ replace (S (S (2 * j))) with (2 * (1 * j + 1))%nat by lia. rewrite mult_INR. cbn [INR]. field. }
  replace (x * (INR (S (S (2 * j))) / 2 * Q2R (nth j p 0%Q) * x ^ (2 * j))) with (Q2R (nth j p 0%Q) / 2 * (INR (S (S (2 * j))) * x ^ S (2 * j))) by (change (x ^ S (2 * j)) with (x * x ^ (2 * j)); field). apply pow_derive.
Qed.

(** ** approximations by p(x^2) minus a linear term *)
Lemma debye1_of_kernel p d x : 0 < x -> (forall t, 0 < t <= x -> Rabs (peval (weight 2 1 p) (t ^ 2) - (k1 t + t / 2)) <= d) -> Rabs (peval p (x ^ 2) - x / 4 - debye 1 x) <= d.
Proof.
  intros Hx B. set (f := fun x => x * peval p (x ^ 2) - x ^ 2 / 4 - RInt k1 0 x).
  destruct (MVT_cor2 f (fun t => peval (weight 2 1 p) (t ^ 2) - t / 2 - k1 t) 0 x Hx) as [c [E Hc]].
  { intros t _. apply is_derive_Reals. apply (is_derive_minus (K := R_AbsRing) (V := R_NormedModule) (fun x => x * peval p (x ^ 2) - x ^ 2 / 4) (fun x => RInt k1 0 x)); [|apply debye_int_derive].
    apply (is_derive_minus (K := R_AbsRing) (V := R_NormedModule) (fun x => x * peval p (x ^ 2)) (fun x => x ^ 2 / 4)); [apply d1_poly|]. auto_derive; [exact Logic.I|field]. }
  assert (F0 : f 0 = 0) by (unfold f; rewrite int_0; field). rewrite F0, !Rminus_0_r in E. specialize (B c ltac:(lra)).
  replace (peval p (x ^ 2) - x / 4 - debye 1 x) with (f x * / x) by (unfold f, debye; cbn [INR]; field; lra). rewrite E, Rmult_assoc, Rinv_r, Rmult_1_r by lra.
  replace (peval (weight 2 1 p) (c ^ 2) - c / 2 - k1 c) with (peval (weight 2 1 p) (c ^ 2) - (k1 c + c / 2)) by ring. exact B.
Qed.
Lemma debye2_of_kernel p d x : 0 < x -> (forall t, 0 < t <= x -> Rabs (peval (weight 1 1 p) (t ^ 2) - (k1 t + t / 2)) <= d) -> Rabs (peval p (x ^ 2) - x / 3 - debye 2 x) <= 2 * d.
Proof.
  intros Hx B. set (f := fun x => x ^ 2 / 2 * peval p (x ^ 2) - x ^ 3 / 6 - RInt k2 0 x).
  destruct (MVT_cor2 f (fun t => t * peval (weight 1 1 p) (t ^ 2) - t ^ 2 / 2 - k2 t) 0 x Hx) as [c [E Hc]].
  { intros t _. apply is_derive_Reals. apply (is_derive_minus (K := R_AbsRing) (V := R_NormedModule) (fun x => x ^ 2 / 2 * peval p (x ^ 2) - x ^ 3 / 6) (fun x => RInt k2 0 x)); [|apply int2_derive].
    apply (is_derive_minus (K := R_AbsRing) (V := R_NormedModule) (fun x => x ^ 2 / 2 * peval p (x ^ 2)) (fun x => x ^ 3 / 6)); [apply d2_poly|]. auto_derive; [exact Logic.I|field]. }
  assert (F0 : f 0 = 0) by (unfold f; rewrite int_0; field). rewrite F0, !Rminus_0_r in E. specialize (B c ltac:(lra)). rewrite k2_k1 in E.
  replace (peval p (x ^ 2) - x / 3 - debye 2 x) with (2 * (f x * / (x * x))) by (unfold f, debye; cbn [INR]; field; lra). rewrite E.
  replace ((c * peval (weight 1 1 p) (c ^ 2) - c ^ 2 / 2 - c * k1 c) * x * / (x * x)) with ((peval (weight 1 1 p) (c ^ 2) - (k1 c + c / 2)) * (c * / x)) by (field; lra).
  rewrite Rabs_mult, (Rabs_pos_eq 2) by lra. apply Rmult_le_compat_l; [lra|]. rewrite Rabs_mult. rewrite <- (Rmult_1_r d). apply Rmult_le_compat; try apply Rabs_pos; [exact B|].
  assert (0 < / x) by (apply Rinv_0_lt_compat, Hx). rewrite Rabs_pos_eq by (apply Rmult_le_pos; lra). rewrite <- (Rinv_r x) by lra. apply Rmult_le_compat_r; lra.
Qed.

(** ** the tables *)
Definition arg : list Q := [(-1)%Q; (1 # 8)%Q].
Definition p1 : list Q := cheb_poly (map qdec debye1_decimals) arg.
Definition p2 : list Q := cheb_poly (map qdec debye2_decimals) arg.
Definition e16 (n : Z) : Q := (n # 1000000000000000000)%Q.
Definition S35 : Z := 10333147966386144929666651337523200000000%Z.
Definition S19 : Z := 20000000000000000000%Z.
Lemma check1 : kernel_cheb_check S19 S35 (weight 2 1 p1) 10 (e16 246) = true. Proof. vm_compute. reflexivity. Qed.
Lemma check2 : kernel_cheb_check S19 S35 (weight 1 1 p2) 10 (e16 19) = true. Proof. vm_compute. reflexivity. Qed.
Definition s1 : list Q := [1%Q; (1 # 36)%Q].
Definition s2 : list Q := [1%Q; (1 # 24)%Q].
Lemma check3 : kernel_check (hbound (1 # 100000000000000)%Q) (weight 2 1 s1) 10 (e16 1) = true. Proof. vm_compute. reflexivity. Qed.
Lemma check4 : kernel_check (hbound (1 # 100000000000000)%Q) (weight 1 1 s2) 10 (e16 1) = true. Proof. vm_compute. reflexivity. Qed.
Lemma arg_eval x : peval arg (x ^ 2) = x * x / 8 - 1.
Proof. unfold arg, peval, Q2R. cbn. field. Qed.
Lemma e16_R n : Q2R (e16 n) = IZR n / 10 ^ 18.
Proof. unfold e16, Q2R. cbn [Qnum Qden]. replace (10 ^ 18) with 1000000000000000000 by (cbn [pow]; lra). reflexivity. Qed.
Lemma Q2R_int n : Q2R (inject_Z n) = IZR n. Proof. unfold Q2R, inject_Z. cbn. field. Qed.
Lemma TAIL_small : TAIL * 11 <= / 10 ^ 18.
Proof. unfold TAIL. cbn [pow]. lra. Qed.
Lemma p1_eval x : cheb_eval debye1_constant (x * x / 8 - 1) (-1) 1 = peval p1 (x ^ 2).
Proof. unfold debye1_constant, p1. rewrite decimals_R by reflexivity. rewrite <- arg_eval, cheb_poly_eval. reflexivity. Qed.
Lemma p2_eval x : cheb_eval debye2_constant (x * x / 8 - 1) (-1) 1 = peval p2 (x ^ 2).
Proof. unfold debye2_constant, p2. rewrite decimals_R by reflexivity. rewrite <- arg_eval, cheb_poly_eval. reflexivity. Qed.
Opaque p1 p2.
Lemma table1 x : 0 < x <= 4 -> Rabs (cheb_eval debye1_constant (x * x / 8 - 1) (-1) 1 - 1 / 4 * x - debye 1 x) <= 247 / 10 ^ 18.
Proof.
  intros Hx. rewrite p1_eval. replace (1 / 4 * x) with (x / 4) by field. apply debye1_of_kernel; [lra|].
  intros t Ht. eapply Rle_trans; [apply (kernel_cheb S19 S35 _ 10 (e16 246) t); [exact check1|lra]|]. rewrite e16_R. replace (Q2R 10) with 10 by (unfold Q2R; cbn; field). pose proof TAIL_small. lra.
Qed.
Lemma table2 x : 0 < x <= 4 -> Rabs (cheb_eval debye2_constant (x * x / 8 - 1) (-1) 1 - x / 3 - debye 2 x) <= 40 / 10 ^ 18.
Proof.
  intros Hx. rewrite p2_eval. replace (40 / 10 ^ 18) with (2 * (20 / 10 ^ 18)) by field. apply debye2_of_kernel; [lra|].
  intros t Ht. eapply Rle_trans; [apply (kernel_cheb S19 S35 _ 10 (e16 19) t); [exact check2|lra]|]. rewrite e16_R. replace (Q2R 10) with 10 by (unfold Q2R; cbn; field). pose proof TAIL_small. lra.
Qed.
Lemma small1 x : 0 < x <= 1 / 10000000 -> Rabs (1 - 1 / 4 * x + x ^ 2 / 36 - debye 1 x) <= 2 / 10 ^ 18.
Proof.
  intros Hx. replace (1 - 1 / 4 * x + x ^ 2 / 36) with (peval s1 (x ^ 2) - x / 4) by (unfold s1, peval, Q2R; cbn; field). apply debye1_of_kernel; [lra|].
  intros t Ht. eapply Rle_trans; [apply (kernel_small (1 # 100000000000000)%Q _ 10 (e16 1) t); [unfold Q2R; cbn; lra|exact check3|lra|unfold Q2R; cbn; nra]|]. rewrite e16_R. replace (Q2R 10) with 10 by (unfold Q2R; cbn; field). pose proof TAIL_small. lra.
Qed.
Lemma small2 x : 0 < x <= 1 / 10000000 -> Rabs (1 - x / 3 + x ^ 2 / 24 - debye 2 x) <= 4 / 10 ^ 18.
Proof.
  intros Hx. replace (1 - x / 3 + x ^ 2 / 24) with (peval s2 (x ^ 2) - x / 3) by (unfold s2, peval, Q2R; cbn; field). replace (4 / 10 ^ 18) with (2 * (2 / 10 ^ 18)) by field. apply debye2_of_kernel; [lra|].
  intros t Ht. eapply Rle_trans; [apply (kernel_small (1 # 100000000000000)%Q _ 10 (e16 1) t); [unfold Q2R; cbn; lra|exact check4|lra|unfold Q2R; cbn; nra]|]. rewrite e16_R. replace (Q2R 10) with 10 by (unfold Q2R; cbn; field). pose proof TAIL_small. lra.
Qed.
