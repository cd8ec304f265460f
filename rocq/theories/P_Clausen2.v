(** Accuracy of the Clausen table: Taylor polynomials of sine and cosine against a polynomial with decimal coefficients, and the table
    against that polynomial, by computation with integers. *)
From Coq Require Import QArith Qreals Qabs Machin.
From Coquelicot Require Import Coquelicot.
From Verif Require Import Base RSumLib M_Specfunc M_DebyeSeries M_Clausen S_Clausen PolyQ PolyZ P_Dilog P_DebyeSeries P_DebyeSeries2 P_Clausen.
From Coq Require Import Psatz.
Local Close Scope Q_scope. Open Scope R_scope.
Lemma PI_lt_4 : PI <= 4. Proof. apply PI_4. Qed.
Lemma sinc_half y : 0 < y <= PI / 2 -> 1 / 2 <= sin y / y.
Proof.
  intros H. pose proof PI_lt_4 as P4. assert (P : PI <= 13 / 4). { pose proof (PI_2_3_7_ineq 0) as [_ B]. cbn in B. unfold tg_alt, PI_2_3_7_tg, Ratan_seq in B. cbn in B. lra. }
  pose proof (sin_bound y 0 ltac:(lra) ltac:(lra)) as [B _]. cbn in B. unfold sin_approx, sin_term in B. cbn -[Rmult Rdiv] in B. change (fact 3) with 6%nat in B. change (fact 1) with 1%nat in B. cbn [INR] in B.
  apply Rmult_le_reg_r with y; [lra|]. replace (sin y / y * y) with (sin y) by (field; lra). nra.
Qed.
Opaque fact.

(** |B_2k| / (2k)! for k = 1..36, rounded *)
Definition rz : list (Z * Z) := [(83333333333333333333333333, 27); (13888888888888888888888889, 28); (3306878306878306878306878, 29); (826719576719576719576720, 30); (208767569878680989792101, 31); (52841901386874931848477, 32); (13382536530684678832827, 33); (3389680296322582866830, 34); (858606205627784456414, 35); (217486869855806187304, 36); (55090028283602295152, 37); (13954464685812523341, 38); (3534707039629467472, 39); (895351742703754685, 40); (226795245233768306, 41); (57447906688722024, 42); (14551724756148649, 43); (3685994940665310, 44); (933673425709504, 45); (236502241570063, 46); (59906717624821, 47); (15174548844683, 48); (3843758125454, 49); (973635307265, 50); (246624704420, 51); (62470767418, 52); (15824030245, 53); (4008273686, 54); (1015307586, 55); (257180416, 56); (65144560, 57); (16501310, 58); (4179831, 59); (1058763, 60); (268188, 61); (67933, 62)]%Z.
Definition gpoly : list Q := 1%Q :: map (fun k => qmult (1 # Pos.of_nat (2 * k * (2 * k + 1)))%Q (qdec (nth (k - 1) rz (0, 0)%Z))) (seq 1 36).
Definition qpoly : list Q := weight 2 1 gpoly.
Definition rpoly : list Q := padd [1%Q] (popp (weight 2 0 qpoly)).
Lemma one_minus p w : peval (padd [1%Q] (popp p)) w = 1 - peval p w.
Proof. rewrite peval_add, peval_opp. cbn [peval]. replace (Q2R 1) with 1 by (unfold Q2R; cbn; field). ring. Qed.
Lemma rpoly_eval w : peval rpoly w = 1 - peval (weight 2 0 qpoly) w.
Proof. apply one_minus. Qed.

(** ** sine and cosine *)
Fixpoint altern (s : Q) (p : list Q) : list Q := match p with [] => [] | a :: r => qmult s a :: altern (- s)%Q r end.
Lemma altern_eval p w : forall s, peval (altern s p) w = Q2R s * peval p (- w).
Proof. induction p as [|a r IH]; intros s; cbn [altern peval]; [ring|]. rewrite IH, qmult_R, Q2R_opp. ring. Qed.
Lemma sum_rsum f n : sum_f_R0 f n = rsum (S n) f.
Proof. induction n as [|n IH]; [cbn; ring|]. rewrite tech5, IH. cbn. ring. Qed.
Lemma neg_pow v j : (- v) ^ j = (-1) ^ j * v ^ j.
Proof. replace (- v) with (-1 * v) by ring. apply Rpow_mult_distr. Qed.
Lemma cos_poly x : peval (altern 1 chp) (x ^ 2) = cos_approx (x / 2) 17.
Proof.
  rewrite altern_eval. unfold cos_approx. rewrite sum_rsum. unfold chp. rewrite peval_seq, <- rsum_scal. apply rsum_ext. intros j _. rewrite coef_R, neg_pow. unfold cos_term. rewrite !pow_mult. pose proof (fact_pos (2 * j)). pose proof (pow_lt 4 j ltac:(lra)).
  replace ((x / 2) ^ 2) with (x ^ 2 * / 4) by field. rewrite Rpow_mult_distr, pow_inv. unfold Q2R. cbn [Qnum Qden]. field. lra.
Qed.
Lemma sin_poly x : x / 2 * peval (altern 1 shp) (x ^ 2) = sin_approx (x / 2) 17.
Proof.
  rewrite altern_eval. unfold sin_approx. rewrite sum_rsum. unfold shp. rewrite peval_seq, <- !rsum_scal. apply rsum_ext. intros j _. rewrite coef_R, neg_pow. unfold sin_term. rewrite pow_add, !pow_mult, pow_1. pose proof (fact_pos (2 * j + 1)). pose proof (pow_lt 4 j ltac:(lra)).
  replace ((x / 2) ^ 2) with (x ^ 2 * / 4) by field. rewrite Rpow_mult_distr, pow_inv. unfold Q2R. cbn [Qnum Qden]. field. lra.
Qed.
Definition T32 : R := / 10 ^ 31.
Lemma fact36 : INR (fact 36) = IZR (fold_right (fun i z => (Z.of_nat i * z)%Z) 1%Z (seq 1 36)).
Proof. rewrite fact_fold, INR_IZR_INZ. reflexivity. Qed.
Lemma tail36 x : 0 < x <= 4 -> 0 <= (x / 2) ^ 36 / INR (fact 36) <= T32 * x ^ 2.
Proof.
  intros Hx. pose proof (fact_pos 36) as FP. assert (0 <= (x / 2) ^ 34 <= 2 ^ 34) by (split; [apply pow_le; lra|apply pow_incr; lra]). assert (0 < / INR (fact 36)) by (apply Rinv_0_lt_compat; exact FP).
  replace ((x / 2) ^ 36) with ((x / 2) ^ 2 * (x / 2) ^ 34) by (rewrite <- pow_add; reflexivity). replace ((x / 2) ^ 2) with (x ^ 2 / 4) by field. pose proof (pow2_ge_0 x).
  assert (K : 2 ^ 34 * / INR (fact 36) <= T32).
  { rewrite fact36 in *. unfold T32. apply Rmult_le_reg_r with (10 ^ 31 * IZR (fold_right (fun i z => (Z.of_nat i * z)%Z) 1%Z (seq 1 36))); [apply Rmult_lt_0_compat; [apply pow_lt; lra|exact FP]|]. pose proof (pow_lt 10 31 ltac:(lra)).
    set (z := IZR (fold_right _ 1%Z (seq 1 36))) in *. replace (2 ^ 34 * / z * (10 ^ 31 * z)) with (2 ^ 34 * 10 ^ 31) by (field; lra). replace (/ 10 ^ 31 * (10 ^ 31 * z)) with z by (field; lra). subst z.
    rewrite !pow_IZR, <- !mult_IZR. apply IZR_le. vm_compute. discriminate. }
  assert ((x / 2) ^ 34 * / INR (fact 36) <= T32) by nra. assert (0 <= (x / 2) ^ 34 * / INR (fact 36)) by (apply Rmult_le_pos; lra).
  replace (x ^ 2 / 4 * (x / 2) ^ 34 / INR (fact 36)) with (x ^ 2 * / 4 * ((x / 2) ^ 34 * / INR (fact 36))) by (unfold Rdiv; ring). set (u := (x / 2) ^ 34 * / INR (fact 36)) in *. split; [nra|]. nra.
Qed.
Lemma cos_tail x : 0 < x <= PI -> Rabs (cos (x / 2) - peval (altern 1 chp) (x ^ 2)) <= T32 * x ^ 2.
Proof.
  intros Hx. pose proof PI_lt_4. pose proof (cos_bound (x / 2) 8 ltac:(lra) ltac:(lra)) as B. change (2 * 8 + 1)%nat with 17%nat in B. change (2 * (8 + 1))%nat with 18%nat in B. rewrite cos_poly. unfold cos_approx in *. rewrite (tech5 _ 17) in B. unfold cos_term at 3 in B. change (2 * 18)%nat with 36%nat in B.
  pose proof (tail36 x ltac:(lra)). replace ((-1) ^ 18) with 1 in B by ring. apply Rabs_le. lra.
Qed.
Lemma sin_tail x : 0 < x <= PI -> Rabs (sin (x / 2) / (x / 2) - peval (altern 1 shp) (x ^ 2)) <= T32 * x ^ 2.
Proof.
  intros Hx. pose proof PI_lt_4. pose proof (sin_bound (x / 2) 8 ltac:(lra) ltac:(lra)) as B. change (2 * 8 + 1)%nat with 17%nat in B. change (2 * (8 + 1))%nat with 18%nat in B. pose proof (sin_poly x) as E. unfold sin_approx in *. rewrite (tech5 _ 17) in B. unfold sin_term at 3 in B. change (2 * 18 + 1)%nat with 37%nat in B.
  pose proof (tail36 x ltac:(lra)) as T. replace ((-1) ^ 18) with 1 in B by ring. rewrite <- E in B. clear E.
  replace (sin (x / 2) / (x / 2) - peval (altern 1 shp) (x ^ 2)) with ((sin (x / 2) - x / 2 * peval (altern 1 shp) (x ^ 2)) * / (x / 2)) by (field; lra).
  assert (F37 : INR (fact 37) = 37 * INR (fact 36)) by (rewrite (fact_simpl 36), mult_INR; f_equal; cbn; ring). pose proof (fact_pos 36) as FP. assert (I : 0 < / (x / 2)) by (apply Rinv_0_lt_compat; lra).
  rewrite Rabs_pos_eq by (apply Rmult_le_pos; lra). apply Rle_trans with (((x / 2) ^ 37 / INR (fact 37)) * / (x / 2)); [apply Rmult_le_compat_r; lra|]. rewrite F37.
  replace ((x / 2) ^ 37 / (37 * INR (fact 36)) * / (x / 2)) with (/ 37 * ((x / 2) ^ 36 / INR (fact 36))) by (replace ((x / 2) ^ 37) with (x / 2 * (x / 2) ^ 36) by reflexivity; field; lra). lra.
Qed.

(** ** the polynomial and x cot x *)
Definition SR : Z := (10 ^ 26)%Z.
Definition SS : Z := (S35 * 2 ^ 18)%Z.
Definition check_of (r s c : option (list Z)) : bool :=
  match r, s, c with
  | Some r, Some s, Some c =>
    match zadd (zmul r s) (zscal (-1) c) with
    | e0 :: e => (e0 =? 0)%Z && zbound r SR 4 && zbound e (SR * SS) (3 # 1000000000000000000000)
    | [] => false
    end
  | _, _, _ => false
  end.
Lemma check_of_inv r s c : check_of r s c = true -> exists r' s' c' e, r = Some r' /\ s = Some s' /\ c = Some c' /\ zadd (zmul r' s') (zscal (-1) c') = 0%Z :: e
  /\ zbound r' SR 4 = true /\ zbound e (SR * SS) (3 # 1000000000000000000000) = true.
Proof.
  unfold check_of. destruct r as [r|], s as [s|], c as [c|]; try discriminate. destruct (zadd (zmul r s) (zscal (-1) c)) as [|e0 e] eqn:E; [discriminate|]. intros C. apply andb_true_iff in C. destruct C as [C C3]. apply andb_true_iff in C. destruct C as [C1 C2].
  apply Z.eqb_eq in C1. subst e0. exists r, s, c, e. auto 10.
Qed.
Lemma check_cot_true : check_of (toZ SR 10 rpoly) (toZ SS 10 (altern 1 shp)) (toZ (SR * SS) 10 (altern 1 chp)) = true. Proof. vm_compute. reflexivity. Qed.
