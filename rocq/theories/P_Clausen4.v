(** Accuracy of the Clausen function: from x cot x to the function, and the table. *)
From Coq Require Import QArith Qreals Qabs.
From Coquelicot Require Import Coquelicot.
From Verif Require Import Base RSumLib M_Specfunc M_DebyeSeries M_Clausen S_Clausen PolyQ PolyZ P_Dilog P_DebyeSeries P_DebyeSeries2 P_Clausen P_Clausen2 P_Clausen3 P_Specfunc.
From Coq Require Import Psatz.
Local Close Scope Q_scope. Open Scope R_scope.
Opaque fact.

(** ** the polynomial and the function *)
Lemma d0_poly p x : 0 < x -> is_derive (fun x => peval p (x ^ 2)) x (peval (weight 2 0 p) (x ^ 2) / x).
Proof.
  intros H. rewrite weight_eval. unfold Rdiv. rewrite Rmult_comm, <- rsum_scal. apply (is_derive_ext (fun x => rsum (length p) (fun j => Q2R (nth j p 0%Q) * x ^ (2 * j)))).
  { intros t. rewrite peval_rsum. apply rsum_ext. intros j _. rewrite <- pow_mult. reflexivity. }
  apply (is_derive_rsum (length p) (fun j x => Q2R (nth j p 0%Q) * x ^ (2 * j))). intros j _. rewrite Nat.add_0_r, <- pow_mult. destruct j as [|j]; [cbn; auto_derive; [exact Logic.I|ring]|].
  replace (2 * S j)%nat with (S (2 * j + 1)) by lia. replace (/ x * (INR (S (2 * j + 1)) * Q2R (nth (S j) p 0%Q) * x ^ S (2 * j + 1))) with (Q2R (nth (S j) p 0%Q) * (INR (S (2 * j + 1)) * x ^ (2 * j + 1))) by (change (x ^ S (2 * j + 1)) with (x * x ^ (2 * j + 1)); field; lra). apply pow_derive.
Qed.
Lemma peval_cont p x : continuous (fun x => peval p (x ^ 2)) x.
Proof. apply (continuous_comp (fun x => x ^ 2) (peval p)); [apply (ex_derive_continuous (V := R_NormedModule)); auto_derive; exact Logic.I|]. generalize (x ^ 2). clear x. intros w.
  induction p as [|a r IH]; cbn [peval]; [apply continuous_const|]. apply (continuous_plus (fun _ => Q2R a) (fun w => w * peval r w)); [apply continuous_const|]. apply (continuous_mult (fun w => w) (peval r)); [apply continuous_id|exact IH]. Qed.
Section Gen.
Variable g : list Q.
Variable D : R.
Hypothesis HD : 0 <= D.
Hypothesis G0 : peval (weight 2 1 g) 0 = 1.
Hypothesis COT : forall x, 0 < x <= PI -> Rabs (1 - x / 2 * cos (x / 2) / sin (x / 2) - peval (weight 2 0 (weight 2 1 g)) (x ^ 2)) <= D * x ^ 2.
Lemma m_bound x : 0 < x <= PI -> Rabs (ln x - ln (2 * sin (x / 2)) + 1 - peval (weight 2 1 g) (x ^ 2)) <= D * x ^ 2.
Proof.
  intros Hx. pose proof PI_RGT_0 as P. replace (D * x ^ 2) with (D * x * x) by ring.
  apply (bound_from_0 (fun x => ln x - ln (2 * sin (x / 2)) + 1 - peval (weight 2 1 g) (x ^ 2)) (fun x => / x - cos (x / 2) / sin (x / 2) / 2 - peval (weight 2 0 (weight 2 1 g)) (x ^ 2) / x) (D * x) x (proj1 Hx)).
  - apply (vanish_le _ (fun x => - lnsinc x + (1 + - peval (weight 2 1 g) (x ^ 2))) PI P).
    + intros y Hy. right. f_equal. assert (0 < sin (y / 2)) by (apply sin_gt_0; lra). unfold lnsinc. rewrite sinc_nz by lra. replace (2 * sin (y / 2)) with (y * (sin (y / 2) / (y / 2))) by (field; lra). rewrite ln_mult; [ring|lra|]. apply Rdiv_lt_0_compat; lra.
    + apply vanish_plus; [apply vanish_opp|]; apply vanish_cont.
      * apply lnsinc_cont. rewrite Rabs_R0. lra.
      * unfold lnsinc. replace (0 / 2) with 0 by field. rewrite sinc_0. apply ln_1.
      * apply (continuous_plus (fun _ => 1) (fun x => - peval (weight 2 1 g) (x ^ 2))); [apply continuous_const|]. apply (continuous_opp (fun x => peval (weight 2 1 g) (x ^ 2))). apply peval_cont.
      * replace (0 ^ 2) with 0 by ring. rewrite G0. exact (Rplus_opp_r 1).
  - intros t Ht. assert (0 < sin (t / 2)) by (apply sin_gt_0; lra). apply (is_derive_minus (K := R_AbsRing) (V := R_NormedModule) (fun x => ln x - ln (2 * sin (x / 2)) + 1) (fun x => peval (weight 2 1 g) (x ^ 2))); [|apply d0_poly; lra].
    auto_derive; [repeat split; lra|]. unfold Rdiv in *. set (s := sin (t * / 2)) in *. field. lra.
  - intros t Ht. assert (0 < sin (t / 2)) by (apply sin_gt_0; lra). specialize (COT t ltac:(lra)).
    replace (/ t - cos (t / 2) / sin (t / 2) / 2 - peval (weight 2 0 (weight 2 1 g)) (t ^ 2) / t) with ((1 - t / 2 * cos (t / 2) / sin (t / 2) - peval (weight 2 0 (weight 2 1 g)) (t ^ 2)) * / t) by (field; lra).
    assert (0 < / t) by (apply Rinv_0_lt_compat; lra). rewrite Rabs_mult, (Rabs_pos_eq (/ t)) by lra. apply Rle_trans with (D * t ^ 2 * / t); [apply Rmult_le_compat_r; lra|]. replace (D * t ^ 2 * / t) with (D * t) by (field; lra). apply Rmult_le_compat_l; lra.
Qed.
Lemma cl_poly f x : is_clausen f -> 0 < x <= PI -> Rabs (f x + x * ln x - x * peval g (x ^ 2)) <= D * x ^ 2 * x.
Proof.
  intros F Hx. pose proof PI_RGT_0 as P. apply (bound_from_0 (fun x => f x + x * ln x - x * peval g (x ^ 2)) (fun x => ln x - ln (2 * sin (x / 2)) + 1 - peval (weight 2 1 g) (x ^ 2)) (D * x ^ 2) x (proj1 Hx)).
  - apply (vanish_plus (fun x => f x + x * ln x) (fun x => - (x * peval g (x ^ 2)))); [apply vanish_plus; [apply F|apply vanish_xlnx]|]. apply vanish_opp. apply vanish_cont; [|exact (Rmult_0_l _)]. apply (continuous_mult (fun x => x) (fun x => peval g (x ^ 2))); [apply continuous_id|apply peval_cont].
  - intros t Ht. apply (is_derive_minus (K := R_AbsRing) (V := R_NormedModule) (fun x => f x + x * ln x) (fun x => x * peval g (x ^ 2))); [|apply d1_poly].
    replace (ln t - ln (2 * sin (t / 2)) + 1) with (- ln (2 * sin (t / 2)) + (ln t + 1)) by ring. apply (is_derive_plus (K := R_AbsRing) (V := R_NormedModule) f (fun x => x * ln x)); [apply clausen_derive; [exact F|lra]|]. auto_derive; [lra|]. field. lra.
  - intros t Ht. eapply Rle_trans; [apply m_bound; lra|]. apply Rmult_le_compat_l; [exact HD|]. apply pow_incr. lra.
Qed.
End Gen.

(** ** the table *)
Definition e24 (n : Z) : Q := (n # 1000000000000000000000000)%Q.
(** rounding to 26 decimals keeps the powers short *)
Definition rdn (a : Q) : Q := (Qnum a * 100000000000000000000000000 / Zpos (Qden a) # 100000000000000000000000000)%Q.
Definition rup (a : Q) : Q := (Qnum a * 100000000000000000000000000 / Zpos (Qden a) + 1 # 100000000000000000000000000)%Q.
Lemma rdn_R a : Q2R (rdn a) <= Q2R a.
Proof.
  unfold rdn. unfold Q2R at 1. cbn [Qnum Qden]. destruct (zdiv_R (Qnum a * 100000000000000000000000000) (Zpos (Qden a)) eq_refl) as [L _]. rewrite mult_IZR in L. apply Rmult_le_reg_r with 100000000000000000000000000; [lra|]. rewrite Rmult_assoc, Rinv_l, Rmult_1_r by lra. unfold Q2R, Rdiv in *. lra.
Qed.
Lemma rup_R a : Q2R a <= Q2R (rup a).
Proof.
  unfold rup. unfold Q2R at 2. cbn [Qnum Qden]. destruct (zdiv_R (Qnum a * 100000000000000000000000000) (Zpos (Qden a)) eq_refl) as [_ L]. rewrite mult_IZR in L. apply Rmult_le_reg_r with 100000000000000000000000000; [lra|]. rewrite Rmult_assoc, Rinv_l, Rmult_1_r, plus_IZR by lra. unfold Q2R, Rdiv in *. lra.
Qed.
Fixpoint chk (lo hi plo phi : Q) (g : list Q) (l : list Z) : bool :=
  match g, l with
  | [], [] => true
  | a :: g', b :: l' => Qle_bool 0 a && Qle_bool (e24 (b - 1)) (a * plo) && Qle_bool (a * phi) (e24 (b + 1)) && Qle_bool 0 (rdn (plo * lo)) && chk lo hi (rdn (plo * lo)) (rup (phi * hi)) g' l'
  | _, _ => false
  end.
Lemma e24_R n : Q2R (e24 n) = IZR n / 10 ^ 24. Proof. unfold e24, Q2R. cbn [Qnum Qden]. lra. Qed.
Lemma chk_R lo hi P z : 0 <= Q2R lo -> Q2R lo <= P <= Q2R hi -> 0 <= z <= 1 -> forall g l plo phi p, 0 <= Q2R plo -> Q2R plo <= p <= Q2R phi -> chk lo hi plo phi g l = true ->
  Rabs (p * peval g (P * z) - zeval l z / 10 ^ 24) <= INR (length g) / 10 ^ 24.
Proof.
  intros L0 HP Hz. induction g as [|a g IH]; intros [|b l] plo phi p P0 Hp C; cbn [chk] in C; try discriminate.
  - cbn [peval zeval length INR]. replace (p * 0 - 0 / 10 ^ 24) with 0 by field. rewrite Rabs_R0. lra.
  - apply andb_true_iff in C. destruct C as [C C4]. apply andb_true_iff in C. destruct C as [C C5]. apply andb_true_iff in C. destruct C as [C C3]. apply andb_true_iff in C. destruct C as [C1 C2]. apply Qle_R in C1, C2, C3, C5. rewrite Q2R_0 in C1, C5. rewrite Q2R_mult, e24_R in C2, C3. rewrite minus_IZR in C2. rewrite plus_IZR in C3.
    cbn [peval zeval]. cbn [length]. rewrite S_INR. specialize (IH l (rdn (plo * lo)) (rup (phi * hi)) (p * P) C5). assert (B : Q2R plo * Q2R lo <= p * P <= Q2R phi * Q2R hi) by (split; apply Rmult_le_compat; lra). pose proof (rdn_R (plo * lo)) as B1. pose proof (rup_R (phi * hi)) as B2. rewrite Q2R_mult in B1, B2. specialize (IH (conj (Rle_trans _ _ _ B1 (proj1 B)) (Rle_trans _ _ _ (proj2 B) B2)) C4).
    replace (p * (Q2R a + P * z * peval g (P * z)) - (IZR b + z * zeval l z) / 10 ^ 24) with ((p * Q2R a - IZR b / 10 ^ 24) + z * (p * P * peval g (P * z) - zeval l z / 10 ^ 24)) by (field; lra).
    assert (A : Rabs (p * Q2R a - IZR b / 10 ^ 24) <= 1 / 10 ^ 24). { assert (Q2R a * Q2R plo <= p * Q2R a <= Q2R a * Q2R phi) by (split; rewrite Rmult_comm; [rewrite (Rmult_comm p)|rewrite (Rmult_comm (Q2R a) p), Rmult_comm]; nra). apply Rabs_le. lra. }
    eapply Rle_trans; [apply Rabs_triang|]. rewrite Rabs_mult, (Rabs_pos_eq z) by lra. set (u := Rabs (p * P * peval g (P * z) - zeval l z / 10 ^ 24)) in *. assert (0 <= u) by apply Rabs_pos. assert (z * u <= u) by nra. unfold Rdiv in *. lra.
Qed.
Definition gz : list Z := [1000000000000000000000000; 137077838904018869706035; 6764520210694613696975; 756951683024143705145; 108949365906895002103; 17773341177695633617; 3130778265704214394; 581322805138031706; 112198693024064081; 22308256300837310; 4541310600834955; 942366150010247; 198682161094385; 42453451327345; 9175591902315; 2002844248350; 440967128235; 97828001541; 21849722565; 4909553046; 1109139880; 251798090; 57417595; 13146027; 3021015; 696611; 161135; 37381; 8695; 2028; 474; 111; 26; 6; 1; 0; 0]%Z.
Definition tpoly : list Q := cheb_poly (map qdec clausen_decimals) [(-1)%Q; 2%Q].
Lemma check_g : chk p2lo p2hi 1 1 gpoly gz = true. Proof. vm_compute. reflexivity. Qed.
Definition check_t (t : option (list Z)) : bool := match t with Some t => zbound (zadd t (zscal (-1) gz)) (10 ^ 24) (3 # 10000000000000000000) | None => false end.
Lemma check_t_true : check_t (toZ (10 ^ 24) 1 tpoly) = true. Proof. vm_compute. reflexivity. Qed.
