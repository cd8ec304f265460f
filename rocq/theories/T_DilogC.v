(** Theorems about the complex dilogarithm: C97-C99. *)
From Coquelicot Require Import Coquelicot.
From Verif Require Import Base RSumLib S_Clausen P_Clausen P_Specfunc P_Clausen5 S_Dilog P_Dilog P_Dilog3 T_Dilog S_DilogC P_DilogC P_DilogC2 P_DilogC3 P_DilogC4 P_DilogC5 P_DilogC7 P_DilogC8 P_DilogC9 M_Specfunc M_Clausen M_Dilog M_DilogC.
From Coq Require Import Psatz Permutation.
Open Scope R_scope.

(** ** C97 *)
(** The function meant exists and there is only one. *)
Theorem C97_dilogarithm_exists : exists U V, is_dilogC U V /\ forall U' V', is_dilogC U' V' -> forall x y, slit x y -> U' x y = U x y /\ V' x y = V x y.
Proof. exists dilU, dilV. split; [exact dilC_is|]. intros U' V' H x y S. exact (dilC_unique U' V' dilU dilV H dilC_is x y S). Qed.
Print Assumptions C97_dilogarithm_exists.

Ltac pin U V HD x y S := destruct (dilC_unique U V dilU dilV HD dilC_is x y S) as [?EU ?EV].
Lemma near_of U V x y p e : is_dilogC U V -> slit x y -> cle (Cminus p (LiZ (x, y))) e -> Rabs (fst p - U x y) <= e /\ Rabs (snd p - V x y) <= e.
Proof. intros HD S [A B]. pin U V HD x y S. rewrite EU, EV. exact (conj A B). Qed.

(** Off the real axis (as the code sees it: |y| >= 10 machine epsilons) both parts come back, within 2e-12 of the dilogarithm. *)
Theorem C97_accuracy : forall U V, is_dilogC U V -> forall r theta, 0 < r -> - PI <= theta <= PI -> 10 / 2 ^ 52 <= Rabs (r * sin theta) ->
  exists re im, dilog_complex r theta = (Some re, Some im)
    /\ Rabs (re - U (r * cos theta) (r * sin theta)) <= 2 / 10 ^ 12 /\ Rabs (im - V (r * cos theta) (r * sin theta)) <= 2 / 10 ^ 12.
Proof.
  intros U V HD r t Hr Ht Hy. assert (Hy' : 10 * DBL_EPSILON <= Rabs (r * sin t)) by (unfold DBL_EPSILON; replace (10 * / 4503599627370496) with (10 / 2 ^ 52) by (cbn [pow]; field); exact Hy).
  destruct (dilog_complex_acc r t Hr Ht Hy') as [p [E A]]. exists (fst p), (snd p). split; [exact E|]. apply (near_of U V); [exact HD| |exact A].
  left. intros K. rewrite K, Rabs_R0 in Hy'. pose proof eps_pos. lra.
Qed.
Print Assumptions C97_accuracy.

(** The same for a complex argument x + i y given without theta. *)
Theorem C97_accuracy_complex : forall U V, is_dilogC U V -> forall x y, 10 / 2 ^ 52 <= Rabs y ->
  exists re im, dilog_complex_z x y = (Some re, Some im) /\ Rabs (re - U x y) <= 2 / 10 ^ 12 /\ Rabs (im - V x y) <= 2 / 10 ^ 12.
Proof.
  intros U V HD x y Hy. assert (Ny : y <> 0). { intros ->. rewrite Rabs_R0 in Hy. assert (0 < 10 / 2 ^ 52) by (apply Rdiv_lt_0_compat; [lra|apply pow_lt; lra]). lra. }
  unfold dilog_complex_z. rewrite hypot_mod, (atan2_arg x y (or_intror Ny)). destruct (arg_cs x y (or_intror Ny)) as [P [B [Ex Ey]]].
  destruct (C97_accuracy U V HD (Cmod (x, y)) (arg x y) P ltac:(lra)) as [re [im [E A]]]; [rewrite <- Ey; exact Hy|]. rewrite <- Ex, <- Ey in A. exists re, im. split; [exact E|exact A].
Qed.
Print Assumptions C97_accuracy_complex.

Example C97_accuracy_case : forall U V, is_dilogC U V -> exists re im, dilog_complex_z 0 2 = (Some re, Some im) /\ Rabs (re - U 0 2) <= 2 / 10 ^ 12 /\ Rabs (im - V 0 2) <= 2 / 10 ^ 12.
Proof. intros U V HD. apply (C97_accuracy_complex U V HD). rewrite Rabs_pos_eq by lra. apply Rmult_le_reg_r with (2 ^ 52); [apply pow_lt; lra|]. unfold Rdiv. rewrite Rmult_assoc, Rinv_l by (apply pow_nonzero; lra). cbn [pow]. lra. Qed.

(** Inside the unit circle the angle need not be the principal one. *)
Theorem C97_any_angle_inside : forall U V, is_dilogC U V -> forall r theta, r ^ 2 < 1 - / 2 ^ 52 -> 10 / 2 ^ 52 <= Rabs (r * sin theta) ->
  exists re im, dilog_complex r theta = (Some re, Some im)
    /\ Rabs (re - U (r * cos theta) (r * sin theta)) <= 2 / 10 ^ 12 /\ Rabs (im - V (r * cos theta) (r * sin theta)) <= 2 / 10 ^ 12.
Proof.
  intros U V HD r t Hr Hy. assert (DE : DBL_EPSILON = / 2 ^ 52) by (unfold DBL_EPSILON; f_equal; cbn [pow]; ring). replace (10 / 2 ^ 52) with (10 * DBL_EPSILON) in Hy by (rewrite DE; reflexivity). rewrite <- DE in Hr. pose proof eps_pos as E0.
  assert (Ny : r * sin t <> 0) by (intros K; rewrite K, Rabs_R0 in Hy; lra).
  pose proof (circ_n t) as N1. assert (Q : r * cos t * (r * cos t) + r * sin t * (r * sin t) = r ^ 2) by (transitivity (r ^ 2 * (cos t ^ 2 + sin t ^ 2)); [ring|rewrite N1; ring]).
  unfold dilog_complex. rewrite Q, (proj2 (Rltb_false _ _)) by lra. rewrite (proj2 (Rleb_false _ _)) by (rewrite Rabs_left by lra; lra). rewrite (proj2 (Rltb_true _ _)) by lra.
  destruct (unit_disk_acc (r * cos t) (r * sin t)) as [p [E A]]; [|exact Ny|].
  - pose proof (mod_sq (r * cos t) (r * sin t)) as M. pose proof (Cmod_ge_0 (r * cos t, r * sin t)). nra.
  - exists (fst p), (snd p). split; [exact E|]. apply (near_of U V); [exact HD|left; exact Ny|exact A].
Qed.
Print Assumptions C97_any_angle_inside.

(** On the real axis: the real part is within 2e-13 of the real dilogarithm; to the left of 1 the imaginary part is 0, which is exact; from
    1 on it is - PI ln x, the limit of the dilogarithm at the cut from below. *)
Theorem C97_real_axis : forall L U V, is_dilog L -> is_dilogC U V -> forall r theta, r * sin theta = 0 ->
  let x := r * cos theta in
  (exists re im, dilog_complex r theta = (Some re, Some im) /\ Rabs (re - L x) <= 2 / 10 ^ 13 /\ im = (if Rlt_dec x 1 then 0 else - PI * ln x))
  /\ (x < 1 -> L x = U x 0 /\ V x 0 = 0)
  /\ (1 < x -> filterlim (fun t => V (x * cos t) (x * sin t)) (at_left 0) (locally (- PI * ln x))).
Proof.
  intros L U V HL HD r t Hy x. split; [|split].
  - destruct (C80_everywhere L HL x) as [re [E A]]. exists re, (if Rlt_dec x 1 then 0 else - PI * ln x). split; [|split; [exact A|reflexivity]].
    unfold dilog_complex. fold x. rewrite Hy, Rabs_R0. pose proof eps_pos. rewrite (proj2 (Rltb_true _ _)) by lra. rewrite E. unfold Rleb. destruct (Rle_dec 1 x), (Rlt_dec x 1); try reflexivity; lra.
  - intros Hx. pin U V HD x 0 (or_intror Hx : slit x 0). rewrite EU, EV. rewrite (dilU_real L x HL Hx). split; [reflexivity|apply dilV_real].
  - intros Hx. eapply filterlim_ext_loc; [|apply cut_below, Hx]. pose proof PI_RGT_0 as P0. exists (mkposreal _ P0). intros s Bs Ls. change (Rabs (s - 0) < PI) in Bs. apply Rabs_def2 in Bs.
    assert (S0 : slit (x * cos s) (x * sin s)). { left. assert (0 < sin (- s)) by (apply sin_gt_0; lra). rewrite sin_neg in H. intros K. nra. }
    pin U V HD (x * cos s) (x * sin s) S0. symmetry. exact EV.
Qed.
Print Assumptions C97_real_axis.

(** The functional equations the branches rest on, for any pair that is the dilogarithm. *)
Theorem C97_functional_equations : forall U V, is_dilogC U V ->
  (forall x y, slit x y -> U x (- y) = U x y /\ V x (- y) = - V x y)
  /\ (forall x y, 0 < x < 1 ->
        U x y + U (1 - x) (- y) = PI ^ 2 / 6 - lnabs x y * lnabs (1 - x) (- y) + arg x y * arg (1 - x) (- y)
        /\ V x y + V (1 - x) (- y) = - lnabs x y * arg (1 - x) (- y) - arg x y * lnabs (1 - x) (- y))
  /\ (forall r t, 0 < r -> 0 < t < 2 * PI ->
        U (r * cos t) (r * sin t) + U (cos t / r) (- sin t / r) = - / 2 * (ln r ^ 2 - (t - PI) ^ 2) - PI ^ 2 / 6
        /\ V (r * cos t) (r * sin t) + V (cos t / r) (- sin t / r) = - ln r * (t - PI))
  /\ (forall f t, is_clausen f -> 0 < t < 2 * PI -> U (cos t) (sin t) = PI ^ 2 / 6 + t ^ 2 / 4 - PI * t / 2 /\ V (cos t) (sin t) = f t).
Proof.
  intros U V HD. split; [|split; [|split]].
  - intros x y S. assert (S' : slit x (- y)) by (destruct S as [S|S]; [left; lra|right; exact S]). pin U V HD x y S. pin U V HD x (- y) S'. rewrite EU, EV, EU0, EV0. rewrite dilU_conj, dilV_conj by exact S. split; reflexivity.
  - intros x y Hx. pin U V HD x y (or_intror (proj2 Hx) : slit x y). assert (S' : slit (1 - x) (- y)) by (right; lra). pin U V HD (1 - x) (- y) S'. rewrite EU, EV, EU0, EV0. split; [apply reflectU|apply reflectV]; exact Hx.
  - intros r t Hr Ht. pin U V HD (r * cos t) (r * sin t) (slit_polar r t Hr Ht). pin U V HD (cos t / r) (- sin t / r) (slit_in t Ht r Hr). rewrite EU, EV, EU0, EV0. rewrite (invertU t Ht r Hr), (invertV t Ht r Hr). split; ring.
  - intros f t Hf Ht. pin U V HD (cos t) (sin t) (slit_circle t Ht). rewrite EU, EV. split; [apply circleU, Ht|apply circleV; assumption].
Qed.
Print Assumptions C97_functional_equations.

(** ** C98 *)
(** Just above the cut: the imaginary part of the dilogarithm is positive, the code returns - PI ln x, so it is off by more than PI ln x. *)
Theorem C98_above_the_cut_refuted : forall U V, is_dilogC U V -> forall r theta, 1 <= r * cos theta -> 0 < r * sin theta < 10 / 2 ^ 52 ->
  snd (dilog_complex r theta) = Some (- PI * ln (r * cos theta)) /\ 0 < V (r * cos theta) (r * sin theta)
  /\ Rabs (- PI * ln (r * cos theta) - V (r * cos theta) (r * sin theta)) > PI * ln (r * cos theta).
Proof.
  intros U V HD r t Hx Hy. set (x := r * cos t) in *. set (y := r * sin t) in *. pin U V HD x y (or_introl (not_eq_sym (Rlt_not_eq _ _ (proj1 Hy))) : slit x y). rewrite EV. pose proof (dilV_pos x y (proj1 Hy)) as P.
  split; [|split; [exact P|]].
  - unfold dilog_complex. fold x y. replace (10 * DBL_EPSILON) with (10 / 2 ^ 52) by (unfold DBL_EPSILON; cbn [pow]; field). rewrite (proj2 (Rltb_true _ _)) by (rewrite Rabs_pos_eq; lra). cbn [snd]. rewrite (proj2 (Rleb_true 1 x) Hx). reflexivity.
  - assert (0 <= ln x) by (rewrite <- ln_1; apply ln_le; lra). pose proof PI_RGT_0. assert (0 <= PI * ln x) by nra. rewrite Rabs_left by lra. lra.
Qed.
Print Assumptions C98_above_the_cut_refuted.
Lemma PI_3 : 3 < PI. Proof. pose proof PI2_3_2 as H. unfold PI2 in H. lra. Qed.
Lemma cos_small t : 0 <= t <= 1 -> 1 - t <= cos t.
Proof. intros H. pose proof (COS_bound t). pose proof (circ_n t) as N. pose proof PI2_1 as P2. assert (0 <= sin t <= t). { split; [apply sin_ge_0; lra|]. destruct (Req_dec t 0) as [->|]; [rewrite sin_0; lra|]. left. apply sin_lt_x. lra. } assert (0 <= cos t) by (apply cos_ge_0; lra). nra. Qed.
Lemma tiny : 0 < / 2 ^ 52 <= 1 / 1000.
Proof. split; [apply Rinv_0_lt_compat, pow_lt; lra|]. replace (1 / 1000) with (/ 1000) by field. apply Rinv_le_contravar; [lra|]. cbn [pow]. lra. Qed.
Example C98_above_the_cut_case : forall U V, is_dilogC U V -> exists im, snd (dilog_complex 4 (/ 2 ^ 52)) = Some im /\ im < -3 /\ 0 < V (4 * cos (/ 2 ^ 52)) (4 * sin (/ 2 ^ 52)).
Proof.
  intros U V HD. pose proof tiny as T. set (e := / 2 ^ 52) in *. pose proof (cos_small e ltac:(lra)) as Cs. assert (S1 : 0 < sin e) by (apply sin_gt_0; pose proof PI2_1; lra). assert (S2 : sin e < e) by (apply sin_lt_x; lra).
  destruct (C98_above_the_cut_refuted U V HD 4 e ltac:(lra)) as [E [P _]]. { change (10 / 2 ^ 52) with (10 * e). lra. }
  eexists. split; [exact E|]. split; [|exact P]. assert (L : 1 <= ln (4 * cos e)). { rewrite <- (ln_exp 1). apply ln_le; [apply exp_pos|]. pose proof exp_le_3. lra. } pose proof PI_3. nra.
Qed.
(** The angle: on the unit circle the value depends on the angle given, not on the point. *)
Theorem C98_angle_refuted : forall U V, is_dilogC U V ->
  1 * cos (5 * PI / 2) = 1 * cos (PI / 2) /\ 1 * sin (5 * PI / 2) = 1 * sin (PI / 2)
  /\ fst (dilog_complex 1 (PI / 2)) = Some (- PI ^ 2 / 48) /\ U 0 1 = - PI ^ 2 / 48
  /\ fst (dilog_complex 1 (5 * PI / 2)) = Some (23 * PI ^ 2 / 48).
Proof.
  intros U V HD. assert (C5 : cos (5 * PI / 2) = 0). { replace (5 * PI / 2) with (PI / 2 + 2 * INR 1 * PI) by (cbn; field). rewrite cos_period. apply cos_PI2. }
  assert (S5 : sin (5 * PI / 2) = 1). { replace (5 * PI / 2) with (PI / 2 + 2 * INR 1 * PI) by (cbn; field). rewrite sin_period. apply sin_PI2. }
  pose proof PI_RGT_0 as P0. rewrite C5, S5, cos_PI2, sin_PI2. split; [reflexivity|]. split; [reflexivity|]. pose proof eps_pos as E.
  assert (G : forall t, cos t = 0 -> sin t = 1 -> 0 < t -> fst (dilog_complex 1 t) = Some (PI ^ 2 / 6 + t * t / 4 - PI * t / 2)).
  { intros t Ct St Pt. unfold dilog_complex. rewrite Ct, St, !Rmult_1_l, Rabs_R1. rewrite (proj2 (Rltb_false _ _)) by lra. replace (0 * 0 + 1 - 1) with 0 by ring. rewrite Rabs_R0, (proj2 (Rleb_true _ _)) by lra. cbn [fst]. rewrite Rabs_pos_eq by lra. reflexivity. }
  split; [rewrite G by (try apply cos_PI2; try apply sin_PI2; lra); f_equal; field|]. split; [|rewrite G by (assumption || lra); f_equal; field].
  pin U V HD 0 1 (or_introl R1_neq_R0 : slit 0 1). rewrite EU. rewrite <- cos_PI2 at 1. rewrite <- sin_PI2, circleU by lra. field.
Qed.
Print Assumptions C98_angle_refuted.

(** ** C99 *)
(** Two arrays that do not overlap: entry by entry the value of the function, in whatever order the iterations run. *)
Theorem C99_entrywise : forall A (f : A -> A -> A * A) threaded sched n r t m, Permutation sched (seq 0 n) -> (r + n <= t \/ t + n <= r)%nat ->
  fst (dilog_complex_arrays f true threaded sched n r t m)
  = Ok (if Nat.eqb n 1 then VScalar (f (m r) (m t)) else VArray (map (fun i => f (m (r + i)%nat) (m (t + i)%nat)) (seq 0 n))).
Proof.
  intros A f th sched n r t m HP Ap. unfold dilog_complex_arrays. destruct (Nat.eqb n 1); [reflexivity|]. cbn [fst]. do 2 f_equal. apply map_ext_in. intros i Hi.
  assert (O : NoDup (if th then sched else seq 0 n) /\ Permutation (if th then sched else seq 0 n) (seq 0 n)). { destruct th; [split; [|exact HP]; apply (Permutation_NoDup (Permutation_sym HP)), seq_NoDup|split; [apply seq_NoDup|reflexivity]]. }
  destruct O as [ND PM]. destruct (loop_apart f r t n (if th then sched else seq 0 n) Ap ND) with (m := m) (i := i) as [E1 E2].
  - intros k Hk. apply (Permutation_in _ PM) in Hk. apply in_seq in Hk. lia.
  - apply (Permutation_in _ (Permutation_sym PM)). exact Hi.
  - rewrite E1, E2. symmetry. apply surjective_pairing.
Qed.
Print Assumptions C99_entrywise.

Example C99_entrywise_case : fst (dilog_complex_arrays (fun a b => (a + b, a * b)) true true [2; 0; 1] 3 10 20 (fun i => i))%nat = Ok (VArray [(30, 200); (32, 231); (34, 264)]%nat).
Proof. reflexivity. Qed.

(** The arguments are not left as they were: each cell of the radii holds the real part, each cell of the angles the imaginary part. *)
Theorem C99_arguments_overwritten_refuted : forall A (f : A -> A -> A * A) threaded sched n r t m, Permutation sched (seq 0 n) -> (2 <= n)%nat -> (r + n <= t \/ t + n <= r)%nat ->
  forall i, (i < n)%nat ->
    snd (dilog_complex_arrays f true threaded sched n r t m) (r + i)%nat = fst (f (m (r + i)%nat) (m (t + i)%nat))
    /\ snd (dilog_complex_arrays f true threaded sched n r t m) (t + i)%nat = snd (f (m (r + i)%nat) (m (t + i)%nat)).
Proof.
  intros A f th sched n r t m HP Hn Ap i Hi. unfold dilog_complex_arrays. rewrite (proj2 (Nat.eqb_neq n 1)) by lia. cbn [snd].
  assert (O : NoDup (if th then sched else seq 0 n) /\ Permutation (if th then sched else seq 0 n) (seq 0 n)). { destruct th; [split; [|exact HP]; apply (Permutation_NoDup (Permutation_sym HP)), seq_NoDup|split; [apply seq_NoDup|reflexivity]]. }
  destruct O as [ND PM]. apply (loop_apart f r t n); [exact Ap|exact ND| |].
  - intros k Hk. apply (Permutation_in _ PM) in Hk. apply in_seq in Hk. lia.
  - apply (Permutation_in _ (Permutation_sym PM)). apply in_seq. lia.
Qed.
Print Assumptions C99_arguments_overwritten_refuted.

(** One array handed in for both arguments: the real parts are lost, both parts of each entry are the imaginary part. *)
Theorem C99_same_array_refuted : forall A (f : A -> A -> A * A) threaded sched n r m, Permutation sched (seq 0 n) -> (2 <= n)%nat ->
  fst (dilog_complex_arrays f true threaded sched n r r m)
  = Ok (VArray (map (fun i => let im := snd (f (m (r + i)%nat) (m (r + i)%nat)) in (im, im)) (seq 0 n))).
Proof.
  intros A f th sched n r m HP Hn. unfold dilog_complex_arrays. rewrite (proj2 (Nat.eqb_neq n 1)) by lia. cbn [fst]. do 2 f_equal. apply map_ext_in. intros i Hi.
  assert (O : NoDup (if th then sched else seq 0 n) /\ Permutation (if th then sched else seq 0 n) (seq 0 n)). { destruct th; [split; [|exact HP]; apply (Permutation_NoDup (Permutation_sym HP)), seq_NoDup|split; [apply seq_NoDup|reflexivity]]. }
  destruct O as [ND PM]. rewrite (loop_same f r _ ND m i); [reflexivity|]. apply (Permutation_in _ (Permutation_sym PM)). exact Hi.
Qed.
Print Assumptions C99_same_array_refuted.
(** A case for the dilogarithm: radius and angle both PI, the point - PI on the real axis, twice; a nan in a cell is None. *)
Definition lifted (r t : option R) : option R * option R := match r, t with Some r, Some t => dilog_complex r t | _, _ => (None, None) end.
Example C99_same_array_case : let m := fun _ : nat => Some PI in
  fst (dilog_complex_arrays lifted true true [1; 0]%nat 2 0 0 m) = Ok (VArray [(Some 0, Some 0); (Some 0, Some 0)])
  /\ exists v, lifted (Some PI) (Some PI) = (Some v, Some 0) /\ v < -1 / 2.
Proof.
  intros m. assert (X : exists v, lifted (Some PI) (Some PI) = (Some v, Some 0) /\ v < -1 / 2).
  { assert (Y : PI * sin PI = 0) by (rewrite sin_PI; ring). destruct (C97_real_axis Li2 dilU dilV Li2_is_dilog dilC_is PI PI Y) as [[re [im [E [A I]]]] _]. rewrite cos_PI in *. pose proof PI_3 as P3. destruct (Rlt_dec (PI * -1) 1); [|lra]. subst im. exists re. split; [exact E|].
    assert (M : Li2 (- PI) <= Li2 (-1)).
    { destruct (MVT_gen Li2 (- PI) (-1) (fun x => - ln (1 - x) / x)) as [c [Hc Ec]].
      - intros x H. rewrite Rmin_left, Rmax_right in H by lra. apply (L_derive Li2 Li2_is_dilog); lra.
      - intros x _. apply (L_cont Li2 Li2_is_dilog).
      - rewrite Rmin_left, Rmax_right in Hc by lra. assert (0 < ln (1 - c)) by (rewrite <- ln_1; apply ln_increasing; lra). assert (0 < - ln (1 - c) / c) by (replace (- ln (1 - c) / c) with (ln (1 - c) / - c) by (field; lra); apply Rdiv_lt_0_compat; lra). nra. }
    replace (-1) with (- (1)) in M by lra. replace (- (1)) with (- 1) in M by lra. rewrite Li2_m1 in M. replace (PI * -1) with (- PI) in A by ring. apply Rabs_le_between in A. assert (9 < PI ^ 2) by nra. lra. }
  split; [|exact X]. destruct X as [v [E _]]. rewrite (C99_same_array_refuted _ lifted true [1; 0]%nat 2 0%nat m (perm_swap 0%nat 1%nat []) ltac:(lia)). cbn [seq map]. unfold m. rewrite E. reflexivity.
Qed.
