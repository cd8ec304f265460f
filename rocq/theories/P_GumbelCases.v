(** Degrees for which the integer arithmetic of gumbel_coef is exact, and degrees for which it is not. *)
From Coquelicot Require Import Coquelicot.
From Verif Require Import Base RSumLib Ext M_Special S_Special P_Stirling P_Int64 P_Partitions P_Eulerian P_Polylog M_Gumbel S_Gumbel P_Gumbel P_GumbelCode P_Sibuya P_GumbelPoly.
Open Scope R_scope.

(** |s(d,1)| = (d-1)! *)
Lemma s1_one d : Z.abs (s1 (S d) 1) = zfact d.
Proof.
  induction d as [|d IH]; [reflexivity|]. rewrite s1_SS, s1_n0 by lia. cbn [zfact]. rewrite <- IH, <- (Z.abs_eq (Z.of_nat (S d))) at 1 by lia. 
  replace (0 - Z.of_nat (S d) * s1 (S d) 1)%Z with (- (Z.of_nat (S d) * s1 (S d) 1))%Z by ring. rewrite Z.abs_opp, Z.abs_mul. rewrite Z.abs_involutive || idtac. reflexivity.
Qed.
(** ** sort *)
Lemma sort_small d : (d <= 21)%nat -> (forall j, (j < d)%nat -> (Z.abs (s1 d (S j)) < 2 ^ 64)%Z) /\ (forall i j, (i <= j < d)%nat -> (s2 (S j) (S i) < 2 ^ 64)%Z).
Proof.
  intros Hd.
  assert (A : forallb (fun d => let r := r1 d in forallb (fun j => (Z.abs (nth (S j) r 0%Z) <? 2 ^ 64)%Z) (seq 0 d)) (seq 0 22) = true) by (vm_compute; reflexivity).
  assert (B : forallb (fun j => let r := r2 (S j) in forallb (fun i => (nth (S i) r 0%Z <? 2 ^ 64)%Z) (seq 0 (S j))) (seq 0 21) = true) by (vm_compute; reflexivity).
  split.
  - intros j Hj. pose proof (all_below _ _ A d ltac:(lia)) as A1. cbv zeta in A1. apply Z.ltb_lt. rewrite <- r1_ok. apply (all_below _ _ A1 j Hj).
  - intros i j H. pose proof (all_below _ _ B j ltac:(lia)) as B1. cbv zeta in B1. apply Z.ltb_lt. rewrite <- r2_ok. apply (all_below _ _ B1 i ltac:(lia)).
Qed.
Lemma sort_large d alpha log : (22 <= d)%nat -> gumbel_coef_sort d alpha log = Err TypeError.
Proof.
  intros Hd. unfold gumbel_coef_sort. rewrite stirling_first_all_ok, tables. cbn [bind].
  replace (existsb (fun z => (2 ^ 64 <=? Z.abs z)%Z) (map (fun j => s1 d (S j)) (seq 0 d))) with true; [reflexivity|].
  symmetry. apply existsb_exists. exists (s1 d 1). split; [apply (in_map (fun j => s1 d (S j)) _ 0%nat), in_seq; lia|]. apply Z.leb_le.
  destruct d as [|d]; [lia|]. rewrite s1_one. apply Z.le_trans with (zfact 21); [vm_compute; discriminate|apply zfact_mono; lia].
Qed.

(** ** horner *)
Lemma horner_fits d : (d <> 20)%nat -> forallb fits64 (map (fun j => s1 d (S j)) (seq 0 d)) = true -> forall i j, (i <= j < d)%nat -> fits64 (Z.abs (s1 d (S j)) * s2 (S j) (S i)) = true.
Proof.
  intros N F i j H. destruct (Nat.lt_ge_cases d 20) as [L|L].
  - assert (A : forallb (fun d => let r := r1 d in forallb (fun j => let q := r2 (S j) in forallb (fun i => fits64 (Z.abs (nth (S j) r 0%Z) * nth (S i) q 0%Z)) (seq 0 (S j))) (seq 0 d)) (seq 0 20) = true) by (vm_compute; reflexivity).
    pose proof (all_below _ _ A d L) as A1. cbv beta zeta in A1. pose proof (all_below _ _ A1 j ltac:(lia)) as A2. cbv beta zeta in A2. rewrite <- r1_ok, <- r2_ok. apply (all_below _ _ A2 i). lia.
  - exfalso. destruct (Nat.eq_dec d 21) as [->|N2]; [rewrite (map_ext _ (fun j => nth (S j) (r1 21) 0%Z)) in F by (intros j0; symmetry; apply r1_ok); vm_compute in F; discriminate|].
    rewrite forallb_forall in F. assert (I0 : In (s1 d 1) (map (fun j => s1 d (S j)) (seq 0 d))) by (apply (in_map (fun j => s1 d (S j)) _ 0%nat), in_seq; lia). specialize (F _ I0).
    unfold fits64 in F. apply andb_true_iff in F. destruct F as [F1 F2]. apply Z.leb_le in F1. apply Z.ltb_lt in F2.
    destruct d as [|d]; [lia|]. pose proof (s1_one d) as E. pose proof (zfact_mono 21 d ltac:(lia)) as M. assert (2 ^ 64 <= zfact 21)%Z by (vm_compute; discriminate). lia.
Qed.
Lemma horner_20 alpha : 
  exists l, gumbel_coef_horner 20 alpha false = Ok l /\
    nth 2 l Nan = Fin (rsum 18 (fun m => IZR (wrap64 (Z.abs (s1 20 (S (2 + m))) * s2 (S (2 + m)) 3)) * (- alpha) ^ m) * alpha ^ 3).
Proof.
  unfold gumbel_coef_horner. rewrite stirling_first_all_ok, tables. cbn [bind].
  replace (forallb fits64 (map (fun j => s1 20 (S j)) (seq 0 20))) with true by (rewrite (map_ext _ (fun j => nth (S j) (r1 20) 0%Z)) by (intros j0; symmetry; apply r1_ok); vm_compute; reflexivity).
  rewrite (mapM_ok _ (fun i => rsum (20 - i) (fun m => IZR (wrap64 (Z.abs (s1 20 (S (i + m))) * s2 (S (i + m)) (S i))) * (- alpha) ^ m))).
  2:{ intros i Hi. apply in_seq in Hi. rewrite horner_ok.
      - f_equal. rewrite poly_sum_seq. apply rsum_ext. intros m Hm. rewrite table_nth, nth_map_seq by lia. reflexivity.
      - intros E. apply (f_equal (@length R)) in E. rewrite map_length, seq_length in E. cbn [length] in E. lia. }
  cbn [bind]. eexists. split; [reflexivity|].
  assert (CM : forall (A B C : Type) (f : A -> B) (g : A * B -> C) l, map g (combine l (map f l)) = map (fun x => g (x, f x)) l).
  { intros A B C f g l. induction l as [|x l IH]; [reflexivity|]. cbn. rewrite IH. reflexivity. }
  rewrite CM. apply (nth_map_seq (fun x => Fin (rsum (20 - x) (fun m => IZR (wrap64 (Z.abs (s1 20 (S (x + m))) * s2 (S (x + m)) (S x))) * (- alpha) ^ m) * alpha ^ (x + 1)))). lia.
Qed.
Definition gap20 : list Z := [0; 0; - 2 ^ 64; - 2 ^ 64; - 2 ^ 64; - 2 ^ 64; 0; 0; 0; 0; 0; 0; 0; 0; 0; 0; 0; 0]%Z.
Lemma gap_sum alpha (p : nat -> Z) : 0 < alpha < 1 -> (forall m, (m < 18)%nat -> (wrap64 (p m) - p m = nth m gap20 0)%Z) ->
  rsum 18 (fun m => IZR (wrap64 (p m)) * (- alpha) ^ m) <> rsum 18 (fun m => IZR (p m) * (- alpha) ^ m).
Proof.
  intros Ha G E. apply Rminus_diag_eq in E. rewrite <- rsum_minus in E.
  rewrite (rsum_ext 18 _ (fun m => IZR (nth m gap20 0%Z) * (- alpha) ^ m)) in E.
  2:{ intros m Hm. rewrite <- Rmult_minus_distr_r, <- minus_IZR, G by exact Hm. reflexivity. }
  unfold gap20 in E. cbn [rsum nth] in E.
  assert (P : 0 < alpha ^ 2 * (1 - alpha) * (1 + alpha ^ 2)). { pose proof (pow_lt alpha 2 ltac:(lra)). apply Rmult_lt_0_compat; [apply Rmult_lt_0_compat; lra|lra]. }
  set (W := IZR (- 2 ^ 64)) in E. assert (W < 0) by (apply IZR_lt; reflexivity).
  assert (E' : W * (alpha ^ 2 * (1 - alpha) * (1 + alpha ^ 2)) = 0). { rewrite <- E. ring. }
  clear E. apply Rmult_integral in E'. destruct E' as [E'|E']; lra.
Qed.
Lemma gap_check m : (m < 18)%nat -> (wrap64 (Z.abs (s1 20 (S (2 + m))) * s2 (S (2 + m)) 3) - Z.abs (s1 20 (S (2 + m))) * s2 (S (2 + m)) 3 = nth m gap20 0)%Z.
Proof.
  intros Hm. rewrite <- r1_ok, <- r2_ok.
  assert (A : forallb (fun m => (wrap64 (Z.abs (nth (S (2 + m)) (r1 20) 0) * nth 3 (r2 (S (2 + m))) 0) - Z.abs (nth (S (2 + m)) (r1 20) 0) * nth 3 (r2 (S (2 + m))) 0 =? nth m gap20 0)%Z) (seq 0 18) = true) by (vm_compute; reflexivity).
  apply Z.eqb_eq. apply (all_below _ _ A m Hm).
Qed.
Lemma aterm_alt_prod alpha d i : (i < d)%nat -> ga alpha d (S i) = rsum (d - i) (fun m => IZR (Z.abs (s1 d (S (i + m))) * s2 (S (i + m)) (S i)) * (- alpha) ^ m) * alpha ^ S i.
Proof.
  intros Hi. rewrite <- (aterm_alt alpha d i Hi), <- rsum_scal_r. apply rsum_ext. intros m _. unfold aterm. rewrite mult_IZR. replace (- alpha) with (-1 * alpha) by ring. rewrite Rpow_mult_distr.
  replace (i + m + 1)%nat with (m + S i)%nat by lia. rewrite (pow_add alpha m). ring.
Qed.
Lemma horner_20_gap alpha : 0 < alpha < 1 ->
  rsum 18 (fun m => IZR (wrap64 (Z.abs (s1 20 (S (2 + m))) * s2 (S (2 + m)) 3)) * (- alpha) ^ m) * alpha ^ 3 <> ga alpha 20 3.
Proof.
  intros Ha. rewrite (aterm_alt_prod alpha 20 2) by lia. intros E. apply Rmult_eq_reg_r in E; [|apply pow_nonzero; lra].
  revert E. apply (gap_sum alpha (fun m => (Z.abs (s1 20 (S (2 + m))) * s2 (S (2 + m)) 3)%Z) Ha). exact gap_check.
Qed.

(** ** the Sibuya methods from degree 21 on *)
Lemma ck_wrong d : (21 <= d)%nat -> wrap64 (falling (Z.of_nat d) (d - 1)) <> falling (Z.of_nat d) (d - 1).
Proof.
  intros Hd E. pose proof (wrap64_range (falling (Z.of_nat d) (d - 1))) as R0. rewrite E in R0.
  pose proof (falling_fact d (d - 1) ltac:(lia)) as F. replace (d - (d - 1))%nat with 1%nat in F by lia. change (zfact 1) with 1%Z in F. rewrite Z.mul_1_r in F. rewrite F in R0.
  pose proof (zfact_mono 21 d Hd). assert (2 ^ 63 <= zfact 21)%Z by (vm_compute; discriminate). lia.
Qed.
Lemma coef_sibuya_wrong gamma gammaln d alpha m : gamma_function gamma -> log_gamma_function gamma gammaln -> 0 < alpha < 1 -> (21 <= d)%nat ->
  exists l v, gumbel_coef_sibuya gamma gammaln d alpha m false = Ok l /\ nth 0 l Nan = Fin v /\ v <> ga alpha d 1.
Proof.
  intros HG HL Ha Hd. unfold gumbel_coef_sibuya. rewrite (dsum_sibuya_ok gamma gammaln HG HL); auto; [|lia| | |].
  2:{ destruct d; [lia|]. discriminate. }
  2:{ intros n I. apply in_seq in I. lia. }
  2:{ intros E. destruct d as [|[|d]]; [lia|lia|]. discriminate. }
  cbn [bind]. rewrite gumbel_ck_ok by lia. rewrite (map_seq_shift _ 1), combine_map2, map_map. eexists _, _. split; [reflexivity|]. split.
  { rewrite (nth_map_seq (fun x => emul (logged false (sibuya_sum alpha d (1 + x))) (Fin (IZR (wrap64 (falling (Z.of_nat d) (d - S x))))))) by lia. cbn [logged emul escal]. reflexivity. }
  intros E. apply (ck_wrong d Hd). apply eq_IZR.
  pose proof (sibuya_gumbel alpha d 1 ltac:(lia)) as SG. pose proof (ga_pos alpha d Ha 1 ltac:(lia)) as GP.
  pose proof (falling_real d 0 ltac:(lia)) as FR. rewrite FR. change (1 + 0)%nat with 1%nat in E. pose proof (INR_fact_lt_0 d) as FP. pose proof (INR_fact_lt_0 1) as FP1.
  assert (SP : 0 < sibuya_sum alpha d 1). { rewrite SG. apply Rmult_lt_0_compat; [apply Rdiv_lt_0_compat; assumption|exact GP]. }
  apply (Rmult_eq_reg_l (sibuya_sum alpha d 1)); [|lra]. rewrite E, SG. field. split; lra.
Qed.

(** ** alpha = 1 *)
Lemma dsum_sibuya_one gamma gammaln d m log : (0 < d)%nat ->
  dsum_sibuya gamma gammaln [d] (seq 1 d) 1 m log = Ok (map (fun n => Fin (if Nat.eqb d n then 1 else 0)) (seq 1 d)).
Proof.
  intros Hd. unfold dsum_sibuya. rewrite alpha_check by lra.
  replace (if Nat.eqb (length [d]) (length (seq 1 d)) then ([d], seq 1 d) else if Nat.ltb (length [d]) (Nat.max (length [d]) (length (seq 1 d))) then (flat_map (fun a : nat => repeat a (Nat.max (length [d]) (length (seq 1 d)))) [d], seq 1 d) else ([d], flat_map (fun a : nat => repeat a (Nat.max (length [d]) (length (seq 1 d)))) (seq 1 d)))
    with (repeat d (length (seq 1 d)), seq 1 d).
  2:{ rewrite seq_length. cbn [length]. destruct (Nat.eqb_spec 1 d) as [E|E]; [rewrite <- E; reflexivity|].
      rewrite Nat.max_r by lia. rewrite (proj2 (Nat.ltb_lt _ _)) by lia. cbn [flat_map]. rewrite app_nil_r. reflexivity. }
  rewrite (proj2 (Reqb_true 1 1)) by reflexivity. rewrite combine_repeat, map_map. reflexivity.
Qed.
Lemma coef_sibuya_one_log gamma gammaln d m : (0 < d)%nat ->
  exists l, gumbel_coef_sibuya gamma gammaln d 1 m true = Ok l /\ nth (d - 1) l Nan = Fin 1.
Proof.
  intros Hd. unfold gumbel_coef_sibuya. rewrite dsum_sibuya_one by exact Hd. cbn [bind]. rewrite gumbel_ck_ok by exact Hd.
  rewrite (map_seq_shift _ 1), combine_map2, map_map. eexists. split; [reflexivity|].
  rewrite (nth_map_seq (fun x => eadd (Fin (if Nat.eqb d (1 + x) then 1 else 0)) (elog (Fin (IZR (wrap64 (falling (Z.of_nat d) (d - S x)))))))) by lia.
  replace (1 + (d - 1))%nat with d by lia. rewrite Nat.eqb_refl. replace (d - S (d - 1))%nat with 0%nat by lia. cbn [falling].
  change (wrap64 1) with 1%Z. rewrite elog_pos, ln_1 by lra. cbn [eadd]. f_equal. ring.
Qed.
(** plain values at alpha = 1 are right *)
Lemma coef_sibuya_one gamma gammaln d m : (0 < d)%nat -> gumbel_coef_sibuya gamma gammaln d 1 m false = Ok (coefficients d (ga 1 d)).
Proof.
  intros Hd. unfold gumbel_coef_sibuya. rewrite dsum_sibuya_one by exact Hd. cbn [bind]. rewrite gumbel_ck_ok by exact Hd.
  rewrite (map_seq_shift _ 1), combine_map2, map_map. f_equal. unfold coefficients. apply map_ext_in. intros i I. apply in_seq in I. cbn [emul escal]. f_equal.
  change (1 + i)%nat with (S i). destruct (Nat.eqb_spec d (S i)) as [E|E].
  - subst d. rewrite Nat.sub_diag. cbn [falling]. rewrite ga_diag, pow1. change (wrap64 1) with 1%Z. ring.
  - rewrite ga_alpha1 by lia. ring.
Qed.
(** method log for degree 1 *)
Lemma coef_sibuya_log_1 gamma gammaln alpha log : 0 < alpha < 1 -> gumbel_coef_sibuya gamma gammaln 1 alpha SibLog log = Err TypeError.
Proof.
  intros Ha. unfold gumbel_coef_sibuya, dsum_sibuya. rewrite alpha_check by lra. cbn [seq length Nat.eqb]. rewrite (proj2 (Reqb_false alpha 1)) by lra.
  cbn [fold_left Nat.max seq map length Nat.eqb Nat.modulo Nat.divmod fst snd nth]. unfold sign_ff. rewrite alpha_check by lra. cbn. rewrite (proj2 (Reqb_false alpha 1)) by lra. reflexivity.
Qed.

(** ** A gamma function exists *)
Definition wgamma_val (x : R) : R :=
  let n := (Int_part x - 1)%Z in
  if (0 <=? n)%Z then rising (x - IZR n) (Z.to_nat n) else / rising x (Z.to_nat (- n)).
Definition wgamma (x : R) : ext := if Reqb x (IZR (Int_part x)) && Rleb x 0 then Pinf else Fin (wgamma_val x).
Definition wgammaln (x : R) : ext := match wgamma x with Fin g => Fin (ln (Rabs g)) | _ => Pinf end.
Lemma int_part_bounds x : IZR (Int_part x) <= x < IZR (Int_part x) + 1.
Proof. pose proof (base_Int_part x). lra. Qed.
Lemma Int_part_spec r z : r - 1 < IZR z <= r -> z = Int_part r.
Proof.
  intros H. pose proof (int_part_bounds r) as B.
  assert (IZR z < IZR (Int_part r + 1)) by (rewrite plus_IZR; lra). assert (IZR (Int_part r) < IZR (z + 1)) by (rewrite plus_IZR; lra).
  apply lt_IZR in H0, H1. lia.
Qed.
Lemma int_part_S x : Int_part (x + 1) = (Int_part x + 1)%Z.
Proof. symmetry. apply Int_part_spec. rewrite plus_IZR. pose proof (int_part_bounds x). lra. Qed.
Lemma pole_dec x : pole x <-> Reqb x (IZR (Int_part x)) && Rleb x 0 = true.
Proof.
  rewrite andb_true_iff, Reqb_true, Rleb_true. split.
  - intros [m ->]. pose proof (pos_INR m). split; [|lra].
    assert (E : (- Z.of_nat m)%Z = Int_part (- INR m)). { apply Int_part_spec. rewrite opp_IZR, <- INR_IZR_INZ. lra. }
    rewrite <- E, opp_IZR, <- INR_IZR_INZ. reflexivity.
  - intros [E H]. exists (Z.to_nat (- Int_part x)). rewrite INR_IZR_INZ, Z2Nat.id; [rewrite opp_IZR; lra|]. apply le_IZR. rewrite opp_IZR. lra.
Qed.
Lemma rising_nz x n : (forall i, (i < n)%nat -> x + INR i <> 0) -> rising x n <> 0.
Proof. induction n as [|n IH]; intros H; [cbn; lra|]. cbn [rising]. apply Rmult_integral_contrapositive_currified; [apply IH; intros; apply H; lia|apply H; lia]. Qed.
Lemma wgamma_val_nz x : ~ pole x -> wgamma_val x <> 0.
Proof.
  intros N. unfold wgamma_val. assert (NP : forall i, x + INR i <> 0) by (intros i E; apply N; exists i; lra). destruct (Z.leb_spec 0 (Int_part x - 1)) as [L|L].
  - apply rising_nz. intros i _ E. pose proof (int_part_bounds x). rewrite minus_IZR in E. pose proof (pos_INR i). lra.
  - apply Rinv_neq_0_compat, rising_nz. intros i _. apply NP.
Qed.
Lemma wgamma_val_S x : ~ pole x -> wgamma_val (x + 1) = x * wgamma_val x.
Proof.
  intros N. unfold wgamma_val. rewrite int_part_S. replace (Int_part x + 1 - 1)%Z with (Int_part x) by ring. pose proof (int_part_bounds x) as B.
  assert (NP : forall i, x + INR i <> 0) by (intros i E; apply N; exists i; lra).
  destruct (Z.leb_spec 0 (Int_part x - 1)) as [L|L].
  - destruct (Z.leb_spec 0 (Int_part x)) as [L2|L2]; [|lia]. rewrite minus_IZR. replace (x + 1 - IZR (Int_part x)) with (x - (IZR (Int_part x) - 1)) by ring.
    replace (Z.to_nat (Int_part x)) with (S (Z.to_nat (Int_part x - 1))) by lia. cbn [rising].
    rewrite (INR_IZR_INZ (Z.to_nat (Int_part x - 1))), Z2Nat.id, minus_IZR by lia. ring.
  - destruct (Z.leb_spec 0 (Int_part x)) as [L2|L2].
    + assert (E : Int_part x = 0%Z) by lia. rewrite E. change (Z.to_nat 0) with 0%nat. change (Z.to_nat (- (0 - 1))) with 1%nat. cbn. field. specialize (NP 0%nat). cbn in NP. lra.
    + replace (Z.to_nat (- (Int_part x - 1))) with (S (Z.to_nat (- Int_part x))) by lia. rewrite rising_Sl. specialize (NP 0%nat) as N0. cbn [INR] in N0. rewrite Rplus_0_r in N0.
      field. split; [apply rising_nz; intros i _; specialize (NP (S i)); rewrite S_INR in NP; lra|exact N0].
Qed.
Lemma wgamma_ok : gamma_function wgamma.
Proof.
  assert (V : forall x, ~ pole x -> wgamma x = Fin (wgamma_val x)).
  { intros x N. unfold wgamma. destruct (_ && _) eqn:E; [|reflexivity]. apply pole_dec in E. contradiction. }
  split; [|split].
  - rewrite V by (apply pos_not_pole; lra). unfold wgamma_val. assert (E : 1%Z = Int_part 1) by (apply Int_part_spec; lra). rewrite <- E. reflexivity.
  - intros x N. exists (wgamma_val x). split; [apply wgamma_val_nz; exact N|]. split; [apply V; exact N|]. rewrite <- wgamma_val_S by exact N. apply V.
    intros [m E]. apply N. exists (S m). rewrite S_INR. lra.
  - intros x P. unfold wgamma. apply pole_dec in P. rewrite P. reflexivity.
Qed.
Lemma wgammaln_ok : log_gamma_function wgamma wgammaln.
Proof. intros x. reflexivity. Qed.
