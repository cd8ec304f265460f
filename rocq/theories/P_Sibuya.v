(** dsum_sibuya: the three methods compute the Sibuya sum. *)
From Coquelicot Require Import Coquelicot.
From Verif Require Import Base RSumLib Ext M_Special S_Special P_Stirling P_Eulerian M_Gumbel S_Gumbel P_Gumbel P_GumbelCode.
Open Scope R_scope.

(** ** gamma *)
Lemma pos_not_pole x : 0 < x -> ~ pole x.
Proof. intros H [m E]. pose proof (pos_INR m). lra. Qed.
Lemma pole_down x : pole x -> pole (x - 1).
Proof. intros [m ->]. exists (S m). rewrite S_INR. ring. Qed.
Section Gamma.
  Context (gamma gammaln : R -> ext) (HG : gamma_function gamma) (HL : log_gamma_function gamma gammaln).
  Lemma gamma_fact r : gamma (INR r + 1) = Fin (INR (fact r)).
  Proof.
    destruct HG as [H1 [H2 _]]. induction r as [|r IH]; [cbn; rewrite Rplus_0_l; exact H1|].
    destruct (H2 (INR r + 1)) as [g [_ [E1 E2]]]; [apply pos_not_pole; pose proof (pos_INR r); lra|].
    rewrite S_INR, E2, fact_S_INR. rewrite IH in E1. injection E1 as <-. reflexivity.
  Qed.
  Lemma gamma_falling x r : -1 < x -> exists a, a <> 0 /\ gamma (x + 1) = Fin a /\
    ((~ pole (x + 1 - INR r) /\ exists b, b <> 0 /\ gamma (x + 1 - INR r) = Fin b /\ a = rfalling x r * b) \/
     (pole (x + 1 - INR r) /\ rfalling x r = 0)).
  Proof.
    intros Hx. destruct HG as [H1 [H2 H3]]. assert (NP : ~ pole (x + 1)) by (apply pos_not_pole; lra).
    destruct (H2 (x + 1) NP) as [a [Na [Ea _]]]. exists a. split; [exact Na|]. split; [exact Ea|].
    induction r as [|r IH].
    - left. cbn [INR rfalling]. rewrite Rminus_0_r. split; [exact NP|]. exists a. split; [exact Na|]. split; [exact Ea|ring].
    - rewrite S_INR. replace (x + 1 - (INR r + 1)) with (x + 1 - INR r - 1) by ring. rewrite rfalling_S.
      destruct IH as [[N [b [Nb [Eb E]]]]|[P Z]].
      + destruct (Classical_Prop.classic (pole (x + 1 - INR r - 1))) as [P|P].
        * right. split; [exact P|]. destruct P as [[|m] Em].
          -- cbn [INR] in Em. replace (x - INR r) with 0 by lra. ring.
          -- exfalso. apply N. exists m. rewrite S_INR in Em. lra.
        * left. split; [exact P|]. destruct (H2 _ P) as [g [Ng [E1 E2]]]. replace (x + 1 - INR r - 1 + 1) with (x + 1 - INR r) in E2 by ring.
          rewrite Eb in E2. injection E2 as ->. exists g. split; [exact Ng|]. split; [exact E1|]. rewrite E. ring.
      + right. split; [apply pole_down; exact P|]. rewrite Z. ring.
  Qed.
  Lemma ecomb_ok x r : -1 < x -> ecomb gamma x (INR r) = Fin (rbinom x r).
  Proof.
    intros Hx. unfold ecomb. destruct (gamma_falling x r Hx) as [a [Na [-> [[_ [b [Nb [-> E]]]]|[P Z]]]]]; rewrite ?gamma_fact.
    - unfold rbinom. rewrite E. f_equal. field. split; [apply INR_fact_neq_0|exact Nb].
    - destruct HG as [_ [_ H3]]. rewrite (H3 _ P). rewrite (proj2 (Reqb_false _ 0)) by apply INR_fact_neq_0. unfold rbinom. rewrite Z. f_equal. field. apply INR_fact_neq_0.
  Qed.
  Lemma ecomb_log_ok x r : -1 < x -> ecomb_log gammaln x (INR r) = elog (Fin (Rabs (rbinom x r))).
  Proof.
    intros Hx. unfold ecomb_log. rewrite !HL. destruct (gamma_falling x r Hx) as [a [Na [-> [[_ [b [Nb [-> E]]]]|[P Z]]]]]; rewrite ?gamma_fact.
    - assert (Nf : rfalling x r <> 0) by (intros Z; rewrite Z, Rmult_0_l in E; congruence). pose proof (fact_pos r) as F.
      unfold rbinom. rewrite elog_pos by (apply Rabs_pos_lt; apply Rmult_integral_contrapositive_currified; [exact Nf|apply Rinv_neq_0_compat; lra]).
      unfold esub. cbn [eopp eadd]. f_equal. rewrite E. unfold Rdiv. rewrite !Rabs_mult, Rabs_inv.
      rewrite !ln_mult by (try apply Rinv_0_lt_compat; apply Rabs_pos_lt; auto; lra). rewrite ln_Rinv by (apply Rabs_pos_lt; lra). ring.
    - destruct HG as [_ [_ H3]]. rewrite (H3 _ P). unfold rbinom. rewrite Z. unfold Rdiv. rewrite Rmult_0_l, Rabs_R0, elog_0. reflexivity.
  Qed.
End Gamma.

(** ** Signs *)
Lemma rfalling_sign y c n : INR c - 1 < y < INR c ->
  if Nat.leb n c then 0 < rfalling y n else 0 < (-1) ^ (n - c) * rfalling y n.
Proof.
  intros H. induction n as [|n IH]; [cbn; lra|]. rewrite rfalling_S.
  destruct (Nat.leb_spec (S n) c) as [L|L].
  - destruct (Nat.leb_spec n c) as [L'|L']; [|lia]. apply Rmult_lt_0_compat; [exact IH|]. apply le_INR in L. rewrite S_INR in L. lra.
  - destruct (Nat.leb_spec n c) as [L'|L'].
    + assert (n = c) by lia. subst n. replace (S c - c)%nat with 1%nat by lia. cbn [pow]. nra.
    + replace (S n - c)%nat with (S (n - c)) by lia. rewrite pow_m1_S. assert (INR c <= INR n) by (apply le_INR; lia). nra.
Qed.
Lemma rfalling_nat_0 m n : (m < n)%nat -> rfalling (INR m) n = 0.
Proof.
  induction n as [|n IH]; intros H; [lia|]. rewrite rfalling_S. destruct (Nat.eq_dec m n) as [->|E]; [ring|]. rewrite IH by lia. ring.
Qed.
Lemma sign_pow_nat (z : Z) (n : nat) : Z.even z = Nat.even n -> sign_pow z = (-1) ^ n.
Proof.
  intros E. unfold sign_pow. rewrite E. clear E. induction n as [|n IH]; [reflexivity|]. rewrite pow_m1_S, <- IH, Nat.even_succ, <- Nat.negb_even.
  destruct (Nat.even n); cbn; ring.
Qed.
Lemma Z_even_of_nat n : Z.even (Z.of_nat n) = Nat.even n.
Proof.
  induction n as [|n IH]; [reflexivity|]. rewrite Nat2Z.inj_succ, Z.even_succ, <- Z.negb_even, IH, Nat.even_succ, <- Nat.negb_even. reflexivity.
Qed.
(** sign_ff is the sign of binom(alpha j, x) (-1)^(x-j) *)
Lemma sign_ff1_ok alpha j x : 0 < alpha < 1 -> (1 <= j <= x)%nat -> forall dd, (Z.of_nat j <= dd)%Z ->
  exists s, sign_ff1 alpha (Z.of_nat j) dd = Fin s /\ s * Rabs (rbinom (alpha * INR j) x) = rbinom (alpha * INR j) x * (-1) ^ (x + j).
Proof.
  intros Ha H dd Hdd. unfold sign_ff1. rewrite (proj2 (Reqb_false alpha 1)) by lra. rewrite <- INR_IZR_INZ.
  assert (Hj : 0 < INR j) by (apply lt_0_INR; lia). set (y := alpha * INR j). assert (Hy : 0 < y < INR j) by (unfold y; nra).
  assert (Hjx : INR j <= INR x) by (apply le_INR; lia).
  destruct (base_Int_part y) as [B1 B2].
  assert (I0 : (0 <= Int_part y)%Z). { apply le_IZR. destruct (Z_lt_le_dec (Int_part y) 0) as [L|L]; [|apply IZR_le; exact L].
    exfalso. assert (Int_part y <= -1)%Z by lia. apply IZR_le in H0. cbn in H0. lra. }
  set (f := Z.to_nat (Int_part y)). assert (Ef : IZR (Int_part y) = INR f) by (unfold f; rewrite INR_IZR_INZ, Z2Nat.id by exact I0; reflexivity).
  destruct (Reqb y (IZR (Int_part y))) eqn:E.
  - apply Reqb_true in E. rewrite (proj2 (Z.ltb_ge dd (Z.of_nat j))) by exact Hdd. exists 0. split; [reflexivity|].
    pose proof (eq_trans E Ef) as E'. clearbody y f. subst y. unfold rbinom. rewrite rfalling_nat_0 by (apply INR_lt; lra). unfold Rdiv. ring.
  - apply Reqb_false in E. set (c := S f).
    assert (Hc : INR c - 1 < y < INR c). { unfold c. rewrite S_INR. rewrite Ef in *. lra. }
    assert (Cl : ceil y = Z.of_nat c).
    { unfold ceil. assert (Q : Int_part (- y) = (- Z.of_nat c)%Z).
      { unfold Int_part. rewrite <- (tech_up (- y) (- Z.of_nat c + 1)); [lia| |]; rewrite plus_IZR, opp_IZR, <- INR_IZR_INZ; lra. }
      rewrite Q. lia. }
    assert (Lc : (c <= x)%nat). { apply INR_le. destruct (le_lt_dec c x) as [L|L]; [apply le_INR; exact L|]. exfalso.
      assert (INR x + 1 <= INR c) by (rewrite <- S_INR; apply le_INR; lia). lra. }
    exists (sign_pow (Z.of_nat j - ceil y)). split; [reflexivity|]. rewrite Cl.
    rewrite (sign_pow_nat _ (j + c)%nat) by (rewrite Z.even_sub, !Z_even_of_nat, Nat.even_add; reflexivity).
    pose proof (rfalling_sign y c x Hc) as S0.
    assert (S1 : 0 < (-1) ^ (x - c) * rfalling y x).
    { destruct (Nat.leb_spec x c) as [L|L]; [|exact S0]. replace (x - c)%nat with 0%nat by lia. cbn [pow]. lra. }
    assert (AB : Rabs (rfalling y x) = (-1) ^ (x - c) * rfalling y x).
    { rewrite <- (Rabs_pos_eq ((-1) ^ (x - c) * rfalling y x)) by lra. rewrite Rabs_mult, pow_1_abs. ring. }
    unfold rbinom, Rdiv. rewrite Rabs_mult, (Rabs_pos_eq (/ _)) by (left; apply Rinv_0_lt_compat, fact_pos). rewrite AB.
    transitivity (((-1) ^ (j + c) * (-1) ^ (x - c)) * (rfalling y x * / INR (fact x))); [ring|].
    rewrite <- pow_m1_add. rewrite (pow_m1_even (x + j) (j + c + (x - c))) by (exists 0%nat; lia). ring.
Qed.

(** ** direct *)
Lemma iter_succ_r {A} (f : A -> A) n x : Nat.iter (S n) f x = Nat.iter n f (f x).
Proof. induction n as [|n IH]; [reflexivity|]. change (f (Nat.iter (S n) f x) = f (Nat.iter n f (f x))). rewrite IH. reflexivity. Qed.
Lemma sibuya_sum_big alpha x n : (0 < x < n)%nat -> sibuya_sum alpha x n = 0.
Proof. intros H. rewrite sibuya_gumbel by lia. rewrite ga_big by lia. ring. Qed.
Lemma sibuya_sum_nonneg alpha x n : 0 < alpha <= 1 -> (0 < x)%nat -> 0 <= sibuya_sum alpha x n.
Proof.
  intros Ha Hx. rewrite sibuya_gumbel by exact Hx. apply Rmult_le_pos; [|apply ga_nonneg; exact Ha].
  pose proof (fact_pos n). pose proof (fact_pos x). left. apply Rdiv_lt_0_compat; lra.
Qed.
Lemma esum_map_fin {A} (f : A -> ext) (g : A -> R) l : (forall a, In a l -> f a = Fin (g a)) -> esum (map f l) = Fin (lsum (map g l)).
Proof. intros H. rewrite (map_ext_in f (fun a => Fin (g a))) by exact H. rewrite <- (map_map g Fin). apply esum_fin. Qed.
Section Methods.
  Context (gamma gammaln : R -> ext) (HG : gamma_function gamma) (HL : log_gamma_function gamma gammaln).
  Lemma alpha_gt alpha j : 0 < alpha -> -1 < alpha * INR j.
  Proof. intros H. pose proof (pos_INR j). assert (0 <= alpha * INR j) by (apply Rmult_le_pos; lra). lra. Qed.
  Lemma sib_direct1_ok alpha x n : 0 < alpha <= 1 -> (0 < x)%nat -> sib_direct1 gamma alpha x n = Fin (sibuya_sum alpha x n).
  Proof.
    intros Ha Hx. unfold sib_direct1. destruct (Nat.ltb_spec x n) as [L|L].
    - rewrite sibuya_sum_big by lia. reflexivity.
    - rewrite (esum_map_fin _ (fun j => rbinom (INR n) j * rbinom (alpha * INR j) x * (-1) ^ (x - j))).
      + f_equal. rewrite lsum_map_seq. unfold sibuya_sum. apply rsum_ext. intros i Hi. cbv zeta. change (1 + i)%nat with (S i).
        rewrite (pow_m1_even (x + S i) (x - S i)) by (exists (S i); lia). reflexivity.
      + intros j Hj. apply in_seq in Hj. rewrite !(ecomb_ok gamma HG) by (try apply alpha_gt; try (pose proof (pos_INR n)); lra). reflexivity.
  Qed.

  (** ** diff *)
  Definition delta (g : nat -> R) (i : nat) : R := g (S i) - g i.
  Lemma diff1_map g n : forall a, diff1 (map (fun i => Fin (g i)) (seq a (S n))) = map (fun i => Fin (delta g i)) (seq a n).
  Proof.
    induction n as [|n IH]; intros a; [reflexivity|]. change (seq a (S (S n))) with (a :: seq (S a) (S n)). cbn [map].
    change (map (fun i => Fin (g i)) (seq (S a) (S n))) with (Fin (g (S a)) :: map (fun i => Fin (g i)) (seq (S (S a)) n)).
    cbn [diff1]. cbn [seq map]. f_equal. rewrite <- IH. reflexivity.
  Qed.
  Fixpoint ndelta (n : nat) (g : nat -> R) : nat -> R := match n with O => g | S m => ndelta m (delta g) end.
  Lemma np_diff_map n : forall g, np_diff n (map (fun i => Fin (g i)) (seq 0 (S n))) = [Fin (ndelta n g 0)].
  Proof.
    induction n as [|n IH]; intros g; [reflexivity|]. unfold np_diff. rewrite iter_succ_r, diff1_map. apply IH.
  Qed.
  Lemma ndelta_sum n : forall g i, ndelta n g i = rsum (S n) (fun j => (-1) ^ j * IZR (bin n j) * g (i + (n - j))%nat).
  Proof.
    induction n as [|n IH]; intros g i.
    - cbn. rewrite Nat.add_0_r. ring.
    - cbn [ndelta]. rewrite IH. unfold delta.
      rewrite (rsum_ext (S n) _ (fun j => (-1) ^ j * IZR (bin n j) * g (i + (S n - j))%nat + -1 * ((-1) ^ j * IZR (bin n j) * g (i + (n - j))%nat))).
      2:{ intros j Hj. replace (S (i + (n - j)))%nat with (i + (S n - j))%nat by lia. ring. }
      rewrite rsum_plus, rsum_scal.
      rewrite (rsum_Sl (S n) (fun j => (-1) ^ j * IZR (bin (S n) j) * g (i + (S n - j))%nat)).
      rewrite (rsum_ext (S n) (fun i0 => (-1) ^ S i0 * IZR (bin (S n) (S i0)) * g (i + (S n - S i0))%nat)
         (fun j => (-1) ^ S j * IZR (bin n (S j)) * g (i + (S n - S j))%nat + -1 * ((-1) ^ j * IZR (bin n j) * g (i + (n - j))%nat))).
      2:{ intros j Hj. rewrite bin_SS, plus_IZR, pow_m1_S. replace (S n - S j)%nat with (n - j)%nat by lia. ring. }
      rewrite rsum_plus, rsum_scal. rewrite (rsum_Sl n (fun j => (-1) ^ j * IZR (bin n j) * g (i + (S n - j))%nat)).
      rewrite (rsum_S n (fun j => (-1) ^ S j * IZR (bin n (S j)) * g (i + (S n - S j))%nat)). rewrite (bin_big n (S n)) by lia. rewrite !bin_0.
      ring.
  Qed.
  Lemma rev_seq_map n : rev (seq 0 (S n)) = map (fun i => (n - i)%nat) (seq 0 (S n)).
  Proof.
    induction n as [|n IH]; [reflexivity|]. rewrite (seq_S (S n)) at 1. rewrite rev_app_distr, IH. cbn [Nat.add]. change (seq 0 (S (S n))) with (0 :: seq 1 (S n))%nat. cbn [map rev app]. f_equal.
    rewrite <- seq_shift, map_map. apply map_ext. intros a. lia.
  Qed.
  Lemma sib_diff1_ok alpha x n : 0 < alpha <= 1 -> (0 < x)%nat -> sib_diff1 gamma alpha x n = Fin (sibuya_sum alpha x n).
  Proof.
    intros Ha Hx. unfold sib_diff1. rewrite rev_seq_map, map_map.
    rewrite (map_ext _ (fun i => Fin (rbinom (alpha * INR (n - i)) x))).
    2:{ intros i. rewrite (Rmult_comm (INR (n - i))). apply (ecomb_ok gamma HG). apply alpha_gt; lra. }
    rewrite (np_diff_map n (fun i => rbinom (alpha * INR (n - i)) x)). cbn [hd emul escal]. f_equal.
    rewrite ndelta_sum, <- rsum_scal_r, rsum_Sl. cbn [Nat.add]. rewrite Nat.sub_0_r, Nat.sub_diag. cbn [INR]. rewrite Rmult_0_r.
    unfold rbinom at 1. rewrite rfalling_0 by exact Hx. unfold Rdiv at 1. rewrite Rmult_0_l, Rmult_0_r, Rmult_0_l, Rplus_0_l.
    unfold sibuya_sum. apply rsum_ext. intros i Hi. cbv zeta. rewrite rbinom_nat. replace (n - (n - S i))%nat with (S i) by lia. rewrite pow_m1_add. ring.
  Qed.

  (** ** log *)
  Lemma sib_log1_ok alpha signs x n : 0 < alpha < 1 -> (0 < x)%nat -> (0 < n)%nat ->
    (forall j, (j < n)%nat -> exists dd, (Z.of_nat (S j) <= dd \/ (x < n)%nat)%Z /\ nth j signs Nan = sign_ff1 alpha (Z.of_nat (S j)) dd) ->
    sib_log1 gammaln alpha signs x n = Ok (elog (Fin (sibuya_sum alpha x n))).
  Proof.
    intros Ha Hx Hn HS. unfold sib_log1. destruct (Nat.ltb_spec x n) as [L|L].
    - rewrite sibuya_sum_big by lia. rewrite elog_0. reflexivity.
    - destruct n as [|n0]; [lia|]. set (n := S n0) in *.
      set (w := fun j => rbinom (INR n) (S j) * Rabs (rbinom (alpha * INR (S j)) x)).
      assert (W0 : forall j, 0 <= w j). { intros j. unfold w. apply Rmult_le_pos; [|apply Rabs_pos]. rewrite rbinom_nat. apply IZR_le. clear. revert n. generalize (S j) as k.
        intros k n; revert k; induction n as [|n IH]; intros [|k]; cbn [bin]; try lia. pose proof (IH k). pose proof (IH (S k)). lia. }
      assert (LX : map (fun j => eadd (ecomb_log gammaln (INR n) (INR (j + 1))) (ecomb_log gammaln (alpha * INR (j + 1)) (INR x))) (seq 0 n)
                   = map (fun v => elog (Fin v)) (map w (seq 0 n))).
      { rewrite map_map. apply map_ext. intros j. rewrite Nat.add_1_r.
        rewrite !(ecomb_log_ok gamma gammaln HG HL) by (try apply alpha_gt; try (pose proof (pos_INR n)); lra).
        assert (B0 : 0 <= rbinom (INR n) (S j)).
        { rewrite rbinom_nat. apply IZR_le. clear. generalize (S j) as k. generalize n. intros n1; induction n1 as [|n1 IH]; intros [|k]; cbn [bin]; try lia. pose proof (IH k). pose proof (IH (S k)). lia. }
        rewrite (Rabs_pos_eq _ B0). rewrite elog_mul by (try apply Rabs_pos; exact B0). reflexivity. }
      rewrite LX.
      destruct (emaximum_elog (map w (seq 0 n))) as [m Hm].
      { intros v I. apply in_map_iff in I. destruct I as [j [<- _]]. apply W0. }
      { exists (w 0%nat). split; [apply in_map, in_seq; lia|]. unfold w. cbn [INR]. apply Rmult_lt_0_compat.
        - rewrite rbinom_nat. apply IZR_lt. unfold n. rewrite bin_SS, bin_0. clear. induction n0 as [|q IH]; [cbn; lia|]. rewrite bin_SS, bin_0. lia.
        - apply Rabs_pos_lt. unfold rbinom. apply Rmult_integral_contrapositive_currified; [|apply Rinv_neq_0_compat, INR_fact_neq_0].
          intros Z. pose proof (rfalling_sign (alpha * 1) 1 x ltac:(cbn; lra)) as S0. rewrite Z in S0. destruct (Nat.leb x 1); lra. }
      rewrite Hm.
      rewrite (esum_map_fin _ (fun j => rbinom (INR n) (S j) * rbinom (alpha * INR (S j)) x * (-1) ^ (x + S j) * exp (- m))).
      2:{ intros j Hj. apply in_seq in Hj. rewrite map_map. rewrite (nth_map_seq (fun x0 => elog (Fin (w x0)))) by lia. rewrite eexp_shift by apply W0.
          destruct (HS j ltac:(lia)) as [dd [D ->]]. destruct D as [D|D]; [|lia].
          destruct (sign_ff1_ok alpha (S j) x Ha ltac:(lia) dd D) as [s [-> E]]. cbn [emul escal]. f_equal. unfold w.
          transitivity (rbinom (INR n) (S j) * (s * Rabs (rbinom (alpha * INR (S j)) x)) * exp (- m)); [ring|]. rewrite E. ring. }
      rewrite <- rsum_lsum, (rsum_scal_r n (exp (- m)) (fun j => rbinom (INR n) (S j) * rbinom (alpha * INR (S j)) x * (-1) ^ (x + S j))).
      change (rsum n (fun j => rbinom (INR n) (S j) * rbinom (alpha * INR (S j)) x * (-1) ^ (x + S j))) with (sibuya_sum alpha x n).
      rewrite elog_unshift by (apply sibuya_sum_nonneg; [lra|exact Hx]). reflexivity.
  Qed.
End Methods.
