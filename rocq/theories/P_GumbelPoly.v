(** dsum_sibuya, gumbel_coef and gumbel_poly as a whole; derivatives of the generator. *)
From Coquelicot Require Import Coquelicot.
From Verif Require Import Base RSumLib Ext M_Special S_Special P_Stirling P_Int64 P_Partitions P_Eulerian P_Polylog M_Gumbel S_Gumbel P_Gumbel P_GumbelCode P_Sibuya.
Open Scope R_scope.

(** ** dsum_sibuya for one x and many n *)
Lemma combine_repeat {A B} (x : A) (l : list B) : combine (repeat x (length l)) l = map (fun n => (x, n)) l.
Proof. induction l as [|a l IH]; [reflexivity|]. cbn. rewrite IH. reflexivity. Qed.
Lemma fold_max_init l : forall a, (a <= fold_left Nat.max l a)%nat.
Proof. induction l as [|b l IH]; intros a; [cbn; lia|]. cbn [fold_left]. specialize (IH (Nat.max a b)). lia. Qed.
Lemma fold_max_ge l : forall a n, In n l -> (n <= fold_left Nat.max l a)%nat.
Proof.
  induction l as [|b l IH]; intros a n H; [destruct H|]. cbn [fold_left]. destruct H as [->|H]; [|apply IH; exact H].
  pose proof (fold_max_init l (Nat.max a n)). lia.
Qed.
Lemma fold_max_le l : forall a b, (a <= b)%nat -> (forall n, In n l -> (n <= b)%nat) -> (fold_left Nat.max l a <= b)%nat.
Proof. induction l as [|c l IH]; intros a b Ha H; [exact Ha|]. cbn [fold_left]. apply IH; [|intros n Hn; apply H; right; exact Hn]. specialize (H c (or_introl eq_refl)). lia. Qed.
Lemma combine_map2 {A B C} (f : A -> B) (g : A -> C) l : combine (map f l) (map g l) = map (fun x => (f x, g x)) l.
Proof. induction l as [|x l IH]; [reflexivity|]. cbn. rewrite IH. reflexivity. Qed.
Lemma existsb_false {A} (f : A -> bool) l : (forall x, In x l -> f x = false) -> existsb f l = false.
Proof. intros H. apply not_true_iff_false. intros E. apply existsb_exists in E. destruct E as [x [I E]]. rewrite H in E by exact I. discriminate. Qed.
Lemma alpha_check alpha : 0 < alpha <= 1 -> negb (Rltb 0 alpha && Rleb alpha 1) = false.
Proof. intros H. rewrite (proj2 (Rltb_true 0 alpha)), (proj2 (Rleb_true alpha 1)) by lra. reflexivity. Qed.
Section S.
  Context (gamma gammaln : R -> ext) (HG : gamma_function gamma) (HL : log_gamma_function gamma gammaln).
  Definition logged (log : bool) (v : R) : ext := if log then elog (Fin v) else Fin v.
  Lemma map_logged {A} (log : bool) (g : A -> R) l : (if log then map elog (map (fun a => Fin (g a)) l) else map (fun a => Fin (g a)) l) = map (fun a => logged log (g a)) l.
  Proof. destruct log; [apply map_map|reflexivity]. Qed.
  Lemma sign_list alpha top L x : 0 < alpha < 1 -> (0 < top)%nat -> (0 < L)%nat ->
    exists signs, sign_ff alpha (map (fun i => nth (i mod top) (map Z.of_nat (seq 1 top)) 0%Z) (seq 0 (Nat.max top L)))
              (map (fun i => Z.of_nat (nth (i mod L) (repeat x L) 0%nat)) (seq 0 (Nat.max top L))) = Ok signs /\
      length signs = Nat.max top L /\ forall j, (j < top)%nat -> nth j signs Nan = sign_ff1 alpha (Z.of_nat (S j)) (Z.of_nat x).
  Proof.
    intros Ha Ht HLp. unfold sign_ff. rewrite alpha_check by lra. rewrite (proj2 (Reqb_false alpha 1)) by lra. cbn [andb].
    rewrite !existsb_false. 
    2:{ intros z I. apply in_map_iff in I. destruct I as [i [<- I]]. apply Z.ltb_ge.
        assert (i mod top < top)%nat by (apply Nat.mod_upper_bound; lia). 
        rewrite (nth_indep _ _ (Z.of_nat 0)) by (rewrite map_length, seq_length; exact H). rewrite map_nth. lia. }
    2:{ intros z I. apply in_map_iff in I. destruct I as [i [<- I]]. apply Z.ltb_ge. lia. }
    cbn [orb]. eexists. split; [reflexivity|]. split; [rewrite map_length, combine_length, !map_length, !seq_length; lia|].
    intros j Hj. rewrite combine_map2, map_map.
    rewrite (nth_map_seq (fun x0 => sign_ff1 alpha (nth (x0 mod top) (map Z.of_nat (seq 1 top)) 0%Z) (Z.of_nat (nth (x0 mod L) (repeat x L) 0%nat)))) by lia.
    rewrite Nat.mod_small by exact Hj. rewrite (nth_indep _ _ (Z.of_nat 0)) by (rewrite map_length, seq_length; exact Hj). rewrite map_nth, seq_nth by exact Hj.
    f_equal. f_equal. rewrite nth_repeat with (m := L) || idtac.
    assert (E : forall k n, (n < k)%nat -> nth n (repeat x k) 0%nat = x). { clear. induction k as [|k IH]; intros n H; [lia|]. destruct n; [reflexivity|]. cbn. apply IH. lia. }
    apply E. apply Nat.mod_upper_bound. lia.
  Qed.
  Lemma dsum_sibuya_ok x ns alpha m log : 0 < alpha < 1 -> (0 < x)%nat -> ns <> [] -> (forall n, In n ns -> (0 < n)%nat) -> (m = SibLog -> ns <> [1%nat]) ->
    dsum_sibuya gamma gammaln [x] ns alpha m log = Ok (map (fun n => logged log (sibuya_sum alpha x n)) ns).
  Proof.
    intros Ha Hx Hne Hn H1. unfold dsum_sibuya. rewrite alpha_check by lra.
    assert (LN : (0 < length ns)%nat) by (destruct ns; [congruence|cbn; lia]).
    replace (if Nat.eqb (length [x]) (length ns) then ([x], ns) else if Nat.ltb (length [x]) (Nat.max (length [x]) (length ns)) then (flat_map (fun a : nat => repeat a (Nat.max (length [x]) (length ns))) [x], ns) else ([x], flat_map (fun a : nat => repeat a (Nat.max (length [x]) (length ns))) ns))
      with (repeat x (length ns), ns).
    2:{ cbn [length]. destruct (Nat.eqb_spec 1 (length ns)) as [E|E]; [rewrite <- E; reflexivity|].
        rewrite Nat.max_r by lia. rewrite (proj2 (Nat.ltb_lt _ _)) by lia. cbn [flat_map]. rewrite app_nil_r. reflexivity. }
    rewrite (proj2 (Reqb_false alpha 1)) by lra. rewrite combine_repeat.
    destruct m.
    - set (top := fold_left Nat.max ns 0%nat).
      assert (Ht : (0 < top)%nat). { destruct ns as [|n ns]; [congruence|]. pose proof (fold_max_ge (n :: ns) 0 n (or_introl eq_refl)). specialize (Hn n (or_introl eq_refl)). unfold top. lia. }
      rewrite (proj2 (Nat.eqb_neq top 0)) by lia. rewrite repeat_length.
      destruct (sign_list alpha top (length ns) x Ha Ht LN) as [signs [-> [LS HS]]]. cbn [bind].
      assert (M : mapM (fun '(a, b) => sib_log1 gammaln alpha signs a b) (map (fun n => (x, n)) ns) = Ok (map (fun n => elog (Fin (sibuya_sum alpha x n))) ns)).
      { rewrite (mapM_ok _ (fun '(a, b) => elog (Fin (sibuya_sum alpha a b)))).
        - rewrite map_map. reflexivity.
        - intros [a b] I. apply in_map_iff in I. destruct I as [n [[= <- <-] I]]. apply (sib_log1_ok gamma); auto.
          intros j Hj. exists (Z.of_nat x). pose proof (fold_max_ge ns 0 n I). fold top in H. split; [destruct (Nat.lt_ge_cases x n); [right; exact H0|left; lia]|apply HS; lia]. }
      destruct signs as [|s0 [|s1 signs]].
      + cbn in LS. lia.
      + exfalso. cbn in LS. apply (H1 eq_refl). assert (length ns = 1)%nat by lia. assert (top = 1)%nat by lia.
        destruct ns as [|n [|]]; cbn in H; try lia. specialize (Hn n (or_introl eq_refl)). pose proof (fold_max_ge [n] 0 n (or_introl eq_refl)). fold top in H2. f_equal. lia.
      + rewrite M. cbn [bind]. f_equal. destruct log; [reflexivity|]. rewrite map_map. apply map_ext_in. intros n I. unfold logged.
        apply eexp_elog. apply sibuya_sum_nonneg; [lra|exact Hx].
    - assert (E : map (fun '(a, b) => sib_direct1 gamma alpha a b) (map (fun n => (x, n)) ns) = map (fun n => Fin (sibuya_sum alpha x n)) ns).
      { rewrite map_map. apply map_ext. intros n. apply sib_direct1_ok; auto; lra. }
      rewrite E. f_equal. apply map_logged.
    - assert (E : map (fun '(a, b) => sib_diff1 gamma alpha a b) (map (fun n => (x, n)) ns) = map (fun n => Fin (sibuya_sum alpha x n)) ns).
      { rewrite map_map. apply map_ext. intros n. apply sib_diff1_ok; auto; lra. }
      rewrite E. f_equal. apply map_logged.
  Qed.

  (** ** The factor d! / k! *)
  Lemma cumprod64_ok d n : forall i acc, (i + n <= d)%nat -> acc = wrap64 (falling (Z.of_nat d) i) ->
    cumprod64 acc (map (fun i => Z.of_nat (d - i)) (seq i n)) = map (fun m => wrap64 (falling (Z.of_nat d) m)) (seq (S i) n).
  Proof.
    induction n as [|n IH]; intros i acc Hi Ha; [reflexivity|]. cbn [seq map cumprod64]. 
    assert (E : wrap64 (acc * Z.of_nat (d - i)) = wrap64 (falling (Z.of_nat d) (S i))).
    { rewrite Ha, wrap64_mul. cbn [falling]. do 2 f_equal. lia. }
    rewrite E. f_equal. apply IH; [lia|reflexivity].
  Qed.
  Lemma gumbel_ck_ok d : (0 < d)%nat -> gumbel_ck d = map (fun i => wrap64 (falling (Z.of_nat d) (d - S i))) (seq 0 d).
  Proof.
    intros Hd. unfold gumbel_ck. rewrite (cumprod64_ok d (d - 1) 0 1) by (try lia; reflexivity).
    change (1%Z :: map (fun m => wrap64 (falling (Z.of_nat d) m)) (seq 1 (d - 1))) with (map (fun m => wrap64 (falling (Z.of_nat d) m)) (seq 0 (S (d - 1)))).
    rewrite <- map_rev, rev_seq_map, map_map. replace (S (d - 1)) with d by lia. apply map_ext. intros i. do 2 f_equal. lia.
  Qed.
  Lemma falling_fact d : forall m, (m <= d)%nat -> (falling (Z.of_nat d) m * zfact (d - m) = zfact d)%Z.
  Proof.
    induction m as [|m IH]; intros H; [cbn [falling]; rewrite Nat.sub_0_r; lia|]. cbn [falling]. rewrite <- IH by lia.
    replace (d - m)%nat with (S (d - S m)) by lia. cbn [zfact]. replace (Z.of_nat d - Z.of_nat m)%Z with (Z.of_nat (S (d - S m))) by lia. ring.
  Qed.
  Lemma falling_real d i : (i < d)%nat -> IZR (falling (Z.of_nat d) (d - S i)) = INR (fact d) / INR (fact (S i)).
  Proof.
    intros H. pose proof (falling_fact d (d - S i) ltac:(lia)) as E. replace (d - (d - S i))%nat with (S i) in E by lia.
    apply (f_equal IZR) in E. rewrite mult_IZR, !zfact_fact in E. rewrite <- E. field. apply INR_fact_neq_0.
  Qed.
  Lemma zfact_pos n : (0 < zfact n)%Z. Proof. induction n as [|n IH]; [reflexivity|]. cbn [zfact]. nia. Qed.
  Lemma zfact_mono n m : (n <= m)%nat -> (zfact n <= zfact m)%Z.
  Proof. induction 1 as [|m L IH]; [lia|]. pose proof (zfact_pos m). cbn [zfact]. nia. Qed.
  Lemma ck_small d i : (i < d <= 20)%nat -> wrap64 (falling (Z.of_nat d) (d - S i)) = falling (Z.of_nat d) (d - S i).
  Proof.
    intros H. apply wrap64_small. pose proof (falling_fact d (d - S i) ltac:(lia)) as E. pose proof (zfact_pos (d - (d - S i))). pose proof (zfact_mono d 20 ltac:(lia)).
    assert (zfact 20 < 2 ^ 63)%Z by (vm_compute; reflexivity). pose proof (zfact_pos d). nia.
  Qed.

  (** ** gumbel_coef, the Sibuya methods *)
  Lemma coef_sibuya_ok d alpha m log : 0 < alpha < 1 -> (0 < d <= 20)%nat -> (m = SibLog -> (2 <= d)%nat) ->
    gumbel_coef_sibuya gamma gammaln d alpha m log = Ok (if log then log_coefficients d (ga alpha d) else coefficients d (ga alpha d)).
  Proof.
    intros Ha Hd H1. unfold gumbel_coef_sibuya. rewrite dsum_sibuya_ok; auto; [|lia| | |].
    2:{ destruct d; [lia|]. discriminate. }
    2:{ intros n I. apply in_seq in I. lia. }
    2:{ intros E. specialize (H1 E). destruct d as [|[|d]]; [lia|lia|]. discriminate. }
    cbn [bind]. f_equal. rewrite gumbel_ck_ok by lia. rewrite (map_seq_shift _ 1), combine_map2, map_map.
    unfold log_coefficients, coefficients. cbn [Nat.add].
    assert (V : forall i, (i < d)%nat -> sibuya_sum alpha d (S i) * IZR (wrap64 (falling (Z.of_nat d) (d - S i))) = ga alpha d (S i)).
    { intros i Hi. rewrite ck_small by lia. rewrite falling_real by exact Hi. rewrite sibuya_gumbel by lia. field. split; apply INR_fact_neq_0. }
    destruct log; apply map_ext_in; intros i Hi; apply in_seq in Hi; unfold logged.
    - rewrite elog_mul; [rewrite V by lia; reflexivity|apply sibuya_sum_nonneg; [lra|lia]|]. apply IZR_le.
      rewrite ck_small by lia. apply le_IZR. rewrite falling_real by lia. left. apply Rdiv_lt_0_compat; apply INR_fact_lt_0.
    - cbn [emul escal]. rewrite V by lia. reflexivity.
  Qed.

  (** ** gumbel_poly from coefficients *)
  Lemma polynomial_nonneg alpha d x : 0 < alpha <= 1 -> 0 < x -> (0 < d)%nat -> 0 < polynomial d (ga alpha d) x.
  Proof.
    intros Ha Hx Hd. unfold polynomial. apply rsum_pos.
    - intros i _. apply Rmult_le_pos; [apply ga_nonneg; exact Ha|apply pow_le; lra].
    - exists (d - 1)%nat. split; [lia|]. replace (S (d - 1)) with d by lia. rewrite ga_diag. apply Rmult_lt_0_compat; apply pow_lt; lra.
  Qed.
  Lemma poly_from_logs d alpha lx : 0 < alpha <= 1 -> (0 < d)%nat ->
    esum (map (fun '(k, a) => eexp (eadd a (Fin (INR k * lx)))) (combine (seq 1 d) (log_coefficients d (ga alpha d)))) = Fin (polynomial d (ga alpha d) (exp lx)).
  Proof.
    intros Ha Hd. unfold log_coefficients. rewrite <- (seq_shift d 0), combine_map2, map_map.
    rewrite (esum_map_fin _ (fun i => ga alpha d (S i) * exp lx ^ S i)).
    - f_equal. unfold polynomial. symmetry. apply rsum_lsum.
    - intros i _. pose proof (ga_nonneg alpha d Ha (S i)) as N.
      replace (Fin (INR (S i) * lx)) with (elog (Fin (exp lx ^ S i))).
      2:{ rewrite elog_pos by (apply pow_lt, exp_pos). rewrite ln_pow by apply exp_pos. rewrite ln_exp. reflexivity. }
      assert (0 <= exp lx ^ S i) by (apply pow_le; left; apply exp_pos).
      rewrite elog_mul by assumption. apply eexp_elog. apply Rmult_le_pos; assumption.
  Qed.

  (** ** pois *)
  Lemma rsum_triangle d (F : nat -> nat -> R) : rsum d (fun i => rsum (d - i) (fun m => F i (i + m)%nat)) = rsum d (fun n => rsum (S n) (fun i => F i n)).
  Proof.
    induction d as [|d IH]; [reflexivity|]. rewrite (rsum_S d (fun n => rsum (S n) (fun i => F i n))), <- IH. rewrite (rsum_S d (fun i => F i d)), rsum_S.
    replace (S d - d)%nat with 1%nat by lia. cbn [rsum]. rewrite Nat.add_0_r, Rplus_0_l, <- Rplus_assoc. f_equal.
    rewrite <- rsum_plus. apply rsum_ext. intros i Hi. replace (S d - i)%nat with (S (d - i)) by lia. rewrite rsum_S. do 2 f_equal. lia.
  Qed.
  Definition pois_term (alpha : R) (d : nat) (x : R) (i : nat) : R :=
    rfalling (alpha * INR (S i)) d * (-1) ^ (d + S i) / INR (fact (S i)) * x ^ S i * rsum (S (d - S i)) (fun m => x ^ m / INR (fact m)).
  Lemma pois_sum alpha d x : (0 < d)%nat -> rsum d (pois_term alpha d x) = polynomial d (ga alpha d) x.
  Proof.
    intros Hd. set (c := fun i => rfalling (alpha * INR (S i)) d * (-1) ^ (d + S i) / INR (fact (S i))).
    rewrite (rsum_ext d _ (fun i => rsum (d - i) (fun m => (fun i n => c i * x ^ S n / INR (fact (n - i))) i (i + m)%nat))).
    2:{ intros i Hi. unfold pois_term. fold (c i). rewrite <- rsum_scal. replace (S (d - S i)) with (d - i)%nat by lia. apply rsum_ext. intros m Hm.
        replace (i + m - i)%nat with m by lia. replace (S (i + m)) with (S i + m)%nat by lia. rewrite pow_add. field. apply INR_fact_neq_0. }
    rewrite (rsum_triangle d (fun i n => c i * x ^ S n / INR (fact (n - i)))). unfold polynomial. apply rsum_ext. intros n Hn.
    assert (G := gsb_ga alpha d (S n)). unfold gsb in G. rewrite rsum_Sl in G. cbn [INR] in G. rewrite Rmult_0_r, rfalling_0 in G by exact Hd.
    rewrite Rmult_0_r, Rmult_0_l, Rplus_0_l in G.
    apply (Rmult_eq_reg_l (INR (fact (S n)))); [|apply INR_fact_neq_0]. rewrite <- Rmult_assoc, <- G, <- rsum_scal, <- rsum_scal_r.
    apply rsum_ext. intros i Hi. rewrite <- rbinom_nat. unfold c.
    assert (B : rbinom (INR (S n)) (S i) = INR (fact (S n)) / (INR (fact (S i)) * INR (fact (n - i)))).
    { rewrite rbinom_nat. pose proof (bin_fact (S n) (S i) ltac:(lia)) as B. apply (f_equal IZR) in B. rewrite !mult_IZR, !zfact_fact in B. rewrite <- B.
      replace (S n - S i)%nat with (n - i)%nat by lia. field. split; apply INR_fact_neq_0. }
    change (match i with O => 1 | S _ => INR i + 1 end) with (INR (S i)). rewrite B. field. split; apply INR_fact_neq_0.
  Qed.
  Lemma rfalling_prod y d : rfalling y d = lprod (map (fun i => y - (INR i - 1)) (seq 1 d)).
  Proof.
    induction d as [|d IH]; [reflexivity|]. rewrite seq_S, map_app, lprod_app, <- IH. cbn [map lprod]. rewrite rfalling_S. change (1 + d)%nat with (S d). rewrite S_INR. ring.
  Qed.
  Lemma esum_elog_abs l : esum (map (fun v => elog (Fin (Rabs v))) l) = elog (Fin (Rabs (lprod l))).
  Proof.
    induction l as [|a l IH]; [cbn [map lprod]; rewrite Rabs_R1, elog_pos, ln_1 by lra; reflexivity|].
    cbn [map lprod]. change (esum (?h :: ?t)) with (eadd h (esum t)). rewrite IH, elog_mul by apply Rabs_pos. rewrite Rabs_mult. reflexivity.
  Qed.
  Lemma sign_ff1_one j d : (1 <= j <= d)%nat ->
    exists s, sign_ff1 1 (Z.of_nat j) (Z.of_nat d) = Fin s /\ s * Rabs (rbinom (1 * INR j) d) = rbinom (1 * INR j) d * (-1) ^ (d + j).
  Proof.
    intros H. unfold sign_ff1. rewrite (proj2 (Reqb_true 1 1)) by reflexivity. rewrite (proj2 (Z.ltb_ge _ _)) by lia. eexists. split; [reflexivity|]. rewrite Rmult_1_l, Rplus_0_l.
    destruct (Z.eqb_spec (Z.of_nat j) (Z.of_nat d)) as [E|E].
    - apply Nat2Z.inj in E. subst j. rewrite rbinom_nat, (pow_m1_even (d + d) 0) by (exists d; lia).
      assert (B : bin d d = 1%Z). { clear. induction d as [|d IH]; [reflexivity|]. rewrite bin_SS, IH, bin_big by lia. reflexivity. }
      rewrite B, Rabs_R1. cbn. ring.
    - unfold rbinom. rewrite rfalling_nat_0 by lia. unfold Rdiv. ring.
  Qed.
  Lemma sign_ff1_any alpha j d : 0 < alpha <= 1 -> (1 <= j <= d)%nat ->
    exists s, sign_ff1 alpha (Z.of_nat j) (Z.of_nat d) = Fin s /\ s * Rabs (rfalling (alpha * INR j) d) = rfalling (alpha * INR j) d * (-1) ^ (d + j).
  Proof.
    intros Ha H.
    assert (X : exists s, sign_ff1 alpha (Z.of_nat j) (Z.of_nat d) = Fin s /\ s * Rabs (rbinom (alpha * INR j) d) = rbinom (alpha * INR j) d * (-1) ^ (d + j)).
    { destruct (Req_dec alpha 1) as [->|N]; [apply sign_ff1_one; exact H|]. apply sign_ff1_ok; [lra|exact H|lia]. }
    destruct X as [s [E1 E2]]. exists s. split; [exact E1|]. unfold rbinom, Rdiv in E2. pose proof (fact_pos d) as F.
    rewrite Rabs_mult, (Rabs_pos_eq (/ _)) in E2 by (left; apply Rinv_0_lt_compat; exact F).
    apply (Rmult_eq_reg_r (/ INR (fact d))); [|apply Rinv_neq_0_compat; lra]. rewrite Rmult_assoc, E2. ring.
  Qed.
  Lemma pois_ok lx alpha d log : 0 < alpha <= 1 -> (2 <= d)%nat ->
    gumbel_poly_pois gammaln lx alpha d log = Ok (logged log (polynomial d (ga alpha d) (exp lx))).
  Proof.
    intros Ha Hd. unfold gumbel_poly_pois. set (x := exp lx). assert (Hx : 0 < x) by apply exp_pos.
    set (w := fun k => x ^ k * (exp (- x) * rsum (S (d - k)) (fun i => x ^ i / INR (fact i))) * (Rabs (rfalling (alpha * INR k) d) / INR (fact k)) * exp x).
    assert (Q : forall k, 0 < rsum (S (d - k)) (fun i => x ^ i / INR (fact i))).
    { intros k. apply rsum_pos; [intros i _; left; apply Rdiv_lt_0_compat; [apply pow_lt; exact Hx|apply INR_fact_lt_0]|].
      exists 0%nat. split; [lia|]. cbn. lra. }
    assert (W0 : forall k, 0 <= w k).
    { intros k. unfold w. repeat apply Rmult_le_pos; try (left; apply exp_pos); try apply Rabs_pos; [apply pow_le; lra|left; apply Q|left; apply Rinv_0_lt_compat, INR_fact_lt_0]. }
    assert (LX : map (fun k => eadd (eadd (eadd (Fin (INR k * lx)) (pois_logcdf (d - k) x))
         (esub (esum (map (fun i => elog (Fin (Rabs (alpha * INR k - (INR i - 1))))) (seq 1 d))) (gammaln (INR k + 1)))) (Fin x)) (seq 1 d)
       = map (fun v => elog (Fin v)) (map w (seq 1 d))).
    { rewrite (map_map w). apply map_ext. intros k.
      replace (Fin (INR k * lx)) with (elog (Fin (x ^ k))).
      2:{ rewrite elog_pos by (apply pow_lt; exact Hx). rewrite ln_pow by exact Hx. unfold x. rewrite ln_exp. reflexivity. }
      unfold pois_logcdf. rewrite elog_mul; [|apply pow_le; lra|left; apply Rmult_lt_0_compat; [apply exp_pos|apply Q]].
      rewrite <- (map_map (fun i => alpha * INR k - (INR i - 1)) (fun v => elog (Fin (Rabs v)))), esum_elog_abs, <- rfalling_prod.
      rewrite (HL (INR k + 1)), (gamma_fact gamma HG). rewrite (Rabs_pos_eq (INR (fact k))) by (left; apply INR_fact_lt_0).
      replace (esub (elog (Fin (Rabs (rfalling (alpha * INR k) d)))) (Fin (ln (INR (fact k))))) with (elog (Fin (Rabs (rfalling (alpha * INR k) d) / INR (fact k)))).
      2:{ unfold Rdiv. rewrite <- elog_mul by (try apply Rabs_pos; left; apply Rinv_0_lt_compat, INR_fact_lt_0).
          rewrite (elog_pos (/ _)) by (apply Rinv_0_lt_compat, INR_fact_lt_0). rewrite ln_Rinv by apply INR_fact_lt_0. reflexivity. }
      assert (0 <= Rabs (rfalling (alpha * INR k) d) / INR (fact k)).
      { apply Rmult_le_pos; [apply Rabs_pos|left; apply Rinv_0_lt_compat, INR_fact_lt_0]. }
      assert (0 <= x ^ k * (exp (- x) * rsum (S (d - k)) (fun i => x ^ i / INR (fact i)))).
      { apply Rmult_le_pos; [apply pow_le; lra|]. left. apply Rmult_lt_0_compat; [apply exp_pos|apply Q]. }
      rewrite elog_mul by assumption.
      replace (Fin x) with (elog (Fin (exp x))) by (rewrite elog_pos by apply exp_pos; rewrite ln_exp; reflexivity).
      rewrite elog_mul; [reflexivity|apply Rmult_le_pos; assumption|left; apply exp_pos]. }
    rewrite LX.
    destruct (emaximum_elog (map w (seq 1 d))) as [m Hm].
    { intros v I. apply in_map_iff in I. destruct I as [j [<- _]]. apply W0. }
    { assert (X : exists k, (1 <= k <= d)%nat /\ rfalling (alpha * INR k) d <> 0).
      { destruct (Req_dec alpha 1) as [->|N].
        - exists d. split; [lia|]. rewrite Rmult_1_l. intros Z. assert (B : rbinom (INR d) d = 1).
          { rewrite rbinom_nat. assert (B : bin d d = 1%Z). { clear. induction d as [|d IH]; [reflexivity|]. rewrite bin_SS, IH, bin_big by lia. reflexivity. } rewrite B. reflexivity. }
          unfold rbinom in B. rewrite Z in B. unfold Rdiv in B. rewrite Rmult_0_l in B. lra.
        - exists 1%nat. split; [lia|]. intros Z. pose proof (rfalling_sign (alpha * INR 1) 1 d ltac:(cbn; lra)) as S0. rewrite Z in S0. destruct (Nat.leb d 1); lra. }
      destruct X as [k [Hk Nk]]. exists (w k). split; [apply in_map, in_seq; lia|]. unfold w.
      repeat apply Rmult_lt_0_compat; try apply exp_pos; [apply pow_lt; exact Hx|apply Q|apply Rabs_pos_lt; exact Nk|apply Rinv_0_lt_compat, INR_fact_lt_0]. }
    rewrite Hm. unfold sign_ff. rewrite alpha_check by exact Ha.
    rewrite !existsb_false.
    2:{ intros [z1 z2] I. rewrite combine_map2 in I. apply in_map_iff in I. destruct I as [i [[= <- <-] I]]. apply in_seq in I. apply Z.ltb_ge. lia. }
    2:{ intros z I. apply in_map_iff in I. destruct I as [i [<- I]]. apply Z.ltb_ge. lia. }
    2:{ intros z I. apply in_map_iff in I. destruct I as [i [<- I]]. apply Z.ltb_ge. lia. }
    cbn [orb]. rewrite andb_false_r. cbn [bind]. rewrite combine_map2, map_map.
    assert (L2 : exists a b r, map (fun i => sign_ff1 alpha (Z.of_nat i) (Z.of_nat d)) (seq 1 d) = a :: b :: r).
    { destruct d as [|[|d]]; [lia|lia|]. eexists _, _, _. reflexivity. }
    destruct L2 as [a [b [r E]]]. rewrite E. rewrite <- E. clear a b r E. cbv zeta.
    rewrite (map_map w), combine_map2, map_map.
    rewrite (esum_map_fin _ (fun k => pois_term alpha d x (k - 1) * exp (- m))).
    2:{ intros k Hk. apply in_seq in Hk. destruct (sign_ff1_any alpha k d Ha ltac:(lia)) as [s [-> ES]]. rewrite eexp_shift by apply W0. cbn [emul escal]. f_equal.
        unfold w, pois_term. replace (S (k - 1)) with k by lia.
        transitivity (s * Rabs (rfalling (alpha * INR k) d) * / INR (fact k) * x ^ k * rsum (S (d - k)) (fun i => x ^ i / INR (fact i)) * (exp (- x) * exp x) * exp (- m)).
        - unfold Rdiv. ring.
        - rewrite ES, <- exp_plus. replace (- x + x) with 0 by ring. rewrite exp_0. unfold Rdiv. ring. }
    rewrite lsum_map_seq, (rsum_ext d _ (fun i => pois_term alpha d x i * exp (- m))).
    2:{ intros i _. replace (1 + i - 1)%nat with i by lia. reflexivity. }
    rewrite rsum_scal_r, pois_sum by lia. pose proof (polynomial_nonneg alpha d x Ha Hx ltac:(lia)) as PN.
    rewrite elog_unshift by lra. unfold logged. destruct log; [reflexivity|]. rewrite eexp_elog by lra. reflexivity.
  Qed.
End S.

(** ** Derivatives of the generator *)
Lemma is_derive_Rpower a t : 0 < t -> is_derive (fun t => Rpower t a) t (a * Rpower t (a - 1)).
Proof.
  intros H. apply is_derive_Reals. apply derivable_pt_lim_power. exact H.
Qed.
Definition gterm (alpha : R) (d k : nat) (t : R) : R := Rpower t (alpha * INR k - INR d).
Lemma gterm_derive alpha d k t : 0 < t -> is_derive (gterm alpha d k) t ((alpha * INR k - INR d) * gterm alpha (S d) k t).
Proof. intros H. unfold gterm. evar_last; [apply is_derive_Rpower; exact H|]. rewrite S_INR. do 2 f_equal. ring. Qed.
Definition gsum (alpha : R) (d : nat) (t : R) : R := rsum (S d) (fun k => ga alpha d k * gterm alpha d k t).
Lemma gumbel_derive_step alpha d t : 0 < t ->
  is_derive (fun t => gumbel_generator alpha t * gsum alpha d t) t (- (gumbel_generator alpha t * gsum alpha (S d) t)).
Proof.
  intros H.
  assert (D1 : is_derive (gumbel_generator alpha) t (- (alpha * Rpower t (alpha - 1)) * gumbel_generator alpha t)).
  { unfold gumbel_generator. apply (is_derive_comp (fun y => exp y) (fun t => - Rpower t alpha)); [apply is_derive_exp|].
    apply (is_derive_opp (fun t => Rpower t alpha)). apply is_derive_Rpower. exact H. }
  assert (D2 : is_derive (gsum alpha d) t (rsum (S d) (fun k => ga alpha d k * ((alpha * INR k - INR d) * gterm alpha (S d) k t)))).
  { unfold gsum. apply (is_derive_rsum (S d) (fun k t => ga alpha d k * gterm alpha d k t)). intros k _. apply is_derive_scal. apply gterm_derive. exact H. }
  evar_last; [apply (is_derive_mult _ _ _ _ _ D1 D2); intros; apply Rmult_comm|].
  change (- (alpha * Rpower t (alpha - 1)) * gumbel_generator alpha t * gsum alpha d t + gumbel_generator alpha t * rsum (S d) (fun k => ga alpha d k * ((alpha * INR k - INR d) * gterm alpha (S d) k t))
     = - (gumbel_generator alpha t * gsum alpha (S d) t)).
  assert (E : gsum alpha (S d) t = rsum (S d) (fun k => ga alpha d k * ((INR d - alpha * INR k) * gterm alpha (S d) k t)) + alpha * Rpower t (alpha - 1) * gsum alpha d t).
  { unfold gsum at 1. rewrite rsum_S, ga_diag.
    rewrite (rsum_ext (S d) _ (fun k => ga alpha d k * ((INR d - alpha * INR k) * gterm alpha (S d) k t) + (match k with O => 0 | S p => alpha * ga alpha d p end) * gterm alpha (S d) k t)).
    2:{ intros k _. rewrite ga_S. ring. }
    rewrite rsum_plus, Rplus_assoc. f_equal. unfold gsum.
    assert (T : forall p, alpha * Rpower t (alpha - 1) * (ga alpha d p * gterm alpha d p t) = alpha * ga alpha d p * gterm alpha (S d) (S p) t).
    { intros p. unfold gterm. replace (alpha * INR (S p) - INR (S d)) with ((alpha - 1) + (alpha * INR p - INR d)) by (rewrite !S_INR; ring). rewrite Rpower_plus. ring. }
    rewrite rsum_Sl, Rmult_0_l, Rplus_0_l. rewrite <- rsum_scal, (rsum_ext (S d) _ _ (fun p _ => T p)). rewrite rsum_S, ga_diag. cbn [pow]. ring. }
  rewrite E.
  rewrite (rsum_ext (S d) (fun k => ga alpha d k * ((alpha * INR k - INR d) * gterm alpha (S d) k t)) (fun k => -1 * (ga alpha d k * ((INR d - alpha * INR k) * gterm alpha (S d) k t)))) by (intros; ring).
  rewrite rsum_scal. ring.
Qed.
Lemma gumbel_Derive_n alpha d : forall t, 0 < t -> Derive_n (gumbel_generator alpha) d t = (-1) ^ d * (gumbel_generator alpha t * gsum alpha d t).
Proof.
  induction d as [|d IH]; intros t H.
  - cbn [Derive_n]. unfold gsum. cbn [rsum ga]. unfold gterm. cbn [INR]. rewrite Rmult_0_r, Rminus_0_r, Rpower_O by exact H. cbn. ring.
  - cbn [Derive_n]. rewrite (Derive_ext_loc _ (fun t => (-1) ^ d * (gumbel_generator alpha t * gsum alpha d t))).
    + apply is_derive_unique. evar_last; [apply is_derive_scal, gumbel_derive_step; exact H|]. change ((-1) ^ d * - (gumbel_generator alpha t * gsum alpha (S d) t) = (-1) ^ S d * (gumbel_generator alpha t * gsum alpha (S d) t)). rewrite pow_m1_S. ring.
    + exists (mkposreal t H). intros y Hy. apply IH. unfold ball in Hy. cbn in Hy. unfold AbsRing_ball, abs, minus, plus, opp in Hy. cbn in Hy.
      apply Rabs_def2 in Hy. lra.
Qed.
Lemma gsum_polynomial alpha d t : 0 < t -> (0 < d)%nat -> gsum alpha d t = polynomial d (ga alpha d) (Rpower t alpha) / t ^ d.
Proof.
  intros H Hd. unfold gsum, polynomial. rewrite rsum_Sl, ga_0 by exact Hd. rewrite Rmult_0_l, Rplus_0_l. unfold Rdiv. rewrite <- rsum_scal_r. apply rsum_ext. intros k _.
  unfold gterm. unfold Rminus. rewrite Rpower_plus, Rpower_Ropp, Rpower_pow by exact H. rewrite <- (Rpower_pow (S k) (Rpower t alpha)) by apply exp_pos. rewrite Rpower_mult. ring.
Qed.

(** ** A function with the properties assumed of gamma *)
Fixpoint rising (x : R) (n : nat) : R := match n with O => 1 | S m => rising x m * (x + INR m) end.
Lemma rising_Sl x n : rising x (S n) = x * rising (x + 1) n.
Proof. induction n as [|n IH]; [cbn; ring|]. cbn [rising] in *. rewrite IH. change (rising (x + 1) (S n)) with (rising (x + 1) n * (x + 1 + INR n)). rewrite S_INR. ring. Qed.
