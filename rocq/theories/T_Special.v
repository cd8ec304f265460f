(** C31 - C35: Stirling and Eulerian numbers, Horner evaluation, logarithm helpers, polylogarithms. *)
From Coquelicot Require Import Coquelicot.
From Verif Require Import Base RSumLib Ext M_Archimedean M_Special S_Special P_Stirling P_Partitions P_Eulerian P_Polylog P_LogSum.
Open Scope Z_scope.

(** ** C31 *)
(** stirling_second(n, k) is the number of partitions of an n-element set into k blocks *)
Theorem C31_second_kind_counts_partitions : forall n k : nat, (k <= n)%nat ->
  exists c, stirling_second (Z.of_nat n) (Z.of_nat k) = Ok (Z.of_nat c) /\
            there_are c (fun l => set_partition n l /\ blocks l = k).
Proof.
  intros n k H. exists (Z.to_nat (s2 n k)). rewrite Z2Nat.id by apply s2_nonneg. split; [apply stirling_second_ok; exact H|apply s2_counts].
Qed.
Print Assumptions C31_second_kind_counts_partitions.
Example C31_partitions_case : stirling_second 4 2 = Ok 7 /\ set_partition 4 [0; 0; 2; 0]%nat /\ blocks [0; 0; 2; 0]%nat = 2%nat.
Proof.
  split; [reflexivity|]. split; [|reflexivity]. split; [reflexivity|].
  intros [|[|[|[|i]]]] H; cbn; lia.
Qed.
(** stirling_first(n, .) are the coefficients of x (x-1) .. (x-n+1), stirling_second(n, .) those of x^n in falling factorials *)
Theorem C31_falling_factorials : forall n : nat, exists f g : nat -> Z,
  (forall k, (k <= n)%nat -> stirling_first (Z.of_nat n) (Z.of_nat k) = Ok (f k) /\ stirling_second (Z.of_nat n) (Z.of_nat k) = Ok (g k)) /\
  (forall x, falling x n = zsum (S n) (fun k => f k * x ^ Z.of_nat k)) /\
  (forall x, x ^ Z.of_nat n = zsum (S n) (fun k => g k * falling x k)).
Proof.
  intros n. exists (s1 n), (s2 n). split; [|split].
  - intros k H. split; [apply stirling_first_ok|apply stirling_second_ok]; exact H.
  - intros x. apply falling_s1.
  - intros x. apply falling_s2.
Qed.
Print Assumptions C31_falling_factorials.
Example C31_falling_case : stirling_first 4 1 = Ok (-6) /\ stirling_first 4 2 = Ok 11 /\ stirling_first 4 3 = Ok (-6) /\ falling 10 4 = 5040.
Proof. repeat split; reflexivity. Qed.
Theorem C31_recurrences : forall n k : nat, (1 <= k <= n)%nat ->
  exists a b c a' b' c',
  stirling_first (Z.of_nat (n + 1)) (Z.of_nat k) = Ok a /\ stirling_first (Z.of_nat n) (Z.of_nat (k - 1)) = Ok b /\
  stirling_first (Z.of_nat n) (Z.of_nat k) = Ok c /\ a = b - Z.of_nat n * c /\
  stirling_second (Z.of_nat (n + 1)) (Z.of_nat k) = Ok a' /\ stirling_second (Z.of_nat n) (Z.of_nat (k - 1)) = Ok b' /\
  stirling_second (Z.of_nat n) (Z.of_nat k) = Ok c' /\ a' = b' + Z.of_nat k * c'.
Proof.
  intros n k H. exists (s1 (n + 1) k), (s1 n (k - 1)), (s1 n k), (s2 (n + 1) k), (s2 n (k - 1)), (s2 n k).
  rewrite !stirling_first_ok, !stirling_second_ok by lia. destruct k as [|k]; [lia|]. replace (S k - 1)%nat with k by lia.
  rewrite !Nat.add_1_r, s1_SS, s2_SS. repeat split.
Qed.
Print Assumptions C31_recurrences.
Theorem C31_range_check : forall n k : Z, ~ (0 <= k <= n) ->
  stirling_first n k = Err AssertionError /\ stirling_second n k = Err AssertionError.
Proof.
  intros n k H. unfold stirling_first, stirling_second.
  assert (E : (0 <=? k) && (k <=? n) = false).
  { destruct (0 <=? k) eqn:A; [|reflexivity]. destruct (k <=? n) eqn:B; [|reflexivity]. apply Z.leb_le in A, B. lia. }
  rewrite E. split; reflexivity.
Qed.
Print Assumptions C31_range_check.
(** the _all functions list the scalar answers for k = 1, .., n *)
Theorem C31_all_versions : forall n : nat, exists l m,
  stirling_first_all (Z.of_nat n) = Ok l /\ stirling_second_all (Z.of_nat n) = Ok m /\ length l = n /\ length m = n /\
  forall k, (1 <= k <= n)%nat ->
    stirling_first (Z.of_nat n) (Z.of_nat k) = Ok (nth (k - 1) l 0) /\ stirling_second (Z.of_nat n) (Z.of_nat k) = Ok (nth (k - 1) m 0).
Proof.
  intros n. eexists. eexists. split; [apply stirling_first_all_ok|]. split; [apply stirling_second_all_ok|].
  rewrite !map_length, seq_length. split; [reflexivity|]. split; [reflexivity|]. intros k H.
  rewrite !nth_map_seq by lia. rewrite stirling_first_ok, stirling_second_ok by lia. replace (S (k - 1)) with k by lia. auto.
Qed.
Print Assumptions C31_all_versions.
Example C31_all_case : stirling_second_all 4 = Ok [1; 7; 6; 1] /\ stirling_first_all 4 = Ok [-6; 11; -6; 1].
Proof. split; reflexivity. Qed.

(** ** C32 *)
(** eulerian(n, k) is the number of permutations of n elements with k ascents (n >= 1) *)
Theorem C32_counts_ascents : forall (gamma : R -> R), (forall m, gamma (INR m + 1)%R = INR (fact m)) ->
  forall n k : nat, (1 <= n)%nat -> (k <= n)%nat ->
  exists c, eulerian gamma (Z.of_nat n) (Z.of_nat k) = Ok (Z.of_nat c) /\
            there_are c (fun l => permutation_of n l /\ ascents l = k).
Proof.
  intros gamma G n k Hn H. exists (Z.to_nat (A n k)). rewrite Z2Nat.id by apply A_nonneg. split; [|apply A_counts].
  apply eulerian_ok; [exact G|exact H|lia].
Qed.
Print Assumptions C32_counts_ascents.
Example C32_counts_case : permutation_of 4 [2; 1; 4; 3]%nat /\ ascents [2; 1; 4; 3]%nat = 1%nat
  /\ exists gamma, (forall m, gamma (INR m + 1)%R = INR (fact m)).
Proof.
  split; [|split; [reflexivity|]].
  - unfold permutation_of. cbn. apply (Permutation.Permutation_trans (l' := [1; 2; 4; 3]%nat)); [constructor|]. do 2 constructor. constructor.
  - exists (fun x => INR (fact (Z.to_nat (Int_part (x - 1))))). intros m. replace (INR m + 1 - 1)%R with (INR m) by ring.
    rewrite (INR_IZR_INZ m), Int_part_IZR, Nat2Z.id. reflexivity.
Qed.
(** recurrence, symmetry, row sum n! and eulerian_all, for n >= 1 *)
Theorem C32_recurrence_symmetry_row_sum : forall (gamma : R -> R), (forall m, gamma (INR m + 1)%R = INR (fact m)) ->
  forall n : nat, (1 <= n)%nat -> exists row next : list Z,
  eulerian_all gamma (Z.of_nat n) = Ok (Lst row) /\ eulerian_all gamma (Z.of_nat (n + 1)) = Ok (Lst next) /\
  length row = n /\ length next = S n /\
  (forall k, (k < n)%nat -> eulerian gamma (Z.of_nat n) (Z.of_nat k) = Ok (nth k row 0)) /\
  (forall k, (k < n)%nat -> nth k row 0 = nth (n - 1 - k) row 0) /\
  (forall k, (1 <= k <= n)%nat ->
     nth k next 0 = (Z.of_nat k + 1) * nth k row 0 + (Z.of_nat n + 1 - Z.of_nat k) * nth (k - 1) row 0) /\
  fold_right Z.add 0 row = Z.of_nat (fact n).
Proof.
  intros gamma G n Hn. exists (map (A n) (seq 0 n)), (map (A (S n)) (seq 0 (S n))).
  rewrite Nat.add_1_r. rewrite !(eulerian_all_ok gamma _ G) by lia. rewrite !map_length, !seq_length.
  split; [reflexivity|]. split; [reflexivity|]. split; [reflexivity|]. split; [reflexivity|]. split; [|split; [|split]].
  - intros k H. rewrite nth_map_seq by exact H. apply eulerian_ok; [exact G|lia|lia].
  - intros k H. rewrite !nth_map_seq by lia. destruct n as [|n]; [lia|]. replace (S n - 1 - k)%nat with (n - k)%nat by lia. apply A_sym. lia.
  - intros k H. rewrite nth_map_seq by lia. destruct k as [|k]; [lia|]. replace (S k - 1)%nat with k by lia.
    rewrite (nth_map_seq (A n) n k) by lia. rewrite A_SS.
    replace (nth (S k) (map (A n) (seq 0 n)) 0) with (A n (S k)).
    + rewrite Nat2Z.inj_succ. ring.
    + destruct (Nat.eq_dec (S k) n) as [E|E]; [|rewrite nth_map_seq by lia; reflexivity].
      rewrite nth_overflow by (rewrite map_length, seq_length; lia). rewrite A_big by lia. reflexivity.
  - assert (F : forall m, fold_right Z.add 0 (map (A n) (seq 0 m)) = zsum m (A n)).
    { induction m as [|m IH]; [reflexivity|]. rewrite seq_S, map_app, fold_right_app. cbn [map fold_right]. cbn [zsum]. rewrite <- IH.
      change (A n (0 + m)%nat) with (A n m). generalize (map (A n) (seq 0 m)) (A n m). intros l x. induction l as [|y l IHl]; cbn [fold_right]; [ring|]. rewrite IHl. ring. }
    rewrite F. assert (R := A_row n (S n) ltac:(lia)). cbn [zsum] in R. rewrite (A_big n n) in R by lia. rewrite Z.add_0_r in R. rewrite R.
    clear. induction n as [|n IH]; [reflexivity|]. cbn [zfact]. rewrite IH. change (fact (S n)) with (S n * fact n)%nat. rewrite Nat2Z.inj_mul. reflexivity.
Qed.
Print Assumptions C32_recurrence_symmetry_row_sum.
Theorem C32_range_check : forall gamma (n k : Z), ~ (0 <= k <= n) -> eulerian gamma n k = Err AssertionError.
Proof.
  intros gamma n k H. unfold eulerian.
  assert (E : (0 <=? k) && (k <=? n) = false).
  { destruct (0 <=? k) eqn:A; [|reflexivity]. destruct (k <=? n) eqn:B; [|reflexivity]. apply Z.leb_le in A, B. lia. }
  rewrite E. reflexivity.
Qed.
Print Assumptions C32_range_check.
(** at n = 0 the answers contradict each other: there is one (empty) permutation without ascents, eulerian(0, 0) is 0,
    and eulerian_all(0) is the integer 1 instead of a list *)
Theorem C32_zero_refuted : forall gamma, eulerian gamma 0 0 = Ok 0 /\ eulerian_all gamma 0 = Ok (Scalar 1) /\
  there_are 1 (fun l => permutation_of 0 l /\ ascents l = 0%nat).
Proof. intros gamma. split; [reflexivity|]. split; [reflexivity|]. exact (A_counts 0 0). Qed.
Print Assumptions C32_zero_refuted.

(** ** C33 *)
Open Scope R_scope.
Theorem C33_horner : forall coef xs : list R, coef <> [] -> polyn_eval coef xs = Ok (map (poly_sum coef) xs).
Proof. intros coef xs H. unfold polyn_eval. apply mapM_ok. intros x _. apply horner_ok. exact H. Qed.
Print Assumptions C33_horner.
Example C33_case : polyn_eval [1; 2; 3] [2] = Ok [17].
Proof. rewrite C33_horner by discriminate. unfold poly_sum. cbn. do 2 f_equal. ring. Qed.
(** the empty coefficient list (the zero polynomial) is an error as soon as there is a point to evaluate *)
Theorem C33_empty_coefficients_refuted : forall x xs, polyn_eval [] (x :: xs) = Err IndexError.
Proof. reflexivity. Qed.
Print Assumptions C33_empty_coefficients_refuted.

(** ** C34 *)
Theorem C34_log1mexp : forall x, 0 < x ->
  exists y, log1mexp (Fin x) = Fin y /\ exp y = 1 - exp (- x) /\ y < 0 /\ log1mexp (Fin (- y)) = Fin (- x).
Proof.
  intros x H. assert (E : exp (- x) < 1) by (rewrite <- exp_0; apply exp_increasing; lra). pose proof (exp_pos (- x)) as P.
  exists (ln (1 - exp (- x))). unfold log1mexp. cbn [eopp eexp esub eadd].
  replace (1 + - exp (- x)) with (1 - exp (- x)) by ring.
  rewrite elog_pos by lra. rewrite exp_ln by lra. split; [reflexivity|]. split; [reflexivity|]. split.
  - rewrite <- ln_1. apply ln_increasing; lra.
  - rewrite Ropp_involutive, exp_ln by lra. replace (1 + - (1 - exp (- x))) with (exp (- x)) by ring.
    rewrite elog_pos by exact P. rewrite ln_exp. reflexivity.
Qed.
Print Assumptions C34_log1mexp.
Theorem C34_log1pexp : forall x, exists y, log1pexp (Fin x) = Fin y /\ exp y = 1 + exp x /\ 0 < y /\ x < y.
Proof.
  intros x. pose proof (exp_pos x) as P. exists (ln (1 + exp x)). unfold log1pexp. cbn [eexp eadd].
  rewrite elog_pos by lra. rewrite exp_ln by lra. split; [reflexivity|]. split; [reflexivity|]. split.
  - rewrite <- ln_1. apply ln_increasing; lra.
  - rewrite <- (ln_exp x) at 1. apply ln_increasing; lra.
Qed.
Print Assumptions C34_log1pexp.
Example C34_log1p_case : log1mexp (Fin 0) = Ninf /\ log1pexp Ninf = Fin 0.
Proof.
  unfold log1mexp, log1pexp. cbn [eopp eexp esub eadd]. rewrite Ropp_0, exp_0. split.
  - replace (1 + -(1)) with 0 by ring. apply elog_0.
  - replace (1 + 0) with 1 by ring. rewrite elog_pos by lra. rewrite ln_1. reflexivity.
Qed.
(** every column of finite entries gives log(sum(exp(column))), whatever finite offset is used *)
Theorem C34_log_sum : forall (off : offset_arg) (cols : list (list R)), cols <> [] -> (forall c, In c cols -> c <> []) ->
  (off = NoOffset \/ (exists o, off = ScalarOffset (Fin o)) \/
   (exists os, off = VectorOffset (map Fin os) /\ length os = length cols)) ->
  log_sum off (map (map Fin) cols) = Ok (map (fun c => Fin (ln (lsum (map exp c)))) cols).
Proof. exact log_sum_ok. Qed.
Print Assumptions C34_log_sum.
Example C34_log_sum_case : log_sum NoOffset [map Fin [0; 0]] = Ok [Fin (ln 2)].
Proof.
  change [map Fin [0; 0]] with (map (map Fin) [[0; 0]]). rewrite C34_log_sum.
  - cbn [map lsum]. rewrite exp_0. do 4 f_equal. ring.
  - discriminate.
  - intros c [<-|[]]. discriminate.
  - auto.
Qed.
Theorem C34_offset_length_check : forall os cols, length os <> length cols -> log_sum (VectorOffset os) cols = Err AssertionError.
Proof. intros os cols H. unfold log_sum. apply Nat.eqb_neq in H. rewrite H. reflexivity. Qed.
Print Assumptions C34_offset_length_check.
(** log(0 + .. + 0) = -inf and log(inf + ..) = inf, but the maximum is subtracted from itself: the answer is nan *)
Theorem C34_log_sum_infinite_refuted : forall m l,
  log_sum NoOffset [repeat Ninf (S m)] = Ok [Nan] /\ elog (esum (map eexp (repeat Ninf (S m)))) = Ninf /\
  log_sum NoOffset [Pinf :: map Fin l] = Ok [Nan] /\ elog (esum (map eexp (Pinf :: map Fin l))) = Pinf.
Proof.
  intros m l. split; [apply log_sum_all_ninf|]. split; [|split; [apply log_sum_pinf|]].
  - assert (E : esum (map eexp (repeat Ninf (S m))) = Fin 0).
    { induction m as [|m IH]; [cbn; f_equal; ring|]. change (eadd (Fin 0) (esum (map eexp (repeat Ninf (S m)))) = Fin 0). rewrite IH. cbn. f_equal. ring. }
    rewrite E. apply elog_0.
  - rewrite (esum_pinf (map eexp (Pinf :: map Fin l))); [reflexivity| |left; reflexivity].
    apply Forall_forall. intros x Hx. apply in_map_iff in Hx. destruct Hx as [y [<- [<-|Hy]]]; [exact Logic.I|].
    apply in_map_iff in Hy. destruct Hy as [z [<- _]]. exact Logic.I.
Qed.
Print Assumptions C34_log_sum_infinite_refuted.

(** ** C35 *)
(** neg-eulerian, at every order, and default and neg-stirling up to n = 18, give the n-fold z d/dz of z/(1-z).  The
    property claims it for the other methods at every order too; that fails, see [C35_stirling_overflow_refuted]. *)
Theorem C35_value_is_iterated_derivative_partial : forall (gamma dilog : R -> R), (forall m, gamma (INR m + 1)%R = INR (fact m)) ->
  forall (n : nat) (z : R) (method : string), z < 1 ->
  (lower method = "neg-eulerian" \/ (n <= 18)%nat /\ In (lower method) ["default"; "neg-stirling"])%string ->
  poly_log gamma dilog z (- Z.of_nat n) method false = Ok (z_d_dz n (fun z => z / (1 - z)) z).
Proof. intros gamma dilog G n z method H Hm. rewrite poly_log_value by (auto using exact_method_in). rewrite FS_theta by exact H. reflexivity. Qed.
Print Assumptions C35_value_is_iterated_derivative_partial.
Theorem C35_value_is_the_series_partial : forall (gamma dilog : R -> R), (forall m, gamma (INR m + 1)%R = INR (fact m)) ->
  forall (n : nat) (z : R) (method : string), Rabs z < 1 ->
  (lower method = "neg-eulerian" \/ (n <= 18)%nat /\ In (lower method) ["default"; "neg-stirling"])%string ->
  exists v, poly_log gamma dilog z (- Z.of_nat n) method false = Ok v /\ is_polylog_neg n z v.
Proof.
  intros gamma dilog G n z method H Hm. exists (FS n z). split; [|apply FS_series; exact H].
  apply poly_log_value; auto using exact_method_in. apply Rabs_lt_between in H. lra.
Qed.
Print Assumptions C35_value_is_the_series_partial.
Theorem C35_log_partial : forall (gamma dilog : R -> R), (forall m, gamma (INR m + 1)%R = INR (fact m)) ->
  forall (n : nat) (z : R) (method : string), 0 < z < 1 ->
  (lower method = "neg-eulerian" \/ (n <= 18)%nat /\ In (lower method) ["default"; "neg-stirling"])%string ->
  exists v, 0 < v /\ poly_log gamma dilog z (- Z.of_nat n) method false = Ok v /\ poly_log gamma dilog z (- Z.of_nat n) method true = Ok (ln v).
Proof.
  intros gamma dilog G n z method H Hm. exists (FS n z). split; [apply FS_pos; exact H|]. split; [apply poly_log_value; auto using exact_method_in; lra|apply poly_log_log; auto using exact_method_in].
Qed.
Print Assumptions C35_log_partial.
(** from order -19 on the int64 products of the default method overflow: at every z in (0,1) the result is too small *)
Theorem C35_stirling_overflow_refuted : forall (gamma dilog : R -> R) (n : nat) (z : R) (method : string), (19 <= n)%nat -> 0 < z < 1 ->
  In (lower method) ["default"; "neg-stirling"]%string ->
  exists v w, poly_log gamma dilog z (- Z.of_nat n) method false = Ok v /\ is_polylog_neg n z w /\ v < w.
Proof.
  intros gamma dilog n z method Hn H Hm. assert (E : (lower method = "default" \/ lower method = "neg-stirling")%string).
  { destruct Hm as [E|[E|[]]]; symmetry in E; auto. }
  destruct (poly_log_low gamma dilog z n method H Hn E) as (v & V & L). exists v, (FS n z). repeat split; auto.
  apply FS_series. rewrite Rabs_pos_eq; lra.
Qed.
Print Assumptions C35_stirling_overflow_refuted.
(** order 2: the value comes back although its logarithm was asked for *)
Theorem C35_log_two_refuted : forall gamma dilog z method, lower method = "default"%string -> 0 < dilog z ->
  exists v w, poly_log gamma dilog z 2 method false = Ok v /\ 0 < v /\ poly_log gamma dilog z 2 method true = Ok w /\ w <> ln v.
Proof.
  intros gamma dilog z method Hm H. exists (dilog z), (dilog z). unfold poly_log, parse_polylog_method. rewrite Hm. cbn. split; [reflexivity|]. split; [exact H|]. split; [reflexivity|].
  pose proof (exp_ineq1 (ln (dilog z))) as E. rewrite exp_ln in E by exact H. intros C. rewrite <- C in E. pose proof (Req_dec (dilog z) 0) as [Z|Z]; [lra|]. specialize (E Z). lra.
Qed.
Print Assumptions C35_log_two_refuted.
Theorem C35_other_orders_rejected : forall gamma dilog z (s : Z) method log, (1 < s)%Z -> s <> 2%Z ->
  poly_log gamma dilog z s method log = Err AssertionError.
Proof.
  intros gamma dilog z s method log H Hs. unfold poly_log, parse_polylog_method.
  assert (E2 : (s =? 2)%Z = false) by (apply Z.eqb_neq; exact Hs).
  assert (E1 : (s <=? 1)%Z = false) by (apply Z.leb_gt; exact H).
  destruct (String.eqb (lower method) "default"); [cbn [bind]; rewrite E2, E1; reflexivity|].
  destruct (String.eqb (lower method) "neg-stirling"); [cbn [bind]; rewrite E2, E1; reflexivity|].
  destruct (String.eqb (lower method) "neg-eulerian"); [cbn [bind]; rewrite E2, E1; reflexivity|]. reflexivity.
Qed.
Print Assumptions C35_other_orders_rejected.
Example C35_case : forall gamma dilog, (forall m, gamma (INR m + 1)%R = INR (fact m)) ->
  poly_log gamma dilog (1 / 2) (-1) "Neg-Eulerian" false = Ok 2.
Proof.
  intros gamma dilog G. change (-1)%Z with (- Z.of_nat 1)%Z. rewrite poly_log_value by (auto; try lra; right; reflexivity).
  rewrite FS_factor. unfold oddsr. cbn [rsum pow zfact]. change (s2 2 1) with 1%Z. change (s2 2 2) with 1%Z. cbn. f_equal. field.
Qed.
