(** gumbel_coef and dsum_sibuya compute the Gumbel coefficients. *)
From Coquelicot Require Import Coquelicot.
From Verif Require Import Base RSumLib Ext M_Special S_Special P_Stirling P_Partitions P_Eulerian P_Polylog P_LogSum M_Gumbel S_Gumbel P_Gumbel.
Open Scope R_scope.

(** ** Sums *)
Lemma map_seq_shift {A} (f : nat -> A) i n : map f (seq i n) = map (fun m => f (i + m)%nat) (seq 0 n).
Proof.
  revert i; induction n as [|n IH]; intros i; [reflexivity|]. cbn [seq map]. rewrite Nat.add_0_r. f_equal.
  rewrite (IH (S i)). rewrite <- (seq_shift n 0), map_map. apply map_ext. intros m. f_equal. lia.
Qed.
Lemma lsum_map_seq (f : nat -> R) i n : lsum (map f (seq i n)) = rsum n (fun m => f (i + m)%nat).
Proof. rewrite map_seq_shift. symmetry. apply rsum_lsum. Qed.
Lemma rsum_from (f : nat -> R) i d : (i <= d)%nat -> (forall j, (j < i)%nat -> f j = 0) -> rsum d f = rsum (d - i) (fun m => f (i + m)%nat).
Proof.
  intros H Z. induction d as [|d IH]; [reflexivity|]. destruct (Nat.eq_dec i (S d)) as [->|E].
  - rewrite Nat.sub_diag. cbn [rsum]. change (rsum d f + f d) with (rsum (S d) f). apply rsum_zero. exact Z.
  - replace (S d - i)%nat with (S (d - i)) by lia. cbn [rsum]. rewrite IH by lia. do 2 f_equal. lia.
Qed.
Lemma pow_m1_add a b : (-1) ^ (a + b) = (-1) ^ a * (-1) ^ b. Proof. apply pow_add. Qed.
Lemma pow_m1_sq a : (-1) ^ a * (-1) ^ a = 1.
Proof. rewrite <- Rpow_mult_distr. replace (-1 * -1) with 1 by ring. apply pow1. Qed.
Lemma pow_m1_even a b : (exists c, a = b + 2 * c)%nat -> (-1) ^ a = (-1) ^ b.
Proof. intros [c ->]. rewrite pow_m1_add. replace (2 * c)%nat with (c + c)%nat by lia. rewrite pow_m1_add, pow_m1_sq. ring. Qed.
Lemma pow_m1_par n k : (-1) ^ (n + k) = IZR (par n k).
Proof.
  unfold par. generalize (n + k)%nat as m. clear. intros m. induction m as [|m IH]; [reflexivity|].
  rewrite pow_m1_S, IH, Nat.even_succ, <- Nat.negb_even. destruct (Nat.even m); cbn; ring.
Qed.
Lemma s1_abs_R n k : IZR (Z.abs (s1 n k)) = (-1) ^ (n + k) * IZR (s1 n k).
Proof. rewrite s1_abs, mult_IZR, pow_m1_par. reflexivity. Qed.

(** ** The Stirling sums *)
Definition term (alpha : R) (d i j : nat) : R := alpha ^ (j + 1) * IZR (s1 d (S j)) * IZR (s2 (S j) (S i)).
Lemma term_sum alpha d i : (i < d)%nat -> rsum (d - i) (fun m => term alpha d i (i + m)) = gst alpha d (S i).
Proof.
  intros H. rewrite <- (rsum_from (term alpha d i) i d) by (try lia; intros j Hj; unfold term; rewrite (s2_big (S j) (S i)) by lia; ring).
  unfold gst. rewrite rsum_Sl.
  replace (alpha ^ 0 * IZR (s1 d 0) * IZR (s2 0 (S i))) with 0 by (cbn [s2]; ring). rewrite Rplus_0_l. apply rsum_ext. intros j _. unfold term.
  rewrite Nat.add_1_r. reflexivity.
Qed.
Lemma term_sum_ga alpha d i : (i < d)%nat -> (-1) ^ (d - i + 1) * rsum (d - i) (fun m => term alpha d i (i + m)) = ga alpha d (S i).
Proof.
  intros H. rewrite term_sum by exact H. rewrite <- gst_ga. f_equal. symmetry. apply pow_m1_even. exists i. lia.
Qed.
Definition aterm (alpha : R) (d i j : nat) : R := alpha ^ (j + 1) * IZR (Z.abs (s1 d (S j))) * IZR (s2 (S j) (S i)).
Lemma aterm_alt alpha d i : (i < d)%nat -> rsum (d - i) (fun m => (-1) ^ m * aterm alpha d i (i + m)) = ga alpha d (S i).
Proof.
  intros H. rewrite <- term_sum_ga by exact H. rewrite <- rsum_scal. apply rsum_ext. intros m Hm. unfold aterm, term. rewrite s1_abs_R.
  assert (E : (-1) ^ m * (-1) ^ (d + S (i + m)) = (-1) ^ (d - i + 1)).
  { rewrite <- pow_m1_add. apply pow_m1_even. exists (m + i)%nat. lia. }
  rewrite <- E. ring.
Qed.
Lemma aterm_pos alpha d i j : 0 < alpha -> (i <= j < d)%nat -> 0 < aterm alpha d i j.
Proof.
  intros Ha H. unfold aterm. repeat apply Rmult_lt_0_compat.
  - apply pow_lt. exact Ha.
  - apply IZR_lt. pose proof (s1_pos d (S j) ltac:(lia)). rewrite s1_abs. lia.
  - apply IZR_lt. apply s2_pos. lia.
Qed.

(** ** The Stirling tables *)
Lemma tables d : mapM (fun i => stirling_second_all (Z.of_nat (i + 1))) (seq 0 d)
  = Ok (map (fun i => map (fun j => s2 (S i) (S j)) (seq 0 (S i))) (seq 0 d)).
Proof. apply mapM_ok. intros i _. rewrite stirling_second_all_ok, Nat.add_1_r. reflexivity. Qed.
Lemma table_nth d i j : (j < d)%nat -> (i <= j)%nat ->
  nth i (nth j (map (fun i => map (fun j => s2 (S i) (S j)) (seq 0 (S i))) (seq 0 d)) []) 0%Z = s2 (S j) (S i).
Proof. intros Hj Hi. rewrite (nth_map_seq (fun i => map (fun j => s2 (S i) (S j)) (seq 0 (S i)))) by exact Hj. apply (nth_map_seq (fun j0 => s2 (S j) (S j0))). lia. Qed.

(** ** direct *)
Lemma coef_direct_ok d alpha log : 0 < alpha <= 1 -> (0 < d)%nat ->
  gumbel_coef_direct d alpha log = Ok (if log then log_coefficients d (ga alpha d) else coefficients d (ga alpha d)).
Proof.
  intros Ha Hd. unfold gumbel_coef_direct. rewrite stirling_first_all_ok, tables. cbn [bind]. f_equal.
  assert (E : forall i, (i < d)%nat ->
    lsum (map (fun j => alpha ^ (j + 1) * IZR (nth j (map (fun j0 => s1 d (S j0)) (seq 0 d)) 0%Z) *
          IZR (nth i (nth j (map (fun i0 => map (fun j0 => s2 (S i0) (S j0)) (seq 0 (S i0))) (seq 0 d)) []) 0%Z)) (seq i (d - i)))
    = rsum (d - i) (fun m => term alpha d i (i + m))).
  { intros i Hi. rewrite lsum_map_seq. apply rsum_ext. intros m Hm. rewrite table_nth, nth_map_seq by lia. reflexivity. }
  unfold log_coefficients, coefficients.
  destruct log; apply map_ext_in; intros i Hi; apply in_seq in Hi; cbv zeta; rewrite E by lia.
  - rewrite <- (term_sum_ga alpha d i) by lia. do 2 f_equal.
    pose proof (ga_nonneg alpha d Ha (S i)) as N. rewrite <- (term_sum_ga alpha d i) in N by lia.
    rewrite <- (Rabs_pos_eq _ N), Rabs_mult, pow_1_abs. ring.
  - rewrite term_sum_ga by lia. reflexivity.
Qed.

(** ** horner *)
Lemma poly_sum_seq (f : nat -> R) i n x : poly_sum (map f (seq i n)) x = rsum n (fun m => f (i + m)%nat * x ^ m).
Proof. rewrite map_seq_shift. apply poly_sum_map_seq. Qed.
Lemma coef_horner_exact d alpha log : 0 < alpha <= 1 -> (0 < d)%nat ->
  (forallb fits64 (map (fun j => s1 d (S j)) (seq 0 d)) = true -> forall i j, (i <= j < d)%nat -> fits64 (Z.abs (s1 d (S j)) * s2 (S j) (S i)) = true) ->
  gumbel_coef_horner d alpha log = Ok (if log then log_coefficients d (ga alpha d) else coefficients d (ga alpha d)).
Proof.
  intros Ha Hd HF. unfold gumbel_coef_horner. rewrite stirling_first_all_ok, tables. cbn [bind].
  assert (M : forall i j, (i <= j < d)%nat -> (if forallb fits64 (map (fun j => s1 d (S j)) (seq 0 d)) then wrap64 (Z.abs (s1 d (S j)) * s2 (S j) (S i)) else (Z.abs (s1 d (S j)) * s2 (S j) (S i))%Z) = (Z.abs (s1 d (S j)) * s2 (S j) (S i))%Z).
  { intros i j H. destruct (forallb _ _) eqn:E; [|reflexivity]. specialize (HF eq_refl i j H).
    unfold fits64 in HF. apply andb_true_iff in HF. destruct HF as [F1 F2]. apply Z.leb_le in F1. apply Z.ltb_lt in F2. unfold wrap64.
    rewrite Z.mod_small by lia. lia. }
  rewrite (mapM_ok _ (fun i => rsum (d - i) (fun m => IZR (Z.abs (s1 d (S (i + m)))) * IZR (s2 (S (i + m)) (S i)) * (- alpha) ^ m))).
  2:{ intros i Hi. apply in_seq in Hi. rewrite horner_ok.
      - f_equal. rewrite poly_sum_seq. apply rsum_ext. intros m Hm. rewrite table_nth, nth_map_seq by lia. rewrite M by lia. rewrite mult_IZR. reflexivity.
      - intros E. apply (f_equal (@length R)) in E. rewrite map_length, seq_length in E. cbn in E. lia. }
  cbn [bind]. f_equal.
  set (pol := fun i => rsum (d - i) (fun m => IZR (Z.abs (s1 d (S (i + m)))) * IZR (s2 (S (i + m)) (S i)) * (- alpha) ^ m)).
  assert (V : forall i, (i < d)%nat -> pol i * alpha ^ (i + 1) = ga alpha d (S i)).
  { intros i Hi. unfold pol. rewrite <- aterm_alt by exact Hi. rewrite <- rsum_scal_r. apply rsum_ext. intros m _. unfold aterm.
    replace (- alpha) with (-1 * alpha) by ring. rewrite Rpow_mult_distr. replace (i + m + 1)%nat with (m + (i + 1))%nat by lia. rewrite (pow_add alpha m). ring. }
  assert (CM : forall (A B C : Type) (f : A -> B) (g : A * B -> C) l, map g (combine l (map f l)) = map (fun x => g (x, f x)) l).
  { intros A B C f g l. induction l as [|x l IH]; [reflexivity|]. cbn. rewrite IH. reflexivity. }
  rewrite CM. unfold log_coefficients, coefficients.
  destruct log; apply map_ext_in; intros i Hi; apply in_seq in Hi.
  - pose proof (ga_nonneg alpha d Ha (S i)) as N. rewrite <- V in N by lia. rewrite <- V by lia.
    assert (Hp : 0 < alpha ^ (i + 1)) by (apply pow_lt; lra).
    assert (Np : 0 <= pol i) by (apply (Rmult_le_reg_r (alpha ^ (i + 1))); [exact Hp|]; rewrite Rmult_0_l; exact N).
    destruct Np as [Np|Z0].
    + rewrite !elog_pos by (try apply Rmult_lt_0_compat; assumption). rewrite ln_mult, ln_pow by lra. cbn [eadd]. f_equal. ring.
    + rewrite <- Z0, Rmult_0_l, elog_0. reflexivity.
  - rewrite V by lia. reflexivity.
Qed.

(** ** Logarithms of non-negative numbers *)
Lemma elog_mul a b : 0 <= a -> 0 <= b -> eadd (elog (Fin a)) (elog (Fin b)) = elog (Fin (a * b)).
Proof.
  intros [Ha|<-] [Hb|<-].
  - rewrite !elog_pos by nra. rewrite ln_mult by lra. reflexivity.
  - rewrite Rmult_0_r, elog_0, elog_pos by exact Ha. reflexivity.
  - rewrite Rmult_0_l, elog_0, elog_pos by exact Hb. reflexivity.
  - rewrite Rmult_0_l, elog_0. reflexivity.
Qed.
Lemma elog_shape w : 0 <= w -> elog (Fin w) = Ninf \/ exists m, elog (Fin w) = Fin m.
Proof. intros [H|<-]; [right; rewrite elog_pos by exact H; eexists; reflexivity|left; apply elog_0]. Qed.
Lemma fold_emax_fin l m : (forall w, In w l -> 0 <= w) -> exists m', fold_left emax (map (fun w => elog (Fin w)) l) (Fin m) = Fin m'.
Proof.
  revert m; induction l as [|a l IH]; intros m H; [exists m; reflexivity|]. cbn [map fold_left].
  destruct (elog_shape a) as [->|[q ->]]; [apply H; left; reflexivity| |]; cbn [emax]; apply IH; intros w Hw; apply H; right; exact Hw.
Qed.
Lemma emaximum_elog l : (forall w, In w l -> 0 <= w) -> (exists w, In w l /\ 0 < w) -> exists m, emaximum (map (fun w => elog (Fin w)) l) = Fin m.
Proof.
  intros H [w [Hw Hp]]. destruct l as [|a l]; [destruct Hw|]. unfold emaximum. cbn [map tl hd].
  destruct (elog_shape a) as [E|[m E]]; [apply H; left; reflexivity| |]; rewrite E.
  - destruct Hw as [<-|Hw]; [rewrite elog_pos in E by exact Hp; discriminate E|].
    assert (H' : forall x, In x l -> 0 <= x) by (intros x Hx; apply H; right; exact Hx). clear H E a. induction l as [|b l IH]; [destruct Hw|].
    cbn [map fold_left]. destruct (elog_shape b) as [E|[m E]]; [apply H'; left; reflexivity| |]; rewrite E; cbn [emax].
    + destruct Hw as [<-|Hw]; [rewrite elog_pos in E by exact Hp; discriminate E|]. apply IH; [exact Hw|intros x Hx; apply H'; right; exact Hx].
    + apply fold_emax_fin. intros x Hx. apply H'. right. exact Hx.
  - apply fold_emax_fin. intros x Hx. apply H. right. exact Hx.
Qed.
Lemma eexp_shift w m : 0 <= w -> eexp (esub (elog (Fin w)) (Fin m)) = Fin (w * exp (- m)).
Proof.
  intros [H|<-].
  - rewrite elog_pos by exact H. unfold esub. cbn [eopp eadd eexp]. rewrite exp_plus, exp_ln by exact H. reflexivity.
  - rewrite elog_0. unfold esub. cbn [eopp eadd eexp]. f_equal. ring.
Qed.
Lemma elog_unshift s m : 0 <= s -> eadd (elog (Fin (s * exp (- m)))) (Fin m) = elog (Fin s).
Proof.
  intros H. pose proof (exp_pos (- m)). rewrite <- elog_mul by lra. rewrite (elog_pos (exp (- m))) by apply exp_pos. rewrite ln_exp, <- eadd_assoc. cbn [eadd].
  replace (- m + m) with 0 by ring. destruct (elog_shape s H) as [->|[q ->]]; cbn [eadd]; [reflexivity|]. f_equal. ring.
Qed.
Lemma eexp_elog w : 0 <= w -> eexp (elog (Fin w)) = Fin w.
Proof. intros [H|<-]; [rewrite elog_pos by exact H; cbn; rewrite exp_ln by exact H; reflexivity|rewrite elog_0; reflexivity]. Qed.

(** ** sort *)
Fixpoint alt (l : list R) : R := match l with [] => 0 | x :: r => x - alt r end.
Lemma evens_odds_alt l : lsum (evens l) - lsum (odds l) = alt l.
Proof.
  assert (G : forall n l, (length l <= n)%nat -> lsum (evens l) - lsum (odds l) = alt l).
  { clear. induction n as [|n IH]; intros l H; [destruct l; [cbn; ring|cbn in H; lia]|].
    destruct l as [|x [|y l]]; [cbn; ring|cbn; ring|].
    assert (E := IH (y :: l) ltac:(cbn in *; lia)). unfold odds in *. cbn [tl] in *. 
    change (evens (x :: y :: l)) with (x :: evens l). cbn [lsum]. cbn [alt]. cbn [alt] in E.
    rewrite <- E. destruct l; cbn [evens lsum]; ring. }
  apply (G (length l)). lia.
Qed.
Lemma alt_map_seq (f : nat -> R) n : forall i, alt (map f (seq i n)) = rsum n (fun m => (-1) ^ m * f (i + m)%nat).
Proof.
  induction n as [|n IH]; intros i; [reflexivity|]. cbn [seq map alt]. rewrite IH, rsum_Sl. cbn [pow]. rewrite Nat.add_0_r.
  rewrite (rsum_ext n (fun i0 => -1 * (-1) ^ i0 * f (i + S i0)%nat) (fun m => -1 * ((-1) ^ m * f (S i + m)%nat))).
  - rewrite rsum_scal. ring.
  - intros m _. replace (i + S m)%nat with (S i + m)%nat by lia. ring.
Qed.
Lemma evens_map {A B} (f : A -> B) l : evens (map f l) = map f (evens l).
Proof.
  assert (G : forall n l, (length l <= n)%nat -> evens (map f l) = map f (evens l)).
  { clear. induction n as [|n IH]; intros l H; [destruct l; [reflexivity|cbn in H; lia]|].
    destruct l as [|x [|y l]]; [reflexivity|reflexivity|]. cbn [map evens]. cbn in H. rewrite IH by lia. reflexivity. }
  apply (G (length l)). lia.
Qed.
Lemma odds_map {A B} (f : A -> B) l : odds (map f l) = map f (odds l).
Proof. unfold odds. destruct l as [|x l]; [reflexivity|]. cbn [map tl]. apply evens_map. Qed.
Lemma evens_in {A} (x : A) l : In x (evens l) -> In x l.
Proof.
  assert (G : forall n l, (length l <= n)%nat -> In x (evens l) -> In x l).
  { clear. induction n as [|n IH]; intros l H I; [destruct l; [exact I|cbn in H; lia]|].
    destruct l as [|a [|b l]]; [exact I|exact I|]. cbn [evens] in I. cbn in H. destruct I as [->|I]; [left; reflexivity|]. right. right. apply IH; [lia|exact I]. }
  apply (G (length l)). lia.
Qed.
Lemma coef_sort_ok d alpha log : 0 < alpha <= 1 -> (0 < d)%nat ->
  (forall j, (j < d)%nat -> (Z.abs (s1 d (S j)) < 2 ^ 64)%Z) -> (forall i j, (i <= j < d)%nat -> (s2 (S j) (S i) < 2 ^ 64)%Z) ->
  gumbel_coef_sort d alpha log = Ok (if log then log_coefficients d (ga alpha d) else coefficients d (ga alpha d)).
Proof.
  intros Ha Hd H1 H2. unfold gumbel_coef_sort. rewrite stirling_first_all_ok, tables. cbn [bind].
  replace (existsb _ _ || existsb _ _) with false.
  2:{ symmetry. apply orb_false_iff. split; apply not_true_iff_false; intros E; apply existsb_exists in E; destruct E as [z [I E]].
      - apply in_map_iff in I. destruct I as [j [<- I]]. apply in_seq in I. apply Z.leb_le in E. specialize (H1 j ltac:(lia)). lia.
      - apply in_map_iff in I. destruct I as [j [<- I]]. apply in_seq in I. apply existsb_exists in E. destruct E as [y [I2 E]].
        apply in_map_iff in I2. destruct I2 as [i [<- I2]]. apply in_seq in I2. apply Z.leb_le in E. specialize (H2 i j ltac:(lia)). lia. }
  f_equal.
  assert (G : forall i, (i < d)%nat ->
     map (fun x => eadd (eadd (Fin (INR (x + 1) * ln alpha)) (nth x (map (fun z => elog (Fin (IZR (Z.abs z)))) (map (fun j => s1 d (S j)) (seq 0 d))) Nan))
        (nth i (nth x (map (map (fun z => elog (Fin (IZR z)))) (map (fun i0 => map (fun j => s2 (S i0) (S j)) (seq 0 (S i0))) (seq 0 d))) []) Nan)) (seq i (d - i))
     = map (fun w => elog (Fin w)) (map (aterm alpha d i) (seq i (d - i)))).
  { intros i Hi. rewrite (map_map (aterm alpha d i)). apply map_ext_in. intros j Hj. apply in_seq in Hj.
    rewrite !map_map. rewrite (nth_map_seq (fun x => elog (Fin (IZR (Z.abs (s1 d (S x))))))) by lia.
    rewrite (nth_map_seq (fun x => map (fun z => elog (Fin (IZR z))) (map (fun j0 => s2 (S x) (S j0)) (seq 0 (S x))))) by lia.
    rewrite map_map. rewrite (nth_map_seq (fun j0 => elog (Fin (IZR (s2 (S j) (S j0)))))) by lia.
    replace (Fin (INR (j + 1) * ln alpha)) with (elog (Fin (alpha ^ (j + 1)))).
    2:{ rewrite elog_pos by (apply pow_lt; lra). rewrite ln_pow by lra. reflexivity. }
    assert (0 <= alpha ^ (j + 1)) by (apply pow_le; lra).
    assert (0 <= IZR (Z.abs (s1 d (S j)))) by (apply IZR_le; lia).
    assert (0 <= IZR (s2 (S j) (S i))) by (apply IZR_le; apply s2_nonneg).
    rewrite !elog_mul by (try apply Rmult_le_pos; assumption). reflexivity. }
  unfold log_coefficients, coefficients.
  assert (V : forall i, (i < d)%nat -> exists m,
     emaximum (map (fun w => elog (Fin w)) (map (aterm alpha d i) (seq i (d - i)))) = Fin m /\
     let ex := map (fun y => eexp (esub y (Fin m))) (map (fun w => elog (Fin w)) (map (aterm alpha d i) (seq i (d - i)))) in
     esub (esum (evens ex)) (esum (odds ex)) = Fin (ga alpha d (S i) * exp (- m))).
  { intros i Hi.
    assert (P : forall w, In w (map (aterm alpha d i) (seq i (d - i))) -> 0 < w).
    { intros w I. apply in_map_iff in I. destruct I as [j [<- I]]. apply in_seq in I. apply aterm_pos; [lra|lia]. }
    destruct (emaximum_elog (map (aterm alpha d i) (seq i (d - i)))) as [m Hm].
    { intros w I. left. apply P, I. }
    { exists (aterm alpha d i i). split; [apply in_map, in_seq; lia|apply aterm_pos; [lra|lia]]. }
    exists m. split; [exact Hm|]. cbv zeta. rewrite (map_map (fun w => elog (Fin w))).
    rewrite (map_ext_in _ (fun w => Fin (w * exp (- m)))) by (intros w I; apply eexp_shift; left; apply P, I).
    rewrite <- (map_map (fun w => w * exp (- m)) Fin). rewrite evens_map, odds_map, !esum_fin. unfold esub. cbn [eopp eadd]. f_equal.
    change (lsum (evens (map (fun w => w * exp (- m)) (map (aterm alpha d i) (seq i (d - i))))) + - lsum (odds (map (fun w => w * exp (- m)) (map (aterm alpha d i) (seq i (d - i)))))) 
      with (lsum (evens (map (fun w => w * exp (- m)) (map (aterm alpha d i) (seq i (d - i))))) - lsum (odds (map (fun w => w * exp (- m)) (map (aterm alpha d i) (seq i (d - i)))))).
    rewrite evens_odds_alt, map_map, alt_map_seq. rewrite <- (aterm_alt alpha d i Hi), <- rsum_scal_r. apply rsum_ext. intros q _. ring. }
  destruct log; apply map_ext_in; intros i Hi; apply in_seq in Hi; cbv zeta; rewrite G by lia; destruct (V i ltac:(lia)) as [m [-> E]]; cbv zeta in E; rewrite E.
  - apply elog_unshift. apply ga_nonneg. exact Ha.
  - cbn [eexp emul escal]. f_equal. rewrite exp_Ropp. field. apply Rgt_not_eq, exp_pos.
Qed.
