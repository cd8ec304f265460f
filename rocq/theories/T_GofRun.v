(** C115 to C117: the options of the goodness-of-fit test, its replications, and the random numbers of the tests. *)
From Coq Require Import QArith Qreals Lra Lia.
From Coquelicot Require Import Coquelicot.
From Verif Require Import Base RSumLib CountLib Ext M_Rank S_Rank P_Rank M_Special M_Stats M_Empirical S_Empirical P_Empirical M_Gof S_Gof P_Gof T_Gof M_GofRun.
Local Close Scope Q_scope. Local Close Scope Z_scope. Open Scope R_scope.

(** ** C115 *)
Lemma Rleb_preorder : total_preorder Rleb.
Proof.
  split.
  - intros a b. destruct (Rle_lt_dec a b); [left; apply Rleb_true; assumption|right; apply Rleb_true; lra].
  - intros a b c H1 H2. apply Rleb_true in H1, H2. apply Rleb_true. lra.
Qed.
Lemma rank_half t n x i : Q2R (rankdata Rleb t n x i) = INR (r2 Rleb t n x i) / 2.
Proof.
  rewrite (Qeq_eqR _ _ (rankdata_r2 Rleb t n x i)). unfold Qdiv. rewrite Q2R_mult. unfold inject_Z at 1. unfold Q2R at 1. cbn [Qnum Qden].
  rewrite INR_IZR_INZ. unfold Q2R. cbn. lra.
Qed.
Lemma rank_order t n x i k : t <> Ordinal \/ no_ties Rleb n x -> (i < n)%nat -> (k < n)%nat ->
  Rleb (Q2R (rankdata Rleb t n x i / inject_Z (Z.of_nat (n + 1)))%Q) (Q2R (rankdata Rleb t n x k / inject_Z (Z.of_nat (n + 1)))%Q) = Rleb (x i) (x k).
Proof.
  intros H Hi Hk. rewrite !Q2R_pobs1, !rank_half. pose proof (pos_INR n) as Pn.
  assert (E : Nat.leb (r2 Rleb t n x i) (r2 Rleb t n x k) = Rleb (x i) (x k)).
  { destruct H as [H|H]; [apply (leb_r2 Rleb Rleb_preorder); assumption|].
    rewrite !(no_ties_r2 Rleb Rleb_preorder t n x) by assumption.
    rewrite <- !(no_ties_r2 Rleb Rleb_preorder Average n x) by assumption. apply (leb_r2 Rleb Rleb_preorder); [discriminate|assumption|assumption]. }
  rewrite <- E. assert (P : 0 < / (INR n + 1)) by (apply Rinv_0_lt_compat; lra).
  destruct (Nat.leb_spec (r2 Rleb t n x i) (r2 Rleb t n x k)) as [L|L].
  - apply Rleb_true. apply le_INR in L. unfold Rdiv. apply Rmult_le_compat_r; lra.
  - apply Rleb_false. apply lt_INR in L. unfold Rdiv. apply Rmult_lt_compat_r; lra.
Qed.
Lemma untied_columns d : has_ties d = false -> forall j, (j < nc d)%nat -> no_ties Rleb (nr d) (fun i => get d i j).
Proof.
  unfold has_ties. intros H j Hj i k Hi Hk [T1 T2]. apply negb_false_iff in H. rewrite forallb_forall in H. specialize (H j ltac:(apply in_seq; lia)).
  unfold distinct in H. rewrite forallb_forall in H. rewrite column_length in H. specialize (H i ltac:(apply in_seq; lia)). rewrite forallb_forall in H.
  specialize (H k ltac:(apply in_seq; lia)). rewrite !column_nth in H by assumption. apply orb_true_iff in H. destruct H as [H|H]; [apply Nat.eqb_eq; exact H|].
  exfalso. apply negb_true_iff in H. apply Rleb_true in T1, T2. assert (E : get d i j = get d k j) by lra. rewrite E in H.
  assert (Reqb (get d k j) (get d k j) = true) by (apply Reqb_true; reflexivity). congruence.
Qed.
(** ranking pseudo-observations again gives the pseudo-observations of the data by the second method *)
Lemma pobs_again d s p s2 : pseudo_obs Rleb d s = Ok p -> lower s <> "ordinal"%string \/ has_ties d = false ->
  match pseudo_obs Rleb (real_mat p) s2, pseudo_obs Rleb d s2 with
  | Ok a, Ok b => agree (real_mat a) (real_mat b)
  | Err e, Err e' => e = e'
  | _, _ => False
  end.
Proof.
  intros Hp H. destruct (pseudo_obs_Ok Rleb _ _ _ Hp) as [t [Ht [Rp [Cp Gp]]]]. unfold pseudo_obs, rank_data2. destruct (parse_ties s2) as [t2|e]; cbn [bind rmap]; [|reflexivity].
  split; [exact Rp|]. split; [exact Cp|]. cbn [real_mat nr nc get]. intros i j Hi Hj. rewrite Rp in *. rewrite Cp in *. f_equal. f_equal.
  apply (rankdata_iso Rleb Rleb); [|exact Hi]. intros a b Ha Hb. rewrite !Gp. apply (rank_order t (nr d) (fun k => get d k j)); [|assumption|assumption].
  destruct H as [H|H]; [left; apply (parse_ties_ordinal s); assumption|right; apply (untied_columns d H); assumption].
Qed.
Lemma stat_same f g d : (forall c c' k, agree c c' -> (k < nr c)%nat -> f c k = g c' k) -> gof_t_stat f d = gof_t_stat g d.
Proof.
  intros H. unfold gof_t_stat. destruct (emp_dist_func _ _ _ _ _) as [emp|e]; [|reflexivity]. cbn [bind]. f_equal.
  assert (X : forall l a, (forall k, In k l -> (k < nr d)%nat) ->
    fold_left (fun s k => s + (match nth k emp Nan with Fin e => e | _ => 0 end - f d k) ^ 2) l a = fold_left (fun s k => s + (match nth k emp Nan with Fin e => e | _ => 0 end - g d k) ^ 2) l a).
  { induction l as [|k l IH]; intros a Hl; [reflexivity|]. cbn [fold_left]. rewrite (H d d k) by ((repeat split) || (apply Hl; left; reflexivity)). apply IH. intros; apply Hl; right; assumption. }
  apply X. intros k Hk. apply in_seq in Hk. lia.
Qed.
Definition t_stat (fit : mat R -> result (mat R -> nat -> R)) (ties fit_ties : string) (d : mat R) : result R :=
  bind (gof_pobs d ties fit_ties) (fun p => bind (fit (snd p)) (fun cdf => gof_t_stat cdf (fst p))).
Lemma t_stat_same fit0 o ties ft ft' d : reads_entries fit0 -> get_or (o_to_pobs o) true = true -> documented ft -> documented ft' ->
  lower ft <> "ordinal"%string -> lower ft' <> "ordinal"%string -> t_stat (base_fit fit0 o) ties ft d = t_stat (base_fit fit0 o) ties ft' d.
Proof.
  intros Hf Ho D D' N N'. unfold t_stat, gof_pobs. destruct (pseudo_obs Rleb d ties) as [p|e] eqn:Ep; [|reflexivity]. cbn [bind].
  assert (Q : forall f, documented f -> lower f <> "ordinal"%string -> exists q s, pseudo_obs Rleb d s = Ok q /\ (lower s <> "ordinal"%string \/ has_ties d = false) /\
    (if has_ties d && negb (String.eqb ties f) then rmap (fun q => (real_mat p, real_mat q)) (pseudo_obs Rleb d f) else Ok (real_mat p, real_mat p)) = Ok (real_mat p, real_mat q)).
  { intros f Df Nf. destruct (has_ties d) eqn:Et; cbn [andb].
    - destruct (String.eqb_spec ties f) as [->|Ne]; cbn [negb]; [exists p, f; auto|].
      destruct (parse_ties_ok f Df) as [t Pt]. assert (E : exists q, pseudo_obs Rleb d f = Ok q) by (unfold pseudo_obs, rank_data2; rewrite Pt; cbn; eauto).
      destruct E as [q E]. exists q, f. rewrite E. auto.
    - exists p, ties. auto. }
  destruct (Q ft D N) as [q [s [Eq [Hs E1]]]]. destruct (Q ft' D' N') as [q' [s' [Eq' [Hs' E2]]]]. rewrite E1, E2. cbn [bind fst snd]. unfold base_fit. rewrite Ho.
  pose proof (pobs_again d s q (get_or (o_ties o) "average") Eq Hs) as A. pose proof (pobs_again d s' q' (get_or (o_ties o) "average") Eq' Hs') as A'.
  destruct (pseudo_obs Rleb d (get_or (o_ties o) "average")) as [b|e]; destruct (pseudo_obs Rleb (real_mat q) _) as [a|e1]; try contradiction;
    destruct (pseudo_obs Rleb (real_mat q') _) as [a'|e2]; try contradiction; [|cbn [bind]; congruence].
  cbn [bind]. assert (G : agree (real_mat a) (real_mat a')).
  { destruct A as (A1 & A2 & A3), A' as (B1 & B2 & B3). split; [congruence|]. split; [congruence|]. intros i j Hi Hj. rewrite A3, B3; congruence. }
  pose proof (Hf _ _ G) as F. destruct (fit0 (real_mat a)) as [f|]; destruct (fit0 (real_mat a')) as [g|]; try contradiction; [|cbn [bind]; congruence].
  cbn [bind]. apply stat_same. exact F.
Qed.
(** As fit ranks its data again, [fit_ties] decides nothing: with the default options, or any options but to_pobs=False, the statistic and the p-value
    are the same for 'average', 'min', 'max' and 'dense', for all data, fits and samples. *)
Theorem C115_fit_ties_refuted : forall fit0 sample data reps ties ft ft' o, reads_entries fit0 -> get_or (o_to_pobs o) true = true ->
  documented ties -> documented ft -> documented ft' -> lower ft <> "ordinal"%string -> lower ft' <> "ordinal"%string ->
  gof_call fit0 sample data reps ties ft o = gof_call fit0 sample data reps ties ft' o.
Proof.
  intros fit0 sample data reps ties ft ft' o Hf Ho Dt D D' N N'. unfold gof_call.
  assert (G : forall f, documented f -> exists p, gof_pobs data ties f = Ok p).
  { intros f Df. destruct (parse_ties_ok ties Dt) as [t Pt]. destruct (parse_ties_ok f Df) as [t' Pt']. unfold gof_pobs, pseudo_obs, rank_data2. rewrite Pt, Pt'. cbn [bind rmap].
    destruct (_ && _); eauto. }
  destruct (G ft D) as [p ->]. destruct (G ft' D') as [p' ->]. cbn [bind]. destruct (o_verbose o); [reflexivity|]. unfold gof_copula.
  destruct (duplicated_ranks data) as [dup|]; [|reflexivity]. cbn [bind].
  pose proof (t_stat_same fit0 o ties ft ft' data Hf Ho D D' N N') as S. unfold t_stat in S. rewrite S. destruct (bind (gof_pobs data ties ft') _) as [t|]; [|reflexivity]. cbn [bind].
  erewrite mapM_ext; [reflexivity|]. intros k _. cbv beta.
  destruct (if has_ties data then sort_data_by_column dup (sample k) else Ok (sample k)) as [u|]; [|reflexivity]. cbn [bind].
  exact (t_stat_same fit0 o ties ft ft' u Hf Ho D D' N N').
Qed.
Print Assumptions C115_fit_ties_refuted.
(** With to_pobs=False the copula is fitted to the pseudo-observations by [fit_ties], as documented. *)
Theorem C115_to_pobs : forall fit0 sample data reps ties ft o, documented ties -> documented ft -> o_verbose o = None -> o_to_pobs o = Some false ->
  gof_call fit0 sample data reps ties ft o = gof_copula fit0 sample data reps ties ft.
Proof.
  intros fit0 sample data reps ties ft o Dt D V T. unfold gof_call. rewrite V.
  assert (G : exists p, gof_pobs data ties ft = Ok p).
  { destruct (parse_ties_ok ties Dt) as [t Pt]. destruct (parse_ties_ok ft D) as [t' Pt']. unfold gof_pobs, pseudo_obs, rank_data2. rewrite Pt, Pt'. cbn [bind rmap]. destruct (_ && _); eauto. }
  destruct G as [p ->]. cbn [bind]. assert (E : base_fit fit0 o = fit0); [|rewrite E; reflexivity].
  apply FunctionalExtensionality.functional_extensionality. intros d. unfold base_fit. rewrite T. reflexivity.
Qed.
Print Assumptions C115_to_pobs.
(** The option verbose of fit cannot be given: every such call fails. *)
Theorem C115_verbose_refuted : forall fit0 sample data reps ties ft o v, documented ties -> documented ft -> o_verbose o = Some v ->
  gof_call fit0 sample data reps ties ft o = Err TypeError.
Proof.
  intros fit0 sample data reps ties ft o v Dt D V. unfold gof_call. rewrite V. destruct (parse_ties_ok ties Dt) as [t Pt]. destruct (parse_ties_ok ft D) as [t' Pt'].
  unfold gof_pobs, pseudo_obs, rank_data2. rewrite Pt, Pt'. cbn [bind rmap]. destruct (_ && _); reflexivity.
Qed.
Print Assumptions C115_verbose_refuted.
(** The hypotheses are met by a fit that depends on its table and by three rows with a tie, whose ranks by 'min' and 'max' differ. *)
Definition some_fit (d : mat R) : result (mat R -> nat -> R) :=
  if Nat.eqb (nr d) 0 || Nat.eqb (nc d) 0 then Err ValueError else Ok (fun u k => if Nat.eqb (nc u) 0 then 0 else get u k 0 * get d 0 0).
Example C115_case : reads_entries some_fit /\ (let data := mkMat 3 1 (fun i _ => nth i [1; 1; 2] 0) in has_ties data = true /\
  exists p q, gof_pobs data "average" "min" = Ok p /\ gof_pobs data "average" "max" = Ok q /\ get (snd p) 0 0 = / 4 /\ get (snd q) 0 0 = 2 / 4).
Proof.
  split.
  - intros a b [A1 [A2 A3]]. unfold some_fit. rewrite <- A1, <- A2. destruct (Nat.eqb_spec (nr a) 0); [reflexivity|]. destruct (Nat.eqb_spec (nc a) 0); [reflexivity|]. cbn [orb].
    intros c d k [C1 [C2 C3]] Hk. rewrite <- C2. destruct (Nat.eqb_spec (nc c) 0); [reflexivity|]. rewrite C3, A3 by lia. reflexivity.
  - cbv zeta. set (data := mkMat 3 1 (fun i _ => nth i [1; 1; 2] 0)).
    assert (T : has_ties data = true).
    { unfold has_ties. cbn [nc data seq forallb]. rewrite (distinct_false (column data 0) 0 1); [reflexivity|rewrite column_length; cbn; lia|rewrite column_length; cbn; lia|lia|].
      rewrite !column_nth by (cbn; lia). reflexivity. }
    split; [exact T|]. unfold gof_pobs. rewrite T. cbn [String.eqb Ascii.eqb Bool.eqb negb andb].
    assert (V : forall t i, (i < 3)%nat -> rankdata Rleb t 3 (fun k => get data k 0) i = rankdata Z.leb t 3 (fun k => nth k [1; 1; 2]%Z 0%Z) i).
    { intros t i Hi. rewrite <- (rank_Z t 3 (fun k => nth k [1; 1; 2]%Z 0%Z)) by exact Hi. apply (rankdata_iso Rleb Rleb); [|exact Hi].
      intros [|[|[|j]]] [|[|[|k]]] Hj Hk; try lia; reflexivity. }
    change (pseudo_obs Rleb data "average") with (Ok (mkMat 3 1 (fun i j => (rankdata Rleb Average 3 (fun k => get data k j) i / inject_Z (Z.of_nat (3 + 1)))%Q))).
    change (pseudo_obs Rleb data "min") with (Ok (mkMat 3 1 (fun i j => (rankdata Rleb MinRank 3 (fun k => get data k j) i / inject_Z (Z.of_nat (3 + 1)))%Q))).
    change (pseudo_obs Rleb data "max") with (Ok (mkMat 3 1 (fun i j => (rankdata Rleb MaxRank 3 (fun k => get data k j) i / inject_Z (Z.of_nat (3 + 1)))%Q))).
    cbn [bind rmap]. eexists. eexists. split; [reflexivity|]. split; [reflexivity|]. cbn [snd real_mat get]. rewrite !V by lia.
    split; unfold Q2R; vm_compute (Qnum _); vm_compute (Qden _); lra.
Qed.

(** ** C116 *)
Section C116.
  Context {St : Type} (replicate : St -> R * St).
  (** the state after j replications, and the statistic of the next one *)
  Fixpoint later (j : nat) (s : St) : St := match j with O => s | S j => later j (snd (replicate s)) end.
  Definition draw (j : nat) (s : St) : R := fst (replicate (later j s)).
  Lemma later_S j s : later (S j) s = snd (replicate (later j s)).
  Proof. revert s. induction j as [|j IH]; intros s; [reflexivity|]. cbn [later] in *. apply IH. Qed.
  Lemma in_process_draws reps : forall s, in_process replicate reps s = (map (fun j => draw j s) (seq 0 reps), later reps s).
  Proof.
    induction reps as [|k IH]; intros s; [reflexivity|]. cbn [in_process seq map later]. unfold draw at 1. cbn [later]. destruct (replicate s) as [t s1] eqn:E. rewrite IH. cbn [fst snd].
    rewrite <- seq_shift, map_map. f_equal. f_equal. apply map_ext. intros j. unfold draw. cbn [later]. rewrite E. reflexivity.
  Qed.
  Lemma pool_draws who reps : forall k s w, (forall i, w i = later (count (fun a => Nat.eqb (who a) i) (seq 0 k)) s) ->
    pool_from replicate who k reps w = map (fun j => draw (count (fun a => Nat.eqb (who a) (who j)) (seq 0 j)) s) (seq k reps).
  Proof.
    induction reps as [|r IH]; intros k s w H; [reflexivity|]. cbn [pool_from seq map]. destruct (replicate (w (who k))) as [t s1] eqn:E. f_equal.
    - unfold draw. rewrite <- H, E. reflexivity.
    - apply IH. intros i. rewrite seq_S, count_app, Nat.add_0_l. unfold count at 2. cbn [filter]. destruct (Nat.eqb_spec i (who k)) as [->|N].
      + rewrite Nat.eqb_refl. cbn [length]. rewrite Nat.add_1_r, later_S, <- H, E. reflexivity.
      + destruct (Nat.eqb_spec (who k) i) as [E'|_]; [congruence|]. rewrite H. f_equal. cbn [length]. lia.
  Qed.
End C116.

(** Without multiprocessing the statistics are those of consecutive replications, and the generator of the caller moves on. *)
Theorem C116_in_process : forall St (replicate : St -> R * St) who reps t s,
  gof_pvalue replicate false who reps t s = (p_value (map (fun j => Rabs (draw replicate j s)) (seq 0 reps)) (Rabs t), later replicate reps s).
Proof. intros. unfold gof_pvalue. rewrite in_process_draws, map_map. reflexivity. Qed.
Print Assumptions C116_in_process.
(** the number of tasks before task k that ran in the worker of task k *)
Definition turn (who : nat -> nat) (k : nat) : nat := count (fun a => Nat.eqb (who a) (who k)) (seq 0 k).
(** With multiprocessing a task returns the statistic of the turn of its worker, so tasks with the same turn return the same number, for all
    assignments of tasks to workers. *)
Theorem C116_pool_refuted : forall St (replicate : St -> R * St) who reps s i j, (i < reps)%nat -> (j < reps)%nat -> turn who i = turn who j ->
  nth i (fst (in_pool replicate who reps s)) 0 = nth j (fst (in_pool replicate who reps s)) 0.
Proof.
  intros St replicate who reps s i j Hi Hj T. unfold in_pool. cbn [fst]. rewrite (pool_draws replicate who reps 0 s (fun _ => s)) by reflexivity.
  assert (N : forall k, (k < reps)%nat -> nth k (map (fun j => draw replicate (turn who j) s) (seq 0 reps)) 0 = draw replicate (turn who k) s).
  { intros k Hk. rewrite (nth_indep _ 0 (draw replicate (turn who 0) s)) by (rewrite map_length, seq_length; exact Hk).
    rewrite (map_nth (fun j => draw replicate (turn who j) s)), seq_nth by exact Hk. reflexivity. }
  etransitivity; [exact (N i Hi)|]. rewrite T. symmetry. exact (N j Hj).
Qed.
Print Assumptions C116_pool_refuted.
(** If no worker runs more than L tasks there are at most L different statistics, however many replications are asked for. *)
Theorem C116_few_statistics_refuted : forall St (replicate : St -> R * St) who reps s L,
  (forall w, (count (fun a => Nat.eqb (who a) w) (seq 0 reps) <= L)%nat) ->
  exists l, length l = L /\ forall t, In t (fst (in_pool replicate who reps s)) -> In t l.
Proof.
  intros St replicate who reps s L H. exists (map (fun j => draw replicate j s) (seq 0 L)). split; [rewrite map_length, seq_length; reflexivity|].
  intros t Ht. unfold in_pool in Ht. cbn [fst] in Ht. rewrite (pool_draws replicate who reps 0 s (fun _ => s)) in Ht by reflexivity.
  apply in_map_iff in Ht. destruct Ht as [k [<- Hk]]. apply in_seq in Hk. apply (in_map (fun j => draw replicate j s)), in_seq. split; [lia|]. cbn [plus].
  eapply Nat.lt_le_trans; [|apply (H (who k))]. replace reps with (k + S (reps - S k))%nat by lia. rewrite seq_app, count_app. cbn [plus seq]. rewrite count_cons, Nat.eqb_refl. cbn. lia.
Qed.
Print Assumptions C116_few_statistics_refuted.
(** If every task has its own worker all statistics are equal, and the p-value is one of two numbers. *)
Theorem C116_own_workers_refuted : forall St (replicate : St -> R * St) who reps t s, (forall i j, (i < reps)%nat -> (j < reps)%nat -> who i = who j -> i = j) ->
  fst (gof_pvalue replicate true who reps t s) = (if Rleb (Rabs t) (Rabs (fst (replicate s))) then INR reps + / 2 else / 2) / (INR reps + 1).
Proof.
  intros St replicate who reps t s H. unfold gof_pvalue, in_pool. cbn [fst]. rewrite (pool_draws replicate who reps 0 s (fun _ => s)) by reflexivity.
  assert (E : map (fun j => draw replicate (count (fun a => Nat.eqb (who a) (who j)) (seq 0 j)) s) (seq 0 reps) = repeat (fst (replicate s)) reps).
  { assert (X : forall k r, (k + r <= reps)%nat -> map (fun j => draw replicate (count (fun a => Nat.eqb (who a) (who j)) (seq 0 j)) s) (seq k r) = repeat (fst (replicate s)) r).
    { intros k r. revert k. induction r as [|r IH]; intros k Hk; [reflexivity|]. cbn [seq map repeat]. rewrite IH by lia. f_equal.
      assert (C : count (fun a => Nat.eqb (who a) (who k)) (seq 0 k) = 0%nat); [|rewrite C; reflexivity].
      unfold count. assert (F : forall l, (forall a, In a l -> (a < k)%nat) -> filter (fun a => Nat.eqb (who a) (who k)) l = []).
      { induction l as [|a l IHl]; intros Hl; [reflexivity|]. cbn [filter]. destruct (Nat.eqb_spec (who a) (who k)) as [E|E].
        - pose proof (Hl a (or_introl eq_refl)) as Ha. pose proof (H a k ltac:(lia) ltac:(lia) E). lia.
        - apply IHl. intros; apply Hl; right; assumption. }
      rewrite F; [reflexivity|]. intros a Ha. apply in_seq in Ha. lia. }
    apply X. lia. }
  rewrite E. assert (M : map Rabs (repeat (fst (replicate s)) reps) = repeat (Rabs (fst (replicate s))) reps).
  { clear. induction reps as [|r IH]; [reflexivity|]. cbn [repeat map]. rewrite IH. reflexivity. }
  rewrite M. unfold p_value. rewrite repeat_length. f_equal.
  assert (C : count (fun a => Rleb (Rabs t) a) (repeat (Rabs (fst (replicate s))) reps) = if Rleb (Rabs t) (Rabs (fst (replicate s))) then reps else 0%nat).
  { clear. induction reps as [|r IH]; [destruct (Rleb _ _); reflexivity|]. cbn [repeat]. rewrite count_cons, IH. destruct (Rleb _ _); reflexivity. }
  rewrite C. destruct (Rleb _ _); [reflexivity|]. cbn [INR]. lra.
Qed.
Print Assumptions C116_own_workers_refuted.
(** The generator of the caller never moves: repeating the test repeats its replications. *)
Theorem C116_repeated_refuted : forall St (replicate : St -> R * St) who reps t s, snd (gof_pvalue replicate true who reps t s) = s.
Proof. reflexivity. Qed.
Print Assumptions C116_repeated_refuted.
(** If one worker runs all the tasks the p-value is that of the sequential run. *)
Theorem C116_one_worker : forall St (replicate : St -> R * St) who reps t s, (forall i j, who i = who j) ->
  fst (gof_pvalue replicate true who reps t s) = fst (gof_pvalue replicate false who reps t s).
Proof.
  intros St replicate who reps t s H. unfold gof_pvalue, in_pool. rewrite in_process_draws. cbn [fst]. rewrite (pool_draws replicate who reps 0 s (fun _ => s)) by reflexivity.
  f_equal. f_equal. apply map_ext. intros j. f_equal. unfold count.
  assert (F : forall l, filter (fun a => Nat.eqb (who a) (who j)) l = l) by (induction l as [|a l IH]; [reflexivity|cbn [filter]; rewrite (H a j), Nat.eqb_refl, IH; reflexivity]).
  rewrite F, seq_length. reflexivity.
Qed.
Print Assumptions C116_one_worker.
(** At no moment of a run with multiprocessing is more than one task submitted and unfinished. *)
Definition is_submitted (e : event) : bool := match e with Submitted _ => true | _ => false end.
Theorem C116_parallel_refuted : forall reps before after, pool_events 0 reps = (before ++ after)%list ->
  (count is_submitted before <= S (count (fun e => negb (is_submitted e)) before))%nat.
Proof.
  intros reps before after. generalize 0%nat as k. revert before after. induction reps as [|r IH]; intros before after k E.
  - destruct before; [cbn; lia|discriminate].
  - destruct before as [|a [|b before]]; [cbn; lia|destruct a; cbn; lia|]. cbn [pool_events app] in E. injection E as <- <- E. specialize (IH before after (S k) E).
    rewrite !count_cons. cbn [is_submitted negb]. lia.
Qed.
Print Assumptions C116_parallel_refuted.
(** A generator that counts: the sequential run returns 0, 1, 2, 3 and two workers that take turns return 0, 0, 1, 1. *)
Example C116_case : let replicate n := (INR n, S n) in
  fst (in_process replicate 4 0%nat) = map INR [0; 1; 2; 3]%nat /\ fst (in_pool replicate (fun k => (k mod 2)%nat) 4 0%nat) = map INR [0; 0; 1; 1]%nat.
Proof. split; reflexivity. Qed.
