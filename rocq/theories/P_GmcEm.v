(** Lemmas about the expectation maximisation. *)
From Verif Require Import Base RSumLib CountLib Ext S_Matrix S_Linalg M_Special M_Stats M_Linalg P_Linalg M_Gmc S_Gmc P_Gmc P_GmcMarg.
Local Close Scope Z_scope. Open Scope R_scope. Open Scope list_scope.

Lemma rsum_mem0 n f : (forall i, (i < n)%nat -> 0 <= f i) -> rsum n f = 0 -> forall i, (i < n)%nat -> f i = 0.
Proof.
  intros H E i Hi. destruct (Rle_lt_or_eq_dec 0 (f i) (H i Hi)) as [L|L]; [|symmetry; exact L].
  assert (0 < rsum n f) by (apply rsum_pos; [exact H|exists i; auto]). lra.
Qed.
Section Em.
  Variables (eig : mat R -> list R) (cn : mat R -> mat R) (pdf : (nat -> R) -> mat R -> (nat -> R) -> R).
  Hypothesis L : libraries eig cn. Hypothesis Hpdf : forall mu c x, 0 <= pdf mu c x.

  Lemma e_step_eq q p i k : get (e_step pdf q p) i k = posterior pdf q p i k.
  Proof.
    unfold e_step, posterior. cbn [get component]. rewrite <- rsum_lsum. fold (weight p k). unfold edivide, weight, centre, spread_of.
    destruct (Reqb _ 0); [|reflexivity]. destruct (Rltb _ _); [reflexivity|]. destruct (Rltb _ _); reflexivity.
  Qed.
  Lemma posterior_nonneg q p i k : valid p -> 0 <= posterior pdf q p i k.
  Proof.
    intros V. unfold posterior. set (f := fun k => weight p k * pdf (centre p k) (spread_of p k) (get q i)). fold (f k).
    assert (Hf : forall k, 0 <= f k) by (intros a; apply Rmult_le_pos; [apply weight_nonneg, V|apply Hpdf]).
    destruct (Reqb (rsum (n_clusters p) f) 0) eqn:E; [lra|]. apply Reqb_false in E.
    assert (0 <= rsum (n_clusters p) f) by (apply rsum_nonneg; intros; apply Hf). apply Rmult_le_pos; [apply Hf|left; apply Rinv_0_lt_compat; lra].
  Qed.
  Lemma posterior_sum q p i : valid p ->
    (rsum (n_clusters p) (posterior pdf q p i) = 1 /\ 0 < mixed p (fun mu c => pdf mu c (get q i)))
    \/ (mixed p (fun mu c => pdf mu c (get q i)) = 0 /\ forall k, posterior pdf q p i k = 0).
  Proof.
    intros V. unfold posterior, mixed. set (f := fun k => weight p k * pdf (centre p k) (spread_of p k) (get q i)).
    assert (Hf : forall k, 0 <= f k) by (intros a; apply Rmult_le_pos; [apply weight_nonneg, V|apply Hpdf]).
    assert (0 <= rsum (n_clusters p) f) by (apply rsum_nonneg; intros; apply Hf).
    destruct (Reqb (rsum (n_clusters p) f) 0) eqn:E; [apply Reqb_true in E; right; auto|]. apply Reqb_false in E. left. split; [|lra].
    unfold Rdiv. rewrite (rsum_scal_r _ (/ rsum (n_clusters p) f)). fold f. rewrite Rinv_r by exact E. reflexivity.
  Qed.

  (** ** The M step *)
  Lemma quad_gram d n (w : nat -> nat -> R) x : quad d (fun a b => rsum n (fun i => w i a * w i b)) x = rsum n (fun i => rsum d (fun a => x a * w i a) * rsum d (fun a => x a * w i a)).
  Proof.
    transitivity (rsum n (fun i => rsum d (fun a => rsum d (fun b => (x a * w i a) * (x b * w i b))))); [|apply rsum_ext; intros; symmetry; apply rsum_mul].
    unfold quad. rewrite (rsum_swap n d). apply rsum_ext. intros a _. rewrite (rsum_swap n d). apply rsum_ext. intros b _.
    rewrite (Rmult_comm (x a)), <- rsum_scal_r, <- rsum_scal_r. apply rsum_ext. intros i _. ring.
  Qed.
  Lemma nth_map_seq {A} (f : nat -> A) m k a0 : (k < m)%nat -> nth k (map f (seq 0 m)) a0 = f k.
  Proof. intros H. rewrite (nth_indep _ a0 (f 0%nat)) by (rewrite map_length, seq_length; exact H). rewrite map_nth, seq_nth by exact H. reflexivity. Qed.
  Lemma m_step_ok q kappa : (0 < nc kappa)%nat -> nr kappa = nr q -> (forall i k, 0 <= get kappa i k) -> (forall k, (k < nc kappa)%nat -> col_sum kappa k <> 0) ->
    exists p, m_step eig cn q kappa = Ok p /\ valid p /\ Forall (covariance (n_dim p)) (covs p) /\ lsum (prob p) = 1 /\
      n_clusters p = nc kappa /\ n_dim p = nc q /\ (forall k, (k < nc kappa)%nat ->
        0 < weight p k /\ weight p k = col_sum kappa k / rsum (nc kappa) (col_sum kappa)
        /\ (forall j, centre p k j = rsum (nr q) (fun i => get kappa i k * get q i j) / col_sum kappa k)
        /\ (forall a b, get (spread_of p k) a b = rsum (nr q) (fun i => get kappa i k * (get q i a - centre p k a) * (get q i b - centre p k b)) / col_sum kappa k)).
  Proof.
    intros Hm Hn Hk Hc. set (m := nc kappa) in *. set (d := nc q). set (n := nr q) in *.
    assert (Pc : forall k, (k < m)%nat -> 0 < col_sum kappa k).
    { intros k H. assert (0 <= col_sum kappa k) by (apply rsum_nonneg; intros; apply Hk). specialize (Hc k H). lra. }
    assert (Pt : 0 < rsum m (col_sum kappa)) by (apply rsum_pos; [intros k H; specialize (Pc k H); lra|exists 0%nat; auto]).
    set (pr := map (fun k => col_sum kappa k / rsum m (col_sum kappa)) (seq 0 m)).
    assert (Sp : lsum pr = 1).
    { unfold pr. rewrite <- rsum_lsum. unfold Rdiv. rewrite rsum_scal_r. apply Rinv_r. lra. }
    assert (Ppr : Forall (fun x => 0 < x) pr).
    { apply Forall_map, Forall_forall. intros k H. apply in_seq in H. apply Rdiv_lt_0_compat; [apply Pc; lia|exact Pt]. }
    assert (W : weights pr) by (apply weights_exact; [eapply Forall_impl; [|exact Ppr]; cbn; intros; lra|exact Sp]).
    unfold m_step. fold m d n. rewrite <- (map_map (fun k => col_sum kappa k / rsum m (col_sum kappa)) Fin). fold pr.
    set (mu := mkMat m d (fun k j => rsum n (fun i => get q i j * get kappa i k) / col_sum kappa k)).
    set (center := fun k j => rsum n (fun i => get q i j * (get kappa i k / col_sum kappa k))).
    set (wx := fun k i j => sqrt (get kappa i k / col_sum kappa k) * (get q i j - center k j)).
    set (cv := map (fun k => mkMat d d (fun a b => rsum n (fun i => wx k i a * wx k i b))) (seq 0 m)).
    assert (Cv : Forall (covariance d) cv).
    { apply Forall_map, Forall_forall. intros k _. split; [split; reflexivity|]. split.
      - intros a b _ _. cbn [get]. apply rsum_ext. intros. ring.
      - intros x. cbn [get]. rewrite quad_gram. apply rsum_nonneg. intros. apply Rle_0_sqr. }
    eexists. split; [apply new_gmc_fwd; try reflexivity; try assumption; [unfold pr|unfold cv]; rewrite map_length, seq_length; reflexivity|].
    split; [unfold valid; cbn [prob n_clusters n_dim means covs]; split; [unfold pr; rewrite map_length, seq_length; reflexivity|]; split; [exact W|]; split; [reflexivity|]; split; [reflexivity|];
      split; [unfold cv; rewrite map_length, seq_length; reflexivity|]; eapply Forall_impl; [|exact Cv]; intros; apply covariance_almost; assumption|].
    cbn [prob n_clusters n_dim means covs]. split; [exact Cv|]. split; [exact Sp|]. split; [reflexivity|]. split; [reflexivity|]. intros k H.
    unfold weight, centre, spread_of. cbn [prob means covs get mu]. unfold pr, cv. rewrite !nth_map_seq by exact H. cbn [get].
    split; [apply Rdiv_lt_0_compat; [apply Pc, H|exact Pt]|]. split; [reflexivity|]. split; [intros j; f_equal; apply rsum_ext; intros; ring|].
    intros a b. symmetry. unfold Rdiv at 1. rewrite <- rsum_scal_r. symmetry. apply rsum_ext. intros i _.
    assert (Ec : forall j, center k j = rsum n (fun i => get q i j * get kappa i k) / col_sum kappa k).
    { intros j. unfold center, Rdiv. rewrite <- rsum_scal_r. apply rsum_ext. intros. ring. }
    unfold center in Ec. rewrite (Ec a), (Ec b). specialize (Pc k H). assert (0 <= get kappa i k / col_sum kappa k) by (apply Rmult_le_pos; [apply Hk|left; apply Rinv_0_lt_compat; lra]).
    replace (sqrt (get kappa i k / col_sum kappa k) * (get q i a - rsum n (fun i0 => get q i0 a * get kappa i0 k) / col_sum kappa k) * (sqrt (get kappa i k / col_sum kappa k) * (get q i b - rsum n (fun i0 => get q i0 b * get kappa i0 k) / col_sum kappa k)))
      with ((sqrt (get kappa i k / col_sum kappa k) * sqrt (get kappa i k / col_sum kappa k)) * (get q i a - rsum n (fun i0 => get q i0 a * get kappa i0 k) / col_sum kappa k) * (get q i b - rsum n (fun i0 => get q i0 b * get kappa i0 k) / col_sum kappa k)) by ring.
    rewrite sqrt_sqrt by assumption. unfold Rdiv. ring.
  Qed.
  Lemma valid_clusters p : valid p -> (0 < n_clusters p)%nat.
  Proof. intros [V1 [V2 _]]. pose proof (weights_nonempty _ V2). destruct (prob p); [contradiction|]. cbn in V1. lia. Qed.
  Lemma col_sum_posterior q p k : col_sum (e_step pdf q p) k = rsum (nr q) (fun i => posterior pdf q p i k).
  Proof. unfold col_sum. cbn [e_step nr]. apply rsum_ext. intros i _. apply e_step_eq. Qed.
  Lemma em_step q p : valid p ->
    (existsb (fun i => Reqb (col_sum (e_step pdf q p) i) 0) (seq 0 (nc (e_step pdf q p))) = true
       /\ exists k, (k < n_clusters p)%nat /\ forall i, (i < nr q)%nat -> posterior pdf q p i k = 0)
    \/ (existsb (fun i => Reqb (col_sum (e_step pdf q p) i) 0) (seq 0 (nc (e_step pdf q p))) = false
       /\ exists p', m_step eig cn q (e_step pdf q p) = Ok p' /\ valid p' /\ lsum (prob p') = 1 /\ Forall (covariance (n_dim p')) (covs p') /\ em_update pdf q p p').
  Proof.
    intros V. destruct (existsb _ _) eqn:E.
    - left. split; [reflexivity|]. apply existsb_exists in E. destruct E as [k [Hk E]]. apply in_seq in Hk. cbn [e_step nc] in Hk. exists k. split; [lia|].
      apply Reqb_true in E. rewrite col_sum_posterior in E. apply rsum_mem0; [intros; apply posterior_nonneg, V|exact E].
    - right. split; [reflexivity|]. destruct (m_step_ok q (e_step pdf q p)) as [p' [E' [V' [C' [S' [N1 [N2 Hp]]]]]]].
      + cbn. apply valid_clusters, V.
      + reflexivity.
      + intros i k. rewrite e_step_eq. apply posterior_nonneg, V.
      + intros k Hk Z. assert (existsb (fun i => Reqb (col_sum (e_step pdf q p) i) 0) (seq 0 (nc (e_step pdf q p))) = true); [|congruence].
        apply existsb_exists. exists k. split; [apply in_seq; lia|]. apply Reqb_true, Z.
      + exists p'. split; [exact E'|]. split; [exact V'|]. split; [exact S'|]. split; [exact C'|]. unfold em_update. cbn zeta.
        cbn [e_step nc] in N1, Hp. destruct V' as [V1 [_ [_ [_ [V5 _]]]]]. split; [exact N1|]. split; [exact N2|]. split; [congruence|]. split; [congruence|].
        intros k Hk. destruct (Hp k Hk) as [Pw [Ew [Em Es]]]. rewrite col_sum_posterior in *.
        assert (Ne : rsum (nr q) (fun i => posterior pdf q p i k) <> 0).
        { intros Z. assert (existsb (fun i => Reqb (col_sum (e_step pdf q p) i) 0) (seq 0 (nc (e_step pdf q p))) = true); [|congruence].
          apply existsb_exists. exists k. split; [apply in_seq; cbn; lia|]. apply Reqb_true. rewrite col_sum_posterior. exact Z. }
        split; [exact Ne|]. split; [rewrite Ew; f_equal; apply rsum_ext; intros; apply col_sum_posterior|]. split.
        * intros j _. rewrite Em. f_equal. apply rsum_ext. intros i _. rewrite e_step_eq. reflexivity.
        * intros a b _ _. rewrite Es. f_equal. apply rsum_ext. intros i _. rewrite e_step_eq. reflexivity.
  Qed.

  (** ** The loop *)
  Variables (ppf : mat R -> gmc -> result (mat R)) (gmm_ll gmcm_ll : mat R -> gmc -> R).
  Lemma from_end_last {A} (l : list A) x : from_end (l ++ [x]) 1 = Ok x.
  Proof. unfold from_end. rewrite rev_app_distr. reflexivity. Qed.
  Lemma from_end_two {A} (l : list A) x y : from_end (l ++ [x] ++ [y]) 2 = Ok x.
  Proof. unfold from_end. rewrite app_assoc, !rev_app_distr. reflexivity. Qed.
  Lemma has_converged_total c eps l : (2 <= length (l_gmm l))%nat -> length (l_gmcm l) = length (l_gmm l) -> exists b, has_converged c eps l = Ok b.
  Proof.
    intros H1 H2. unfold has_converged.
    assert (G : forall (v : list R) k, (1 <= k)%nat -> (k <= length v)%nat -> exists x, from_end v k = Ok x).
    { intros v k Hk Hl. unfold from_end. destruct (nth_error (rev v) (k - 1)) eqn:E; [eexists; reflexivity|]. apply nth_error_None in E. rewrite rev_length in E. lia. }
    destruct (G (if (c =? "gmcm")%string then l_gmcm l else l_gmm l) 1%nat) as [x Ex]; [lia|destruct (c =? "gmcm")%string; lia|]. rewrite Ex. cbn [bind].
    destruct (G (if (c =? "gmm")%string then l_gmm l else l_gmcm l) 2%nat) as [y Ey]; [lia|destruct (c =? "gmm")%string; lia|]. rewrite Ey. cbn [bind]. eexists. reflexivity.
  Qed.
  Definition good (u : mat R) (l : log_lik) : Prop := length (l_gmm l) = length (l_params l) /\ l_gmcm l = map (gmcm_ll u) (l_params l).
  Lemma good_set u l q p : good u l -> good u (log_set gmm_ll gmcm_ll l q u p).
  Proof. intros [G1 G2]. unfold good, log_set. cbn. rewrite G2, map_app, !app_length, G1. split; reflexivity. Qed.

  Lemma em_loop_ok c eps u fuel : forall p q l l', valid p -> ppf u p = Ok q -> good u l -> l_params l <> [] -> last (l_params l) p = p ->
    em_loop eig cn pdf ppf gmm_ll gmcm_ll fuel c eps u q p l = Ok l' ->
    exists ps, trajectory pdf ppf u p ps /\ (length ps <= fuel)%nat /\ good u l' /\ l_params l' = l_params l ++ ps
      /\ Forall (fun p' => valid p' /\ lsum (prob p') = 1 /\ Forall (covariance (n_dim p')) (covs p')) ps
      /\ (length ps = fuel \/ (ps <> [] /\ has_converged c eps l' = Ok true))
      /\ (c = "gmcm"%string -> forall i a b, (S i < length ps)%nat -> nth_error (p :: ps) i = Some a -> nth_error ps i = Some b -> eps <= Rabs (gmcm_ll u b - gmcm_ll u a)).
  Proof.
    induction fuel as [|fuel IH]; intros p q l l' V Eq G Ne La H.
    - injection H as <-. exists []. rewrite app_nil_r. cbn. split; [exact I|]. split; [lia|]. split; [exact G|]. split; [reflexivity|]. split; [constructor|]. split; [auto|]. intros; lia.
    - cbn [em_loop] in H. destruct (em_step q p V) as [[E _]|[E [p' [Em [V' [S' [C' U']]]]]]]; rewrite E in H; [discriminate|]. rewrite Em in H. cbn [bind] in H.
      destruct (ppf u p') as [q'|] eqn:Eq'; cbn [bind] in H; [|discriminate].
      set (l1 := log_set gmm_ll gmcm_ll l q u p') in *. assert (G1 : good u l1) by (apply good_set, G).
      assert (P1 : l_params l1 = l_params l ++ [p']) by reflexivity.
      assert (Len : (2 <= length (l_params l1))%nat) by (rewrite P1, app_length; destruct (l_params l); [contradiction|cbn; lia]).
      destruct (has_converged_total c eps l1) as [stop Es]; [destruct G1 as [G1 _]; lia|destruct G1 as [G1 G2]; rewrite G2, map_length; lia|].
      rewrite Es in H. cbn [bind] in H. destruct stop.
      + injection H as <-. exists [p']. split; [cbn; split; [exists q; auto|exact I]|]. split; [cbn; lia|]. split; [exact G1|]. split; [exact P1|]. split; [constructor; [auto|constructor]|].
        split; [right; split; [discriminate|exact Es]|]. intros _ i a b Hi. cbn in Hi. lia.
      + destruct (IH p' q' l1 l' V' Eq' G1) as [ps [T [Le [Gl [Pl [Vs [St Gc]]]]]]]; [rewrite P1; destruct (l_params l); discriminate|rewrite P1; apply last_last|exact H|].
        exists (p' :: ps). split; [cbn; split; [exists q; auto|exact T]|]. split; [cbn; lia|]. split; [exact Gl|]. split; [rewrite Pl, P1, <- app_assoc; reflexivity|]. split; [constructor; auto|].
        split; [destruct St as [St|[St1 St2]]; [left; cbn; lia|right; split; [discriminate|exact St2]]|].
        intros Ec i a b Hi Ha Hb. destruct i as [|i]; [|cbn [nth_error length] in *; apply (Gc Ec i a b); [lia|exact Ha|exact Hb]].
        cbn in Ha, Hb. injection Ha as <-. injection Hb as <-. clear IH Gc. subst c. unfold has_converged in Es. cbn [String.eqb Ascii.eqb Bool.eqb] in Es.
        destruct G1 as [_ G1]. rewrite G1, P1, map_app in Es. cbn [map] in Es. rewrite from_end_last in Es. cbn [bind] in Es.
        destruct (exists_last Ne) as [l0 [x Ex]]. rewrite Ex in La, Es. rewrite last_last in La. subst x. rewrite map_app, <- app_assoc in Es. cbn [map] in Es.
        rewrite from_end_two in Es. cbn [bind] in Es. injection Es as Es. apply Rltb_false in Es. exact Es.
  Qed.
  Lemma em_loop_err c eps u fuel : forall p q l e, valid p -> good u l -> l_params l <> [] ->
    em_loop eig cn pdf ppf gmm_ll gmcm_ll fuel c eps u q p l = Err e -> e = FitException \/ exists p', valid p' /\ ppf u p' = Err e.
  Proof.
    induction fuel as [|fuel IH]; intros p q l e V G Ne H; [discriminate|].
    cbn [em_loop] in H. destruct (em_step q p V) as [[E _]|[E [p' [Em [V' [S' [C' U']]]]]]]; rewrite E in H; [injection H as <-; auto|]. rewrite Em in H. cbn [bind] in H.
    destruct (ppf u p') as [q'|] eqn:Eq'; cbn [bind] in H; [|injection H as <-; right; exists p'; auto].
    set (l1 := log_set gmm_ll gmcm_ll l q u p') in *. assert (G1 : good u l1) by (apply good_set, G).
    assert (P1 : l_params l1 = l_params l ++ [p']) by reflexivity.
    assert (Len : (2 <= length (l_params l1))%nat) by (rewrite P1, app_length; destruct (l_params l); [contradiction|cbn; lia]).
    destruct (has_converged_total c eps l1) as [stop Es]; [destruct G1 as [G1 _]; lia|destruct G1 as [G1 G2]; rewrite G2, map_length; lia|].
    rewrite Es in H. cbn [bind] in H. destruct stop; [discriminate|]. apply (IH p' q' l1 e V' G1); [rewrite P1; destruct (l_params l); discriminate|exact H].
  Qed.

  (** ** argmax *)
  Lemma argmax_from_spec l : forall best at_ k (pre : list R), length pre = k -> (at_ < k)%nat -> nth at_ pre 0 = best ->
    (forall x, In x pre -> x <= best) -> (forall i, (i < at_)%nat -> nth i pre 0 < best) ->
    let a := argmax_from best at_ k l in let v := pre ++ l in
    (a < length v)%nat /\ (forall x, In x v -> x <= nth a v 0) /\ (forall i, (i < a)%nat -> nth i v 0 < nth a v 0).
  Proof.
    induction l as [|x l IH]; intros best at_ k pre Hk Ha Hn Hm Hf; cbn [argmax_from].
    - cbn zeta. rewrite app_nil_r, Hn. split; [lia|]. split; [exact Hm|exact Hf].
    - cbn zeta. replace (pre ++ x :: l) with ((pre ++ [x]) ++ l) by (rewrite <- app_assoc; reflexivity).
      assert (Hlen : length (pre ++ [x]) = S k) by (rewrite app_length; cbn; lia).
      destruct (Rltb best x) eqn:E; [apply Rltb_true in E|apply Rltb_false in E].
      + apply (IH x k (S k) (pre ++ [x])); [exact Hlen|lia|rewrite app_nth2, Hk, Nat.sub_diag by lia; reflexivity| |].
        * intros y Hy. apply in_app_iff in Hy. destruct Hy as [Hy|[<-|[]]]; [specialize (Hm y Hy); lra|lra].
        * intros i Hi. rewrite app_nth1 by lia. assert (nth i pre 0 <= best) by (apply Hm, nth_In; lia). lra.
      + apply (IH best at_ (S k) (pre ++ [x])); [exact Hlen|lia|rewrite app_nth1 by lia; exact Hn| |].
        * intros y Hy. apply in_app_iff in Hy. destruct Hy as [Hy|[<-|[]]]; [apply Hm, Hy|exact E].
        * intros i Hi. rewrite app_nth1 by lia. apply Hf, Hi.
  Qed.
  Lemma argmax_spec l : l <> [] -> (argmax l < length l)%nat /\ (forall x, In x l -> x <= nth (argmax l) l 0) /\ (forall i, (i < argmax l)%nat -> nth i l 0 < nth (argmax l) l 0).
  Proof.
    destruct l as [|x l]; [contradiction|]. intros _. apply (argmax_from_spec l x 0%nat 1%nat [x]); [reflexivity|lia|reflexivity| |intros; lia].
    intros y [<-|[]]. lra.
  Qed.
End Em.
