(** C106, C107: the shape of samples and the seed of the generator, for every copula class. *)
From Verif Require Import Base RSumLib Ext M_Linalg M_Archimedean M_Special M_Stats M_Stable M_Sampling M_GumbelSampling M_StudentSampling M_Gmc M_Sample S_Sample.
From Coq Require Import Psatz.
Local Close Scope Z_scope. Open Scope R_scope.

Lemma mapM_all {A B} (f : A -> result B) l r : mapM f l = Ok r -> Forall2 (fun a b => f a = Ok b) l r.
Proof.
  revert r. induction l as [|a l IH]; intros r H; cbn [mapM] in H; [injection H as <-; constructor|]. destruct (f a) as [b|e] eqn:E; [|discriminate]. cbn [bind] in H.
  destruct (mapM f l) as [q|e]; [|discriminate]. cbn [bind rmap] in H. injection H as <-. constructor; [exact E|apply IH; reflexivity].
Qed.
Lemma mapM_len {A B} (f : A -> result B) l r : mapM f l = Ok r -> length r = length l.
Proof. intros H. symmetry. apply mapM_all in H. induction H; cbn; congruence. Qed.
Lemma mapM_table {A} (f : A -> result (list ext)) l r d : mapM f l = Ok r -> (forall a b, In a l -> f a = Ok b -> length b = d) -> table (length l) d r.
Proof.
  intros H D. split; [apply (mapM_len f), H|]. apply mapM_all in H. induction H as [|a b l r Hab H IH]; constructor.
  - apply (D a b); [left; reflexivity|exact Hab].
  - apply IH. intros a' b' Hi. apply D. right. exact Hi.
Qed.
Lemma into_rows_shape d n l : length l = (n * d)%nat -> length (into_rows d n l) = n /\ Forall (fun r => length r = d) (into_rows d n l).
Proof.
  revert l. induction n as [|n IH]; intros l H; cbn [into_rows]; [split; [reflexivity|constructor]|]. destruct (IH (skipn d l)) as [A B]; [rewrite skipn_length; lia|].
  split; [cbn; congruence|]. constructor; [|exact B]. rewrite firstn_length. lia.
Qed.
Lemma fin_table n d u : length u = n -> Forall (fun r => length r = d) u -> table n d (fin_rows u).
Proof. intros L F. split; [unfold fin_rows; rewrite map_length; exact L|]. unfold fin_rows. rewrite Forall_map. eapply Forall_impl; [|exact F]. intros r H. cbv beta. rewrite map_length. exact H. Qed.
Lemma log_series_length fuel alpha u1 u2 fr : random_log_series fuel alpha u1 u2 = Some fr -> (Rltb alpha (-3) = false -> length u2 = length u1) -> length fr = length u1.
Proof.
  unfold random_log_series. intros H L. destruct (Rltb alpha (-3)).
  - assert (K : forall f a x p u r, log_series_loop f a x p u = Some r -> length r = length u).
    { induction f as [|f IH]; intros a x p u r E; cbn [log_series_loop] in E; [discriminate|]. destruct (existsb _ _); [|injection E as <-; reflexivity]. apply IH in E. rewrite E, map_length. reflexivity. }
    destruct (log_series_loop _ _ _ _ _) as [r|] eqn:E; [|discriminate]. cbn [option_map] in H. injection H as <-. rewrite map_length. apply (K _ _ _ _ _ _ E).
  - injection H as <-. rewrite map_length, combine_length, L by reflexivity. apply Nat.min_id.
Qed.
Lemma combine_in {A B} (u : list A) (v : list B) p : In p (combine u v) -> In (fst p) u.
Proof. destruct p as [a b]. intros H. apply in_combine_l in H. exact H. Qed.

Section Sample.
  Context {St : Type} (g : generator St).
  Variables (norm_cdf : R -> R) (t_cdf : R -> R -> R) (argmax : R -> R -> R) (fuel : nat).
  Hypothesis W : well_shaped g.
  Notation draw := (draw_rows g norm_cdf t_cdf argmax fuel).
  Notation random := (random g norm_cdf t_cdf argmax fuel).
  Notation marginal := (marginal_sample g norm_cdf t_cdf argmax fuel).

  Lemma uniform_shape n d seed s : length (fst (random_uniform g n d seed s)) = n /\ Forall (fun r => length r = d) (fst (random_uniform g n d seed s)).
  Proof.
    unfold random_uniform. destruct W as [U _]. specialize (U (n * d)%nat (seeded g seed s)). destruct (g_uniform g (n * d) (seeded g seed s)) as [l s']. cbn [fst] in *.
    apply into_rows_shape, U.
  Qed.
  Lemma clayton_shape d th n seed s rows : fst (clayton_rows g d th n seed s) = Ok rows -> table n d rows.
  Proof.
    unfold clayton_rows. destruct (uniform_shape n d seed s) as [L F]. destruct (random_uniform g n d seed s) as [u s1]. cbn [fst] in L, F. destruct (small th).
    { cbn [fst]. intros E. injection E as <-. apply fin_table; assumption. }
    destruct (Nat.eqb_spec d 2) as [->|Hd].
    { cbn [fst]. intros E. rewrite <- L. apply (mapM_table _ _ _ _ E). intros a b _ H. destruct (clayton_random2 _ _ _) as [p|e]; [|discriminate]. cbn in H. injection H as <-. reflexivity. }
    destruct (Rltb th 0); [discriminate|]. destruct W as (_ & G & _). specialize (G (1 / th) n s1). destruct (g_gamma g (1 / th) n s1) as [v s2]. cbn [fst] in *. intros E.
    replace n with (length (combine u v)) by (rewrite combine_length, L, G; apply Nat.min_id). apply (mapM_table _ _ _ _ E). intros a b Ha H. rewrite Forall_forall in F. rewrite <- (F (fst a)) by (apply (combine_in u v), Ha).
    unfold clayton_random_row in H. destruct (Rltb _ _); [injection H as <-; apply map_length|]. apply (mapM_len _ _ _ H).
  Qed.
  Lemma frank_shape d th n seed s rows : fst (frank_rows g fuel d th n seed s) = Some (Ok rows) -> table n d rows.
  Proof.
    unfold frank_rows. destruct (uniform_shape n d seed s) as [L F]. destruct (random_uniform g n d seed s) as [u s1]. cbn [fst] in L, F. destruct (small th).
    { cbn [fst]. intros E. injection E as <-. apply fin_table; assumption. }
    destruct (Nat.eqb_spec d 2) as [->|Hd].
    { cbn [fst]. intros E. injection E as <-. split; [rewrite map_length; exact L|]. rewrite Forall_map, Forall_forall. reflexivity. }
    destruct (Reqb _ 0).
    { cbn [fst]. intros E. injection E as <-. split; [apply repeat_length|]. apply Forall_forall. intros r H. apply repeat_spec in H. subst r. apply repeat_length. }
    assert (K : forall fr, fst (frank_frailty g fuel th n s1) = Some fr -> length fr = n).
    { intros fr. unfold frank_frailty. destruct W as [U _]. pose proof (U n s1) as U1. destruct (g_uniform g n s1) as [u1 s2]. cbn [fst] in U1. destruct (Rltb (- th) (-3)) eqn:E.
      - cbn [fst]. intros H. rewrite (log_series_length _ _ _ _ _ H); [exact U1|]. congruence.
      - pose proof (U n s2) as U2. destruct (g_uniform g n s2) as [u2 s3]. cbn [fst] in *. intros H. rewrite (log_series_length _ _ _ _ _ H); [exact U1|congruence]. }
    destruct (frank_frailty g fuel th n s1) as [[fr|] s2]; [|discriminate]. cbn [fst option_map] in *. specialize (K fr eq_refl). intros E. injection E as E.
    replace n with (length (combine u fr)) by (rewrite combine_length, L, K; apply Nat.min_id). apply (mapM_table _ _ _ _ E). intros a b Ha H. rewrite Forall_forall in F. rewrite <- (F (fst a)) by (apply (combine_in u fr), Ha).
    unfold frank_row in H. destruct (snd a); try (apply (mapM_len _ _ _ H)). injection H as <-. apply map_length.
  Qed.
  Lemma gumbel_shape d th n seed s rows : fst (gumbel_rows g argmax d th n seed s) = Ok rows -> table n d rows.
  Proof.
    unfold gumbel_rows. destruct (uniform_shape n d seed s) as [L F]. destruct (random_uniform g n d seed s) as [u s1]. cbn [fst] in L, F. destruct (Rltb _ _).
    { destruct (uniform_shape n d seed s1) as [L' F']. destruct (random_uniform g n d seed s1) as [u' s2]. cbn [fst] in *. intros E. injection E as <-. apply fin_table; assumption. }
    destruct (Rleb _ _). { cbn [fst]. intros E. injection E as <-. apply fin_table; assumption. }
    destruct W as (U & _ & X & _). specialize (U n s1). destruct (g_uniform g n s1) as [a s2]. specialize (X n s2). destruct (g_exp g n s2) as [w s3]. cbn [fst] in *. intros E.
    replace n with (length (combine u (combine a w))) by (rewrite !combine_length, L, U, X, !Nat.min_id; reflexivity). apply (mapM_table _ _ _ _ E). intros p b Ha H. rewrite Forall_forall in F. rewrite <- (F (fst p)) by (apply (combine_in u (combine a w)), Ha).
    unfold gumbel_random_row in H. destruct (gumbel_frailty _ _ _ _ _) as [fr|e]; [|discriminate]. cbn [bind] in H. destruct fr; try (injection H as <-; apply map_length). apply (mapM_len _ _ _ H).
  Qed.
  Lemma mvn_shape mean cov n seed s : length (fst (mvn_rvs St (g_seed g) (g_mvn g) mean cov n seed s)) = n /\
    Forall (fun r => length r = length mean) (fst (mvn_rvs St (g_seed g) (g_mvn g) mean cov n seed s)).
  Proof. destruct W as (_ & _ & _ & _ & _ & M). unfold mvn_rvs. destruct seed; cbn [fst]; apply M. Qed.
  Lemma gauss_shape sigma n seed s rows : fst (gauss_rows g norm_cdf sigma n seed s) = Ok rows -> table n (nr sigma) rows.
  Proof.
    unfold gauss_rows. destruct (mvn_shape (repeat 0 (nr sigma)) sigma n seed s) as [L F]. destruct (mvn_rvs _ _ _ _ _ _ _ _) as [r s']. cbn [fst] in *. intros E. injection E as <-.
    rewrite repeat_length in F. split; [rewrite map_length; exact L|]. rewrite Forall_map. eapply Forall_impl; [|exact F]. intros x H. cbv beta. rewrite map_length. exact H.
  Qed.
  Lemma student_shape sigma df n seed s rows : fst (student_rows g t_cdf sigma df n seed s) = Ok rows -> table n (nr sigma) rows.
  Proof.
    unfold student_rows, student_random, mvt_rvs. destruct (Rleb df 0); [discriminate|]. cbn [mean_or_zero shift_rows]. destruct (Rltb t_limit df).
    - destruct (mvn_shape (repeat 0 (nr sigma)) sigma n seed s) as [L F]. destruct (mvn_rvs _ _ _ _ _ _ _ _) as [r s']. cbn [fst rmap bind] in *. intros E. injection E as <-. rewrite repeat_length in F.
      apply fin_table; [rewrite map_length; exact L|]. rewrite Forall_map. eapply Forall_impl; [|exact F]. intros x H. cbv beta. rewrite map_length. exact H.
    - set (s0 := match seed with Some k => g_seed g k | None => s end). destruct W as (_ & _ & _ & C & _). specialize (C df n s0). destruct (g_chisq g df n s0) as [w s1]. cbn [fst] in C.
      destruct (mvn_shape (repeat 0 (nr sigma)) sigma n seed s1) as [L F]. destruct (mvn_rvs _ _ _ _ _ _ _ _) as [r s']. cbn [fst rmap bind] in *. intros E. injection E as <-. rewrite repeat_length in F.
      apply fin_table; [unfold divide_rows; rewrite !map_length, combine_length, map_length, L, C; apply Nat.min_id|]. unfold divide_rows. rewrite !Forall_map. apply Forall_forall. intros p Hp. cbv beta. rewrite !map_length.
      rewrite Forall_forall in F. apply F. exact (combine_in r _ _ Hp).
  Qed.
  Lemma empirical_shape data n seed s rows : fst (empirical_rows g data n seed s) = Ok rows -> table n (nc data) rows.
  Proof.
    unfold empirical_rows. destruct (Nat.eqb (nr data) 0); [discriminate|]. destruct W as (_ & _ & _ & _ & I & _). specialize (I (nr data) n (seeded g seed s)). destruct (g_randint _ _ _ _) as [idx s']. cbn [fst] in *. intros E. injection E as <-.
    split; [rewrite map_length; exact I|]. rewrite Forall_map. apply Forall_forall. intros i _. rewrite map_length, seq_length. reflexivity.
  Qed.
  Lemma mixture_shape p n seed s rows : fst (mixture_rows g p n seed s) = Ok rows -> table n (n_dim p) rows.
  Proof.
    unfold mixture_rows. destruct (_ || _) eqn:B; [discriminate|]. destruct (g_choice _ _ _ _) as [order s1]. destruct (mixture_draws _ _ _ _ _) as [rs s2]. cbn [fst]. unfold random_gmcm. rewrite B. destruct (_ && _); [discriminate|].
    cbn [rmap bind nr nc]. intros E. injection E as <-. split; [rewrite map_length, seq_length; reflexivity|]. rewrite Forall_map. apply Forall_forall. intros i _. rewrite map_length, seq_length. reflexivity.
  Qed.

  (** The rows drawn are n observations of the copula's dimension, for every class. *)
  Theorem C106_rows : forall c n seed s rows, fst (draw c n seed s) = Some (Ok rows) -> table n (cop_dim c) rows.
  Proof.
    intros c n seed s rows. unfold draw_rows. destruct c as [d|d th|d th|d th|sigma|sigma df|data|p]; cbn [fst cop_dim].
    - destruct (uniform_shape n d seed s) as [L F]. destruct (random_uniform g n d seed s) as [u s']. cbn [fst] in *. intros E. injection E as <-. apply fin_table; assumption.
    - intros E. injection E as E. apply (clayton_shape _ _ _ _ _ _ E).
    - apply frank_shape.
    - intros E. injection E as E. apply (gumbel_shape _ _ _ _ _ _ E).
    - intros E. injection E as E. apply (gauss_shape _ _ _ _ _ E).
    - intros E. injection E as E. apply (student_shape _ _ _ _ _ _ E).
    - intros E. injection E as E. apply (empirical_shape _ _ _ _ _ E).
    - intros E. injection E as E. apply (mixture_shape _ _ _ _ _ E).
  Qed.
  (** random returns them as a matrix, or under the column names of the data the copula was fitted to, for two or more observations and
      for a single one of a class that is not elliptical. *)
  Theorem C106_sample : forall columns c n seed s rows, (n <> 1%nat \/ ~ elliptical c) -> (forall cols, columns = Some cols -> length cols = cop_dim c) ->
    fst (draw c n seed s) = Some (Ok rows) ->
    fst (random columns c n seed s) = Some (Ok (matrix_sample columns rows)).
  Proof.
    intros columns c n seed s rows Hn Hc E. pose proof (C106_rows c n seed s rows E) as [L _]. unfold M_Sample.random. destruct (draw c n seed s) as [r s']. cbn [fst] in *. subst r. cbn [option_map bind].
    assert (R : raw_sample c rows = STable rows). { unfold raw_sample. destruct c; try reflexivity; destruct rows as [|a [|b l]]; try reflexivity; destruct Hn as [Hn|Hn]; try (cbn in L; lia); exfalso; apply Hn; exact Logic.I. }
    rewrite R. unfold cast_sample, matrix_sample. destruct columns as [cols|]; [rewrite (Hc cols eq_refl), Nat.eqb_refl|]; reflexivity.
  Qed.
  (** A single observation of an elliptical copula comes as a vector; if the copula was fitted to a DataFrame, and below margins of any
      kind, asking for a single observation fails. *)
  Theorem C106_single_refuted : forall c seed s rows, elliptical c -> (2 <= cop_dim c)%nat -> fst (draw c 1 seed s) = Some (Ok rows) ->
    exists row, length row = cop_dim c /\ rows = [row] /\ fst (random None c 1 seed s) = Some (Ok (SVector row)) /\
      (forall cols, length cols = cop_dim c -> fst (random (Some cols) c 1 seed s) = Some (Err ValueError)) /\
      (forall columns ppfs, length ppfs = cop_dim c -> fst (marginal columns ppfs None c 1 seed s) = Some (Err IndexError)).
  Proof.
    intros c seed s rows He Hd E. pose proof (C106_rows c 1 seed s rows E) as [L F]. destruct rows as [|row [|? ?]]; try discriminate L. inversion F; subst. exists row.
    assert (R : raw_sample c [row] = SVector row) by (destruct c; try contradiction He; reflexivity).
    split; [assumption|]. split; [reflexivity|]. unfold marginal_sample, M_Sample.random. destruct (draw c 1 seed s) as [r s']. cbn [fst] in *. subst r. cbn [option_map bind]. rewrite R. split; [reflexivity|]. split.
    - intros cols Hc. cbn [cast_sample]. destruct (Nat.eqb_spec (length cols) 1); [lia|reflexivity].
    - intros columns ppfs Hp. cbn [cast_sample option_map bind]. destruct ppfs; [cbn in Hp; lia|reflexivity].
  Qed.
  (** A sample of a copula with margins: every entry is the quantile, under its margin, of the entry of the joint sample. *)
  Theorem C106_marginal : forall columns ppfs c n seed s rows, (n <> 1%nat \/ ~ elliptical c) -> length ppfs = cop_dim c -> (1 <= cop_dim c)%nat ->
    (forall cols, columns = Some cols -> length cols = cop_dim c) -> fst (draw c n seed s) = Some (Ok rows) ->
    exists xs, fst (marginal columns ppfs None c n seed s) = Some (Ok (matrix_sample columns xs)) /\ table n (cop_dim c) xs /\
      forall i j, (i < n)%nat -> (j < cop_dim c)%nat -> nth j (nth i xs []) Nan = nth j ppfs (fun x => x) (nth j (nth i rows []) Nan).
  Proof.
    intros columns ppfs c n seed s rows Hn Hp Hd Hc E. pose proof (C106_rows c n seed s rows E) as [L F]. pose proof (C106_sample None c n seed s rows Hn ltac:(discriminate) E) as S. unfold marginal_sample.
    destruct (random None c n seed s) as [r s']. cbn [fst] in S. subst r. cbn [option_map bind matrix_sample fst].
    exists (map (fun row => map (fun p => fst p (snd p)) (combine ppfs row)) rows). split; [|split; [split|]].
    - destruct ppfs as [|p0 ps]; [cbn in Hp; lia|]. unfold cast_sample, matrix_sample. destruct columns as [cols|]; [rewrite (Hc cols eq_refl), Nat.eqb_refl|]; reflexivity.
    - rewrite map_length. exact L.
    - rewrite Forall_map. eapply Forall_impl; [|exact F]. intros row H. cbv beta. rewrite map_length, combine_length, Hp, H. apply Nat.min_id.
    - intros i j Hi Hj. rewrite (nth_indep _ [] ((fun row => map (fun p => fst p (snd p)) (combine ppfs row)) [])) by (rewrite map_length; lia). rewrite (map_nth (fun row => map (fun p => fst p (snd p)) (combine ppfs row))).
      assert (LR : length (nth i rows []) = cop_dim c) by (rewrite Forall_forall in F; apply F, nth_In; lia).
      rewrite (nth_indep _ Nan ((fun p : (ext -> ext) * ext => fst p (snd p)) (fun x => x, Nan))) by (rewrite map_length, combine_length; lia).
      rewrite (map_nth (fun p : (ext -> ext) * ext => fst p (snd p))), combine_nth by congruence. reflexivity.
  Qed.
End Sample.

Section Seed.
  Context {St : Type} (g : generator St).
  Variables (norm_cdf : R -> R) (t_cdf : R -> R -> R) (argmax : R -> R -> R) (fuel : nat).
  Notation random := (random g norm_cdf t_cdf argmax fuel).
  Notation marginal := (marginal_sample g norm_cdf t_cdf argmax fuel).

  Lemma draw_seeded c n k s s' : fst (draw_rows g norm_cdf t_cdf argmax fuel c n (Some k) s) = fst (draw_rows g norm_cdf t_cdf argmax fuel c n (Some k) s') /\
    (~ elliptical c -> snd (draw_rows g norm_cdf t_cdf argmax fuel c n (Some k) s) = snd (draw_rows g norm_cdf t_cdf argmax fuel c n (Some k) s')).
  Proof.
    destruct c as [d|d th|d th|d th|sigma|sigma df|data|p]; cbn [draw_rows elliptical]; try (split; [reflexivity|intros _; reflexivity]).
    - split; [|intros H; exfalso; apply H; exact Logic.I]. reflexivity.
    - split; [|intros H; exfalso; apply H; exact Logic.I]. unfold student_rows, student_random, mvt_rvs. cbn [fst]. destruct (Rleb df 0); [reflexivity|]. destruct (Rltb t_limit df); [reflexivity|].
      destruct (g_chisq g df n (g_seed g k)) as [w s1]. reflexivity.
  Qed.
  (** With a seed a sample does not depend on what was drawn before, for every class, with and without margins. *)
  Theorem C107_reproducible : forall columns c n k s s', fst (random columns c n (Some k) s) = fst (random columns c n (Some k) s') /\
    forall ppfs inner, fst (marginal columns ppfs inner c n (Some k) s) = fst (marginal columns ppfs inner c n (Some k) s').
  Proof.
    intros columns c n k s s'. assert (A : forall cs, fst (random cs c n (Some k) s) = fst (random cs c n (Some k) s')).
    { intros cs. unfold M_Sample.random. destruct (draw_seeded c n k s s') as [E _]. destruct (draw_rows _ _ _ _ _ c n (Some k) s), (draw_rows _ _ _ _ _ c n (Some k) s'). cbn [fst] in *. subst. reflexivity. }
    split; [apply A|]. intros ppfs inner. unfold marginal_sample. specialize (A inner). destruct (random inner c n (Some k) s), (random inner c n (Some k) s'). cbn [fst] in *. subst. reflexivity.
  Qed.
  (** A Gaussian copula leaves the global generator as it was. *)
  Theorem C107_gaussian_state : forall columns sigma n k s, snd (random columns (KGauss sigma) n (Some k) s) = s.
  Proof. reflexivity. Qed.
  (** Every class that is not elliptical, and Student's copula up to 10000 degrees of freedom, sets the global generator: after a sample
      with a seed, all that is drawn later without a seed, by any copula, is the same whatever the state was before. *)
  Theorem C107_global_state_refuted : forall columns c n k s s', (~ elliptical c \/ exists sigma df, c = KStudent sigma df /\ 0 < df <= 10000) ->
    snd (random columns c n (Some k) s) = snd (random columns c n (Some k) s') /\
    forall columns' c' n', fst (random columns' c' n' None (snd (random columns c n (Some k) s))) = fst (random columns' c' n' None (snd (random columns c n (Some k) s'))).
  Proof.
    intros columns c n k s s' H. assert (A : snd (random columns c n (Some k) s) = snd (random columns c n (Some k) s')).
    { assert (B : snd (draw_rows g norm_cdf t_cdf argmax fuel c n (Some k) s) = snd (draw_rows g norm_cdf t_cdf argmax fuel c n (Some k) s')).
      { destruct H as [H|(sigma & df & -> & Hdf)]; [apply (draw_seeded c n k s s'), H|]. cbn [draw_rows snd]. unfold student_rows, student_random, mvt_rvs. rewrite (proj2 (Rleb_false df 0)) by lra. unfold t_limit. rewrite (proj2 (Rltb_false 10000 df)) by lra.
        destruct (g_chisq g df n (g_seed g k)) as [w s1]. reflexivity. }
      unfold M_Sample.random. destruct (draw_rows _ _ _ _ _ c n (Some k) s), (draw_rows _ _ _ _ _ c n (Some k) s'). cbn [snd] in *. exact B. }
    split; [exact A|]. intros. rewrite A. reflexivity.
  Qed.
  (** Without a seed samples of the Archimedean and independence copulas start where the generator stands: the first numbers drawn are its
      next uniforms. *)
  Theorem C107_unseeded : forall d n s, random None (KIndep d) n None s =
    (Some (Ok (STable (map (map Fin) (into_rows d n (fst (g_uniform g (n * d) s)))))), snd (g_uniform g (n * d) s)).
  Proof. intros. unfold M_Sample.random, draw_rows, random_uniform, seeded, fin_rows. destruct (g_uniform g (n * d) s). reflexivity. Qed.
  (** Near 1 the Gumbel copula without a seed throws away one matrix of uniforms and returns the next. *)
  Theorem C107_gumbel_twice : forall d th n s, th < 1 + / 10000000 -> random None (KGumbel d th) n None s =
    (let s1 := snd (g_uniform g (n * d) s) in
     (Some (Ok (STable (map (map Fin) (into_rows d n (fst (g_uniform g (n * d) s1)))))), snd (g_uniform g (n * d) s1))).
  Proof.
    intros d th n s H. unfold M_Sample.random, draw_rows, gumbel_rows, random_uniform, seeded, fin_rows. destruct (g_uniform g (n * d) s) as [l s1]. rewrite (proj2 (Rltb_true _ _)) by lra. cbn [snd].
    destruct (g_uniform g (n * d) s1) as [l' s2]. reflexivity.
  Qed.
End Seed.

(** Cases *)
Definition counter : generator nat := mkGen nat (fun k => Z.to_nat k) (fun k s => (repeat (/ 2) k, (s + k)%nat)) (fun _ k s => (repeat 1 k, (s + k)%nat)) (fun k s => (repeat 1 k, (s + k)%nat))
  (fun _ k s => (repeat 1 k, (s + k)%nat)) (fun _ k s => (repeat 0%nat k, (s + k)%nat)) (fun _ k s => (repeat 0%nat k, (s + k)%nat)) (fun mean _ n s => (repeat (repeat (INR s) (length mean)) n, (s + n)%nat)).
Example C106_case : well_shaped counter.
Proof.
  repeat split; cbn; intros; try apply repeat_length. apply Forall_forall. intros r H. apply repeat_spec in H. subst. apply repeat_length.
Qed.
Definition case_sigma : mat R := mkMat 2 2 (fun i j => if Nat.eqb i j then 1 else / 2).
Example C106_single_case : exists row, fst (draw_rows counter (fun x => x) (fun x _ => x) (fun _ _ => 0) 0 (KStudent case_sigma 4) 1 (Some 7%Z) 0%nat) = Some (Ok [row]) /\ length row = 2%nat.
Proof.
  cbn [draw_rows fst]. unfold student_rows, student_random, mvt_rvs. rewrite (proj2 (Rleb_false 4 0)) by lra. unfold t_limit. rewrite (proj2 (Rltb_false 10000 4)) by lra. eexists. split; reflexivity.
Qed.
Example C106_many_case : exists rows, fst (draw_rows counter (fun x => x) (fun x _ => x) (fun _ _ => 0) 0 (KFrank 2 5) 3 None 0%nat) = Some (Ok rows).
Proof. cbn [draw_rows]. unfold frank_rows, small. rewrite (proj2 (Rltb_false _ _)) by (rewrite Rabs_pos_eq; lra). cbn. eexists. reflexivity. Qed.
Example C107_case : snd (random counter (fun x => x) (fun x _ => x) (fun _ _ => 0) 0 None (KIndep 2) 3 (Some 7%Z) 100%nat) = 13%nat.
Proof. reflexivity. Qed.
Print Assumptions C106_rows.
Print Assumptions C106_sample.
Print Assumptions C106_single_refuted.
Print Assumptions C106_marginal.
Print Assumptions C107_reproducible.
Print Assumptions C107_gaussian_state.
Print Assumptions C107_global_state_refuted.
Print Assumptions C107_unseeded.
Print Assumptions C107_gumbel_twice.
