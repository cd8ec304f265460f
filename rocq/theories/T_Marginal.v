(** C55 to C57 and C74: the independence copula and copulas with margins. *)
From Coquelicot Require Import Coquelicot.
From Verif Require Import Base RSumLib Ext S_Archimedean M_Annot M_Special M_Marginal M_Empirical S_Empirical P_Empirical S_Marginal P_Marginal.
Local Close Scope Q_scope. Local Close Scope Z_scope. Open Scope R_scope.

(** * C55: the independence copula *)
Section Independence.
  Definition product_cdf (l : list R) : ext := at_point (fun x => Ok (indep_cdf x false)) l.
  Definition product_pdf (l : list R) : ext := at_point (fun x => Ok (indep_pdf x false)) l.

  Theorem C55_product : forall x, indep_cdf x false = map (fun l => Fin (lprod l)) (points x).
  Proof.
    intros x. unfold indep_cdf, points. rewrite map_map. apply map_ext. intros i. f_equal. rewrite (fold_prod (fun j => get x i j)), Rmult_1_l. reflexivity.
  Qed.
  (** with log=True the sum of the logarithms is the logarithm of the product, also on the lower faces *)
  Theorem C55_log : forall x, Forall (Forall (fun v => 0 <= v)) (points x) -> indep_cdf x true = map elog (indep_cdf x false).
  Proof.
    intros x H. rewrite C55_product, map_map. unfold indep_cdf, points. rewrite map_map. apply map_ext_in. intros i Hi.
    rewrite <- esum_elog; [unfold row; rewrite map_map; reflexivity|]. rewrite Forall_forall in H. apply H. unfold points. apply in_map. exact Hi.
  Qed.
  Theorem C55_pdf : forall x, indep_pdf x false = map (fun _ => Fin 1) (points x) /\ indep_pdf x true = map elog (indep_pdf x false).
  Proof.
    intros x. unfold indep_pdf, points. rewrite map_map. split.
    - rewrite <- (seq_length (nr x) 0) at 1. generalize (seq 0 (nr x)). induction l; cbn; [reflexivity|]. f_equal. assumption.
    - induction (nr x) as [|n IH]; cbn [repeat map]; [reflexivity|]. rewrite IH, elog_pos, ln_1 by lra. reflexivity.
  Qed.
  Lemma product_at l : product_cdf l = Fin (lprod l).
  Proof. unfold product_cdf, at_point. rewrite C55_product, one_row_points. reflexivity. Qed.
  Lemma one_at l : product_pdf l = Fin 1.
  Proof. unfold product_pdf, at_point. rewrite (proj1 (C55_pdf _)), one_row_points. reflexivity. Qed.
  (** it is a copula: zero on the lower faces, uniform margins, every box has the product of its sides as mass *)
  Theorem C55_copula :
    (forall l, In 0 l -> product_cdf l = Fin 0) /\
    (forall a u b, Forall (fun x => x = 1) a -> Forall (fun x => x = 1) b -> product_cdf (a ++ u :: b) = Fin u) /\
    (forall sides, box_mass (fun l => number (product_cdf l)) sides [] = lprod (map (fun s => snd s - fst s) sides)) /\
    (forall sides, Forall (fun s => fst s <= snd s) sides -> 0 <= box_mass (fun l => number (product_cdf l)) sides []).
  Proof.
    assert (B : forall sides acc, box_mass (fun l => number (product_cdf l)) sides acc = box_mass lprod sides acc).
    { induction sides as [|[a b] r IH]; intros acc; cbn [box_mass]; [rewrite product_at; reflexivity|]. rewrite !IH. reflexivity. }
    assert (O : forall l, Forall (fun x => x = 1) l -> lprod l = 1). { induction 1 as [|x l -> _ IH]; cbn; [reflexivity|]. rewrite IH. ring. }
    split; [|split; [|split]].
    - intros l H. rewrite product_at. f_equal. induction l as [|x l IH]; [destruct H|]. destruct H as [->|H]; cbn; [ring|]. rewrite (IH H). ring.
    - intros a u b Ha Hb. rewrite product_at, lprod_app. cbn. rewrite (O a Ha), (O b Hb). f_equal. ring.
    - intros sides. rewrite B, box_lprod. cbn. ring.
    - intros sides H. rewrite B, box_lprod. cbn [lprod]. rewrite Rmult_1_l. induction H as [|s r Hs _ IH]; cbn; [lra|]. nra.
  Qed.
  (** the density it reports is the density of that distribution function *)
  Theorem C55_density : forall d, mixed_derivative_on (fun _ => True) d (fun l => number (product_cdf l)) (fun l => number (product_pdf l)).
  Proof.
    intros d. exists (fun k l => lprod (map (fun j => if (j <? k)%nat then 1 else nth j l 0) (seq 0 d))). split; [|split].
    - intros l L _. rewrite product_at. cbn [number]. f_equal. rewrite <- L. apply (nth_ext _ _ 0 0); [rewrite map_length, seq_length; reflexivity|].
      intros j Hj. rewrite map_length, seq_length in Hj. rewrite nth_map_seq by exact Hj. reflexivity.
    - intros l L _. rewrite one_at. cbn [number]. apply lprod_ones. intros j Hj. apply in_seq in Hj. rewrite (proj2 (Nat.ltb_lt j d)) by lia. reflexivity.
    - intros k l Hk L _.
      set (A := lprod (map (fun j => if (j <? k)%nat then 1 else nth j l 0) (seq 0 k))).
      set (B := lprod (map (fun j => if (j <? k)%nat then 1 else nth j l 0) (seq (Datatypes.S k) (d - Datatypes.S k)))).
      apply (is_derive_ext (fun t => scal (A * B) t)).
      { intros t. rewrite (lprod_split _ d k Hk). cbv beta. rewrite Nat.ltb_irrefl, set_nth_nth, Nat.eqb_refl by lia. unfold scal; cbn -[lprod seq Nat.sub Nat.ltb]. unfold mult; cbn -[lprod seq Nat.sub Nat.ltb].
        replace (map (fun j => if (j <? k)%nat then 1 else nth j (set_nth k t l) 0) (seq 0 k)) with (map (fun j => if (j <? k)%nat then 1 else nth j l 0) (seq 0 k)).
        2:{ apply map_ext_in. intros j Hj. apply in_seq in Hj. rewrite (proj2 (Nat.ltb_lt j k)) by lia. reflexivity. }
        replace (map (fun j => if (j <? k)%nat then 1 else nth j (set_nth k t l) 0) (seq (Datatypes.S k) (d - Datatypes.S k))) with (map (fun j => if (j <? k)%nat then 1 else nth j l 0) (seq (Datatypes.S k) (d - Datatypes.S k))).
        2:{ apply map_ext_in. intros j Hj. apply in_seq in Hj. rewrite set_nth_nth by lia. rewrite (proj2 (Nat.eqb_neq j k)) by lia. reflexivity. }
        unfold A, B. ring. }
      replace (lprod (map (fun j => if (j <? Datatypes.S k)%nat then 1 else nth j l 0) (seq 0 d))) with (scal (A * B) 1).
      + apply (is_derive_scal (fun t => t)). apply (@is_derive_id R_AbsRing).
      + unfold scal; cbn -[lprod seq Nat.sub Nat.ltb]. unfold mult; cbn -[lprod seq Nat.sub Nat.ltb]. rewrite (lprod_split _ d k Hk). cbv beta. rewrite (proj2 (Nat.ltb_lt k (Datatypes.S k))) by lia. unfold A, B.
        replace (map (fun j => if (j <? Datatypes.S k)%nat then 1 else nth j l 0) (seq 0 k)) with (map (fun j => if (j <? k)%nat then 1 else nth j l 0) (seq 0 k)).
        2:{ apply map_ext_in. intros j Hj. apply in_seq in Hj. rewrite (proj2 (Nat.ltb_lt j k)), (proj2 (Nat.ltb_lt j (Datatypes.S k))) by lia. reflexivity. }
        replace (map (fun j => if (j <? Datatypes.S k)%nat then 1 else nth j l 0) (seq (Datatypes.S k) (d - Datatypes.S k))) with (map (fun j => if (j <? k)%nat then 1 else nth j l 0) (seq (Datatypes.S k) (d - Datatypes.S k))).
        2:{ apply map_ext_in. intros j Hj. apply in_seq in Hj. rewrite (proj2 (Nat.ltb_ge j k)), (proj2 (Nat.ltb_ge j (Datatypes.S k))) by lia. reflexivity. }
        ring.
  Qed.
  (** fitting changes nothing; samples are n rows of [dim] uniform draws, each used once, with the names given to the constructor *)
  Theorem C55_fit_random : forall dim fields c, new_indep dim fields = Ok c -> forall (A : Type) (args : A) n draws,
    in_dim (indep_fit c args) = dim /\ in_columns (indep_fit c args) = fields /\
    exists t, indep_random (indep_fit c args) n draws = Ok (match fields with None => ITab t | Some names => IFrame names t end) /\
      t_width t = dim /\ length (t_rows t) = n /\
      forall i j, (i < n)%nat -> (j < dim)%nat -> nth j (nth i (t_rows t) []) None = Some (draws (i * dim + j)%nat).
  Proof.
    intros dim fields c H A args n draws. unfold indep_fit. assert (E : in_dim c = dim /\ in_columns c = fields /\ match fields with Some f => length f = dim | None => True end).
    { unfold new_indep in H. destruct fields as [f|]; [destruct (Nat.eqb_spec (length f) dim); [|discriminate]|]; injection H as <-; repeat split; assumption. }
    destruct E as [E1 [E2 E3]]. split; [exact E1|split; [exact E2|]].
    exists (mkTab dim (map (fun i => map (fun j => Some (draws (i * dim + j)%nat)) (seq 0 dim)) (seq 0 n))). split; [|split; [reflexivity|split]].
    - unfold indep_random. rewrite E1, E2. destruct fields as [f|]; cbn [cast_output t_width]; [rewrite E3, Nat.eqb_refl|]; reflexivity.
    - cbn. rewrite map_length, seq_length. reflexivity.
    - intros i j Hi Hj. cbn [t_rows]. rewrite nth_map_seq by exact Hi. rewrite nth_map_seq by exact Hj. reflexivity.
  Qed.
End Independence.
(** the point (1/2, 1/3, 0.6), and one on a lower face *)
Example C55_case : product_cdf [1/2; 1/3; 3/5] = Fin (1/10) /\ indep_cdf (one_row [1/2; 0]) true = [Ninf].
Proof.
  split; [rewrite product_at; f_equal; cbn; field|]. rewrite C55_log by (rewrite one_row_points; repeat constructor; lra).
  rewrite C55_product, one_row_points. cbn [map lprod]. rewrite Rmult_0_l, Rmult_0_r, elog_0. reflexivity.
Qed.

(** * C56: Sklar's theorem *)
Section Sklar.
  Variables (c : mcopula) (C D : bool -> list R -> ext).
  Hypothesis (Hn : length (mc_margins c) = j_dim (mc_joint c)).
  Hypothesis (HC : forall log, row_by_row (j_dim (mc_joint c)) (fun u => j_cdf (mc_joint c) u log) (C log)).
  Hypothesis (HD : forall log, row_by_row (j_dim (mc_joint c)) (fun u => j_pdf (mc_joint c) u log) (D log)).
  Let ms := mc_margins c.
  Let d := j_dim (mc_joint c).

  Lemma store_float l : map (store DFloat) l = l.
  Proof. apply map_id. Qed.
  Theorem C56_cdf : forall junk x log, nc x = d -> marg_cdf c DFloat junk x log = map (fun l => C log (probabilities ms l)) (points x).
  Proof.
    intros junk x log E. unfold marg_cdf. change (fold_left _ _ _) with (filled DFloat junk ms x). rewrite HC.
    - rewrite filled_points by (unfold ms; rewrite Hn, E; reflexivity). rewrite map_map. apply map_ext. intros l. rewrite store_float. reflexivity.
    - destruct (fill_shape DFloat (fun i m r => m_cdf m (get x r i)) (enumerate ms) (mkMat (nr x) (nc x) junk)) as [_ E2]. unfold filled. rewrite E2. exact E.
  Qed.
  Lemma pdf_rows t junk x log : nc x = d -> marg_pdf c t junk x log =
    map (fun l => if log then eadd (D log (map (store t) (probabilities ms l))) (esum (log_densities ms l))
                  else escal (lprod (densities ms l)) (D log (map (store t) (probabilities ms l)))) (points x).
  Proof.
    intros E. assert (L : length ms = nc x) by (unfold ms; rewrite Hn, E; reflexivity).
    unfold marg_pdf. change (enumerate (mc_margins c)) with (combine (seq 0 (length ms)) ms). rewrite pdf_fold. cbv iota beta. change (combine (seq 0 (length ms)) ms) with (enumerate ms).
    change (fold_left (fun u im => set_col t u (fst im) (fun r => m_cdf (snd im) (get x r (fst im)))) (enumerate ms) (mkMat (nr x) (nc x) junk)) with (filled t junk ms x).
    rewrite HD. 2:{ destruct (fill_shape t (fun i m r => m_cdf m (get x r i)) (enumerate ms) (mkMat (nr x) (nc x) junk)) as [_ E2]. unfold filled. rewrite E2. exact E. }
    rewrite filled_points, map_map by exact L. unfold points. rewrite !map_map. match goal with |- context [enumerate (map ?g ?l)] => change (enumerate (map g l)) with (combine (seq 0 (length (map g l))) (map g l)) end. rewrite map_length, seq_length.
    rewrite (enumerate_map_seq (fun i a => if log then eadd a (fold_left (fun sum im => fun r => eadd (sum r) (m_logpdf (snd im) (get x r (fst im)))) (enumerate ms) (fun _ => Fin 0) i)
        else escal (fold_left (fun prod im => fun r => prod r * m_pdf (snd im) (get x r (fst im))) (enumerate ms) (fun _ => 1) i) a)).
    apply map_ext. intros i. unfold enumerate. rewrite (sum_fold x ms i 0 (fun _ => Fin 0)), (prod_fold x ms i 0 (fun _ => 1)) by (cbn; exact L).
    cbn [skipn]. rewrite Rmult_1_l. destruct log; [|reflexivity]. f_equal. destruct (esum _); cbn; rewrite ?Rplus_0_l; reflexivity.
  Qed.
  Theorem C56_pdf : forall junk x, nc x = d -> marg_pdf c DFloat junk x false = map (fun l => escal (lprod (densities ms l)) (D false (probabilities ms l))) (points x).
  Proof. intros junk x E. rewrite pdf_rows by exact E. apply map_ext. intros l. rewrite store_float. reflexivity. Qed.
  (** with log=True the logarithm of the density: log of the joint density plus the logs of the marginal ones *)
  Theorem C56_log_pdf : forall junk x, nc x = d ->
    (forall l, In l (points x) -> D true (probabilities ms l) = elog (D false (probabilities ms l)) /\ exists v, D false (probabilities ms l) = Fin v /\ 0 < v) ->
    (forall l i m, In l (points x) -> nth_error ms i = Some m -> 0 < m_pdf m (nth i l 0) /\ m_logpdf m (nth i l 0) = elog (Fin (m_pdf m (nth i l 0)))) ->
    marg_pdf c DFloat junk x true = map elog (marg_pdf c DFloat junk x false).
  Proof.
    intros junk x E Hj Hm. rewrite !pdf_rows by exact E. rewrite map_map. apply map_ext_in. intros l Hl. rewrite store_float.
    destruct (Hj l Hl) as [-> [v [-> Pv]]]. specialize (fun i m => Hm l i m Hl).
    assert (S : Forall (fun x => 0 < x) (densities ms l) /\ esum (log_densities ms l) = esum (map (fun x => elog (Fin x)) (densities ms l))).
    { clear -Hm. unfold densities, log_densities. revert l Hm. induction ms as [|m r IH]; intros l Hm; [split; [constructor|reflexivity]|].
      destruct l as [|a l]; [split; [constructor|reflexivity]|]. cbn [zip_with map]. destruct (Hm O m eq_refl) as [P Q]. cbn in P, Q.
      destruct (IH l (fun i => Hm (Datatypes.S i))) as [P' Q']. split; [constructor; assumption|]. unfold esum in *. cbn [fold_right]. rewrite Q, Q'. reflexivity. }
    destruct S as [SP SE]. rewrite SE, esum_elog by (eapply Forall_impl; [|exact SP]; cbn; intros; lra).
    assert (P : 0 < lprod (densities ms l)). { clear -SP. induction SP; cbn; [lra|]. apply Rmult_lt_0_compat; assumption. }
    cbn [escal]. rewrite !elog_pos by (try apply Rmult_lt_0_compat; assumption). cbn [eadd]. rewrite ln_mult by assumption. f_equal. ring.
  Qed.

  Definition joint_cdf (l : list R) : ext := at_point (fun x => Ok (marg_cdf c DFloat (fun _ _ => 0) x false)) l.
  Definition joint_pdf (l : list R) : ext := at_point (fun x => Ok (marg_pdf c DFloat (fun _ _ => 0) x false)) l.
  Lemma joint_cdf_at l : length l = d -> joint_cdf l = C false (probabilities ms l).
  Proof. intros L. unfold joint_cdf, at_point. rewrite C56_cdf by exact L. rewrite one_row_points. reflexivity. Qed.
  Lemma joint_pdf_at l : length l = d -> joint_pdf l = escal (lprod (densities ms l)) (D false (probabilities ms l)).
  Proof. intros L. unfold joint_pdf, at_point. rewrite C56_pdf by exact L. rewrite one_row_points. reflexivity. Qed.

  (** if the joint copula reports its own density, the copula with margins reports its own density (chain rule) *)
  Theorem C56_density : (forall l, interior l -> exists v, D false l = Fin v) ->
    mixed_derivative_on interior d (fun l => number (C false l)) (fun l => number (D false l)) ->
    mixed_derivative_on (inside ms) d (fun l => number (joint_cdf l)) (fun l => number (joint_pdf l)).
  Proof.
    intros Fin_D [G [G0 [G1 GS]]].
    assert (LM : length ms = d) by exact Hn.
    assert (LP : forall l, length l = d -> length (probabilities ms l) = d). { intros l L. unfold probabilities. rewrite zip_with_length. lia. }
    assert (IP : forall l, length l = d -> inside ms l -> interior (probabilities ms l)).
    { intros l L [_ I]. apply Forall_forall. intros p Hp. apply (In_nth _ _ 0) in Hp. destruct Hp as [i [Hi <-]]. rewrite LP in Hi by exact L.
      destruct (nth_error ms i) as [m|] eqn:E; [|apply nth_error_None in E; lia]. unfold probabilities. rewrite (zip_with_nth m_cdf ms l i m 0) by lia.
      rewrite (nth_error_nth ms i m E). apply (I i m E). }
    exists (fun k l => lprod (firstn k (densities ms l)) * G k (probabilities ms l)). split; [|split].
    - intros l L I. cbn [firstn lprod]. rewrite Rmult_1_l, joint_cdf_at by exact L. apply G0; [apply LP|apply IP]; assumption.
    - intros l L I. rewrite joint_pdf_at by exact L. destruct (Fin_D _ (IP l L I)) as [v E]. rewrite E. cbn [escal number].
      rewrite G1 by (try apply LP; try apply IP; assumption). rewrite E. cbn [number].
      rewrite firstn_all2 by (unfold densities; rewrite zip_with_length; lia). reflexivity.
    - intros k l Hk L I. destruct (nth_error ms k) as [m|] eqn:Em; [|apply nth_error_None in Em; lia].
      assert (EP : forall t, probabilities ms (set_nth k t l) = set_nth k (m_cdf m t) (probabilities ms l)).
      { intros t. apply (nth_ext _ _ 0 0); [rewrite set_nth_length, !LP by (rewrite ?set_nth_length; exact L); reflexivity|].
        intros j Hj. rewrite LP in Hj by (rewrite set_nth_length; exact L). rewrite set_nth_nth by (rewrite LP by exact L; exact Hj).
        unfold probabilities. rewrite !(zip_with_nth m_cdf ms _ j m 0) by (rewrite ?set_nth_length; lia). rewrite set_nth_nth by lia.
        destruct (Nat.eqb_spec j k) as [->|N]; [|reflexivity]. rewrite (nth_error_nth ms k m Em). reflexivity. }
      assert (ED : forall t, firstn k (densities ms (set_nth k t l)) = firstn k (densities ms l)).
      { intros t. assert (LD : forall l', length l' = d -> length (densities ms l') = d) by (intros l' L'; unfold densities; rewrite zip_with_length; lia).
        apply (nth_ext _ _ 0 0); [rewrite !firstn_length, !LD by (rewrite ?set_nth_length; exact L); reflexivity|].
        intros j Hj. rewrite firstn_length, LD in Hj by (rewrite ?set_nth_length; exact L).
        assert (F : forall (a : list R), nth j (firstn k a) 0 = nth j a 0).
        { assert (J : (j < k)%nat) by lia. revert J. clear. revert j. induction k as [|k IH]; intros j H [|a r]; try lia; try reflexivity. destruct j; [reflexivity|]. cbn. apply IH. lia. }
        rewrite !F. unfold densities. rewrite !(zip_with_nth m_pdf ms _ j m 0) by (rewrite ?set_nth_length; lia). rewrite set_nth_nth by lia. rewrite (proj2 (Nat.eqb_neq j k)) by lia. reflexivity. }
      destruct I as [_ II]. destruct (II k m Em) as [Im Id].
      assert (EK : firstn (Datatypes.S k) (densities ms l) = firstn k (densities ms l) ++ [m_pdf m (nth k l 0)]).
      { assert (Ek : nth_error (densities ms l) k = Some (m_pdf m (nth k l 0))).
        { rewrite (nth_error_nth' _ 0) by (unfold densities; rewrite zip_with_length; lia). f_equal. unfold densities. rewrite (zip_with_nth m_pdf ms l k m 0) by lia. rewrite (nth_error_nth ms k m Em). reflexivity. }
        revert Ek. generalize (densities ms l) (m_pdf m (nth k l 0)). clear. intros l0 y; revert l0. induction k as [|k IH]; intros [|a r] E; try discriminate; cbn in E; [injection E as ->; reflexivity|].
        rewrite firstn_cons, (IH r E). reflexivity. }
      rewrite EK, lprod_app1.
      apply (is_derive_ext (fun t => scal (lprod (firstn k (densities ms l))) (G k (set_nth k (m_cdf m t) (probabilities ms l))))).
      { intros t. rewrite EP, ED. reflexivity. }
      replace (lprod (firstn k (densities ms l)) * m_pdf m (nth k l 0) * G (Datatypes.S k) (probabilities ms l))
        with (scal (lprod (firstn k (densities ms l))) (scal (m_pdf m (nth k l 0)) (G (Datatypes.S k) (probabilities ms l)))) by (unfold scal; cbn; unfold mult; cbn; ring).
      apply is_derive_scal. apply (is_derive_comp (fun s => G k (set_nth k s (probabilities ms l))) (m_cdf m)); [|exact Id].
      assert (EN : nth k (probabilities ms l) 0 = m_cdf m (nth k l 0)).
      { unfold probabilities. rewrite (zip_with_nth m_cdf ms l k m 0) by lia. rewrite (nth_error_nth ms k m Em). reflexivity. }
      rewrite <- EN. apply GS; [exact Hk|apply LP; exact L|apply IP; [exact L|split; [lia|exact II]]].
  Qed.
  (** the margins of the joint law are the margins given: with every other coordinate so far right that its distribution function is 1 *)
  Theorem C56_margins : (forall k l, length l = d -> (k < d)%nat -> (forall j, (j < d)%nat -> j <> k -> nth j l 0 = 1) -> C false l = Fin (nth k l 0)) ->
    forall k m l, nth_error ms k = Some m -> length l = d ->
    (forall j m', nth_error ms j = Some m' -> j <> k -> m_cdf m' (nth j l 0) = 1) -> joint_cdf l = Fin (m_cdf m (nth k l 0)).
  Proof.
    intros HU k m l Em L H. assert (LM : length ms = d) by exact Hn. assert (K : (k < d)%nat) by (rewrite <- LM; apply nth_error_Some; congruence).
    rewrite joint_cdf_at by exact L. rewrite (HU k).
    - unfold probabilities. rewrite (zip_with_nth m_cdf ms l k m 0) by lia. rewrite (nth_error_nth ms k m Em). reflexivity.
    - unfold probabilities. rewrite zip_with_length. lia.
    - exact K.
    - intros j Hj N. destruct (nth_error ms j) as [m'|] eqn:E; [|apply nth_error_None in E; lia]. unfold probabilities. rewrite (zip_with_nth m_cdf ms l j m' 0) by lia. rewrite (nth_error_nth ms j m' E). apply (H j m' E N).
  Qed.

  (** given an array of integers, [np.empty_like] makes the probabilities integers: every probability below 1 becomes 0, so the
      answer is that for the corner (0, .., 0) whatever the point.  The property fails for integer input. *)
  Theorem C56_integers_refuted : forall junk x log, nc x = d ->
    (forall l i m, In l (points x) -> nth_error ms i = Some m -> 0 <= m_cdf m (nth i l 0) < 1) ->
    marg_cdf c DInt junk x log = map (fun _ => C log (repeat 0 d)) (points x) /\
    marg_pdf c DInt junk x false = map (fun l => escal (lprod (densities ms l)) (D false (repeat 0 d))) (points x).
  Proof.
    intros junk x log E H. assert (LM : length ms = d) by exact Hn.
    assert (Z : forall l, In l (points x) -> map (store DInt) (probabilities ms l) = repeat 0 d).
    { intros l Hl. assert (Ll : length l = d). { unfold points in Hl. apply in_map_iff in Hl. destruct Hl as [i [<- _]]. rewrite row_length. exact E. }
      specialize (fun i m => H l i m Hl). clear -H LM Ll. rewrite <- LM in *. clear LM. unfold probabilities. revert l Ll H. induction ms as [|m r IH]; intros l Ll H; [reflexivity|].
      destruct l as [|a l]; [discriminate|]. cbn [zip_with map length repeat]. f_equal; [|apply IH; [cbn in Ll; lia|intros i; exact (H (Datatypes.S i))]].
      pose proof (H O m eq_refl) as B. cbn in B. cbn [store]. rewrite (proj2 (Rleb_true _ _)) by apply B. rewrite (Int_part_unique _ 0); [reflexivity|cbn; lra]. }
    split.
    - unfold marg_cdf. change (fold_left _ _ _) with (filled DInt junk ms x). rewrite HC.
      + rewrite filled_points by (rewrite LM, E; reflexivity). rewrite map_map. apply map_ext_in. intros l Hl. rewrite Z by exact Hl. reflexivity.
      + destruct (fill_shape DInt (fun i m r => m_cdf m (get x r i)) (enumerate ms) (mkMat (nr x) (nc x) junk)) as [_ E2]. unfold filled. rewrite E2. exact E.
    - rewrite pdf_rows by exact E. apply map_ext_in. intros l Hl. rewrite Z by exact Hl. reflexivity.
  Qed.
End Sklar.

(** Samples: the sampled row x has F(x) = u, so its joint probability is that of the row u sampled from the joint copula. *)
Theorem C56_random : forall c C, length (mc_margins c) = j_dim (mc_joint c) ->
  (forall log, row_by_row (j_dim (mc_joint c)) (fun u => j_cdf (mc_joint c) u log) (C log)) ->
  j_columns (mc_joint c) = None ->
  (forall m p, In m (mc_margins c) -> 0 < p < 1 -> exists x, m_ppf m p = Fin x /\ m_cdf m x = p) ->
  forall u, nc u = j_dim (mc_joint c) -> Forall interior (points u) ->
  exists xs, marg_random c u = Ok (map (map Fin) xs) /\ length xs = nr u /\
    forall x p, In (x, p) (combine xs (points u)) -> probabilities (mc_margins c) x = p /\ joint_cdf c x = C false p.
Proof.
  intros c C Hn HC Hj Hm u Eu Iu. unfold marg_random. rewrite Hj. replace (match mc_margins c with | [] => _ | _ => _ end) with
    (Ok (map (fun r => map (fun im => m_ppf (snd im) (get u r (fst im))) (enumerate (mc_margins c))) (seq 0 (nr u))) : result (list (list ext))) by (destruct (mc_margins c); reflexivity).
  assert (ROW : forall r, (r < nr u)%nat -> exists x, map (fun im => m_ppf (snd im) (get u r (fst im))) (enumerate (mc_margins c)) = map Fin x /\ probabilities (mc_margins c) x = row u r).
  { intros r Hr. assert (I : interior (row u r)). { rewrite Forall_forall in Iu. apply Iu. unfold points. apply in_map, in_seq. lia. }
    assert (E : map (fun im => m_ppf (snd im) (get u r (fst im))) (enumerate (mc_margins c)) = zip_with m_ppf (mc_margins c) (row u r)).
    { assert (L : (0 + length (mc_margins c) = nc u)%nat) by (cbn; lia). unfold enumerate. replace (row u r) with (skipn 0 (row u r)) by reflexivity. revert L. generalize O as s. clear.
      induction (mc_margins c) as [|m ms IH]; intros s L; [reflexivity|]. cbn [length seq combine map fst snd].
      assert (E : skipn s (row u r) = get u r s :: skipn (Datatypes.S s) (row u r)).
      { cbn in L. rewrite <- row_nth by lia. assert (H : (s < length (row u r))%nat) by (rewrite row_length; lia). revert H. generalize (row u r). clear. induction s; intros [|a l] H; cbn in *; try lia; [reflexivity|]. apply IHs. lia. }
      rewrite E. cbn [zip_with]. f_equal. apply IH. cbn in L. lia. }
    rewrite E. assert (L : length (row u r) = length (mc_margins c)) by (rewrite row_length; lia). revert I L. generalize (row u r). clear -Hm.
    induction (mc_margins c) as [|m ms IH]; intros [|a l] I L; try discriminate; [exists []; split; reflexivity|]. inversion I; subst.
    destruct (IH (fun m p H => Hm m p (or_intror H)) l ltac:(assumption) ltac:(cbn in L; lia)) as [x [E1 E2]]. destruct (Hm m a (or_introl eq_refl) ltac:(assumption)) as [y [F1 F2]].
    exists (y :: x). cbn [zip_with map probabilities]. unfold probabilities in *. cbn [zip_with]. rewrite E1, F1, F2, E2. split; reflexivity. }
  assert (ALL : exists xs, map (fun r => map (fun im => m_ppf (snd im) (get u r (fst im))) (enumerate (mc_margins c))) (seq 0 (nr u)) = map (map Fin) xs /\ length xs = nr u /\
    forall x p, In (x, p) (combine xs (points u)) -> probabilities (mc_margins c) x = p /\ length p = nc u /\ length x = length p).
  { unfold points. assert (forall s n, (s + n = nr u)%nat -> exists xs, map (fun r => map (fun im => m_ppf (snd im) (get u r (fst im))) (enumerate (mc_margins c))) (seq s n) = map (map Fin) xs /\ length xs = n /\
      forall x p, In (x, p) (combine xs (map (row u) (seq s n))) -> probabilities (mc_margins c) x = p /\ length p = nc u /\ length x = length p).
    { intros s n. revert s. induction n as [|n IH]; intros s L; [exists []; split; [reflexivity|split; [reflexivity|intros x p []]]|].
      destruct (ROW s ltac:(lia)) as [x [E1 E2]]. destruct (IH (Datatypes.S s) ltac:(lia)) as [xs [F1 [F2 F3]]]. exists (x :: xs). cbn [seq map length combine]. rewrite E1, F1, F2. split; [reflexivity|split; [reflexivity|]].
      intros x' p [H|H]; [|apply F3; exact H]. injection H as <- <-. split; [exact E2|split; [apply row_length|]]. 
      apply (f_equal (@length ext)) in E1. rewrite !map_length in E1. unfold enumerate in E1. rewrite combine_length, seq_length, Nat.min_id in E1. rewrite row_length. lia. }
    apply (H O (nr u)). reflexivity. }
  destruct ALL as [xs [E1 [E2 E3]]]. exists xs. rewrite E1. split; [reflexivity|split; [exact E2|]]. intros x p H. destruct (E3 x p H) as [A [B B']]. split; [exact A|].
  rewrite (joint_cdf_at c C Hn HC) by lia. rewrite A. reflexivity.
Qed.
Print Assumptions C56_random.
(** once the joint copula has been fitted to a DataFrame, its samples are a DataFrame, which cannot be indexed like an array *)
Theorem C56_random_refuted : forall c u names, j_columns (mc_joint c) = Some names -> mc_margins c <> [] -> marg_random c u = Err KeyError.
Proof. intros c u names H N. unfold marg_random. rewrite H. destruct (mc_margins c); [contradiction|reflexivity]. Qed.
Print Assumptions C56_random_refuted.

(** the logistic law, loc and scale ignored *)
Definition logistic : dist := mkDist "logistic_gen" [] (fun _ x => / (1 + exp (- x))) (fun _ x => exp (- x) / (1 + exp (- x)) ^ 2)
  (fun _ x => elog (Fin (exp (- x) / (1 + exp (- x)) ^ 2))) (fun _ p => Fin (ln (p / (1 - p)))) (fun _ => [0; 1]).
Definition two_logistic : mcopula := mkMarginal (mkJoint 2 indep_cdf indep_pdf None) [mkFrozen logistic [] []; mkFrozen logistic [] []] None.
Lemma indep_rows log : row_by_row 2 (fun u => indep_cdf u log) (fun l => at_point (fun x => Ok (indep_cdf x log)) l).
Proof.
  intros u _. unfold points. rewrite map_map. unfold indep_cdf at 1. apply map_ext. intros i. unfold at_point, indep_cdf. cbn [one_row nr seq map].
  destruct log.
  - f_equal. cbn [one_row nc get]. rewrite row_length. apply map_ext_in. intros j Hj. apply in_seq in Hj. rewrite row_nth by lia. reflexivity.
  - f_equal. cbn [one_row nc get]. rewrite row_length. rewrite (fold_prod (fun j => get u i j)), (fold_prod (fun j => nth j (row u i) 0)). f_equal. apply lprod_map_ext. intros j Hj. apply in_seq in Hj. rewrite row_nth by lia. reflexivity.
Qed.
(** at the point (0, 0): 1/4 for floats, 0 for integers *)
Example C56_case : joint_cdf two_logistic [0; 0] = Fin (1/4) /\ marg_cdf two_logistic DInt (fun _ _ => 0) (one_row [0; 0]) false = [Fin 0] /\
  inside (mc_margins two_logistic) [0; 0].
Proof.
  assert (H : / (1 + exp (- 0)) = / 2) by (rewrite Ropp_0, exp_0; f_equal; lra).
  split; [|split].
  - rewrite (joint_cdf_at two_logistic (fun log l => at_point (fun x => Ok (indep_cdf x log)) l) eq_refl indep_rows) by reflexivity.
    unfold at_point. rewrite C55_product, one_row_points. cbn [map mc_margins two_logistic probabilities zip_with]. unfold m_cdf. cbn [fz_dist dd_cdf logistic]. rewrite H. cbn [lprod]. f_equal. field.
  - assert (LOW : forall l i m, In l (points (one_row [0; 0])) -> nth_error (mc_margins two_logistic) i = Some m -> 0 <= m_cdf m (nth i l 0) < 1).
    { intros l i m Hl Hm. rewrite one_row_points in Hl. destruct Hl as [<-|[]]. destruct i as [|[|i]]; cbn in Hm; try (injection Hm as <-; unfold m_cdf; cbn [fz_dist dd_cdf logistic nth]; rewrite H; lra). destruct i; discriminate. }
    assert (DR : forall log, row_by_row (j_dim (mc_joint two_logistic)) (fun u => j_pdf (mc_joint two_logistic) u log) (fun _ => Fin (if log then 0 else 1))).
    { intros log u _. cbn. unfold indep_pdf, points. rewrite map_map. rewrite <- (seq_length (nr u) 0) at 1. generalize (seq 0 (nr u)). induction l; cbn; [reflexivity|]. f_equal. assumption. }
    rewrite (proj1 (C56_integers_refuted two_logistic (fun log l => at_point (fun x => Ok (indep_cdf x log)) l) (fun log _ => Fin (if log then 0 else 1)) eq_refl indep_rows DR (fun _ _ => 0) (one_row [0; 0]) false eq_refl LOW)).
    rewrite one_row_points. cbn [map]. unfold at_point. rewrite C55_product, one_row_points. cbn. rewrite !Rmult_0_l. reflexivity.
  - split; [reflexivity|]. assert (B : 0 < m_cdf (mkFrozen logistic [] []) 0 < 1 /\ is_derive (m_cdf (mkFrozen logistic [] [])) 0 (m_pdf (mkFrozen logistic [] []) 0)).
    { unfold m_cdf, m_pdf. cbn [fz_dist dd_cdf dd_pdf logistic]. rewrite H. split; [lra|].
      evar_last; [apply (is_derive_inv (fun x => 1 + exp (- x)))|].
      - auto_derive; [exact Logic.I|reflexivity].
      - pose proof (exp_pos (- 0)). lra.
      - cbn. rewrite Ropp_0, exp_0. lra. }
    intros i m Hm. destruct i as [|[|i]]; cbn in Hm; try (injection Hm as <-; exact B). destruct i; discriminate.
Qed.

(** * C57: descriptions of margins *)
(** whatever the capitals and the white space around, a name gives the advertised family; anything scipy does not know as a
    continuous distribution raises TypeError *)
Theorem C57_names : forall stats p s q, blank p -> blank q -> visible (lower s) ->
  get_marginal_class stats (Some (TStr (p ++ (s ++ q)))) =
  match stats (family (lower s)) with Some (AContinuous d) => Ok d | _ => Err TypeError end.
Proof.
  intros stats p s q Hp Hq Hv. cbn [get_marginal_class]. rewrite !lower_app, strip_visible by (try apply lower_blank; assumption).
  unfold family. cbn [existsb]. destruct (String.eqb (lower s) "normal"); [reflexivity|]. destruct (String.eqb (lower s) "gaussian"); [reflexivity|]. reflexivity.
Qed.
Print Assumptions C57_names.
Theorem C57_types : forall stats,
  get_marginal_class stats None = Err AssertionError /\ get_marginal_class stats (Some TFrozen) = Err TypeError /\
  get_marginal_class stats (Some TOther) = Err TypeError /\ forall d, get_marginal_class stats (Some (TDist d)) = Ok d.
Proof. intros stats. repeat split. Qed.
Print Assumptions C57_types.

Lemma collect_length {A B} (f : heap -> A -> heap * result B) l : forall h h' bs, collect f h l = (h', Ok bs) -> length bs = length l.
Proof.
  induction l as [|a l IH]; intros h h' bs H; cbn in H; [injection H as _ <-; reflexivity|]. destruct (f h a) as [h1 [b|e]]; [|discriminate].
  destruct (collect f h1 l) as [h2 [r|e]] eqn:E; [|discriminate]. injection H as _ <-. cbn. f_equal. apply (IH _ _ _ E).
Qed.
(** the number of margins is the dimension, or an exception is raised *)
Theorem C57_count : forall stats h j m,
  (forall h' c, new_marginal stats h j m = (h', Ok c) -> length (mc_margins c) = j_dim j /\ mc_joint c = j) /\
  (forall l, m = MColl l -> length l <> j_dim j -> new_marginal stats h j m = (h, Err AssertionError)) /\
  (m = MOther -> new_marginal stats h j m = (h, Err TypeError)).
Proof.
  intros stats h j m. split; [|split].
  - intros h' c H. unfold new_marginal in H. destruct (process_margins_input stats h m (j_dim j)) as [h1 [l|e]] eqn:E; [|discriminate]. injection H as _ <-. cbn. split; [|reflexivity].
    destruct m as [s|dt|l0|]; cbn in E.
    + rewrite (collect_length _ _ _ _ _ E), repeat_length. reflexivity.
    + rewrite (collect_length _ _ _ _ _ E), repeat_length. reflexivity.
    + destruct (Nat.eqb_spec (length l0) (j_dim j)); [|discriminate]. rewrite (collect_length _ _ _ _ _ E). assumption.
    + discriminate.
  - intros l -> N. unfold new_marginal. cbn. rewrite (proj2 (Nat.eqb_neq _ _) N). reflexivity.
  - intros ->. reflexivity.
Qed.
Print Assumptions C57_count.

(** filling in the shapes *)
Definition completed (d : dist) (p : dict) : dict :=
  fold_left (fun ps s => match snd s with None => if has ps (fst s) then ps else ps ++ [(fst s, / 2)] | Some _ => ps end) (signature d) p.
Lemma completed_shapes d p : completed d p = fold_left (fun ps s => if has ps s then ps else ps ++ [(s, / 2)]) (dd_shapes d) p.
Proof.
  unfold completed, signature. rewrite fold_left_app. cbn [fold_left snd fst]. revert p. induction (dd_shapes d) as [|s l IH]; intros p; [reflexivity|]. cbn [map fold_left snd fst]. apply IH.
Qed.
Lemma has_find p k : has p k = true <-> exists v, find (fun e => String.eqb (fst e) k) p = Some v.
Proof.
  induction p as [|[a b] p IH]; cbn; [split; [discriminate|intros [v H]; discriminate]|]. destruct (String.eqb a k) eqn:E; cbn.
  - split; [intros _; eexists; reflexivity|reflexivity].
  - exact IH.
Qed.
Lemma find_app {A} (f : A -> bool) l m : find f (l ++ m) = match find f l with Some x => Some x | None => find f m end.
Proof. induction l as [|x l IH]; [reflexivity|]. cbn. destruct (f x); [reflexivity|apply IH]. Qed.
Lemma fill_find l : forall p k, find (fun e => String.eqb (fst e) k) (fold_left (fun ps s => if has ps s then ps else ps ++ [(s, / 2)]) l p) =
  match find (fun e => String.eqb (fst e) k) p with Some v => Some v | None => if existsb (String.eqb k) l then Some (k, / 2) else None end.
Proof.
  induction l as [|s l IH]; intros p k; cbn [fold_left existsb]; [destruct (find _ p); reflexivity|]. rewrite IH. destruct (has p s) eqn:Hs.
  - destruct (find (fun e => String.eqb (fst e) k) p) eqn:F; [reflexivity|]. destruct (String.eqb_spec k s) as [->|N]; [|reflexivity].
    apply has_find in Hs. destruct Hs as [v Hs]. congruence.
  - rewrite find_app. destruct (find (fun e => String.eqb (fst e) k) p) eqn:F; [reflexivity|]. cbn [find fst]. rewrite (String.eqb_sym s k). destruct (String.eqb_spec k s) as [->|N]; reflexivity.
Qed.
Lemma fill_keys l : forall p e, In e (fold_left (fun ps s => if has ps s then ps else ps ++ [(s, / 2)]) l p) -> In e p \/ In (fst e) l.
Proof.
  induction l as [|s l IH]; intros p e H; cbn [fold_left] in H; [left; exact H|]. apply IH in H. destruct H as [H|H]; [|right; right; exact H].
  destruct (has p s); [left; exact H|]. apply in_app_iff in H. destruct H as [H|[<-|[]]]; [left; exact H|right; left; reflexivity].
Qed.
Lemma fill_grows l : forall p e, In e p -> In e (fold_left (fun ps s => if has ps s then ps else ps ++ [(s, / 2)]) l p).
Proof. induction l as [|s l IH]; intros p e H; cbn [fold_left]; [exact H|]. apply IH. destruct (has p s); [exact H|apply in_app_iff; left; exact H]. Qed.
Lemma fill_idem d p : completed d (completed d p) = completed d p.
Proof.
  rewrite !completed_shapes. set (q := fold_left _ (dd_shapes d) p). assert (H : forall s, In s (dd_shapes d) -> has q s = true).
  { intros s Hs. apply has_find. unfold q. rewrite fill_find. destruct (find _ p) eqn:F; [eexists; reflexivity|]. replace (existsb (String.eqb s) (dd_shapes d)) with true; [eexists; reflexivity|].
    symmetry. apply existsb_exists. exists s. split; [exact Hs|apply String.eqb_refl]. }
  clearbody q. revert H. induction (dd_shapes d) as [|s l IH]; intros H; [reflexivity|]. cbn [fold_left]. rewrite (H s (or_introl eq_refl)). apply IH. intros s' H'. apply H. right. exact H'.
Qed.
Lemma signature_names d : map fst (signature d) = parameter_names d.
Proof. unfold signature, parameter_names. rewrite map_app, map_map. cbn [map fst]. rewrite map_id. reflexivity. Qed.

(** the keyword arguments bind: every name given must be a parameter *)
Lemma bind_completed d p : well_named d -> 
  bind_arguments d [] (completed d p) =
  if forallb (fun e => existsb (String.eqb (fst e)) (parameter_names d)) p then Ok (map (value p) (parameter_names d)) else Err TypeError.
Proof.
  intros W. unfold bind_arguments. cbn [length skipn]. replace (length (signature d) <? 0)%nat with false by reflexivity.
  assert (A : forallb (fun e => existsb (fun s => String.eqb (fst s) (fst e)) (signature d)) (completed d p) = forallb (fun e => existsb (String.eqb (fst e)) (parameter_names d)) p).
  { rewrite <- signature_names. assert (Q : forall e : string * R, existsb (fun s => String.eqb (fst s) (fst e)) (signature d) = existsb (String.eqb (fst e)) (map fst (signature d))).
    { intros e. generalize (signature d). induction l as [|a l IH]; [reflexivity|]. cbn. rewrite IH, String.eqb_sym. reflexivity. }
    apply eq_true_iff_eq. rewrite !forallb_forall. rewrite completed_shapes. split; intros H e He.
    - rewrite <- Q. apply H, fill_grows, He.
    - rewrite Q. apply fill_keys in He. destruct He as [He|He]; [apply H; exact He|]. apply existsb_exists. exists (fst e). split; [|apply String.eqb_refl].
      rewrite signature_names. apply in_app_iff. left. exact He. }
  rewrite A. destruct (forallb _ p); [|reflexivity]. cbn [negb].
  assert (M : forall sig, (forall s, In s sig -> In s (signature d)) ->
     mapM (fun s => match lookup (completed d p) (fst s) with Some v => Ok v | None => match snd s with Some v => Ok v | None => Err TypeError end end) sig = Ok (map (value p) (map fst sig))).
  { induction sig as [|s sig IH]; intros H; [reflexivity|]. cbn [mapM map]. rewrite IH by (intros s' H'; apply H; right; exact H').
    unfold lookup at 1. rewrite completed_shapes, fill_find. pose proof (H s (or_introl eq_refl)) as Hs. unfold value at 2.
    destruct (find (fun e => String.eqb (fst e) (fst s)) p) eqn:F; [reflexivity|]. cbn [option_map].
    unfold signature in Hs. apply in_app_iff in Hs. destruct Hs as [Hs|[<-|[<-|[]]]].
    - apply in_map_iff in Hs. destruct Hs as [n [<- Hn]]. cbn [fst snd]. replace (existsb (String.eqb n) (dd_shapes d)) with true by (symmetry; apply existsb_exists; exists n; split; [exact Hn|apply String.eqb_refl]).
      cbn. unfold default. assert (N : forall c, In c ["loc"; "scale"]%string -> String.eqb n c = false).
      { intros c Hc. apply String.eqb_neq. intros ->. unfold well_named, parameter_names in W. clear -W Hn Hc. induction (dd_shapes d) as [|a l IH]; [destruct Hn|]. cbn in W. inversion W; subst. destruct Hn as [->|Hn]; [|apply IH; assumption]. apply H1, in_app_iff. right. exact Hc. }
      rewrite !N by (cbn; tauto). reflexivity.
    - cbn [fst snd]. replace (existsb (String.eqb "loc") (dd_shapes d)) with false; [reflexivity|]. symmetry. apply not_true_iff_false. intros E. apply existsb_exists in E. destruct E as [x [Hx Ex]]. apply String.eqb_eq in Ex. subst x.
      unfold well_named, parameter_names in W. clear -W Hx. induction (dd_shapes d) as [|a l IH]; [destruct Hx|]. cbn in W. inversion W; subst. destruct Hx as [->|Hx]; [|apply IH; assumption]. apply H1, in_app_iff. right. left. reflexivity.
    - cbn [fst snd]. replace (existsb (String.eqb "scale") (dd_shapes d)) with false; [reflexivity|]. symmetry. apply not_true_iff_false. intros E. apply existsb_exists in E. destruct E as [x [Hx Ex]]. apply String.eqb_eq in Ex. subst x.
      unfold well_named, parameter_names in W. clear -W Hx. induction (dd_shapes d) as [|a l IH]; [destruct Hx|]. cbn in W. inversion W; subst. destruct Hx as [->|Hx]; [|apply IH; assumption]. apply H1, in_app_iff. right. right. left. reflexivity. }
  rewrite M by auto. cbn. rewrite signature_names. reflexivity.
Qed.
(** Each margin is of the family described, with every parameter at the value given or at its default; a parameter the family does
    not have raises TypeError.  [marginal_parameters] (what params reports) agrees with what the distribution functions use. *)
Theorem C57_defaults : forall stats h dt d, get_marginal_class stats (dt_type dt) = Ok d -> well_named d ->
  (forall f h', create_univariate stats h dt = (h', Ok f) ->
     fz_dist f = d /\ frozen_params f = map (value (given h dt)) (parameter_names d) /\
     marginal_parameters f = map (fun n => (n, value (given h dt) n)) (parameter_names d)) /\
  ((exists f, snd (create_univariate stats h dt) = Ok f) <-> forall e, In e (given h dt) -> In (fst e) (parameter_names d)) /\
  ((exists f, snd (create_univariate stats h dt) = Ok f) \/ snd (create_univariate stats h dt) = Err TypeError).
Proof.
  intros stats h dt d Hc W. unfold create_univariate. rewrite Hc. change (match dt_params dt with Some r => nth r h [] | None => [] end) with (given h dt).
  change (fold_left _ (signature d) (given h dt)) with (completed d (given h dt)). unfold freeze. rewrite bind_completed by exact W.
  assert (IFF : forallb (fun e => existsb (String.eqb (fst e)) (parameter_names d)) (given h dt) = true <-> forall e, In e (given h dt) -> In (fst e) (parameter_names d)).
  { rewrite forallb_forall. split; intros H e He; specialize (H e He).
    - apply existsb_exists in H. destruct H as [x [Hx E]]. apply String.eqb_eq in E. rewrite E. exact Hx.
    - apply existsb_exists. exists (fst e). split; [exact H|apply String.eqb_refl]. }
  cbn [snd]. destruct (forallb _ (given h dt)) eqn:F; cbn [rmap].
  - split; [|split; [split; [intros _; apply IFF; reflexivity|intros _; eexists; reflexivity]|left; eexists; reflexivity]].
    intros f h' H. injection H as _ <-. cbn [fz_dist]. split; [reflexivity|].
    assert (FP : frozen_params (mkFrozen d [] (completed d (given h dt))) = map (value (given h dt)) (parameter_names d)).
    { unfold frozen_params. cbn [fz_dist fz_args fz_kwds]. rewrite bind_completed, F by exact W. reflexivity. }
    split; [exact FP|]. unfold marginal_parameters. cbn [fz_dist fz_args fz_kwds].
    unfold frozen_params in FP. cbn [fz_dist fz_args fz_kwds] in FP. unfold bind_arguments in FP. cbn [length skipn] in FP. replace (length (signature d) <? 0)%nat with false in FP by reflexivity.
    rewrite <- signature_names. generalize (bind_completed d (given h dt) W). rewrite F. unfold bind_arguments. cbn [length skipn]. replace (length (signature d) <? 0)%nat with false by reflexivity.
    destruct (negb _); [discriminate|]. rewrite <- signature_names. clear FP. generalize (signature d) as sig. intros sig HM.
    assert (K : forall s, mapM (fun s => match lookup (completed d (given h dt)) (fst s) with Some v => Ok v | None => match snd s with Some v => Ok v | None => Err TypeError end end) s = Ok (map (value (given h dt)) (map fst s)) ->
       map (fun i => (fst (nth i s (""%string, None)), match lookup (completed d (given h dt)) (fst (nth i s (""%string, None))) with Some v => v | None => match snd (nth i s (""%string, None)) with Some v => v | None => 0 end end)) (seq 0 (length s))
       = map (fun n => (n, value (given h dt) n)) (map fst s)).
    { clear. induction s as [|a s IH]; intros H; [reflexivity|]. cbn [length seq map nth]. cbn [mapM map] in H.
      destruct (lookup (completed d (given h dt)) (fst a)) as [v|] eqn:L; [|destruct (snd a) as [v|] eqn:Sa; [|discriminate]];
      (destruct (mapM _ s) as [r|] eqn:E; [|discriminate]); cbn in H; injection H as Hv Hr; (f_equal; [rewrite Hv; reflexivity|]); rewrite <- seq_shift, map_map; cbn [nth]; apply IH; rewrite Hr; reflexivity. }
    destruct (mapM _ sig) as [l|] eqn:E; [|discriminate]. cbn in HM. injection HM as ->. specialize (K sig E). rewrite <- K. apply map_ext. intros i. destruct i; reflexivity.
  - split; [intros f h' H; discriminate|split; [split; [intros [f H]; discriminate|intros H; apply IFF in H; discriminate]|right; reflexivity]].
Qed.
Print Assumptions C57_defaults.
(** what happens to the user's dictionary: the shapes it lacks are written into it, everything else is left alone *)
Theorem C57_dictionary : forall stats h dt d h' r f, get_marginal_class stats (dt_type dt) = Ok d -> create_univariate stats h dt = (h', r) ->
  (dt_params dt = None -> h' = h) /\
  (dt_params dt = Some f -> (f < length h)%nat -> length h' = length h /\
     (forall k, find (fun e => String.eqb (fst e) k) (nth f h' []) =
        match find (fun e => String.eqb (fst e) k) (nth f h []) with Some v => Some v | None => if existsb (String.eqb k) (dd_shapes d) then Some (k, / 2) else None end) /\
     forall g, g <> f -> nth g h' [] = nth g h []).
Proof.
  intros stats h dt d h' r f Hc H. unfold create_univariate in H. rewrite Hc in H. injection H as <- _. split; [intros ->; reflexivity|].
  intros E Hf. rewrite E. unfold set_dict. assert (L : length (firstn f h) = f) by (rewrite firstn_length; lia). split; [|split].
  - rewrite app_length, L. cbn [length]. rewrite skipn_length. lia.
  - intros k. rewrite app_nth2 by lia. rewrite L, Nat.sub_diag. cbn [nth]. fold (completed d (nth f h [])). rewrite completed_shapes. apply fill_find.
  - intros g N. destruct (Nat.lt_ge_cases g f).
    + rewrite app_nth1 by lia. clear -H. revert h g H. induction f as [|f IH]; intros [|a h] [|g] H; try lia; try reflexivity. cbn. apply IH. lia.
    + rewrite app_nth2 by lia. rewrite L. destruct (g - f)%nat as [|k] eqn:K; [lia|]. cbn [nth]. replace g with (Datatypes.S f + k)%nat by lia. clear. revert h. generalize (Datatypes.S f) as n. induction n as [|n IH]; intros h; [reflexivity|]. destruct h; cbn; [destruct k; reflexivity|apply IH].
Qed.
Print Assumptions C57_dictionary.
(** one description for all margins: all margins are the same *)
Theorem C57_single : forall stats h dt dim h1 f, create_univariate stats h dt = (h1, Ok f) -> (forall r, dt_params dt = Some r -> (r < length h)%nat) ->
  snd (process_margins_input stats h (MDict dt) dim) = Ok (repeat f dim).
Proof.
  intros stats h dt dim h1 f H HR. cbn [process_margins_input].
  assert (S : create_univariate stats h1 dt = (h1, Ok f)).
  { unfold create_univariate in *. destruct (get_marginal_class stats (dt_type dt)) as [d|e] eqn:Ec; [|discriminate]. injection H as <- Hf. destruct (dt_params dt) as [r|].
    - pose proof (HR r eq_refl) as Hr. change (fold_left _ (signature d) (nth r h [])) with (completed d (nth r h [])) in *.
      assert (L : length (firstn r h) = r) by (rewrite firstn_length; lia).
      assert (N : nth r (set_dict h r (completed d (nth r h []))) [] = completed d (nth r h [])) by (unfold set_dict; rewrite app_nth2 by lia; rewrite L, Nat.sub_diag; reflexivity).
      rewrite N. change (fold_left _ (signature d) (completed d (nth r h []))) with (completed d (completed d (nth r h []))). rewrite fill_idem, Hf. f_equal.
      unfold set_dict at 1. set (p := completed d (nth r h [])). unfold set_dict. rewrite firstn_app, L, Nat.sub_diag, firstn_firstn, Nat.min_id. cbn [firstn]. rewrite app_nil_r. f_equal. f_equal.
      rewrite skipn_app, L, (skipn_all2 (firstn r h)) by lia. replace (Datatypes.S r - r)%nat with 1%nat by lia. reflexivity.
    - rewrite Hf. reflexivity. }
  destruct dim as [|n]; [reflexivity|]. cbn [repeat collect]. rewrite H.
  assert (C : collect (create_univariate stats) h1 (repeat dt n) = (h1, Ok (repeat f n))). { induction n as [|n IH]; [reflexivity|]. cbn [repeat collect]. rewrite S, IH. reflexivity. }
  rewrite C. reflexivity.
Qed.
Print Assumptions C57_single.
(** descriptions with dictionaries of their own do not influence one another *)
Theorem C57_separate : forall stats h l, NoDup (flat_map reference l) -> Forall (fun r => (r < length h)%nat) (flat_map reference l) ->
  snd (process_margins_input stats h (MColl l) (length l)) = mapM (fun m => snd (create_item stats h m)) l.
Proof.
  intros stats h l ND V. cbn [process_margins_input]. rewrite Nat.eqb_refl.
  assert (G : forall h' : heap, length h' = length h -> (forall r, In r (flat_map reference l) -> nth r h' [] = nth r h []) -> snd (collect (create_item stats) h' l) = mapM (fun m => snd (create_item stats h m)) l).
  2:{ apply G; auto. }
  assert (ONE : forall (h' : heap) m, length h' = length h -> (forall r, In r (reference m) -> nth r h' [] = nth r h []) -> snd (create_item stats h' m) = snd (create_item stats h m)).
  { intros h' m Lh A. destruct m as [s|dt|]; [|unfold create_item, create_univariate; cbn [reference] in A; destruct (get_marginal_class stats (dt_type dt)); [|reflexivity]; destruct (dt_params dt) as [r|]; [cbv beta iota zeta; cbn [snd]; rewrite (A r (or_introl eq_refl)); reflexivity|reflexivity]|reflexivity].
    unfold create_item, create_univariate. cbn [dt_type dt_params]. destruct (get_marginal_class stats _); reflexivity. }
  assert (OTHER : forall (h' : heap) m, Forall (fun r => (r < length h')%nat) (reference m) -> length (fst (create_item stats h' m)) = length h' /\ forall g, ~ In g (reference m) -> nth g (fst (create_item stats h' m)) [] = nth g h' []).
  { intros h' m V'. assert (T : forall dt, Forall (fun r => (r < length h')%nat) (reference (ItDict dt)) -> length (fst (create_univariate stats h' dt)) = length h' /\ forall g, ~ In g (reference (ItDict dt)) -> nth g (fst (create_univariate stats h' dt)) [] = nth g h' []).
    { intros dt Vd. cbn [reference] in *. destruct (get_marginal_class stats (dt_type dt)) as [d|e] eqn:Ec; [|unfold create_univariate; rewrite Ec; split; reflexivity].
      destruct (create_univariate stats h' dt) as [h'' r] eqn:E. destruct (dt_params dt) as [f|] eqn:Ef.
      - inversion Vd; subst. destruct (proj2 (C57_dictionary stats h' dt d h'' r f Ec E) Ef ltac:(assumption)) as [A1 [_ A3]]. cbn [fst]. split; [exact A1|]. intros g Hg. apply A3. intros ->. apply Hg. left. reflexivity.
      - rewrite (proj1 (C57_dictionary stats h' dt d h'' r 0%nat Ec E) Ef). split; reflexivity. }
    destruct m as [s|dt|]; [apply (T (mkDetails (Some (TStr s)) None)); constructor|apply T; exact V'|split; reflexivity]. }
  induction l as [|m l IH]; intros h' Lh A; [reflexivity|]. cbn [flat_map] in *. apply Forall_app in V. destruct V as [V1 V2].
  cbn [collect mapM]. pose proof (ONE h' m Lh (fun r Hr => A r (proj2 (in_app_iff _ _ _) (or_introl Hr)))) as E1.
  destruct (create_item stats h' m) as [h1 r1] eqn:C1. cbn [snd] in E1. rewrite <- E1. destruct r1 as [f|e]; [|reflexivity].
  assert (V1' : Forall (fun r => (r < length h')%nat) (reference m)) by (rewrite Lh; exact V1). destruct (OTHER h' m V1') as [O1 O2]. rewrite C1 in O1, O2. cbn [fst] in O1, O2.
  assert (ND2 : NoDup (flat_map reference l) /\ forall r, In r (flat_map reference l) -> ~ In r (reference m)).
  { clear -ND. revert ND. generalize (flat_map reference l). induction (reference m) as [|x q IHq]; intros z ND; [split; [exact ND|intros r _ []]|]. cbn in ND. inversion ND; subst. destruct (IHq z H2) as [P Q]. split; [exact P|].
    intros r Hr [->|H]; [apply H1, in_app_iff; right; exact Hr|exact (Q r Hr H)]. }
  destruct ND2 as [ND2 DJ]. specialize (IH ND2 V2 h1 ltac:(congruence)). rewrite <- IH.
  - destruct (collect (create_item stats) h1 l) as [h2 [fs|e]]; reflexivity.
  - intros r Hr. rewrite O2 by (apply DJ; exact Hr). apply A, in_app_iff. right. exact Hr.
Qed.
Print Assumptions C57_separate.
(** a dictionary shared by two descriptions: each description alone is fine, together the shape written for the first breaks the
    second *)
Definition student_t : dist := mkDist "t_gen" ["df"%string] (fun _ x => x) (fun _ x => x) (fun _ _ => Nan) (fun _ _ => Nan) (fun _ => [1; 0; 1]).
Definition two_laws (name : string) : option attribute :=
  if String.eqb name "t" then Some (AContinuous student_t) else if String.eqb name "logistic" then Some (AContinuous logistic) else None.
Theorem C57_shared_refuted : exists h l, Forall (fun m => exists f, snd (create_item two_laws h m) = Ok f) l /\
  snd (process_margins_input two_laws h (MColl l) (length l)) = Err TypeError.
Proof.
  exists [[("scale"%string, 2)]], [ItDict (mkDetails (Some (TStr "Student")) (Some 0%nat)); ItDict (mkDetails (Some (TStr "logistic")) (Some 0%nat))].
  split; [|reflexivity]. constructor; [eexists; reflexivity|constructor; [eexists; reflexivity|constructor]].
Qed.
Print Assumptions C57_shared_refuted.
(** " StuDent" with a scale of 2: df is 1/2, loc 0, scale 2 *)
Example C57_case : exists f h, create_univariate two_laws [[("scale"%string, 2)]] (mkDetails (Some (TStr " StuDent")) (Some 0%nat)) = (h, Ok f) /\
  marginal_parameters f = [("df"%string, / 2); ("loc"%string, 0); ("scale"%string, 2)] /\ well_named (fz_dist f) /\ visible (lower "StuDent") /\ blank " ".
Proof.
  eexists. eexists. split; [reflexivity|]. split; [reflexivity|]. split; [|split].
  - cbn. repeat constructor; cbn; intuition discriminate.
  - eexists. eexists. repeat split; reflexivity.
  - repeat constructor.
Qed.

(** * C74: fitting the margins *)
Section FitMargins.
  Variables (c : mcopula) (fit_joint : joint -> mat R -> result joint).
  (** Every margin keeps its family and is fitted to its own column; the joint copula is fitted to the whole data. *)
  Theorem C74_fit : forall labels x c', marg_fit c labels 2 x fit_joint = (c', Ok tt) -> length (mc_margins c) = j_dim (mc_joint c) ->
    nc x = j_dim (mc_joint c) /\ fit_joint (mc_joint c) x = Ok (mc_joint c') /\ length (mc_margins c') = nc x /\
    (forall i m, nth_error (mc_margins c) i = Some m ->
       exists m', nth_error (mc_margins c') i = Some m' /\ fz_dist m' = fz_dist m /\ fz_kwds m' = [] /\
         fz_args m' = dd_fit (fz_dist m) (map (fun r => get x r i) (seq 0 (nr x)))) /\
    mc_columns c' = match labels with Some _ => labels | None => mc_columns c end.
  Proof.
    intros labels x c' H Hn. unfold marg_fit in H. cbn [Nat.eqb negb] in H. set (c1 := match labels with Some _ => _ | None => c end) in H.
    assert (E : mc_joint c1 = mc_joint c /\ mc_margins c1 = mc_margins c /\ mc_columns c1 = match labels with Some _ => labels | None => mc_columns c end) by (unfold c1; destruct labels; repeat split).
    destruct E as [E1 [E2 E3]]. cbv zeta in H. cbn [mc_joint mc_margins mc_columns] in H. rewrite E1, E2, E3 in H. destruct (Nat.eqb_spec (j_dim (mc_joint c)) (nc x)) as [Ed|]; [|discriminate]. cbn [negb] in H.
    destruct (fit_joint (mc_joint c) x) as [j|e] eqn:F; [|discriminate]. injection H as <-. cbn [mc_joint mc_margins mc_columns].
    split; [congruence|]. split; [reflexivity|]. split; [unfold enumerate; rewrite map_length, combine_length, seq_length; lia|]. split; [|reflexivity].
    intros i m Em. assert (G : forall s (l : list frozen) k m, nth_error l k = Some m -> nth_error (combine (seq s (length l)) l) k = Some ((s + k)%nat, m)).
    { clear. intros s l. revert s. induction l as [|a l IH]; intros s k m E; [destruct k; discriminate|]. destruct k as [|k]; cbn in *; [injection E as ->; rewrite Nat.add_0_r; reflexivity|]. rewrite (IH (Datatypes.S s) k m E). f_equal. f_equal. lia. }
    exists (mkFrozen (fz_dist m) (dd_fit (fz_dist m) (map (fun r => get x r i) (seq 0 (nr x)))) []). split; [|repeat split].
    pose proof (G O (mc_margins c) i m Em) as Q. cbn [Nat.add] in Q. unfold enumerate. rewrite (map_nth_error _ i _ Q). reflexivity.
  Qed.
  (** data of another width, or not a table, raise InputDataError and leave margins and joint copula alone *)
  Theorem C74_wrong_shape : forall labels ndim x, ndim <> 2%nat \/ nc x <> j_dim (mc_joint c) ->
    exists c', marg_fit c labels ndim x fit_joint = (c', Err InputDataError) /\ mc_margins c' = mc_margins c /\ mc_joint c' = mc_joint c /\
      (labels = None -> c' = c).
  Proof.
    intros labels ndim x H. unfold marg_fit. cbv zeta. set (c1 := match labels with Some _ => _ | None => c end).
    assert (E : mc_joint c1 = mc_joint c /\ mc_margins c1 = mc_margins c /\ (labels = None -> c1 = c)) by (unfold c1; destruct labels; repeat split; discriminate).
    destruct E as [E1 [E2 E3]]. exists c1. split; [|split; [exact E2|split; [exact E1|exact E3]]]. destruct (Nat.eqb_spec ndim 2); [|reflexivity]. cbn [negb]. rewrite E1.
    destruct (Nat.eqb_spec (j_dim (mc_joint c)) (nc x)); [|reflexivity]. exfalso. destruct H; [contradiction|congruence].
  Qed.
  (** but a DataFrame of the wrong width leaves its column names behind: from then on sampling fails *)
  Theorem C74_columns_refuted : forall names x, nc x <> j_dim (mc_joint c) -> length names = nc x ->
    exists c', marg_fit c (Some names) 2 x fit_joint = (c', Err InputDataError) /\
      forall t, t_width t = j_dim (mc_joint c) -> cast_output (mc_columns c') t = Err ValueError.
  Proof.
    intros names x N L. unfold marg_fit. cbn [Nat.eqb negb mc_joint]. rewrite (proj2 (Nat.eqb_neq _ _)) by congruence. eexists. split; [reflexivity|].
    intros t Et. cbn [mc_columns cast_output]. rewrite (proj2 (Nat.eqb_neq _ _)) by congruence. reflexivity.
  Qed.
  (** and an exception from the joint copula's fit leaves the margins refitted *)
  Theorem C74_half_fitted_refuted : forall x e, nc x = j_dim (mc_joint c) -> fit_joint (mc_joint c) x = Err e ->
    exists c', marg_fit c None 2 x fit_joint = (c', Err e) /\ mc_joint c' = mc_joint c /\
      map fz_args (mc_margins c') = map (fun im => dd_fit (fz_dist (snd im)) (map (fun r => get x r (fst im)) (seq 0 (nr x)))) (enumerate (mc_margins c)).
  Proof.
    intros x e E F. unfold marg_fit. cbn [Nat.eqb negb mc_joint]. rewrite E, Nat.eqb_refl. cbn [negb]. rewrite F. eexists. split; [reflexivity|]. cbn [mc_joint mc_margins]. split; [reflexivity|].
    rewrite map_map. apply map_ext. intros [i m]. reflexivity.
  Qed.
End FitMargins.
(** after a fit the parameters reported are the fitted ones, in order *)
Theorem C74_parameters : forall f, fz_kwds f = [] -> length (fz_args f) = length (parameter_names (fz_dist f)) ->
  marginal_parameters f = combine (parameter_names (fz_dist f)) (fz_args f) /\ frozen_params f = fz_args f.
Proof.
  intros f K L. rewrite <- signature_names in *. rewrite map_length in L. split.
  - unfold marginal_parameters. rewrite K. revert L. generalize (signature (fz_dist f)), (fz_args f). induction l as [|a l IH]; intros [|v r] L; try discriminate; [reflexivity|].
    cbn [length seq map nth nth_error combine]. f_equal. rewrite <- seq_shift, map_map. rewrite <- (IH r) by (cbn in L; lia). reflexivity.
  - unfold frozen_params, bind_arguments. rewrite K, L, Nat.ltb_irrefl. cbn [forallb negb]. rewrite skipn_all. cbn. apply app_nil_r.
Qed.
Print Assumptions C74_parameters.
Example C74_case : exists c', marg_fit two_logistic None 2 (one_row [3; 4]) (fun j _ => Ok j) = (c', Ok tt) /\ length (mc_margins c') = 2%nat.
Proof. eexists. split; [reflexivity|]. reflexivity. Qed.
Print Assumptions C55_product.
Print Assumptions C55_log.
Print Assumptions C55_pdf.
Print Assumptions C55_copula.
Print Assumptions C55_density.
Print Assumptions C55_fit_random.
Print Assumptions C56_cdf.
Print Assumptions C56_pdf.
Print Assumptions C56_log_pdf.
Print Assumptions C56_density.
Print Assumptions C56_margins.
Print Assumptions C56_integers_refuted.
Print Assumptions C74_fit.
Print Assumptions C74_wrong_shape.
Print Assumptions C74_columns_refuted.
Print Assumptions C74_half_fitted_refuted.
