(** Properties C52, C53, C54, C73: the empirical copula (/repo/copulae/empirical). *)
From Coq Require Import Qreals QArith.
From Coquelicot Require Import Coquelicot.
From Verif Require Import Base RSumLib CountLib Ext S_Archimedean M_Rank S_Rank P_Rank M_Special M_Stats M_Empirical S_Empirical P_Beta P_Empirical P_LogSum.
Local Close Scope Q_scope. Local Close Scope Z_scope. Open Scope R_scope.

Section Cdf.
  Variable btdtr : R -> R -> R -> R.
  Hypothesis Hb : computes_beta_distribution btdtr.
  Variable e : empirical.
  Hypothesis He : usable e.
  Let n := nr (e_data e). Let d := nc (e_data e).
  Let C := at_point (fun u => emp_cdf btdtr e u false).

  (** a table is answered row by row; log=True gives the logarithm *)
  Theorem C52_row_by_row : forall u log, (forall k j, (k < nr u)%nat -> (j < nc u)%nat -> 0 <= get u k j <= 1) -> nc u = d ->
    emp_cdf btdtr e u log = Ok (map (fun k => if log then elog (C (row u k)) else C (row u k)) (seq 0 (nr u))).
  Proof.
    intros u log Hu Hn. rewrite emp_cdf_eq by assumption. f_equal. apply map_ext_in. intros k Hk. apply in_seq in Hk.
    assert (Cu : unit_cube (row u k)). { unfold unit_cube, row. apply Forall_forall. intros x Hx. apply in_map_iff in Hx. destruct Hx as [j [<- Hj]]. apply in_seq in Hj. apply Hu; lia. }
    unfold C. rewrite point_eq; [|exact He|exact Cu|unfold row; rewrite map_length, seq_length; exact Hn]. destruct log; reflexivity.
  Qed.
  (** values outside the unit cube are refused *)
  Theorem C52_outside : forall u log k j, (k < nr u)%nat -> (j < nc u)%nat -> get u k j <= - / 1000000000000 \/ 1 + / 1000000000000 <= get u k j ->
    emp_cdf btdtr e u log = Err ValueError.
  Proof.
    intros u log k j Hk Hj H. unfold emp_cdf. 
    assert (A : forall p, p (get u k j) = true -> any_entry p u = true).
    { intros p Hp. unfold any_entry. apply existsb_exists. exists k. split; [apply in_seq; lia|]. apply existsb_exists. exists j. split; [apply in_seq; lia|exact Hp]. }
    destruct H as [H|H].
    - rewrite (A (fun x => Rltb x (- EPSILON))), orb_true_r by (apply Rltb_true; unfold EPSILON; lra). reflexivity.
    - rewrite (A (fun x => Rltb (1 + EPSILON) x)) by (apply Rltb_true; unfold EPSILON; lra). reflexivity.
  Qed.
  (** a distribution function: values in [0,1], monotone, 0 when a coordinate is 0, 1 at (1, .., 1) with zero offset *)
  Theorem C52_range : forall l, unit_cube l -> length l = d -> exists p, C l = Fin p /\ 0 <= p <= 1.
  Proof.
    intros l Hl L. unfold C. rewrite point_eq by assumption. eexists. split; [reflexivity|]. destruct (g_props btdtr Hb e He) as [G0 [G1 Gm]].
    pose proof (mix_range n d _ G0 G1 Gm l Hl) as [M1 M2]. fold n d. destruct He as [N [_ [_ [_ O]]]]. apply lt_INR in N. cbn in N. fold n in N.
    split; [apply Rdiv_le_0_compat; lra|]. apply (Rmult_le_reg_r (INR n + e_offset e)); [lra|]. unfold Rdiv. rewrite Rmult_assoc, Rinv_l by lra. lra.
  Qed.
  Theorem C52_monotone : forall l l', unit_cube l -> unit_cube l' -> length l = d -> length l' = d -> S_Archimedean.below l l' -> number (C l) <= number (C l').
  Proof.
    intros l l' Hl Hl' L L' B. unfold C. rewrite !point_eq by assumption. cbn [number]. destruct (g_props btdtr Hb e He) as [G0 [G1 Gm]].
    pose proof (mix_mono n d _ G0 G1 Gm l l' Hl Hl' B). destruct He as [N [_ [_ [_ O]]]]. apply lt_INR in N. cbn in N. fold n d. fold n in N.
    apply Rmult_le_compat_r; [left; apply Rinv_0_lt_compat; lra|assumption].
  Qed.
  Theorem C52_grounded : forall l j, unit_cube l -> length l = d -> (j < d)%nat -> nth j l 0 = 0 -> C l = Fin 0.
  Proof.
    intros l j Hl L Hj E. unfold C. rewrite point_eq by assumption. destruct (g_props btdtr Hb e He) as [G0 [G1 Gm]]. rewrite (mix_grounded _ _ _ G0 l j Hj E).
    unfold Rdiv. rewrite Rmult_0_l. reflexivity.
  Qed.
  Theorem C52_one : e_offset e = 0 -> C (repeat 1 d) = Fin 1.
  Proof.
    intros O. destruct (g_props btdtr Hb e He) as [G0 [G1 Gm]]. unfold C. rewrite point_eq.
    - fold n d. rewrite (mix_one n d _ G1). rewrite O, Rplus_0_r. f_equal. apply Rinv_r. destruct He as [N _]. apply lt_INR in N. cbn in N. fold n in N. lra.
    - exact He.
    - apply Forall_forall. intros x Hx. apply repeat_spec in Hx. lra.
    - apply repeat_length.
  Qed.
  (** no box gets negative mass *)
  Theorem C52_boxes : forall sides, length sides = d -> Forall (fun s => 0 <= fst s /\ fst s <= snd s /\ snd s <= 1) sides ->
    0 <= box_mass (fun l => number (C l)) sides [].
  Proof.
    intros sides L H. destruct (g_props btdtr Hb e He) as [G0 [G1 Gm]].
    assert (P : 0 < INR n + e_offset e). { destruct He as [N [_ [_ [_ O]]]]. apply lt_INR in N. cbn in N. fold n in N. lra. }
    assert (S : forall s acc, box_mass (fun l => number (C l)) s acc * (INR n + e_offset e) = box_mass (fun l => number (C l) * (INR n + e_offset e)) s acc).
    { induction s as [|[a b] s IH]; intros acc; cbn [box_mass]; [reflexivity|]. rewrite <- !IH. ring. }
    apply (Rmult_le_reg_r (INR n + e_offset e)); [exact P|]. rewrite Rmult_0_l, S.
    apply (box_nonneg n d (g_of btdtr e)); [exact Gm| |exact L|exact H]. intros l Ll Hl. unfold C. rewrite point_eq by assumption. cbn [number]. fold n d. field. lra.
  Qed.
  (** without smoothing it is the proportion of pseudo-observations below the point *)
  Theorem C52_counts : e_smoothing e = "none" -> forall l, unit_cube l -> length l = d ->
    C l = Fin (INR (count (dominated e l) (seq 0 n)) / (INR n + e_offset e)).
  Proof.
    intros Es l Hl L. unfold C. rewrite point_eq by assumption. do 2 f_equal. unfold mix, g_of, factor. rewrite Es. cbn [String.eqb Ascii.eqb Bool.eqb].
    fold n d. rewrite rsum_lsum. generalize (seq 0 n). induction l0 as [|i r IH]; [reflexivity|]. cbn [map lsum]. rewrite IH. unfold count. cbn [filter].
    assert (E : lprod (map (fun j => emp_cop (pobs_of e i j) (nth j l 0) n) (seq 0 d)) = if dominated e l i then 1 else 0).
    { unfold dominated. fold d. generalize (seq 0 d). induction l0 as [|j s IHs]; [reflexivity|]. cbn [map lprod forallb]. rewrite IHs. unfold emp_cop. destruct (Rleb _ _); cbn [andb]; [ring|apply Rmult_0_l]. }
    rewrite E. destruct (dominated e l i); cbn [length]; rewrite ?S_INR; ring.
  Qed.

  (** C53: without ties the smoothed copulas have uniform margins *)
  Theorem C53_uniform_margins : e_smoothing e <> "none" -> e_offset e = 0 -> forall j, (j < d)%nat -> no_ties Rleb n (fun k => get (e_data e) k j) ->
    forall v, 0 <= v <= 1 -> C (one_but d j v) = Fin v.
  Proof.
    intros Es O j Hj Hn v Hv. destruct (g_props btdtr Hb e He) as [G0 [G1 Gm]]. destruct (usable_ties e He) as [t [uu [Ht Hu]]].
    assert (N : 0 < INR n) by (destruct He as [N _]; apply lt_INR in N; cbn in N; exact N).
    unfold C. rewrite point_eq.
    - fold n d. rewrite (mix_margin n d _ G1 j v Hj). rewrite O, Rplus_0_r. f_equal. apply (Rmult_eq_reg_r (INR n)); [|lra]. unfold Rdiv. rewrite Rmult_assoc, Rinv_l, Rmult_1_r by lra.
      rewrite (rsum_ext _ _ (fun i => factor btdtr (e_smoothing e) (INR (ordn Rleb n (fun k => get (e_data e) k j) i) / (INR n + 1)) v n)).
      2:{ intros i Hi. unfold g_of. rewrite (no_ties_rank e t i j He Ht Hi Hn). reflexivity. }
      rewrite (sum_over_ranks n (fun k => get (e_data e) k j) (fun r => factor btdtr (e_smoothing e) (INR r / (INR n + 1)) v n)).
      destruct He as [_ [_ [_ [[S|[S|S]] _]]]]; [contradiction| |]; rewrite S; unfold factor; cbn [String.eqb Ascii.eqb Bool.eqb].
      + rewrite (rsum_ext _ _ (fun r => beta_distribution (INR (Datatypes.S r)) (INR n + 1 - INR (Datatypes.S r)) v)); [rewrite bd_ranks by exact Hv; ring|].
        intros r Hr. unfold emp_beta_cop. replace (INR (Datatypes.S r) / (INR n + 1) * (INR n + 1)) with (INR (Datatypes.S r)) by (field; lra).
        replace ((INR n + 1) * (1 - INR (Datatypes.S r) / (INR n + 1))) with (INR n + 1 - INR (Datatypes.S r)) by (field; lra).
        assert (INR (Datatypes.S r) <= INR n) by (apply le_INR; lia). assert (1 <= INR (Datatypes.S r)) by (apply (le_INR 1); lia). apply Hb; lra.
      + rewrite (rsum_ext _ _ (fun r => Rmin (Rmax (INR n * v - INR (Datatypes.S r) + 1) 0) 1)).
        * rewrite clamp_sum by (apply Rmult_le_pos; lra). rewrite Rmin_left; [ring|]. rewrite <- (Rmult_1_r (INR n)) at 2. apply Rmult_le_compat_l; lra.
        * intros r Hr. unfold emp_multi_linear. replace ((INR n + 1) * (INR (Datatypes.S r) / (INR n + 1))) with (INR (Datatypes.S r)) by (field; lra). reflexivity.
    - exact He.
    - apply Forall_forall. intros x Hx. unfold one_but in Hx. apply in_map_iff in Hx. destruct Hx as [i [<- _]]. destruct (Nat.eqb i j); lra.
    - unfold one_but. rewrite map_length, seq_length. reflexivity.
  Qed.
End Cdf.

(** the constructor and the setter accept the documented smoothings and nothing else *)
Theorem C52_constructor : forall data s ties offset,
  (forall e, new_empirical data s ties offset = Ok e -> smoothed (e_smoothing e) /\ e_data e = data /\ e_ties e = ties /\ e_offset e = offset /\
     forall t, s = Some t -> e_smoothing e = t) /\
  ((s = None \/ exists t, s = Some t /\ smoothed t) -> exists e, new_empirical data s ties offset = Ok e) /\
  (forall t, s = Some t -> ~ smoothed t -> new_empirical data s ties offset = Err AssertionError).
Proof.
  intros data s ties offset. unfold new_empirical, check_smoothing, smoothed.
  assert (Q : forall t, existsb (String.eqb t) ["none"; "beta"; "checkerboard"] = true <-> (t = "none" \/ t = "beta" \/ t = "checkerboard")).
  { intros t. cbn [existsb]. rewrite !orb_true_iff, !String.eqb_eq. intuition discriminate. }
  split; [|split].
  - intros e. set (t := match s with None => "none" | Some s => s end). destruct (existsb (String.eqb t) ["none"; "beta"; "checkerboard"]) eqn:E; cbn [rmap]; [|discriminate].
    intros [= <-]. cbn. apply Q in E. split; [exact E|]. repeat (split; [reflexivity|]). intros t' ->. reflexivity.
  - intros [->|[t [-> H]]]; [eexists; reflexivity|]. apply Q in H. rewrite H. eexists. reflexivity.
  - intros t -> H. destruct (existsb (String.eqb t) ["none"; "beta"; "checkerboard"]) eqn:E; [apply Q in E; contradiction|reflexivity].
Qed.
Print Assumptions C52_constructor.

(** C54: samples are observed rows *)
Theorem C54_random : forall e draws, (0 < nr (e_data e))%nat -> Forall (fun i => (i < nr (e_data e))%nat) draws ->
  exists m, emp_random e draws = Ok m /\ nr m = length draws /\ nc m = nc (e_data e) /\
    forall k, (k < nr m)%nat -> exists i, (i < nr (e_data e))%nat /\ forall j, get m k j = get (e_data e) i j.
Proof.
  intros e draws H F. unfold emp_random. rewrite (proj2 (Nat.eqb_neq _ 0)) by lia. eexists. split; [reflexivity|]. cbn. split; [reflexivity|]. split; [reflexivity|].
  intros k Hk. exists (nth k draws O). split; [|reflexivity]. rewrite Forall_forall in F. apply F, nth_In, Hk.
Qed.
Print Assumptions C54_random.
(** to_marginals gives for u in [0,1) the observed value whose rank interval contains u n: it is an empirical quantile *)
Theorem C54_to_marginals : forall u original, (0 < nr original)%nat -> (nc u <= nc original)%nat ->
  (forall k c, (k < nr u)%nat -> (c < nc u)%nat -> 0 <= get u k c < 1) ->
  exists cols, to_marginals u original = Ok cols /\ length cols = nc u /\
  forall k c, (k < nr u)%nat -> (c < nc u)%nat -> let y := nth k (nth c cols []) 0 in
    (exists i, (i < nr original)%nat /\ y = get original i c) /\
    INR (count (fun i => Rltb (get original i c) y) (seq 0 (nr original))) <= get u k c * INR (nr original) <
    INR (count (fun i => Rleb (get original i c) y) (seq 0 (nr original))).
Proof.
  intros u original Hn Hc Hu. set (n := nr original) in *.
  set (col := fun c => sort (map (fun i => get original i c) (seq 0 n))). assert (Lc : forall c, length (col c) = n) by (intros; unfold col; rewrite sort_length, map_length, seq_length; reflexivity).
  assert (K : forall k c, (k < nr u)%nat -> (c < nc u)%nat -> exists p, (p < n)%nat /\ INR p <= get u k c * INR n < INR p + 1 /\ take (col c) (Int_part (get u k c * INR n)) = Ok (nth p (col c) 0)).
  { intros k c Hk Hcc. destruct (take_inside (col c) (get u k c)) as [p Hp]; [rewrite Lc; exact Hn|apply Hu; assumption|]. rewrite Lc in Hp. exists p. exact Hp. }
  set (F := fun c => mapM (fun k => take (col c) (Int_part (get u k c * INR n))) (seq 0 (nr u))).
  assert (I : forall c, (c < nc u)%nat -> exists r, F c = Ok r /\ length r = nr u /\ forall k, (k < nr u)%nat -> take (col c) (Int_part (get u k c * INR n)) = Ok (nth k r 0)).
  { intros c Hcc. destruct (mapM_Ok (fun k => take (col c) (Int_part (get u k c * INR n))) (seq 0 (nr u))) as [r [R1 [R2 R3]]].
    - intros k Hk. apply in_seq in Hk. destruct (K k c) as [p [_ [_ E]]]; [lia|exact Hcc|]. eauto.
    - exists r. rewrite seq_length in *. split; [exact R1|]. split; [exact R2|]. intros k Hk. rewrite <- (R3 k O 0 Hk). rewrite seq_nth by exact Hk. reflexivity. }
  destruct (mapM_Ok (fun c => if (c <? nc original)%nat then F c else Err IndexError) (seq 0 (nc u))) as [cols [C1 [C2 C3]]].
  { intros c Hcc. apply in_seq in Hcc. rewrite (proj2 (Nat.ltb_lt _ _)) by lia. destruct (I c) as [r [R _]]; [lia|]. eauto. }
  exists cols. rewrite seq_length in *. split; [exact C1|]. split; [exact C2|]. intros k c Hk Hcc y.
  specialize (C3 c O [] Hcc). rewrite seq_nth in C3 by exact Hcc. cbn [Nat.add] in C3. rewrite (proj2 (Nat.ltb_lt _ _)) in C3 by lia.
  destruct (I c Hcc) as [r [R1 [R2 R3]]]. rewrite R1 in C3. injection C3 as C3. destruct (K k c Hk Hcc) as [p [P1 [P2 P3]]].
  assert (Ey : y = nth p (col c) 0) by (unfold y; rewrite <- C3; specialize (R3 k Hk); congruence).
  pose proof (nth_sorted n (fun i => get original i c) p P1) as S. cbv zeta in S. fold (col c) in S. rewrite <- Ey in S. split.
  - assert (In y (map (fun i => get original i c) (seq 0 n))). { eapply Permutation_in; [apply Permutation_sym, sort_perm|]. fold (col c). rewrite Ey. apply nth_In. rewrite Lc. exact P1. }
    apply in_map_iff in H. destruct H as [i [E Hi]]. apply in_seq in Hi. exists i. split; [lia|symmetry; exact E].
  - destruct S as [S1 S2]. apply le_INR in S1. apply (le_INR (Datatypes.S p)) in S2. rewrite S_INR in S2. lra.
Qed.
Print Assumptions C54_to_marginals.
(** and increases with u *)
Lemma quantile_mono n (x : nat -> R) t t' y y' : t <= t' ->
  INR (count (fun i => Rltb (x i) y) (seq 0 n)) <= t < INR (count (fun i => Rleb (x i) y) (seq 0 n)) ->
  INR (count (fun i => Rltb (x i) y') (seq 0 n)) <= t' < INR (count (fun i => Rleb (x i) y') (seq 0 n)) -> y <= y'.
Proof.
  intros Ht [H1 H2] [H3 H4]. destruct (Rle_dec y y') as [|Hlt]; [assumption|]. exfalso.
  assert (count (fun i => Rleb (x i) y') (seq 0 n) <= count (fun i => Rltb (x i) y) (seq 0 n))%nat.
  { apply count_mono. intros i _ E. apply Rleb_true in E. apply Rltb_true. lra. }
  apply le_INR in H. lra.
Qed.
Theorem C54_monotone : forall u original cols, (0 < nr original)%nat -> (nc u <= nc original)%nat ->
  (forall k c, (k < nr u)%nat -> (c < nc u)%nat -> 0 <= get u k c < 1) -> to_marginals u original = Ok cols ->
  forall k k' c, (k < nr u)%nat -> (k' < nr u)%nat -> (c < nc u)%nat -> get u k c <= get u k' c -> nth k (nth c cols []) 0 <= nth k' (nth c cols []) 0.
Proof.
  intros u original cols Hn Hc Hu E k k' c Hk Hk' Hcc Hle. destruct (C54_to_marginals u original Hn Hc Hu) as [cols' [E' [_ P]]]. assert (cols' = cols) by congruence. subst cols'.
  destruct (P k c Hk Hcc) as [_ Q]. destruct (P k' c Hk' Hcc) as [_ Q']. refine (quantile_mono (nr original) (fun i => get original i c) _ _ _ _ _ Q Q').
  apply Rmult_le_compat_r; [apply pos_INR|exact Hle].
Qed.
Print Assumptions C54_monotone.
(** the documented end point u = 1 is out of range *)
Theorem C54_one_refuted : forall u original k c, (k < nr u)%nat -> (c < nc u)%nat -> get u k c = 1 -> to_marginals u original = Err IndexError.
Proof.
  intros u original k c Hk Hc E. unfold to_marginals.
  assert (G : forall {A B} (f : A -> result B) l x, (forall x e, In x l -> f x = Err e -> e = IndexError) -> In x l -> f x = Err IndexError -> mapM f l = Err IndexError).
  { intros A B f l x. induction l as [|y l IH]; intros He [] Hx; cbn [mapM].
    - subst. rewrite Hx. reflexivity.
    - destruct (f y) as [b|e0] eqn:Ey; cbn [bind]; [|f_equal; apply (He y); [left; reflexivity|exact Ey]]. rewrite IH; [reflexivity| |exact H|exact Hx]. intros x' e' Hx' He'. apply (He x'); [right; exact Hx'|exact He']. }
  assert (T : forall s z e, take s z = Err e -> e = IndexError). { intros s z e0. unfold take. destruct (_ && _); [discriminate|]. destruct (_ && _); [discriminate|]. intros [= <-]. reflexivity. }
  assert (M : forall {A B} (f : A -> result B) l e, (forall x e, f x = Err e -> e = IndexError) -> mapM f l = Err e -> e = IndexError).
  { intros A B f l e0 Hf. induction l as [|y l IH]; cbn [mapM]; [discriminate|]. destruct (f y) eqn:Ey; cbn [bind]; [|intros [= <-]; apply (Hf y); exact Ey]. destruct (mapM f l); cbn [bind]; [discriminate|]. intros [= ->]. apply IH. reflexivity. }
  apply (G _ _ _ _ c).
  - intros x e0 _. destruct (x <? nc original)%nat; [|intros [= <-]; reflexivity]. apply M. intros; eapply T; eassumption.
  - apply in_seq. lia.
  - destruct (c <? nc original)%nat; [|reflexivity]. apply (G _ _ _ _ k); [intros; eapply T; eassumption|apply in_seq; lia|]. rewrite E, Rmult_1_l.
    rewrite (Int_part_unique (INR (nr original)) (Z.of_nat (nr original))) by (rewrite <- INR_IZR_INZ; lra). unfold take. rewrite sort_length, map_length, seq_length.
    rewrite Z.ltb_irrefl, andb_false_r. rewrite (proj2 (Z.ltb_ge (Z.of_nat (nr original)) 0)) by lia. rewrite andb_false_r. reflexivity.
Qed.
Print Assumptions C54_one_refuted.
(** applied to the pseudo-observations of the data, whatever the ties, it gives back the data: for every method but dense *)
Theorem C54_round_trip : forall original ties uu, (0 < nr original)%nat -> pseudo_obs Rleb original ties = Ok uu -> lower ties <> "dense"%string ->
  exists cols, to_marginals (mkMat (nr uu) (nc uu) (fun i j => Q2R (get uu i j))) original = Ok cols /\ length cols = nc original /\
  forall i c, (i < nr original)%nat -> (c < nc original)%nat -> nth i (nth c cols []) 0 = get original i c.
Proof.
  intros original ties uu Hn Hp Hd. destruct (pseudo_obs_Ok Rleb _ _ _ Hp) as [t [Ht [N1 [N2 Hg]]]].
  set (e := mkEmp original "none" ties 0). assert (D : documented ties).
  { destruct (in_dec string_dec (lower ties) ["average"; "min"; "max"; "dense"; "ordinal"]%string) as [H|H]; [exact H|]. rewrite (parse_ties_err ties H) in Ht. discriminate. }
  assert (Q : forall i j, Q2R (get uu i j) = Q2R (rankdata Rleb t (nr original) (fun k => get original k j) i) / (INR (nr original) + 1)) by (intros; apply (Q2R_pobs e uu t i j Hp Ht)).
  assert (Hn' : 0 < INR (nr original)) by (apply lt_INR in Hn; exact Hn).
  assert (R : forall i j, (i < nr original)%nat -> 0 <= Q2R (get uu i j) < 1).
  { intros i j Hi. rewrite Q. pose proof (rank_R t (nr original) (fun k => get original k j) i Hi) as [R1 R2]. split; [apply Rdiv_le_0_compat; lra|].
    apply (Rmult_lt_reg_r (INR (nr original) + 1)); [lra|]. unfold Rdiv. rewrite Rmult_assoc, Rinv_l by lra. lra. }
  destruct (C54_to_marginals (mkMat (nr uu) (nc uu) (fun i j => Q2R (get uu i j))) original Hn) as [cols [E [L P]]]; [cbn [nc]; lia|cbn [nr nc get]; intros; apply R; lia|].
  exists cols. split; [exact E|]. cbn [nc nr get] in *. split; [lia|]. intros i c Hi Hc. destruct (P i c) as [_ B]; [lia|lia|]. cbv zeta in B.
  set (n := nr original) in *. set (x := fun k => get original k c). set (r := Q2R (rankdata Rleb t n x i)).
  assert (Er : Q2R (get uu i c) * INR n = r - r / (INR n + 1)) by (rewrite Q; fold n x r; field; lra).
  pose proof (rank_R t n x i Hi) as RR. fold r in RR. assert (F : 0 < r / (INR n + 1) < 1).
  { split; [apply Rdiv_lt_0_compat; lra|]. apply (Rmult_lt_reg_r (INR n + 1)); [lra|]. unfold Rdiv. rewrite Rmult_assoc, Rinv_l by lra. lra. }
  assert (E1 : forall y, count (fun k => Rltb (x k) y) (seq 0 n) = count (fun k => M_Rank.ltb Rleb (x k) y) (seq 0 n)).
  { intros y. unfold count. f_equal. apply filter_ext. intros k. unfold M_Rank.ltb. destruct (Rltb (x k) y) eqn:E1; [apply Rltb_true in E1|apply Rltb_false in E1]; destruct (Rleb y (x k)) eqn:E2; [apply Rleb_true in E2| |reflexivity|apply Rleb_false in E2]; try reflexivity; lra. }
  (* the rank lies between the first and the last position of the value *)
  assert (Bn : INR (n_lt Rleb n x i) + 1 <= r <= INR (n_le Rleb n x i)).
  { assert (Er2 : r = INR (r2 Rleb t n x i) / 2).
    { unfold r. rewrite (Qeq_eqR _ _ (rankdata_r2 Rleb t n x i)), Q2R_div by discriminate. unfold Q2R, inject_Z. cbn [Qnum Qden]. rewrite <- INR_IZR_INZ. cbn. field. }
    assert (Nat2 : (2 * n_lt Rleb n x i + 2 <= r2 Rleb t n x i <= 2 * n_le Rleb n x i)%nat).
    { pose proof (n_lt_lt_n_le Rleb Rleb_preorder n x i Hi). destruct t; cbn [r2]; try lia.
      - exfalso. apply Hd. revert Ht. unfold parse_ties. destruct (String.eqb (lower ties) "average"); [discriminate|]. destruct (String.eqb (lower ties) "min"); [discriminate|].
        destruct (String.eqb (lower ties) "max"); [discriminate|]. destruct (String.eqb (lower ties) "dense") eqn:Ed; [intros _; apply String.eqb_eq; exact Ed|]. destruct (String.eqb (lower ties) "ordinal"); discriminate.
      - pose proof (ordinal_position Rleb Rleb_preorder n x _ i (sort_column n x) Hi) as O. apply (position_iff Rleb Rleb_preorder n x _ _ _ (sort_column n x)) in O. unfold ordn in O. unfold n_lt, n_le in *. lia. }
    destruct Nat2 as [A1 A2]. apply le_INR in A1. apply le_INR in A2. rewrite plus_INR, mult_INR in A1. rewrite mult_INR in A2. cbn in A1, A2. rewrite Er2. lra. }
  apply Rle_antisym.
  - refine (quantile_mono n x (Q2R (get uu i c) * INR n) (Q2R (get uu i c) * INR n) _ _ (Rle_refl _) B _). rewrite E1. fold (x i). fold (n_lt Rleb n x i) (n_le Rleb n x i). rewrite Er. lra.
  - refine (quantile_mono n x (Q2R (get uu i c) * INR n) (Q2R (get uu i c) * INR n) _ _ (Rle_refl _) _ B). rewrite E1. fold (x i). fold (n_lt Rleb n x i) (n_le Rleb n x i). rewrite Er. lra.
Qed.
Print Assumptions C54_round_trip.
(** dense ranks leave the upper end of the data unused: the largest of three values with a tie below comes back as the smallest *)
Theorem C54_dense_refuted : forall a b, a < b ->
  let original := mkMat 3 1 (fun i _ => if Nat.eqb i 2 then b else a) in
  exists uu cols, pseudo_obs Rleb original "dense" = Ok uu /\
    to_marginals (mkMat (nr uu) (nc uu) (fun i j => Q2R (get uu i j))) original = Ok cols /\ get original 2%nat 0%nat = b /\ nth 2 (nth 0 cols []) 0 = a.
Proof.
  intros a b H original. set (x := fun k => get original k 0%nat).
  assert (Hp : pseudo_obs Rleb original "dense" = Ok (mkMat 3 1 (fun i j => (rankdata Rleb Dense 3 (fun k => get original k j) i / inject_Z (Z.of_nat 4))%Q))) by reflexivity.
  assert (R2 : Q2R (rankdata Rleb Dense 3 x 2 / inject_Z (Z.of_nat 4)) = / 2).
  { assert (E : rankdata Rleb Dense 3 x 2 = inject_Z 2).
    { unfold rankdata, count, first_occ, M_Rank.ltb, M_Rank.eqb, x. cbn [seq filter original get Nat.eqb existsb].
      rewrite (proj2 (Rleb_false b a) H), (proj2 (Rleb_true a a)), (proj2 (Rleb_true b b)) by lra. reflexivity. }
    rewrite E. unfold Q2R. cbn. lra. }
  assert (B : forall i, (i < 3)%nat -> 0 <= Q2R (rankdata Rleb Dense 3 x i / inject_Z (Z.of_nat 4)) < 1).
  { intros i Hi. destruct (pobs_range Rleb Rleb_preorder original "dense" _ Hp i 0%nat Hi) as [Q1 Q2]. cbn [get] in Q1, Q2. apply Qlt_Rlt in Q1. apply Qlt_Rlt in Q2. rewrite RMicromega.Q2R_0 in Q1. rewrite RMicromega.Q2R_1 in Q2. fold x in Q1, Q2. lra. }
  eexists. destruct (C54_to_marginals (mkMat 3 1 (fun i j => Q2R (rankdata Rleb Dense 3 (fun k => get original k j) i / inject_Z (Z.of_nat 4)))) original) as [cols [E [_ P]]].
  - cbn. lia.
  - cbn. lia.
  - cbn [nr nc get]. intros k c Hk Hc. assert (c = 0)%nat by lia. subst c. apply B. exact Hk.
  - exists cols. split; [exact Hp|]. split; [exact E|]. split; [reflexivity|]. destruct (P 2%nat 0%nat) as [[i [Hi Ey]] [Q _]]; [cbn; lia|cbn; lia|]. cbv zeta in *. 
    set (y := nth 2 (nth 0 cols []) 0) in *. cbn [get] in Q. fold x in Q. rewrite R2 in Q.
    destruct (Nat.eqb i 2) eqn:Ei; cbn [get original] in Ey; rewrite Ei in Ey; [|exact Ey]. exfalso. rewrite Ey in Q. unfold count in Q.
    cbn [nr original seq filter get Nat.eqb] in Q. rewrite (proj2 (Rltb_true a b) H), (proj2 (Rltb_false b b)) in Q by lra. cbn in Q. lra.
Qed.
Print Assumptions C54_dense_refuted.
Example C54_case : exists uu, pseudo_obs Rleb (mkMat 2 1 (fun i _ => INR i)) "average" = Ok uu /\ (0 < 2)%nat.
Proof. eexists. split; [reflexivity|lia]. Qed.

(** * C73: the density of the beta smoothed copula *)
Section Pdf.
  Variables (btdtr beta_pdf : R -> R -> R -> R) (beta_logpdf : R -> R -> R -> ext).
  Hypothesis Hb : computes_beta_distribution btdtr.
  Hypothesis Hd : computes_beta_density beta_pdf.
  Hypothesis Hl : computes_beta_log_density beta_logpdf.
  Variable e : empirical.
  Hypothesis He : usable e.
  Let n := nr (e_data e). Let d := nc (e_data e).
  Let C := at_point (fun u => emp_cdf btdtr e u false).
  Let pdf := at_point (fun u => emp_pdf beta_pdf beta_logpdf e u false).
  Let logpdf := at_point (fun u => emp_pdf beta_pdf beta_logpdf e u true).

  (** only the beta copula has one *)
  Theorem C73_only_beta : e_smoothing e <> "beta" -> forall u log, emp_pdf beta_pdf beta_logpdf e u log = Err AssertionError.
  Proof. intros H u log. unfold emp_pdf. rewrite (proj2 (String.eqb_neq _ _) H). reflexivity. Qed.

  Hypothesis Hs : e_smoothing e = "beta".
  Definition rk (t : ties) (i j : nat) : R := Q2R (rankdata Rleb t n (fun k => get (e_data e) k j) i).
  Definition dens (t : ties) (i j : nat) (v : R) : R := beta_density (rk t i j) (INR n + 1 - rk t i j) v.
  Definition dist (t : ties) (i j : nat) (v : R) : R := beta_distribution (rk t i j) (INR n + 1 - rk t i j) v.
  Lemma rk_range t i j : (i < n)%nat -> 1 <= rk t i j <= INR n. Proof. apply rank_R. Qed.
  Lemma n_off : 0 < INR n + e_offset e.
  Proof. destruct He as [N [_ [_ [_ O]]]]. apply lt_INR in N. cbn in N. fold n in N. lra. Qed.
  Lemma pdf_at t l : parse_ties (e_ties e) = Ok t -> unit_cube l -> length l = d ->
    pdf l = Fin (rsum n (fun i => lprod (map (fun j => dens t i j (nth j l 0)) (seq 0 d))) / (INR n + e_offset e)).
  Proof.
    intros Ht U L. unfold pdf, at_point, emp_pdf. rewrite Hs. cbn [String.eqb Ascii.eqb Bool.eqb negb]. unfold rank_data2. rewrite Ht. cbn [bind one_row nr seq map get].
    unfold edivide. pose proof n_off as P. fold n d. rewrite (proj2 (Reqb_false _ 0)) by lra. do 2 f_equal. rewrite rsum_lsum. apply lsum_map_ext. intros i Hi. apply in_seq in Hi.
    apply lprod_map_ext. intros j Hj. pose proof (rk_range t i j ltac:(lia)) as B. unfold rk in B. fold (rk t i j) in *. apply Hd; [lra|lra|apply nth_cube, U].
  Qed.
  Lemma cdf_at t l : parse_ties (e_ties e) = Ok t -> unit_cube l -> length l = d ->
    C l = Fin (rsum n (fun i => lprod (map (fun j => dist t i j (nth j l 0)) (seq 0 d))) / (INR n + e_offset e)).
  Proof.
    intros Ht U L. unfold C. rewrite point_eq by assumption. fold n d. do 2 f_equal. unfold mix. apply rsum_ext. intros i Hi. apply lprod_map_ext. intros j Hj.
    unfold g_of, factor. rewrite Hs. cbn [String.eqb Ascii.eqb Bool.eqb]. unfold emp_beta_cop. rewrite (pobs_rank e t i j He Ht). fold n. fold (rk t i j).
    pose proof (rk_range t i j Hi) as B. assert (0 < INR n + 1) by lra. replace (rk t i j / (INR n + 1) * (INR n + 1)) with (rk t i j) by (field; lra).
    replace ((INR n + 1) * (1 - rk t i j / (INR n + 1))) with (INR n + 1 - rk t i j) by (field; lra). apply Hb; [lra|lra|apply nth_cube, U].
  Qed.
  Lemma interior_cube l : interior l -> unit_cube l.
  Proof. intros H. eapply Forall_impl; [|exact H]. cbn. intros; lra. Qed.
  Lemma set_nth_length k t l : length (set_nth k t l) = length l.
  Proof. unfold set_nth. rewrite map_length, seq_length. reflexivity. Qed.
  Lemma set_nth_nth k t l j : (j < length l)%nat -> nth j (set_nth k t l) 0 = if Nat.eqb j k then t else nth j l 0.
  Proof.
    intros H. unfold set_nth. rewrite (nth_indep _ 0 ((fun j => if Nat.eqb j k then t else nth j l 0) O)) by (rewrite map_length, seq_length; exact H).
    rewrite (map_nth (fun j => if Nat.eqb j k then t else nth j l 0)), seq_nth by exact H. reflexivity.
  Qed.
  Lemma is_derive_rsum (f : nat -> R -> R) (f' : nat -> R) x : forall m, (forall i, (i < m)%nat -> is_derive (f i) x (f' i)) -> is_derive (fun t => rsum m (fun i => f i t)) x (rsum m f').
  Proof.
    induction m as [|m IH]; intros H; cbn [rsum]; [apply (@is_derive_const R_AbsRing R_NormedModule)|].
    apply (@is_derive_plus R_AbsRing R_NormedModule (fun t => rsum m (fun i => f i t)) (f m)); [apply IH; intros; apply H; lia|apply H; lia].
  Qed.
  Lemma lprod_split (f : nat -> R) m k : (k < m)%nat -> lprod (map f (seq 0 m)) = lprod (map f (seq 0 k)) * f k * lprod (map f (seq (Datatypes.S k) (m - Datatypes.S k))).
  Proof.
    intros H. replace m with (k + Datatypes.S (m - Datatypes.S k))%nat at 1 by lia. rewrite seq_app, map_app, lprod_app. cbn [Nat.add seq map lprod]. ring.
  Qed.
  (** the density is the mixed partial derivative of the distribution function *)
  Theorem C73_density : mixed_derivative d (fun l => number (C l)) (fun l => number (pdf l)).
  Proof.
    destruct (usable_ties e He) as [t [uu [Ht Hu]]].
    exists (fun k l => rsum n (fun i => lprod (map (fun j => if (j <? k)%nat then dens t i j (nth j l 0) else dist t i j (nth j l 0)) (seq 0 d))) / (INR n + e_offset e)).
    split; [|split].
    - intros l L I. rewrite (cdf_at t l Ht (interior_cube l I) L). reflexivity.
    - intros l L I. rewrite (pdf_at t l Ht (interior_cube l I) L). cbn [number]. f_equal. apply rsum_ext. intros i Hi. apply lprod_map_ext. intros j Hj. apply in_seq in Hj. rewrite (proj2 (Nat.ltb_lt j d)) by lia. reflexivity.
    - intros k l Hk L I.
      set (A := fun i => lprod (map (fun j => if (j <? k)%nat then dens t i j (nth j l 0) else dist t i j (nth j l 0)) (seq 0 k))).
      set (B := fun i => lprod (map (fun j => if (j <? k)%nat then dens t i j (nth j l 0) else dist t i j (nth j l 0)) (seq (Datatypes.S k) (d - Datatypes.S k)))).
      apply (is_derive_ext (fun x => scal (/ (INR n + e_offset e)) (rsum n (fun i => scal (A i * B i) (dist t i k x))))).
      { intros x. unfold scal; cbn -[rsum Nat.ltb seq Nat.sub lprod]. unfold mult; cbn -[rsum Nat.ltb seq Nat.sub lprod]. rewrite Rmult_comm. unfold Rdiv. f_equal. apply rsum_ext. intros i Hi.
        rewrite (lprod_split _ d k Hk). cbv beta. rewrite (Nat.ltb_irrefl k). rewrite set_nth_nth, Nat.eqb_refl by lia. unfold A, B.
        replace (map (fun j => if (j <? k)%nat then dens t i j (nth j (set_nth k x l) 0) else dist t i j (nth j (set_nth k x l) 0)) (seq 0 k)) with (map (fun j => if (j <? k)%nat then dens t i j (nth j l 0) else dist t i j (nth j l 0)) (seq 0 k)).
        2:{ apply map_ext_in. intros j Hj. apply in_seq in Hj. rewrite set_nth_nth by lia. rewrite (proj2 (Nat.eqb_neq j k)) by lia. reflexivity. }
        replace (map (fun j => if (j <? k)%nat then dens t i j (nth j (set_nth k x l) 0) else dist t i j (nth j (set_nth k x l) 0)) (seq (Datatypes.S k) (d - Datatypes.S k))) with (map (fun j => if (j <? k)%nat then dens t i j (nth j l 0) else dist t i j (nth j l 0)) (seq (Datatypes.S k) (d - Datatypes.S k))).
        2:{ apply map_ext_in. intros j Hj. apply in_seq in Hj. rewrite set_nth_nth by lia. rewrite (proj2 (Nat.eqb_neq j k)) by lia. reflexivity. }
        ring. }
      replace (rsum n (fun i => lprod (map (fun j => if (j <? Datatypes.S k)%nat then dens t i j (nth j l 0) else dist t i j (nth j l 0)) (seq 0 d))) / (INR n + e_offset e))
        with (scal (/ (INR n + e_offset e)) (rsum n (fun i => scal (A i * B i) (dens t i k (nth k l 0))))).
      + apply is_derive_scal. apply (is_derive_rsum (fun i x => scal (A i * B i) (dist t i k x))). intros i Hi. apply is_derive_scal. unfold dist, dens. pose proof (rk_range t i k Hi). apply bd_derive; lra.
      + unfold scal; cbn -[rsum Nat.ltb seq Nat.sub lprod]. unfold mult; cbn -[rsum Nat.ltb seq Nat.sub lprod]. rewrite Rmult_comm. unfold Rdiv. f_equal. apply rsum_ext. intros i Hi. rewrite (lprod_split _ d k Hk). cbv beta.
        rewrite (proj2 (Nat.ltb_lt k (Datatypes.S k))) by lia. unfold A, B.
        replace (map (fun j => if (j <? Datatypes.S k)%nat then dens t i j (nth j l 0) else dist t i j (nth j l 0)) (seq 0 k)) with (map (fun j => if (j <? k)%nat then dens t i j (nth j l 0) else dist t i j (nth j l 0)) (seq 0 k)).
        2:{ apply map_ext_in. intros j Hj. apply in_seq in Hj. rewrite (proj2 (Nat.ltb_lt j k)), (proj2 (Nat.ltb_lt j (Datatypes.S k))) by lia. reflexivity. }
        replace (map (fun j => if (j <? Datatypes.S k)%nat then dens t i j (nth j l 0) else dist t i j (nth j l 0)) (seq (Datatypes.S k) (d - Datatypes.S k))) with (map (fun j => if (j <? k)%nat then dens t i j (nth j l 0) else dist t i j (nth j l 0)) (seq (Datatypes.S k) (d - Datatypes.S k))).
        2:{ apply map_ext_in. intros j Hj. apply in_seq in Hj. rewrite (proj2 (Nat.ltb_ge j k)), (proj2 (Nat.ltb_ge j (Datatypes.S k))) by lia. reflexivity. }
        ring.
  Qed.
  (** with log=True the logarithm of the density comes back at every interior point *)
  Lemma exp_lsum_ln l : Forall (fun x => 0 < x) l -> exp (lsum (map ln l)) = lprod l.
  Proof. induction 1 as [|x l Hx _ IH]; cbn [map lsum lprod]; [apply exp_0|]. rewrite exp_plus, IH, exp_ln by exact Hx. reflexivity. Qed.
  Theorem C73_log : forall l, interior l -> length l = d -> logpdf l = elog (pdf l) /\ exists p, pdf l = Fin p /\ 0 < p.
  Proof.
    intros l I L. destruct (usable_ties e He) as [t [uu [Ht Hu]]]. pose proof (interior_cube l I) as U. pose proof n_off as P.
    assert (N : (0 < n)%nat) by apply He.
    assert (D : forall i j, (i < n)%nat -> In j (seq 0 d) -> 0 < dens t i j (nth j l 0)).
    { intros i j Hi Hj. apply in_seq in Hj. unfold dens, beta_density. pose proof (rk_range t i j Hi). apply Rdiv_lt_0_compat; [|apply beta_function_pos; lra].
      apply kernel_pos. unfold interior in I. rewrite Forall_forall in I. apply I, nth_In. lia. }
    set (w := fun i => lprod (map (fun j => dens t i j (nth j l 0)) (seq 0 d))).
    assert (Wp : forall i, (i < n)%nat -> 0 < w i).
    { intros i Hi. unfold w. assert (forall js, (forall j, In j js -> In j (seq 0 d)) -> 0 < lprod (map (fun j => dens t i j (nth j l 0)) js)); [|auto].
      induction js as [|j js IH]; intros Hj; cbn [map lprod]; [lra|]. apply Rmult_lt_0_compat; [apply D; [exact Hi|apply Hj; left; reflexivity]|apply IH; intros; apply Hj; right; assumption]. }
    assert (Sp : 0 < rsum n w) by (apply rsum_pos; [intros; left; apply Wp; assumption|exists O; split; [exact N|apply Wp, N]]).
    rewrite (pdf_at t l Ht U L). fold w. split; [|eexists; split; [reflexivity|apply Rdiv_lt_0_compat; assumption]].
    rewrite elog_pos by (apply Rdiv_lt_0_compat; assumption).
    unfold logpdf, at_point, emp_pdf. rewrite Hs. cbn [String.eqb Ascii.eqb Bool.eqb negb]. unfold rank_data2. rewrite Ht. cbn [bind one_row nr seq mapM get]. fold n d.
    assert (E : map (fun i => esum (map (fun j => beta_logpdf (Q2R (rankdata Rleb t n (fun k => get (e_data e) k j) i)) (INR n + 1 - Q2R (rankdata Rleb t n (fun k => get (e_data e) k j) i)) (nth j l 0)) (seq 0 d))) (seq 0 n)
      = map Fin (map (fun i => lsum (map ln (map (fun j => dens t i j (nth j l 0)) (seq 0 d)))) (seq 0 n))).
    { rewrite map_map. apply map_ext_in. intros i Hi. apply in_seq in Hi. rewrite <- esum_fin. f_equal. rewrite !map_map. apply map_ext_in. intros j Hj.
      pose proof (rk_range t i j ltac:(lia)) as B. unfold rk in B. rewrite Hl by (lra || apply nth_cube, U). apply elog_pos. apply D; [lia|exact Hj]. }
    rewrite E. rewrite log_sum_col_ok; [|intros Z; apply (f_equal (@length R)) in Z; rewrite map_length, seq_length in Z; cbn in Z; lia|left; reflexivity].
    cbn [rmap bind]. rewrite (elog_pos (INR n + e_offset e) P). cbn [esub eopp eadd]. f_equal. rewrite map_map.
    rewrite (lsum_map_ext _ w) by (intros i Hi; apply in_seq in Hi; apply exp_lsum_ln; apply Forall_forall; intros x Hx; apply in_map_iff in Hx; destruct Hx as [j [<- Hj]]; apply D; [lia|exact Hj]).
    rewrite <- rsum_lsum. unfold Rdiv. rewrite ln_mult, ln_Rinv by (try apply Rinv_0_lt_compat; assumption). reflexivity.
  Qed.
End Pdf.

(** where the density is 0 the logarithm is nan instead of -inf: two comonotone observations, at the point (0,1) *)
Lemma pw_0 p : p <> 0 -> pw 0 p = 0.
Proof. intros H. unfold pw. rewrite (proj2 (Rleb_true 0 0)), (proj2 (Reqb_false p 0) H) by lra. reflexivity. Qed.
Lemma two_ranks x : x 0%nat < x 1%nat -> Q2R (rankdata Rleb Average 2 x 0) = 1 /\ Q2R (rankdata Rleb Average 2 x 1) = 2.
Proof.
  intros H. unfold rankdata, n_le, n_lt, count, M_Rank.ltb. cbn [seq filter]. rewrite (proj2 (Rleb_false (x 1%nat) (x 0%nat)) H), (proj2 (Rleb_true (x 0%nat) (x 1%nat))), (proj2 (Rleb_true (x 0%nat) (x 0%nat))), (proj2 (Rleb_true (x 1%nat) (x 1%nat))) by lra.
  cbn [negb length Nat.add]. split; unfold Q2R; cbn; lra.
Qed.
Theorem C73_log_zero_refuted : forall beta_pdf beta_logpdf a0 a1 b0 b1, computes_beta_density beta_pdf -> computes_beta_log_density beta_logpdf -> a0 < a1 -> b0 < b1 ->
  let e := mkEmp (mkMat 2 2 (fun i j => match i, j with O, O => a0 | O, _ => b0 | _, O => a1 | _, _ => b1 end)) "beta" "average" 0 in
  usable e /\ emp_pdf beta_pdf beta_logpdf e (one_row [0; 1]) false = Ok [Fin 0] /\ emp_pdf beta_pdf beta_logpdf e (one_row [0; 1]) true = Ok [Nan].
Proof.
  intros beta_pdf beta_logpdf a0 a1 b0 b1 Hd Hl Ha Hb e.
  split. { unfold usable, e, documented, smoothed. cbn. split; [lia|]. split; [lia|]. split; [left; reflexivity|]. split; [tauto|lra]. }
  set (x0 := fun k => get (e_data e) k 0%nat). set (x1 := fun k => get (e_data e) k 1%nat).
  destruct (two_ranks x0) as [R00 R10]; [exact Ha|]. destruct (two_ranks x1) as [R01 R11]; [exact Hb|].
  assert (B12 : beta_density 1 2 1 = 0). { unfold beta_density, beta_kernel. replace (1 - 1) with 0 by ring. rewrite (pw_0 (2 - 1)) by lra. unfold Rdiv. ring. }
  assert (B21 : beta_density 2 1 0 = 0). { unfold beta_density, beta_kernel. rewrite (pw_0 (2 - 1)) by lra. unfold Rdiv. ring. }
  assert (P12 : 0 < beta_density 1 2 0).
  { unfold beta_density. apply Rdiv_lt_0_compat; [|apply beta_function_pos; lra]. unfold beta_kernel. replace (1 - 1) with (INR 0) by (cbn; ring). replace (2 - 1) with (INR 1) by (cbn; ring). rewrite !pw_nat by lra. cbn. lra. }
  assert (P21 : 0 < beta_density 2 1 1).
  { unfold beta_density. apply Rdiv_lt_0_compat; [|apply beta_function_pos; lra]. unfold beta_kernel. replace (2 - 1) with (INR 1) by (cbn; ring). replace (1 - 1) with (INR 0) by (cbn; ring). rewrite !pw_nat by (cbn; lra). cbn. lra. }
  assert (X0 : forall i, Q2R (rankdata Rleb Average 2 (fun k => match k with O => a0 | Datatypes.S _ => a1 end) i) = Q2R (rankdata Rleb Average 2 x0 i)) by reflexivity.
  assert (X1 : forall i, Q2R (rankdata Rleb Average 2 (fun k => match k with O => b0 | Datatypes.S _ => b1 end) i) = Q2R (rankdata Rleb Average 2 x1 i)) by reflexivity.
  unfold emp_pdf. cbn -[Q2R rankdata INR log_sum_col edivide esub esum].
  set (M := mkMat 2 2 _). assert (Hr : rank_data2 Rleb M 1 "average" = Ok (mkMat 2 2 (fun i j => rankdata Rleb Average 2 (fun k => get M k j) i))) by reflexivity.
  rewrite Hr. cbn [bind get]. change (fun k : nat => get M k 0%nat) with x0. change (fun k : nat => get M k 1%nat) with x1. rewrite R00, R10, R01, R11.
  replace (INR 2) with 2 by (cbn; ring). replace (2 + 1 - 1) with 2 by ring. replace (2 + 1 - 2) with 1 by ring. rewrite !Hd, !Hl by lra. rewrite B12, B21.
  rewrite (elog_pos _ P12), (elog_pos _ P21), elog_0. split.
  - do 2 f_equal. unfold edivide. rewrite (proj2 (Reqb_false (2 + 0) 0)) by lra. f_equal. unfold Rdiv. ring.
  - reflexivity.
Qed.
Print Assumptions C73_log_zero_refuted.
Example C73_case : exists btdtr beta_pdf beta_logpdf, computes_beta_distribution btdtr /\ computes_beta_density beta_pdf /\ computes_beta_log_density beta_logpdf /\ interior [/ 2; / 3].
Proof.
  exists beta_distribution, beta_density, (fun a b v => elog (Fin (beta_density a b v))). split; [intros a b v _ _ _; reflexivity|]. split; [intros a b v _ _ _; reflexivity|].
  split; [intros a b v _ _ _; reflexivity|]. repeat constructor; lra.
Qed.
(** without the hypothesis on ties C53 fails: two tied observations *)
Example C53_ties_needed : forall btdtr a, at_point (fun u => emp_cdf btdtr (mkEmp (mkMat 2 1 (fun _ _ => a)) "checkerboard" "average" 0) u false) [/ 4] = Fin 0.
Proof.
  intros btdtr a. set (e := mkEmp _ _ _ _). assert (U : usable e). { unfold usable, e, documented, smoothed. cbn. split; [lia|]. split; [lia|]. split; [left; reflexivity|]. split; [tauto|lra]. }
  rewrite (point_eq btdtr e [/ 4] U) by (reflexivity || (constructor; [lra|constructor])). 
  assert (R : forall i, (i < 2)%nat -> pobs_of e i 0 = / 2).
  { intros i Hi. rewrite (pobs_rank e Average i 0 U eq_refl). cbn [e_data e nr get].
    assert (Er : Q2R (rankdata Rleb Average 2 (fun _ => a) i) = 3 / 2).
    { unfold rankdata, n_le, n_lt, count, M_Rank.ltb. cbn [seq filter]. rewrite (proj2 (Rleb_true a a)) by lra. unfold Q2R; cbn; lra. }
    rewrite Er. cbn. lra. }
  do 2 f_equal. unfold mix, g_of. cbn [e_data e nr nc rsum seq map lprod nth]. fold e. rewrite !R by lia. unfold factor. cbn [e e_smoothing String.eqb Ascii.eqb Bool.eqb].
  unfold emp_multi_linear. replace (INR 2) with 2 by (cbn; ring). rewrite Rmax_right, Rmin_left by lra. unfold Rdiv. ring.
Qed.
Example C52_case : usable (mkEmp (mkMat 2 1 (fun i _ => INR i)) "beta" "average" 0) /\ no_ties Rleb 2 (fun k => INR k) /\ unit_cube [/ 2].
Proof.
  split; [unfold usable, documented, smoothed; cbn; split; [lia|]; split; [lia|]; split; [left; reflexivity|]; split; [tauto|lra]|].
  split; [|constructor; [lra|constructor]]. intros i k _ _ H. apply Rtied in H. apply INR_eq in H. exact H.
Qed.
Example C53_case : let e := mkEmp (mkMat 3 1 (fun i _ => INR i)) "checkerboard" "average" 0 in
  usable e /\ e_smoothing e <> "none" /\ e_offset e = 0 /\ no_ties Rleb 3 (fun k => get (e_data e) k 0%nat).
Proof.
  cbv zeta. split; [unfold usable, documented, smoothed; cbn; split; [lia|]; split; [lia|]; split; [left; reflexivity|]; split; [tauto|lra]|].
  split; [discriminate|]. split; [reflexivity|]. intros i k _ _ H. apply Rtied in H. apply INR_eq in H. exact H.
Qed.
Print Assumptions C52_row_by_row.
Print Assumptions C52_outside.
Print Assumptions C52_range.
Print Assumptions C52_monotone.
Print Assumptions C52_grounded.
Print Assumptions C52_one.
Print Assumptions C52_boxes.
Print Assumptions C52_counts.
Print Assumptions C53_uniform_margins.
Print Assumptions C73_only_beta.
Print Assumptions C73_density.
Print Assumptions C73_log.
