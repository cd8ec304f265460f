(** Densities of copulas obtained from a multivariate density by quantile transformation of the coordinates. *)
From Coquelicot Require Import Coquelicot.
From Verif Require Import Base RSumLib Ext S_Linalg S_Stats S_Empirical S_Marginal P_Marginal S_EllipDensity S_Archimedean P_GaussInt P_EllipDensity P_EllipDensity2 P_EllipDensity3.
Open Scope R_scope.

Lemma lprod_pos l : Forall (fun x => 0 < x) l -> 0 < lprod l.
Proof. induction 1 as [|x l H _ IH]; [cbn; lra|]. cbn. apply Rmult_lt_0_compat; assumption. Qed.
Lemma firstn_S_nth (l : list R) : forall k, (k < length l)%nat -> firstn (S k) l = firstn k l ++ [nth k l 0].
Proof.
  induction l as [|a l IH]; intros k H; cbn in H; [lia|]. destruct k; [reflexivity|]. cbn [nth]. rewrite firstn_cons, IH by lia. reflexivity.
Qed.
Lemma firstn_set_nth k t (l : list R) : firstn k (set_nth k t l) = firstn k l.
Proof.
  apply (nth_ext _ _ 0 0); [rewrite !firstn_length, set_nth_length; reflexivity|]. intros j Hj. rewrite firstn_length, set_nth_length in Hj.
  assert (N : forall (a : list R), (j < k)%nat -> nth j (firstn k a) 0 = nth j a 0).
  { clear. revert j. induction k as [|k IH]; intros j [|a r] H; try lia; try reflexivity. destruct j; [reflexivity|]. cbn. apply IH. lia. }
  rewrite !N by lia. rewrite set_nth_nth by lia. rewrite (proj2 (Nat.eqb_neq j k)) by lia. reflexivity.
Qed.
Lemma map_set_nth (g : R -> R) k t (l : list R) : map g (set_nth k t l) = set_nth k (g t) (map g l).
Proof.
  apply (nth_ext _ _ (g 0) 0); [rewrite map_length, !set_nth_length, map_length; reflexivity|]. intros j Hj. rewrite map_length, set_nth_length in Hj.
  rewrite map_nth, set_nth_nth by exact Hj. rewrite set_nth_nth by (rewrite map_length; exact Hj).
  destruct (Nat.eqb j k); [reflexivity|]. rewrite (nth_indep (map g l) 0 (g 0)) by (rewrite map_length; exact Hj). rewrite map_nth. reflexivity.
Qed.

Section Chain.
  Variables F f q : R -> R.
  Hypothesis DF : distribution F f.
  Hypothesis Hq : quantile F q.
  Lemma density_chain d M m : mixed_derivative_on (fun _ => True) d M m ->
    mixed_derivative_on interior d (fun u => M (map q u)) (fun u => m (map q u) / lprod (map f (map q u))).
  Proof.
    intros [G [G0 [G1 GS]]]. assert (Pos : forall x, 0 < f x) by apply DF.
    assert (LP : forall l, lprod (map f l) <> 0).
    { intros l. apply Rgt_not_eq, lprod_pos, Forall_forall. intros x Hx. apply in_map_iff in Hx. destruct Hx as [y [<- _]]. apply Pos. }
    exists (fun k u => G k (map q u) / lprod (map f (map q (firstn k u)))). split; [|split].
    - intros l L I. cbn [firstn map lprod]. rewrite Rdiv_1. apply G0; [rewrite map_length; exact L|exact Logic.I].
    - intros l L I. rewrite firstn_all2 by lia. rewrite G1; [reflexivity|rewrite map_length; exact L|exact Logic.I].
    - intros k l Hk L I.
      assert (In : 0 < nth k l 0 < 1). { unfold interior in I. rewrite Forall_forall in I. apply I, nth_In. lia. }
      apply (is_derive_ext (fun t => scal (/ lprod (map f (map q (firstn k l)))) (G k (set_nth k (q t) (map q l))))).
      { intros t. rewrite map_set_nth, firstn_set_nth. unfold scal; cbn; unfold mult; cbn. apply Rmult_comm. }
      rewrite firstn_S_nth by lia. rewrite !map_app. cbn [map]. rewrite lprod_app1.
      assert (Nk : nth k (map q l) 0 = q (nth k l 0)) by (rewrite (nth_indep (map q l) 0 (q 0)) by (rewrite map_length; lia); apply map_nth).
      evar_last; [apply is_derive_scal, (is_derive_comp (fun s => G k (set_nth k s (map q l))) q); [|apply (quantile_derive F f DF q Hq _ In)]|].
      + rewrite <- Nk. apply GS; [exact Hk|rewrite map_length; exact L|exact Logic.I].
      + unfold scal; cbn; unfold mult; cbn. pose proof (LP (firstn k (map q l))). pose proof (LP (map q (firstn k l))). pose proof (Pos (q (nth k l 0))). field. split; [lra|].
        apply LP.
  Qed.
End Chain.

(** the integral of the conditional density over (0, 1) *)
Section Mass.
  Variables F f F1 f1 sl q : R -> R.
  Variable rho : R.
  Hypothesis DF : distribution F f.
  Hypothesis DF1 : distribution F1 f1.
  Hypothesis sl_pos : forall x, 0 < sl x.
  Hypothesis Hq : quantile F q.
  (** [h]: any density in place of the margin at the fixed coordinate *)
  Lemma conditional_mass (g : R -> R) (A : R) u :
    (forall v, 0 < v < 1 -> g v = A * (f1 (kz sl rho (q u) (q v)) * sl (q u) / f (q v))) ->
    is_RInt_gen g (at_right 0) (at_left 1) A.
  Proof.
    intros E. destruct DF1 as [D1 [P1 [C1 _]]]. destruct DF as [D [P [C _]]].
    set (H := fun v => A * F1 (kz sl rho (q u) (q v))).
    assert (DH : forall v, 0 < v < 1 -> is_derive H v (g v)).
    { intros v Hv. unfold H. rewrite (E v Hv). apply (is_derive_scal (fun v => F1 (kz sl rho (q u) (q v))) v A). pose proof (P (q v)).
      evar_last; [apply (is_derive_comp (fun y => F1 (kz sl rho (q u) y)) q); [apply (is_derive_comp F1 (kz sl rho (q u))); [apply D1|apply kz_derive]|apply (quantile_derive F f DF q Hq v Hv)]|].
      unfold scal; cbn; unfold mult; cbn. field. lra. }
    assert (IN : filter_prod (at_right 0) (at_left 1) (fun ab : R * R => 0 < fst ab < 1 /\ 0 < snd ab < 1)).
    { apply (Filter_prod _ _ _ (fun a => 0 < a < 1) (fun b => 0 < b < 1)).
      - exists (mkposreal 1 Rlt_0_1). intros a Ha L. apply Rabs_def2 in Ha. cbn in Ha. unfold minus, plus, opp in Ha; cbn in Ha. lra.
      - exists (mkposreal 1 Rlt_0_1). intros b Hb L. apply Rabs_def2 in Hb. cbn in Hb. unfold minus, plus, opp in Hb; cbn in Hb. lra.
      - intros a b Ha Hb. split; assumption. }
    assert (BT : forall (ab : R * R) x, 0 < fst ab < 1 /\ 0 < snd ab < 1 -> Rmin (fst ab) (snd ab) <= x <= Rmax (fst ab) (snd ab) -> 0 < x < 1).
    { intros [a b] x [Ha Hb] Hx. cbn [fst snd] in *. pose proof (Rmin_glb_lt a b 0 ltac:(lra) ltac:(lra)). pose proof (Rmax_lub_lt a b 1 ltac:(lra) ltac:(lra)). lra. }
    assert (CG : forall v, 0 < v < 1 -> continuous (Derive H) v).
    { intros v Hv. apply (continuous_ext_loc (Derive H) (fun v => A * (f1 (kz sl rho (q u) (q v)) * sl (q u) / f (q v))) v).
      - assert (Ep : 0 < Rmin v (1 - v)) by (apply Rmin_pos; lra). exists (mkposreal _ Ep). intros w Hw. apply Rabs_def2 in Hw. unfold minus, plus, opp in Hw; cbn in Hw.
        pose proof (Rmin_l v (1 - v)). pose proof (Rmin_r v (1 - v)). rewrite <- (E w) by lra. symmetry. apply is_derive_unique, DH. lra.
      - assert (Cq : continuous q v) by (apply (ex_derive_continuous (V := R_NormedModule)); eexists; apply (quantile_derive F f DF q Hq v Hv)).
        apply (continuous_mult (fun _ => A) (fun v => f1 (kz sl rho (q u) (q v)) * sl (q u) / f (q v))); [apply continuous_const|].
        apply (continuous_mult (fun v => f1 (kz sl rho (q u) (q v)) * sl (q u)) (fun v => / f (q v))).
        + apply (continuous_mult (fun v => f1 (kz sl rho (q u) (q v))) (fun _ => sl (q u))); [|apply continuous_const].
          apply (continuous_comp (fun v => kz sl rho (q u) (q v)) f1); [|apply C1]. apply (continuous_comp q (kz sl rho (q u))); [exact Cq|].
          apply (ex_derive_continuous (V := R_NormedModule)). eexists. apply kz_derive.
        + apply (continuous_comp (fun v => f (q v)) Rinv); [apply (continuous_comp q f); [exact Cq|apply C]|]. apply continuous_Rinv. apply Rgt_not_eq, P. }
    replace A with (A - 0) by ring.
    apply (is_RInt_gen_ext (Derive H)).
    { apply filter_imp with (2 := IN). intros ab I x Hx. apply is_derive_unique. apply DH. apply (BT ab x I). lra. }
    apply (is_RInt_gen_Derive H 0 A).
    - apply filter_imp with (2 := IN). intros ab I x Hx. eexists. apply DH, (BT ab x I Hx).
    - apply filter_imp with (2 := IN). intros ab I x Hx. apply CG, (BT ab x I Hx).
    - intros Q [eps HQ]. pose proof (Rabs_pos A) as PA.
      destruct (kernel_lim_0 F f F1 f1 sl q rho DF DF1 sl_pos Hq u (eps / (1 + Rabs A))) as [d [Hd K]]; [apply Rdiv_lt_0_compat; [apply cond_pos|lra]|].
      exists (mkposreal d Hd). intros y Hy L. apply HQ. apply Rabs_def2 in Hy. unfold minus, plus, opp in Hy; cbn in Hy. specialize (K y ltac:(lra)).
      change (Rabs (H y - 0) < eps). unfold H. rewrite Rminus_0_r in *. rewrite Rabs_mult.
      apply Rle_lt_trans with (Rabs A * (eps / (1 + Rabs A))); [apply Rmult_le_compat_l; [exact PA|left; exact K]|].
      apply Rmult_lt_reg_r with (1 + Rabs A); [lra|]. pose proof (cond_pos eps). replace (Rabs A * (eps / (1 + Rabs A)) * (1 + Rabs A)) with (Rabs A * eps) by (field; lra). nra.
    - intros Q [eps HQ]. pose proof (Rabs_pos A) as PA.
      destruct (kernel_lim_1 F f F1 f1 sl q rho DF DF1 sl_pos Hq u (eps / (1 + Rabs A))) as [d [Hd K]]; [apply Rdiv_lt_0_compat; [apply cond_pos|lra]|].
      exists (mkposreal d Hd). intros y Hy L. apply HQ. apply Rabs_def2 in Hy. unfold minus, plus, opp in Hy; cbn in Hy. specialize (K y ltac:(lra)).
      change (Rabs (H y - A) < eps). unfold H. replace (A * F1 (kz sl rho (q u) (q y)) - A) with (A * (F1 (kz sl rho (q u) (q y)) - 1)) by ring. rewrite Rabs_mult.
      apply Rle_lt_trans with (Rabs A * (eps / (1 + Rabs A))); [apply Rmult_le_compat_l; [exact PA|left; exact K]|].
      apply Rmult_lt_reg_r with (1 + Rabs A); [lra|]. pose proof (cond_pos eps). replace (Rabs A * (eps / (1 + Rabs A)) * (1 + Rabs A)) with (Rabs A * eps) by (field; lra). nra.
  Qed.
End Mass.
