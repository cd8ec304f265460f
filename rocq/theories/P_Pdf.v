(** Densities: mixed derivatives of generator sums, and the logarithmic formulas of the code. *)
From Coquelicot Require Import Coquelicot.
From Verif Require Import Base RSumLib Ext S_Archimedean P_Gen M_Archimedean P_Arch P_Arch2 P_CM P_ArchCode M_Special S_Special P_Stirling P_Partitions P_Eulerian P_Polylog M_Gumbel S_Gumbel P_Gumbel P_GumbelPoly M_Pdf S_Pdf.
Open Scope R_scope.

(** ** Mixed derivatives *)
Lemma mixed_ext lo F G u v : Forall (fun x => lo < x < 1) u -> (forall l, Forall (fun x => lo < x < 1) l -> length l = length u -> F l = G l) ->
  mixed_derivative F u v -> mixed_derivative G u v.
Proof.
  intros A. revert F G v. induction A as [|x r Hx A IH]; intros F G v E H; cbn [mixed_derivative] in *.
  - rewrite <- E by (auto using Forall_nil). exact H.
  - destruct H as [g [L D]]. exists g. split; [|exact D].
    assert (L2 : locally x (fun y => lo < y < 1)) by (apply (loc_01 _ x lo); auto).
    generalize (filter_and _ _ L L2). apply filter_imp. intros y [H Hy]. apply (IH (fun l => F (y :: l))); [|exact H].
    intros l Hl Hlen. apply E; [constructor; assumption|cbn; congruence].
Qed.
Section Sum.
  Variables (lo : R) (phi dphi : R -> R) (psi : nat -> R -> R) (D : R -> Prop).
  Hypothesis Hphi : forall x, lo < x < 1 -> is_derive phi x (dphi x).
  Hypothesis Hopen : forall t, D t -> locally t D.
  Hypothesis Hpsi : forall k t, D t -> is_derive (psi k) t (psi (S k) t).
  Lemma mixed_sum u : Forall (fun x => lo < x < 1) u -> forall k c, D (c + lsum (map phi u)) ->
    mixed_derivative (fun l => psi k (c + lsum (map phi l))) u (psi (k + length u)%nat (c + lsum (map phi u)) * lprod (map dphi u)).
  Proof.
    induction 1 as [|x r Hx A IH]; intros k c Hd; cbn [mixed_derivative map lsum lprod length] in *.
    - rewrite Nat.add_0_r. ring.
    - exists (fun y => psi (k + length r)%nat (c + phi y + lsum (map phi r)) * lprod (map dphi r)). split.
      + assert (C : continuous (fun y => c + phi y + lsum (map phi r)) x).
        { apply (ex_derive_continuous (fun y => c + phi y + lsum (map phi r))). apply (ex_derive_plus (fun y => c + phi y) (fun _ => lsum (map phi r))); [apply (ex_derive_plus (fun _ => c) phi)|]; try apply ex_derive_const. exists (dphi x). apply Hphi. exact Hx. }
        assert (L : locally x (fun y => D (c + phi y + lsum (map phi r)))).
        { apply C. apply Hopen. replace (c + phi x + lsum (map phi r)) with (c + (phi x + lsum (map phi r))) by ring. exact Hd. }
        generalize L. apply filter_imp. intros y Hy.
        generalize (IH k (c + phi y) Hy). apply (mixed_ext lo); [exact A|]. intros l _ _. f_equal. cbn [map lsum]. ring.
      + evar_last.
        * apply (is_derive_ext (fun y => lprod (map dphi r) * psi (k + length r)%nat (c + phi y + lsum (map phi r)))).
          { intros y. apply Rmult_comm. }
          apply is_derive_scal. apply (is_derive_comp (psi (k + length r)%nat) (fun y => c + phi y + lsum (map phi r))).
          { apply Hpsi. replace (c + phi x + lsum (map phi r)) with (c + (phi x + lsum (map phi r))) by ring. exact Hd. }
          apply (@is_derive_plus R_AbsRing R_NormedModule (fun y => c + phi y) (fun _ => lsum (map phi r))); [|apply (@is_derive_const R_AbsRing R_NormedModule)].
          apply (@is_derive_plus R_AbsRing R_NormedModule (fun _ => c) phi); [apply (@is_derive_const R_AbsRing R_NormedModule)|apply Hphi; exact Hx].
        * unfold scal, plus, zero; cbn. unfold mult; cbn. rewrite Nat.add_succ_r. replace (c + phi x + lsum (map phi r)) with (c + (phi x + lsum (map phi r))) by ring. ring.
  Qed.
End Sum.
(** the mixed derivative is unique *)
Lemma mixed_unique u : forall F v w, mixed_derivative F u v -> mixed_derivative F u w -> v = w.
Proof.
  induction u as [|x r IH]; intros F v w H K; cbn [mixed_derivative] in *; [congruence|].
  destruct H as [g [Lg Dg]], K as [h [Lh Dh]]. apply is_derive_unique in Dg. rewrite <- Dg. apply is_derive_unique. apply (is_derive_ext_loc h); [|exact Dh].
  generalize (filter_and _ _ Lh Lg). apply filter_imp. intros y [A B]. apply (IH _ _ _ A B).
Qed.

(** ** Logarithms of products *)
Lemma lprod_pos l : Forall (fun x => 0 < x) l -> 0 < lprod l.
Proof. induction 1; cbn; [lra|]. apply Rmult_lt_0_compat; assumption. Qed.
Lemma ln_lprod l : Forall (fun x => 0 < x) l -> ln (lprod l) = lsum (map ln l).
Proof. induction 1 as [|x l Hx F IH]; cbn; [apply ln_1|]. rewrite ln_mult, IH by (try apply lprod_pos; assumption). reflexivity. Qed.
Lemma lprod_opp {A} (f : A -> R) l : lprod (map (fun x => - f x) l) = (-1) ^ length l * lprod (map f l).
Proof. induction l as [|x l IH]; cbn; [ring|]. rewrite IH. ring. Qed.
Lemma pow_m1_sq n : (-1) ^ n * (-1) ^ n = 1.
Proof. rewrite <- Rpow_mult_distr. replace (-1 * -1) with 1 by ring. apply pow1. Qed.
Lemma lprod_scal {A} c (f : A -> R) l : lprod (map (fun x => c * f x) l) = c ^ length l * lprod (map f l).
Proof. induction l as [|x l IH]; cbn; [ring|]. rewrite IH. ring. Qed.
Lemma lprod_map_ext {A} (f g : A -> R) l : (forall x, In x l -> f x = g x) -> lprod (map f l) = lprod (map g l).
Proof. intros H. f_equal. apply map_ext_in. exact H. Qed.
Lemma open_cube_in u x : open_cube u -> In x u -> 0 < x < 1.
Proof. intros H. unfold open_cube in H. rewrite Forall_forall in H. apply H. Qed.
Lemma open_unit u : open_cube u -> unit_cube u.
Proof. unfold open_cube, unit_cube. apply Forall_impl. intros. lra. Qed.
Lemma valid_open u : open_cube u -> valid_row (map Fin u) = true.
Proof.
  intros H. unfold valid_row. rewrite forallb_forall. intros x I. apply in_map_iff in I. destruct I as [y [<- I]]. pose proof (open_cube_in _ _ H I).
  rewrite !(proj2 (Rleb_true _ _)) by lra. reflexivity.
Qed.
Lemma esum_elog u : open_cube u -> esum (map elog (map Fin u)) = Fin (lsum (map ln u)).
Proof.
  intros H. rewrite map_map. replace (map (fun x => elog (Fin x)) u) with (map Fin (map ln u)); [apply esum_fin|].
  rewrite map_map. apply map_ext_in. intros x I. rewrite elog_pos; [reflexivity|]. apply (open_cube_in u x H I).
Qed.
Lemma esum_map_fin {A} (f : A -> ext) (g : A -> R) l : (forall x, In x l -> f x = Fin (g x)) -> esum (map f l) = Fin (lsum (map g l)).
Proof. intros H. rewrite <- esum_fin, map_map. f_equal. apply map_ext_in. exact H. Qed.
Lemma lsum_pos_in l : l <> [] -> Forall (fun x => 0 < x) l -> 0 < lsum l.
Proof.
  intros N H. destruct H as [|x l Hx H]; [congruence|]. cbn. assert (0 <= lsum l); [|lra]. apply lsum_nonneg. intros y I. rewrite Forall_forall in H. specialize (H y I). lra.
Qed.

(** ** Clayton *)
(** rising factorial-like product a (a+1) .. (a+k-1) *)
Definition rising (a : R) (k : nat) : R := lprod (map (fun i => a + INR i) (seq 0 k)).
Lemma rising_S a k : rising a (S k) = rising a k * (a + INR k).
Proof. unfold rising. rewrite seq_S, map_app, lprod_app. cbn. ring. Qed.
(** derivatives of (1 + s t)^(-1/theta) *)
Definition cl_k (s th : R) (k : nat) (t : R) : R := (- s) ^ k * rising (1 / th) k * Rpower (1 + s * t) (-1 / th - INR k).
Lemma cl_k_derive s th k t : 0 < 1 + s * t -> is_derive (cl_k s th k) t (cl_k s th (S k) t).
Proof.
  intros H. assert (L : is_derive (fun t => 1 + s * t) t s) by (auto_derive; [exact Logic.I|ring]). unfold cl_k. evar_last.
  - apply is_derive_scal. apply (is_derive_comp (fun x => Rpower x (-1 / th - INR k)) (fun t => 1 + s * t)); [apply Rpower_derive; exact H|exact L].
  - change ((- s) ^ k * rising (1 / th) k * (s * ((-1 / th - INR k) * Rpower (1 + s * t) (-1 / th - INR k - 1))) = (- s) ^ S k * rising (1 / th) (S k) * Rpower (1 + s * t) (-1 / th - INR (S k))).
    rewrite rising_S, <- tech_pow_Rmult.
    replace (-1 / th - INR k - 1) with (-1 / th - INR (S k)) by (rewrite S_INR; ring). unfold Rdiv. ring.
Qed.
Lemma rising_scale th d : th <> 0 -> th ^ d * rising (1 / th) d = lprod (map (fun k => 1 + th * INR k) (seq 0 d)).
Proof.
  intros H. unfold rising. replace d with (length (seq 0 d)) at 1 by apply seq_length. rewrite <- lprod_scal. apply lprod_map_ext. intros. field. exact H.
Qed.
Lemma lprod_seq_0 th d : (0 < d)%nat -> lprod (map (fun k => 1 + th * INR k) (seq 0 d)) = lprod (map (fun k => 1 + th * INR k) (seq 1 (d - 1))).
Proof. intros H. destruct d; [lia|]. cbn [seq map lprod]. rewrite Nat.sub_succ, Nat.sub_0_r. cbn [INR]. ring. Qed.
Lemma loc_gt (f : R -> R) x c : continuous f x -> c < f x -> locally x (fun y => c < f y).
Proof. intros C H. apply C. apply (open_gt c). exact H. Qed.
Lemma lin_cont s t : continuous (fun t => 1 + s * t) t.
Proof. apply (ex_derive_continuous (fun t => 1 + s * t)). auto_derive. exact Logic.I. Qed.
Definition clayton_density (th : R) (u : list R) : R :=
  lprod (map (fun k => 1 + th * INR k) (seq 1 (length u - 1))) * Rpower (1 + lsum (map (fun x => Rpower x (- th) - 1) u)) (-1 / th - INR (length u)) * lprod (map (fun x => Rpower x (- th - 1)) u).
Lemma clayton_density_pos_dim th u : 0 < th -> 0 < clayton_density th u.
Proof.
  intros H. unfold clayton_density. apply Rmult_lt_0_compat; [apply Rmult_lt_0_compat|].
  - apply lprod_pos. rewrite Forall_map. apply Forall_forall. intros k _. pose proof (pos_INR k). nra.
  - apply Rpower_pos.
  - apply lprod_pos. rewrite Forall_map. apply Forall_forall. intros k _. apply Rpower_pos.
Qed.
Lemma lsum_cp_pos th u : 0 < th -> open_cube u -> 0 <= lsum (map (cp_f th) u).
Proof.
  intros H A. apply lsum_nonneg. intros y I. apply in_map_iff in I. destruct I as [x [<- I]]. pose proof (open_cube_in _ _ A I).
  unfold cp_f. pose proof (Rpower_ge_1 x (- th) ltac:(lra) ltac:(lra)). lra.
Qed.
Lemma clayton_cdf_val_pos th l : 0 < th -> open_cube l -> val (clayton_cdf th (map Fin l)) = cl_k 1 th 0 (0 + lsum (map (cp_f th) l)).
Proof.
  intros H A. rewrite clayton_cdf_pos by (auto using open_unit). cbn [val]. rewrite (rcdf_inside 0); [|lra|unfold inside; eapply Forall_impl; [|exact A]; cbn; intros; lra].
  unfold cl_k, cp_psi. cbn. rewrite Rmult_1_l, Rminus_0_r, Rplus_0_l. rewrite Rmult_1_l. unfold rising; cbn. rewrite !Rmult_1_l. reflexivity.
Qed.
Lemma clayton_mixed_pos th u : 0 < th -> (0 < length u)%nat -> open_cube u ->
  mixed_derivative (fun l => val (clayton_cdf th (map Fin l))) u (clayton_density th u).
Proof.
  intros H N A.
  apply (mixed_ext 0 (fun l => cl_k 1 th 0 (0 + lsum (map (cp_f th) l)))); [exact A|intros l Hl _; symmetry; apply clayton_cdf_val_pos; assumption|].
  replace (clayton_density th u) with (cl_k 1 th (0 + length u) (0 + lsum (map (cp_f th) u)) * lprod (map (fun x => - th * Rpower x (- th - 1)) u)).
  - apply (mixed_sum 0 (cp_f th) (fun x => - th * Rpower x (- th - 1)) (cl_k 1 th) (fun t => 0 < 1 + 1 * t)).
    + intros x Hx. apply cp_f_derive. lra.
    + intros t Ht. apply loc_gt; [apply lin_cont|exact Ht].
    + intros k t Ht. apply cl_k_derive. exact Ht.
    + exact A.
    + pose proof (lsum_cp_pos th u H A). lra.
  - unfold clayton_density, cl_k. rewrite <- lprod_seq_0, <- rising_scale by (try lia; lra). rewrite lprod_scal. cbn [Nat.add]. rewrite Rplus_0_l, !Rmult_1_l.
    replace ((- th) ^ length u) with ((-1) ^ length u * th ^ length u) by (rewrite <- Rpow_mult_distr; f_equal; ring). change (fun x => Rpower x (- th) - 1) with (cp_f th).
    transitivity ((-1) ^ length u * (-1) ^ length u * (th ^ length u * rising (1 / th) (length u)) * Rpower (1 + lsum (map (cp_f th) u)) (-1 / th - INR (length u)) * lprod (map (fun x => Rpower x (- th - 1)) u)).
    + replace (- (1)) with (-1) by ring. ring.
    + rewrite pow_m1_sq. ring.
Qed.
Lemma lsum_ln_Rpower a u : lsum (map ln (map (fun x => Rpower x a) u)) = a * lsum (map ln u).
Proof. rewrite map_map, <- lsum_map_scal. apply lsum_map_ext. intros. unfold Rpower. apply ln_exp. Qed.
Lemma clayton_log_pos th u : 0 < th -> (0 < length u)%nat -> open_cube u ->
  clayton_log_pdf th (map Fin u) = Fin (ln (clayton_density th u)).
Proof.
  intros H N A. unfold clayton_log_pdf. rewrite (Rltb_ge th 0) by lra. rewrite esum_elog by exact A.
  rewrite map_map, (esum_map_fin (fun x => clayton_ipsi th (Fin x)) (cp_f th)).
  2:{ intros x I. apply clayton_ipsi_pos; [exact H|]. apply (open_cube_in u x A I). }
  rewrite (esum_map_fin _ (fun k => ln (1 + th * INR k))).
  2:{ intros k _. apply elog_pos. pose proof (pos_INR k). nra. }
  pose proof (lsum_cp_pos th u H A). cbn [eadd]. rewrite elog_pos by lra. cbn [escal eopp esub eadd]. unfold esub; cbn [eopp eadd]. f_equal.
  unfold clayton_density. change (fun x => Rpower x (- th) - 1) with (cp_f th). rewrite map_length.
  rewrite !ln_mult.
  - rewrite ln_lprod, (ln_lprod (map (fun x => Rpower x (- th - 1)) u)), lsum_ln_Rpower.
    + rewrite (map_map (fun k => 1 + th * INR k) ln). unfold Rpower at 1. rewrite ln_exp. field. lra.
    + rewrite Forall_map. apply Forall_forall. intros. apply Rpower_pos.
    + rewrite Forall_map. apply Forall_forall. intros k _. pose proof (pos_INR k). nra.
  - apply lprod_pos. rewrite Forall_map. apply Forall_forall. intros k _. pose proof (pos_INR k). nra.
  - apply Rpower_pos.
  - apply Rmult_lt_0_compat; [|apply Rpower_pos]. apply lprod_pos. rewrite Forall_map. apply Forall_forall. intros k _. pose proof (pos_INR k). nra.
  - apply lprod_pos. rewrite Forall_map. apply Forall_forall. intros. apply Rpower_pos.
Qed.

(** negative theta *)
Definition cn_k (th : R) (k : nat) (t : R) : R := if Rltb t 1 then cl_k (-1) th k t else 0.
Lemma loc_lt_c t c : t < c -> locally t (fun y => y < c).
Proof. intros H. apply (open_lt c). exact H. Qed.
Lemma loc_gt_c t c : c < t -> locally t (fun y => c < y).
Proof. intros H. apply (open_gt c). exact H. Qed.
Lemma cn_k_derive th k t : t <> 1 -> is_derive (cn_k th k) t (cn_k th (S k) t).
Proof.
  intros H. destruct (Rlt_dec t 1) as [L|L].
  - unfold cn_k at 2. rewrite Rltb_lt by exact L. apply (is_derive_ext_loc (cl_k (-1) th k)); [|apply cl_k_derive; lra].
    generalize (loc_lt_c t 1 L). apply filter_imp. intros y Hy. unfold cn_k. rewrite Rltb_lt by exact Hy. reflexivity.
  - unfold cn_k at 2. rewrite Rltb_ge by lra. apply (is_derive_ext_loc (fun _ => 0)); [|apply (@is_derive_const R_AbsRing R_NormedModule)].
    generalize (loc_gt_c t 1 ltac:(lra)). apply filter_imp. intros y Hy. unfold cn_k. rewrite Rltb_ge by lra. reflexivity.
Qed.
Lemma loc_neq (t c : R) : t <> c -> locally t (fun y : R => y <> c).
Proof.
  intros H. destruct (Rlt_dec t c) as [L|L]; [generalize (loc_lt_c t c L)|generalize (loc_gt_c t c ltac:(lra))]; apply filter_imp; intros; lra.
Qed.
Lemma cn_f_derive th u : 0 < u -> is_derive (cn_f th) u (th * Rpower u (- th - 1)).
Proof.
  intros H. apply (is_derive_ext (fun u => (-1) * cp_f th u)). { intros y. unfold cp_f, cn_f. change (-1 * (Rpower y (- th) - 1) = 1 - Rpower y (- th)). ring. }
  evar_last; [apply is_derive_scal, cp_f_derive; exact H|]. change (-1 * (- th * Rpower u (- th - 1)) = th * Rpower u (- th - 1)). ring.
Qed.
Lemma clayton_cdf_val_neg th l : th < 0 -> open_cube l -> val (clayton_cdf th (map Fin l)) = cn_k th 0 (0 + lsum (map (cn_f th) l)).
Proof.
  intros H A. rewrite clayton_cdf_neg by (auto using open_unit). cbn [val]. rewrite (rcdf_inside 0); [|lra|unfold inside; eapply Forall_impl; [|exact A]; cbn; intros; lra].
  unfold cn_k, cl_k, cn_psi. rewrite Rplus_0_l. destruct (Rltb _ 1); [|reflexivity]. unfold rising; cbn. rewrite !Rmult_1_l, Rminus_0_r. f_equal. ring.
Qed.
(** The Clayton density at a point (u, v) for a negative theta *)
Definition clayton_density2 (th : R) (u v : R) : R :=
  if Rltb 1 (Rpower u (- th) + Rpower v (- th)) then clayton_density th [u; v] else 0.
Lemma clayton_mixed_neg th u v : th < 0 -> 0 < u < 1 -> 0 < v < 1 -> Rpower u (- th) + Rpower v (- th) <> 1 ->
  mixed_derivative (fun l => val (clayton_cdf th (map Fin l))) [u; v] (clayton_density2 th u v).
Proof.
  intros H Hu Hv N. assert (A : open_cube [u; v]) by (repeat constructor; lra).
  apply (mixed_ext 0 (fun l => cn_k th 0 (0 + lsum (map (cn_f th) l)))); [exact A|intros l Hl _; symmetry; apply clayton_cdf_val_neg; assumption|].
  replace (clayton_density2 th u v) with (cn_k th (0 + length [u; v]) (0 + lsum (map (cn_f th) [u; v])) * lprod (map (fun x => th * Rpower x (- th - 1)) [u; v])).
  - apply (mixed_sum 0 (cn_f th) (fun x => th * Rpower x (- th - 1)) (cn_k th) (fun t => t <> 1)).
    + intros x Hx. apply cn_f_derive. lra.
    + intros t Ht. apply loc_neq. exact Ht.
    + intros k t Ht. apply cn_k_derive. exact Ht.
    + exact A.
    + cbn. unfold cn_f. lra.
  - unfold clayton_density2, cn_k, cl_k, clayton_density, rising. cbn [Nat.add length map lsum lprod seq Nat.sub INR]. unfold cn_f.
    destruct (Rltb 1 _) eqn:E1.
    + apply Rltb_true in E1. rewrite Rltb_lt by lra.
      replace (1 + -1 * (0 + (1 - Rpower u (- th) + (1 - Rpower v (- th) + 0)))) with (1 + (Rpower u (- th) - 1 + (Rpower v (- th) - 1 + 0))) by ring.
      field. lra.
    + apply Rltb_false in E1. rewrite Rltb_ge by lra. ring.
Qed.
Lemma clayton_log_neg th u v : -1 <= th < 0 -> 0 < u < 1 -> 0 < v < 1 -> Rpower u (- th) + Rpower v (- th) <> 1 ->
  clayton_log_pdf th [Fin u; Fin v] = elog (Fin (clayton_density2 th u v)).
Proof.
  intros H Hu Hv N. assert (A : open_cube [u; v]) by (repeat constructor; lra).
  unfold clayton_log_pdf. rewrite (Rltb_lt th 0) by lra. change [Fin u; Fin v] with (map Fin [u; v]). rewrite esum_elog by exact A. rewrite valid_open by exact A.
  rewrite map_map, (esum_map_fin (fun x => clayton_ipsi th (Fin x)) (cn_f th)).
  2:{ intros x I. apply clayton_ipsi_neg; [lra|]. apply (open_cube_in _ x A I). }
  cbn [negb map lsum eltb]. unfold cn_f. unfold clayton_density2. destruct (Rltb 1 _) eqn:E1.
  - apply Rltb_true in E1. rewrite Rltb_lt by lra. unfold esub. cbn [eopp eadd]. rewrite (elog_pos (1 + - _)) by lra.
    unfold clayton_density. cbn [length map lsum lprod seq Nat.sub INR].
    replace (1 + - (1 - Rpower u (- th) + (1 - Rpower v (- th) + 0))) with (1 + (Rpower u (- th) - 1 + (Rpower v (- th) - 1 + 0))) by ring.
    set (W := 1 + (Rpower u (- th) - 1 + (Rpower v (- th) - 1 + 0))).
    destruct (Req_dec th (-1)) as [->|N1].
    + replace (1 + -1) with 0 by ring. rewrite elog_0. cbn [escal eopp eadd]. replace ((1 + -1 * 1) * 1 * Rpower W (-1 / -1 - (1 + 1)) * (Rpower u (- -1 - 1) * (Rpower v (- -1 - 1) * 1))) with 0 by ring. rewrite elog_0. reflexivity.
    + rewrite elog_pos by lra. cbn [escal eopp eadd].
      pose proof (Rpower_pos W (-1 / th - (1 + 1))) as P1. pose proof (Rpower_pos u (- th - 1)) as P2. pose proof (Rpower_pos v (- th - 1)) as P3.
      replace ((1 + th * 1) * 1 * Rpower W (-1 / th - (1 + 1)) * (Rpower u (- th - 1) * (Rpower v (- th - 1) * 1))) with ((1 + th) * (Rpower W (-1 / th - (1 + 1)) * (Rpower u (- th - 1) * Rpower v (- th - 1)))) by ring.
      assert (0 < Rpower u (- th - 1) * Rpower v (- th - 1)) by (apply Rmult_lt_0_compat; assumption).
      assert (0 < Rpower W (-1 / th - (1 + 1)) * (Rpower u (- th - 1) * Rpower v (- th - 1))) by (apply Rmult_lt_0_compat; assumption).
      rewrite elog_pos by (apply Rmult_lt_0_compat; lra). f_equal. rewrite !ln_mult by lra. unfold Rpower. rewrite !ln_exp. field. lra.
  - apply Rltb_false in E1. rewrite Rltb_ge by lra. rewrite elog_0. reflexivity.
Qed.

(** ** Gumbel *)
Definition gu_k (alpha : R) (k : nat) (t : R) : R := (-1) ^ k * (gumbel_generator alpha t * gsum alpha k t).
Lemma gu_k_derive alpha k t : 0 < t -> is_derive (gu_k alpha k) t (gu_k alpha (S k) t).
Proof.
  intros H. unfold gu_k. evar_last; [apply is_derive_scal, gumbel_derive_step; exact H|].
  change ((-1) ^ k * - (gumbel_generator alpha t * gsum alpha (S k) t) = (-1) ^ S k * (gumbel_generator alpha t * gsum alpha (S k) t)). cbn [pow]. ring.
Qed.
Lemma gu_k_0 alpha t : 0 < t -> gu_k alpha 0 t = gumbel_generator alpha t.
Proof. intros H. unfold gu_k, gsum. cbn [rsum ga pow]. unfold gterm. cbn [INR]. rewrite Rmult_0_r, Rminus_0_r, Rpower_O by exact H. ring. Qed.
Definition gu_s (th : R) (u : list R) : R := lsum (map (gu_g th) u).
Lemma gu_s_pos th u : (0 < length u)%nat -> open_cube u -> 0 < gu_s th u.
Proof.
  intros N A. apply lsum_pos_in; [destruct u; [cbn in N; lia|discriminate]|]. rewrite Forall_map. eapply Forall_impl; [|exact A]. intros. apply Rpower_pos.
Qed.
Lemma gumbel_cdf_val th l : 1 <= th -> (0 < length l)%nat -> open_cube l -> val (gumbel_cdf th (map Fin l)) = gu_k (1 / th) 0 (0 + gu_s th l).
Proof.
  intros H N A. rewrite gumbel_cdf_ok by (auto using open_unit). cbn [val]. rewrite (rcdf_inside 0); [|lra|unfold inside; eapply Forall_impl; [|exact A]; cbn; intros; lra].
  pose proof (gu_s_pos th l N A). rewrite Rplus_0_l, gu_k_0 by assumption. unfold gu_psi. replace (lsum (map (gu_f th) l)) with (gu_s th l).
  - rewrite Rltb_lt by assumption. reflexivity.
  - apply lsum_map_ext. intros x I. unfold gu_f, gu_g. rewrite Reqb_neq; [reflexivity|]. pose proof (open_cube_in _ _ A I). lra.
Qed.
Definition gumbel_density (th : R) (u : list R) : R :=
  exp (- Rpower (gu_s th u) (1 / th)) * (polynomial (length u) (gumbel_a (1 / th) (length u)) (Rpower (gu_s th u) (1 / th)) / gu_s th u ^ length u)
  * lprod (map (fun x => th * Rpower (- ln x) (th - 1) / x) u).
Lemma gumbel_mixed th u : 1 <= th -> (0 < length u)%nat -> open_cube u ->
  mixed_derivative (fun l => val (gumbel_cdf th (map Fin l))) u (gumbel_density th u).
Proof.
  intros H N A. pose proof (gu_s_pos th u N A) as Hs.
  apply (mixed_ext 0 (fun l => gu_k (1 / th) 0 (0 + gu_s th l))); [exact A|intros l Hl E; symmetry; apply gumbel_cdf_val; [assumption|lia|assumption]|].
  replace (gumbel_density th u) with (gu_k (1 / th) (0 + length u) (0 + gu_s th u) * lprod (map (gu_d1 th) u)).
  - apply (mixed_sum 0 (gu_g th) (gu_d1 th) (gu_k (1 / th)) (fun t => 0 < t)).
    + intros x Hx. apply gu_g_derive. exact Hx.
    + intros t Ht. apply loc_gt_c. exact Ht.
    + intros k t Ht. apply gu_k_derive. exact Ht.
    + exact A.
    + rewrite Rplus_0_l. exact Hs.
  - unfold gumbel_density, gu_k. rewrite Rplus_0_l. cbn [Nat.add]. rewrite gsum_polynomial by (try lia; exact Hs). unfold gu_d1. rewrite (lprod_opp (fun x => th * Rpower (- ln x) (th - 1) / x)).
    unfold gumbel_generator.
    replace (polynomial (length u) (ga (1 / th) (length u))) with (polynomial (length u) (ga (1 / th) (length u))) by reflexivity.
    replace (polynomial (length u) (gumbel_a (1 / th) (length u)) (Rpower (gu_s th u) (1 / th))) with (polynomial (length u) (ga (1 / th) (length u)) (Rpower (gu_s th u) (1 / th))).
    2:{ unfold polynomial. apply rsum_ext. intros i _. rewrite gumbel_a_ga by lia. reflexivity. }
    transitivity ((-1) ^ length u * (-1) ^ length u * (exp (- Rpower (gu_s th u) (1 / th)) * (polynomial (length u) (ga (1 / th) (length u)) (Rpower (gu_s th u) (1 / th)) / gu_s th u ^ length u) * lprod (map (fun x => th * Rpower (- ln x) (th - 1) / x) u))).
    + ring.
    + rewrite pow_m1_sq. ring.
Qed.
Lemma emax_fin_list l : forall x, fold_left emax (map Fin l) (Fin x) = Fin (fold_left Rmax l x).
Proof. induction l as [|y l IH]; intros x; [reflexivity|]. cbn. apply IH. Qed.
Lemma row_max_fin u : (0 < length u)%nat -> exists m, row_max (map Fin u) = Fin m.
Proof. destruct u as [|x u]; cbn; [lia|]. intros _. exists (fold_left Rmax u x). apply emax_fin_list. Qed.
Lemma lsum_exp_shift m l : lsum (map (fun y => exp (y - m)) l) = exp (- m) * lsum (map exp l).
Proof. rewrite <- lsum_map_scal. apply lsum_map_ext. intros. rewrite <- exp_plus. f_equal. ring. Qed.
Lemma gumbel_ls_ok th u : (0 < length u)%nat -> open_cube u ->
  let offset := row_max (map Fin u) in
  eadd offset (elog (esum (map (fun l => eexp (esub l offset)) (map (fun u => elog (gumbel_ipsi th u)) (map Fin u))))) = Fin (ln (gu_s th u)).
Proof.
  intros N A offset. unfold offset. destruct (row_max_fin u N) as [m ->]. pose proof (gu_s_pos th u N A) as Hs.
  rewrite !map_map. rewrite (esum_map_fin _ (fun x => exp (- m) * gu_g th x)).
  - rewrite lsum_map_scal. fold (gu_s th u). rewrite elog_pos by (apply Rmult_lt_0_compat; [apply exp_pos|exact Hs]). cbn [eadd]. f_equal. rewrite ln_mult, ln_exp by (auto using exp_pos). ring.
  - intros x I. pose proof (open_cube_in _ _ A I) as Hx. pose proof (ln_neg x Hx). unfold gumbel_ipsi. rewrite elog_pos by lra. cbn [eopp]. rewrite epow_pos by lra. rewrite elog_pos by apply Rpower_pos.
    unfold esub. cbn [eopp eadd eexp]. f_equal. rewrite exp_plus, exp_ln by apply Rpower_pos. unfold gu_g. ring.
Qed.
Lemma gumbel_log_ok gamma gammaln th u : 1 < th -> (0 < length u)%nat -> open_cube u ->
  (forall lx, gumbel_poly gamma gammaln [lx] (1 / th) (Z.of_nat (length u)) "default" true = Ok [Fin (ln (polynomial (length u) (gumbel_a (1 / th) (length u)) (exp lx)))]) ->
  (forall x, 0 < x -> 0 < polynomial (length u) (gumbel_a (1 / th) (length u)) x) ->
  gumbel_log_pdf gamma gammaln th (map Fin u) = Ok (Fin (ln (gumbel_density th u))) /\ 0 < gumbel_density th u.
Proof.
  intros H N A HP Hpos. pose proof (gu_s_pos th u N A) as Hs.
  pose proof (Hpos (Rpower (gu_s th u) (1 / th)) (Rpower_pos _ _)) as Pp.
  assert (Pl : Forall (fun x => 0 < x) (map (fun x => th * Rpower (- ln x) (th - 1) / x) u)).
  { rewrite Forall_map. eapply Forall_impl; [|exact A]. cbn. intros x Hx. apply Rdiv_lt_0_compat; [|lra]. apply Rmult_lt_0_compat; [lra|apply Rpower_pos]. }
  assert (Pd : 0 < gumbel_density th u).
  { unfold gumbel_density. apply Rmult_lt_0_compat; [apply Rmult_lt_0_compat; [apply exp_pos|apply Rdiv_lt_0_compat; [exact Pp|apply pow_lt; exact Hs]]|]. apply lprod_pos. exact Pl. }
  split; [|exact Pd].
  unfold gumbel_log_pdf. rewrite (gumbel_ls_ok th u N A). cbn [escal]. rewrite map_length, HP. cbn [bind hd].
  rewrite elog_pos by lra. rewrite !map_map. rewrite (esum_map_fin _ (fun x => (th - 1) * ln (- ln x) + - ln x)).
  2:{ intros x I. pose proof (open_cube_in _ _ A I) as Hx. pose proof (ln_neg x Hx). rewrite elog_pos by lra. cbn [eopp]. rewrite elog_pos by lra. reflexivity. }
  unfold esub. cbn [eopp eadd escal]. do 2 f_equal. change (exp (1 / th * ln (gu_s th u))) with (Rpower (gu_s th u) (1 / th)).
  unfold gumbel_density. set (d := length u) in *. set (p := polynomial d (gumbel_a (1 / th) d) (Rpower (gu_s th u) (1 / th))) in *.
  rewrite ln_mult; [|apply Rmult_lt_0_compat; [apply exp_pos|apply Rdiv_lt_0_compat; [exact Pp|apply pow_lt; exact Hs]]|apply lprod_pos; exact Pl].
  pose proof (pow_lt _ d Hs) as Pw. rewrite ln_mult; [|apply exp_pos|apply Rdiv_lt_0_compat; assumption]. rewrite ln_exp. rewrite ln_div by assumption. rewrite ln_pow by exact Hs.
  rewrite ln_lprod by exact Pl. rewrite map_map.
  rewrite (lsum_map_ext (fun x => ln (th * Rpower (- ln x) (th - 1) / x)) (fun x => ln th + ((th - 1) * ln (- ln x) + - ln x)) u).
  2:{ intros x I. pose proof (open_cube_in _ _ A I) as Hx. rewrite ln_div; [|apply Rmult_lt_0_compat; [lra|apply Rpower_pos]|lra]. rewrite ln_mult by (try apply Rpower_pos; lra). unfold Rpower. rewrite ln_exp. ring. }
  rewrite (lsum_map_plus (fun _ => ln th)). replace (lsum (map (fun _ => ln th) u)) with (INR d * ln th).
  2:{ unfold d. clear. induction u as [|x u IH]; [cbn; ring|]. cbn [length map lsum]. rewrite S_INR, <- IH. ring. }
  replace (INR d * (1 / th * ln (gu_s th u)) / (1 / th)) with (INR d * ln (gu_s th u)) by (field; lra). ring.
Qed.

(** ** Frank *)
Definition fr_z (th t : R) : R := (1 - exp (- th)) * exp (- t).
Definition fr_k (th : R) (k : nat) (t : R) : R := match k with O => fr_psi th t | S m => (-1) ^ S m / th * FS m (fr_z th t) end.
Lemma FS_derive n z : z < 1 -> exists f, is_derive (FS n) z f /\ z * f = FS (S n) z.
Proof.
  intros H. eexists. split; [apply FS_step; exact H|]. apply FS_eq. exact H.
Qed.
Lemma fr_z_01 th t : 0 < th -> 0 <= t -> 0 < fr_z th t < 1.
Proof.
  intros H Ht. unfold fr_z. pose proof (exp_pos (- th)). pose proof (exp_pos (- t)). pose proof (exp_lt_1 (- th) ltac:(lra)).
  assert (exp (- t) <= 1) by (rewrite <- exp_0; apply exp_mono; lra). split; [apply Rmult_lt_0_compat; lra|nra].
Qed.
Lemma fr_z_derive th t : is_derive (fr_z th) t (- fr_z th t).
Proof. unfold fr_z. auto_derive; [exact Logic.I|]. ring. Qed.
Lemma fr_k_derive th k t : 0 < th -> 0 < t -> is_derive (fr_k th k) t (fr_k th (S k) t).
Proof.
  intros H Ht. pose proof (fr_z_01 th t H ltac:(lra)) as Z. destruct k as [|m].
  - cbn [fr_k]. rewrite FS_0. unfold oddsr. change (fr_k th 0) with (fr_psi th). unfold fr_psi, fr_z in *. auto_derive.
    + lra.
    + field. repeat split; lra.
  - destruct (FS_derive m (fr_z th t) ltac:(lra)) as [f [Df Ef]]. evar_last.
    + apply (is_derive_scal (fun t => FS m (fr_z th t)) t ((-1) ^ S m / th)). apply (is_derive_comp (FS m) (fr_z th)); [exact Df|apply fr_z_derive].
    + unfold fr_k. rewrite <- Ef. change ((-1) ^ S m / th * (- fr_z th t * f) = (-1) ^ S (S m) / th * (fr_z th t * f)). cbn [pow]. field. lra.
Qed.
Definition fr_s (th : R) (u : list R) : R := lsum (map (fr_f th) u).
Lemma fr_f_pos th x : 0 < th -> 0 < x < 1 -> 0 < fr_f th x.
Proof.
  intros H Hx. unfold fr_f. assert (E : 0 < (exp (- (x * th)) - 1) / (exp (- th) - 1) < 1).
  { replace ((exp (- (x * th)) - 1) / (exp (- th) - 1)) with ((1 - exp (- (x * th))) / (1 - exp (- th))).
    - pose proof (exp_lt_1 (- th) ltac:(lra)). pose proof (exp_increasing (- th) (- (x * th)) ltac:(nra)). pose proof (exp_lt_1 (- (x * th)) ltac:(nra)).
      split; [apply Rdiv_lt_0_compat; lra|]. apply (Rmult_lt_reg_r (1 - exp (- th))); [lra|]. unfold Rdiv. rewrite Rmult_assoc, Rinv_l, Rmult_1_r by lra. lra.
    - pose proof (exp_lt_1 (- th) ltac:(lra)). field. lra. }
  pose proof (ln_neg _ E). lra.
Qed.
Lemma fr_s_pos th u : 0 < th -> (0 < length u)%nat -> open_cube u -> 0 < fr_s th u.
Proof.
  intros H N A. apply lsum_pos_in; [destruct u; [cbn in N; lia|discriminate]|]. rewrite Forall_map. eapply Forall_impl; [|exact A]. intros. apply fr_f_pos; assumption.
Qed.
Definition frank_density (th : R) (u : list R) : R :=
  th ^ (length u - 1) * FS (length u - 1) (fr_z th (fr_s th u)) * lprod (map (fun x => / (exp (x * th) - 1)) u).
Lemma frank_mixed_gen lo F th u : 0 <= lo -> 0 < th -> (0 < length u)%nat -> Forall (fun x => lo < x < 1) u ->
  (forall l, Forall (fun x => lo < x < 1) l -> F l = fr_psi th (fr_s th l)) ->
  mixed_derivative F u (frank_density th u).
Proof.
  intros Hlo H N A HF. assert (A0 : open_cube u) by (eapply Forall_impl; [|exact A]; cbn; intros; lra). pose proof (fr_s_pos th u H N A0) as Hs.
  apply (mixed_ext lo (fun l => fr_k th 0 (0 + fr_s th l))); [exact A|intros l Hl _; rewrite HF by exact Hl; cbn [fr_k]; rewrite Rplus_0_l; reflexivity|].
  replace (frank_density th u) with (fr_k th (0 + length u) (0 + fr_s th u) * lprod (map (fun x => - (th / (exp (x * th) - 1))) u)).
  - apply (mixed_sum lo (fr_f th) (fun x => - (th / (exp (x * th) - 1))) (fr_k th) (fun t => 0 < t)).
    + intros x Hx. apply fr_f_derive; lra.
    + intros t Ht. apply loc_gt_c. exact Ht.
    + intros k t Ht. apply fr_k_derive; assumption.
    + exact A.
    + rewrite Rplus_0_l. exact Hs.
  - unfold frank_density. rewrite Rplus_0_l. rewrite (lprod_opp (fun x => th / (exp (x * th) - 1))). unfold Rdiv at 1. rewrite (lprod_scal th (fun x => / (exp (x * th) - 1))).
    destruct (length u) as [|m] eqn:E; [lia|]. cbn [Nat.add Nat.sub fr_k]. rewrite Nat.sub_0_r.
    transitivity ((-1) ^ S m * (-1) ^ S m * (th ^ m * FS m (fr_z th (fr_s th u)) * lprod (map (fun x => / (exp (x * th) - 1)) u))).
    + rewrite <- (tech_pow_Rmult th m). field. lra.
    + rewrite pow_m1_sq. ring.
Qed.
Lemma frank_mixed th u : 0 < th -> (0 < length u)%nat -> Forall (fun x => 1 / 100 < x < 1) u ->
  mixed_derivative (fun l => val (frank_cdf th (map Fin l))) u (frank_density th u).
Proof.
  intros H N A. apply (frank_mixed_gen (1 / 100)); try assumption; [lra|]. intros l Hl. rewrite frank_cdf_ok; [|lra|lra|].
  - cbn [val]. rewrite (rcdf_inside (1 / 100)); [reflexivity|lra|]. unfold inside. eapply Forall_impl; [|exact Hl]. cbn; intros; lra.
  - unfold frank_region. eapply Forall_impl; [|exact Hl]. cbn; intros; lra.
Qed.
Lemma exp_fr_s th u : 0 < th -> open_cube u -> exp (- fr_s th u) = lprod (map (fun x => (exp (- (x * th)) - 1) / (exp (- th) - 1)) u).
Proof.
  intros H A. unfold fr_s. induction A as [|x r Hx A IH]; [cbn; rewrite Ropp_0; apply exp_0|]. cbn [map lsum lprod]. rewrite Ropp_plus_distr, exp_plus, IH. f_equal.
  unfold fr_f. rewrite Ropp_involutive. apply exp_ln. apply em_ratio; lra.
Qed.
Lemma frank_textbook th l : 0 < th -> open_cube l -> frank_copula th l = fr_psi th (fr_s th l).
Proof.
  intros H A. unfold frank_copula, fr_psi. rewrite exp_fr_s by assumption. field. lra.
Qed.
Lemma frank_density_pos th u : 0 < th -> (0 < length u)%nat -> open_cube u -> 0 < frank_density th u.
Proof.
  intros H N A. pose proof (fr_s_pos th u H N A). unfold frank_density. apply Rmult_lt_0_compat; [apply Rmult_lt_0_compat|].
  - apply pow_lt. exact H.
  - apply FS_pos. apply fr_z_01; lra.
  - apply lprod_pos. rewrite Forall_map. eapply Forall_impl; [|exact A]. cbn. intros x Hx. apply Rinv_0_lt_compat. pose proof (exp_gt_1 (x * th) ltac:(nra)). lra.
Qed.
Lemma frank_log_ok gamma dilog th u : gamma_on_integers gamma -> 0 < th -> (1 <= length u <= 19)%nat -> open_cube u ->
  frank_log_pdf gamma dilog th (map Fin u) = Ok (Fin (ln (frank_density th u))).
Proof.
  intros G H N A. pose proof (fr_s_pos th u H ltac:(lia) A) as Hs.
  pose proof (exp_lt_1 (- th) ltac:(lra)) as E1.
  assert (L0 : log1mexp (Fin th) = Fin (ln (1 - exp (- th)))). { unfold log1mexp, esub. cbn [eopp eexp eadd]. rewrite elog_pos by lra. reflexivity. }
  assert (Lu : forall x, In x u -> log1mexp (escal th (Fin x)) = Fin (ln (1 - exp (- (x * th))))).
  { intros x I. pose proof (open_cube_in _ _ A I). pose proof (exp_lt_1 (- (x * th)) ltac:(nra)). unfold log1mexp, esub. cbn [escal eopp eexp eadd]. replace (th * x) with (x * th) by ring. rewrite elog_pos by lra. reflexivity. }
  unfold frank_log_pdf. rewrite L0. rewrite !map_map.
  rewrite (esum_map_fin (fun x => esub (log1mexp (escal th (Fin x))) (Fin (ln (1 - exp (- th))))) (fun x => -1 * fr_f th x)).
  2:{ intros x I. rewrite Lu by exact I. unfold esub. cbn [eopp eadd]. f_equal. pose proof (open_cube_in _ _ A I). pose proof (exp_lt_1 (- (x * th)) ltac:(nra)). unfold fr_f.
      replace ((exp (- (x * th)) - 1) / (exp (- th) - 1)) with ((1 - exp (- (x * th))) / (1 - exp (- th))) by (field; lra). rewrite ln_div by lra. ring. }
  rewrite lsum_map_scal. fold (fr_s th u). cbn [eadd eexp].
  replace (exp (ln (1 - exp (- th)) + -1 * fr_s th u)) with (fr_z th (fr_s th u)) by (unfold fr_z; rewrite exp_plus, exp_ln by lra; do 2 f_equal; ring).
  pose proof (fr_z_01 th (fr_s th u) H ltac:(lra)) as Z. rewrite !Rltb_lt by lra. cbn [andb]. rewrite map_length.
  replace (1 - Z.of_nat (length u))%Z with (- Z.of_nat (length u - 1))%Z by lia.
  rewrite poly_log_log; [|exact G|exact Z|left; split; [lia|left; reflexivity]]. cbn [rmap].
  rewrite elog_pos by exact H. rewrite esum_fin. rewrite (esum_map_fin (fun x => log1mexp (escal th (Fin x))) (fun x => ln (1 - exp (- (x * th))))) by exact Lu.
  unfold esub. cbn [escal eopp eadd]. do 2 f_equal. unfold frank_density. 
  pose proof (FS_pos (length u - 1) _ Z) as PF. pose proof (pow_lt th (length u - 1) H) as PW.
  assert (PL : Forall (fun x => 0 < x) (map (fun x => / (exp (x * th) - 1)) u)).
  { rewrite Forall_map. eapply Forall_impl; [|exact A]. cbn. intros x Hx. apply Rinv_0_lt_compat. pose proof (exp_gt_1 (x * th) ltac:(nra)). lra. }
  rewrite ln_mult; [|apply Rmult_lt_0_compat; assumption|apply lprod_pos; exact PL]. rewrite ln_mult by assumption. rewrite ln_pow by exact H. rewrite minus_INR by lia. cbn [INR].
  rewrite ln_lprod by exact PL. rewrite map_map.
  rewrite (lsum_map_ext (fun x => ln (/ (exp (x * th) - 1))) (fun x => - th * x + -1 * ln (1 - exp (- (x * th)))) u).
  - rewrite lsum_map_plus, !lsum_map_scal, map_id. ring.
  - intros x I. pose proof (open_cube_in _ _ A I). pose proof (exp_gt_1 (x * th) ltac:(nra)). pose proof (exp_lt_1 (- (x * th)) ltac:(nra)). rewrite ln_Rinv by lra.
    replace (exp (x * th) - 1) with (exp (x * th) * (1 - exp (- (x * th)))) by (rewrite Rmult_minus_distr_l, <- exp_plus, Rplus_opp_r, exp_0; ring).
    rewrite ln_mult, ln_exp by (try apply exp_pos; lra). ring.
Qed.
