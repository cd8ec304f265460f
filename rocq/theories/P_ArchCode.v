(** The Archimedean cdf of the code is the generator construction of P_Gen on the unit cube. *)
From Coquelicot Require Import Coquelicot.
From Verif Require Import Base RSumLib Ext S_Archimedean P_Gen M_Archimedean P_Arch.
Open Scope R_scope.

Lemma Reqb_neq x y : x <> y -> Reqb x y = false.
Proof. apply Reqb_false. Qed.
Lemma Rltb_lt x y : x < y -> Rltb x y = true.
Proof. apply Rltb_true. Qed.
Lemma Rltb_ge x y : y <= x -> Rltb x y = false.
Proof. intros. apply Rltb_false. lra. Qed.

(** ipsi sends 0 to +inf and the rest of (0,1] to finite values; psi sends +inf to 0 *)
Lemma arch_cdf_inf (psi : ext -> result ext) (ipsi : ext -> ext) (p f : R -> R) l :
  (forall u, 0 < u <= 1 -> ipsi (Fin u) = Fin (f u)) -> ipsi (Fin 0) = Pinf -> psi Pinf = Ok (Fin 0) ->
  (forall s, 0 <= s -> psi (Fin s) = Ok (Fin (p s))) -> (forall u, 0 < u <= 1 -> 0 <= f u) ->
  unit_cube l -> arch_cdf psi ipsi (map Fin l) = Ok (Fin (rcdf p f l)).
Proof.
  intros Hf H0 Hi Hp Hpos HC. unfold arch_cdf, rcdf. rewrite map_map. unfold unit_cube in HC. rewrite Forall_forall in HC.
  destruct (existsb _ l) eqn:E.
  - apply has_zero in E. rewrite esum_pinf; [exact Hi| |].
    + rewrite Forall_forall. intros y I. apply in_map_iff in I. destruct I as [x [<- I]]. specialize (HC x I).
      destruct (Req_dec x 0) as [->|Hne]; [rewrite H0; exact Logic.I|rewrite Hf by lra; exact Logic.I].
    + apply in_map_iff. exists 0. split; assumption.
  - assert (NZ : forall x, In x l -> 0 < x <= 1).
    { intros x I. specialize (HC x I). destruct (Req_dec x 0) as [->|Hne]; [|lra]. apply has_zero in I. congruence. }
    replace (map (fun x => ipsi (Fin x)) l) with (map Fin (map f l)).
    + rewrite esum_fin. apply Hp. apply lsum_nonneg. intros y I. apply in_map_iff in I. destruct I as [x [<- I]]. auto.
    + rewrite map_map. apply map_ext_in. intros x I. rewrite Hf by auto. reflexivity.
Qed.

(** Clayton *)
Lemma clayton_ipsi_pos th u : 0 < th -> 0 < u -> clayton_ipsi th (Fin u) = Fin (cp_f th u).
Proof. intros H Hu. unfold clayton_ipsi, cp_f. rewrite sgn_pos, epow_pos by assumption. cbn. f_equal. ring. Qed.
Lemma clayton_psi_pos th s : 0 < th -> 0 <= s -> clayton_psi th (Fin s) = Ok (Fin (cp_psi th s)).
Proof.
  intros H Hs. unfold clayton_psi, cp_psi. rewrite Reqb_neq by lra. rewrite sgn_pos by exact H. cbn [escal eadd emax].
  rewrite Rmax_left by lra. rewrite epow_pos by lra. do 3 f_equal. ring.
Qed.
Lemma clayton_cdf_pos th l : 0 < th -> unit_cube l -> clayton_cdf th (map Fin l) = Ok (Fin (rcdf (cp_psi th) (cp_f th) l)).
Proof.
  intros H HC. apply arch_cdf_inf; try exact HC.
  - intros u Hu. apply clayton_ipsi_pos; lra.
  - unfold clayton_ipsi. rewrite sgn_pos, epow_0_neg by lra. cbn. rewrite Rltb_lt by lra. reflexivity.
  - unfold clayton_psi. rewrite Reqb_neq by lra. rewrite sgn_pos by exact H. cbn [escal]. rewrite Rltb_lt by lra. cbn [eadd emax].
    rewrite epow_inf_neg; [reflexivity|]. apply inv_neg. exact H.
  - intros. apply clayton_psi_pos; assumption.
  - apply (g_pos _ _ _ (cp_gen th H)).
Qed.
Lemma clayton_ipsi_neg th u : th < 0 -> 0 < u -> clayton_ipsi th (Fin u) = Fin (cn_f th u).
Proof. intros H Hu. unfold clayton_ipsi, cn_f. rewrite sgn_neg, epow_pos by assumption. cbn. f_equal. ring. Qed.
Lemma clayton_ipsi_neg0 th : th < 0 -> clayton_ipsi th (Fin 0) = Fin 1.
Proof. intros H. unfold clayton_ipsi. rewrite sgn_neg, epow_0_pos by lra. cbn. f_equal. ring. Qed.
Lemma clayton_psi_neg th s : th < 0 -> clayton_psi th (Fin s) = Ok (Fin (cn_psi th s)).
Proof.
  intros H. unfold clayton_psi, cn_psi. rewrite Reqb_neq by lra. rewrite sgn_neg by exact H. cbn [escal eadd emax].
  destruct (Rltb s 1) eqn:E.
  - apply Rltb_true in E. rewrite Rmax_left by lra. rewrite epow_pos by lra. do 3 f_equal. ring.
  - apply Rltb_false in E. rewrite Rmax_right by lra. rewrite epow_0_pos; [reflexivity|]. apply inv_pos. exact H.
Qed.
Lemma clayton_cdf_neg th l : th < 0 -> unit_cube l -> clayton_cdf th (map Fin l) = Ok (Fin (rcdf (cn_psi th) (cn_f th) l)).
Proof.
  intros H HC. pose proof (cn_gen th H) as G. unfold clayton_cdf, arch_cdf, rcdf. unfold unit_cube in HC. rewrite Forall_forall in HC.
  set (f' := fun x => if Reqb x 0 then 1 else cn_f th x).
  assert (Ef : map (clayton_ipsi th) (map Fin l) = map Fin (map f' l)).
  { rewrite !map_map. apply map_ext_in. intros x I. specialize (HC x I). unfold f'. destruct (Reqb x 0) eqn:E.
    - apply Reqb_true in E. subst. apply clayton_ipsi_neg0. exact H.
    - apply Reqb_false in E. apply clayton_ipsi_neg; lra. }
  rewrite Ef, esum_fin, clayton_psi_neg by exact H. do 2 f_equal.
  assert (Pf : forall x, In x l -> 0 <= f' x).
  { intros x I. specialize (HC x I). unfold f'. destruct (Reqb x 0) eqn:E; [lra|]. apply Reqb_false in E. apply (g_pos _ _ _ G). lra. }
  destruct (existsb _ l) eqn:E.
  - apply has_zero in E. unfold cn_psi. rewrite Rltb_ge; [reflexivity|].
    clear Ef HC. induction l as [|a l IH]; [destruct E|]. cbn [map lsum fold_right]. fold (lsum (map f' l)).
    assert (0 <= lsum (map f' l)).
    { apply lsum_nonneg. intros y I. apply in_map_iff in I. destruct I as [x [<- I]]. apply Pf. right. exact I. }
    destruct E as [->|E].
    + unfold f' at 1. rewrite Reqb_refl. lra.
    + specialize (IH (fun x I => Pf x (or_intror I)) E). pose proof (Pf a (or_introl eq_refl)). lra.
  - do 2 f_equal. apply map_ext_in. intros x I. unfold f'. destruct (Reqb x 0) eqn:E'; [|reflexivity].
    apply Reqb_true in E'. subst. apply has_zero in I. congruence.
Qed.

(** Gumbel *)
Lemma gumbel_ipsi_pos th u : 1 <= th -> 0 < u <= 1 -> gumbel_ipsi th (Fin u) = Fin (gu_f th u).
Proof.
  intros H Hu. unfold gumbel_ipsi, gu_f. rewrite elog_pos by lra. cbn [eopp]. destruct (Reqb u 1) eqn:E.
  - apply Reqb_true in E. subst. rewrite ln_1, Ropp_0. apply epow_0_pos. lra.
  - apply Reqb_false in E. apply epow_pos. pose proof (ln_neg u ltac:(lra)). lra.
Qed.
Lemma gumbel_psi_pos th s : 1 <= th -> 0 <= s -> gumbel_psi th (Fin s) = Ok (Fin (gu_psi th s)).
Proof.
  intros H Hs. pose proof (inv_01 th H). unfold gumbel_psi, gu_psi. destruct (Rltb 0 s) eqn:E.
  - apply Rltb_true in E. rewrite epow_pos by exact E. reflexivity.
  - apply Rltb_false in E. replace s with 0 by lra. rewrite epow_0_pos by lra. cbn. rewrite Ropp_0, exp_0. reflexivity.
Qed.
Lemma gumbel_cdf_ok th l : 1 <= th -> unit_cube l -> gumbel_cdf th (map Fin l) = Ok (Fin (rcdf (gu_psi th) (gu_f th) l)).
Proof.
  intros H HC. pose proof (inv_01 th H). apply arch_cdf_inf; try exact HC.
  - intros u Hu. apply gumbel_ipsi_pos; lra.
  - unfold gumbel_ipsi. rewrite elog_0. cbn [eopp]. apply epow_inf_pos. lra.
  - unfold gumbel_psi. rewrite epow_inf_pos by lra. reflexivity.
  - intros. apply gumbel_psi_pos; assumption.
  - apply (g_pos _ _ _ (gu_gen th H)).
Qed.

(** Frank *)
Lemma em_nz th : th <> 0 -> exp (- th) - 1 <> 0.
Proof. intros H. destruct (Rlt_le_dec th 0) as [L|L]; [pose proof (em_pos th L)|pose proof (em_neg th ltac:(lra))]; lra. Qed.
Lemma frank_ipsi_pos th u : th <> 0 -> 1 / 100 < u <= 1 -> frank_ipsi th (Fin u) = Fin (fr_f th u).
Proof.
  intros H Hu. unfold frank_ipsi, fr_f. pose proof (em_ratio th u H ltac:(lra)) as ER. pose proof (em_nz th H) as NZ.
  assert (N : Rleb (Rabs (u * th)) (1 / 100 * Rabs th) = false).
  { apply Rleb_false. rewrite Rabs_mult, (Rabs_right u) by lra. apply Rmult_lt_compat_r; [apply Rabs_pos_lt; exact H|lra]. }
  rewrite N. destruct (Rltb (Rabs (th - u * th)) (1 / 2)).
  - replace (1 + exp (- th) * (exp (th - u * th) - 1) / (exp (- th) - 1)) with ((exp (- (u * th)) - 1) / (exp (- th) - 1)).
    + rewrite elog_pos by lra. reflexivity.
    + replace (exp (- (u * th))) with (exp (- th) * exp (th - u * th)) by (rewrite <- exp_plus; f_equal; ring). field. exact NZ.
  - replace (1 + (exp (- (u * th)) - exp (- th)) / (exp (- th) - 1)) with ((exp (- (u * th)) - 1) / (exp (- th) - 1)) by (field; exact NZ).
    rewrite elog_pos by lra. reflexivity.
Qed.
(** log(1 - exp(-th)) <= 0 *)
Lemma frank_psi_pos th s : th <> 0 -> -36 < th -> 0 <= s -> frank_psi th (Fin s) = Ok (Fin (fr_psi th s)).
Proof.
  intros H H36 Hs. pose proof (fr_arg th s Hs) as A. unfold frank_psi, fr_psi. rewrite (proj2 (Rleb_false th (-36)) H36).
  destruct (Rltb th 0) eqn:E.
  - cbn [eopp eexp escal eadd]. rewrite elog_pos by exact A. cbn. do 2 f_equal. unfold Rdiv. ring.
  - apply Rltb_false in E. rewrite Reqb_neq by exact H. assert (P : 0 < th) by lra. pose proof (em_neg th P).
    unfold log1mexp. cbn [eopp eexp esub eadd]. rewrite elog_pos by lra.
    assert (EL : ln (1 + - exp (- th)) < 0) by (rewrite <- ln_1; apply ln_increasing; lra).
    cbn [eltb]. rewrite Rltb_ge by lra. cbn [eopp eexp esub eadd].
    replace (1 + - exp (- (s + - ln (1 + - exp (- th))))) with (1 + (exp (- th) - 1) * exp (- s)).
    + rewrite elog_pos by exact A. cbn. do 2 f_equal. unfold Rdiv. ring.
    + replace (- (s + - ln (1 + - exp (- th)))) with (- s + ln (1 + - exp (- th))) by ring.
      rewrite exp_plus, exp_ln by lra. ring.
Qed.
Definition frank_region (l : list R) : Prop := Forall (fun x => 1 / 100 < x <= 1) l.
Lemma frank_cdf_ok th l : th <> 0 -> -36 < th -> frank_region l ->
  frank_cdf th (map Fin l) = Ok (Fin (rcdf (fr_psi th) (fr_f th) l)).
Proof.
  intros H H36 F. unfold frank_cdf, arch_cdf, rcdf. unfold frank_region in F. rewrite Forall_forall in F.
  destruct (existsb _ l) eqn:E; [apply has_zero in E; specialize (F 0 E); lra|].
  replace (map (frank_ipsi th) (map Fin l)) with (map Fin (map (fr_f th) l)).
  - rewrite esum_fin. apply frank_psi_pos; try assumption. apply lsum_nonneg. intros y I. apply in_map_iff in I.
    destruct I as [x [<- I]]. apply (g_pos _ _ _ (fr_gen th H)). specialize (F x I). lra.
  - rewrite !map_map. apply map_ext_in. intros x I. rewrite frank_ipsi_pos by auto. reflexivity.
Qed.
