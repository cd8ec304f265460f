(** Assembly lemmas for the Archimedean theorems. *)
From Coquelicot Require Import Coquelicot.
From Coq Require Import Permutation.
From Verif Require Import Base RSumLib Ext S_Archimedean P_Gen M_Archimedean P_Arch P_ArchCode P_CM P_Arch2 P_Debye.
Open Scope R_scope.

(** Frank, theta <= -36: the dropped term costs at most exp(theta) *)
Lemma ln_1m_lower x : 0 <= x <= 1 / 2 -> - (2 * x) <= ln (1 - x).
Proof.
  intros H. assert (- ln (1 - x) <= 2 * x); [|lra]. rewrite <- ln_Rinv by lra. rewrite <- (ln_exp (2 * x)). apply ln_mono; [apply Rinv_0_lt_compat; lra|].
  apply Rle_trans with (1 + 2 * x); [|apply exp_ineq1_le].
  apply Rmult_le_reg_r with (1 - x); [lra|]. rewrite Rinv_l by lra. nra.
Qed.
Lemma exp_1_ge2 : 2 <= exp 1.
Proof. pose proof (exp_ineq1_le 1). lra. Qed.
Lemma frank_psi_far th u : th <= -36 -> 1 / 100 < u <= 1 ->
  exists r, frank_psi th (frank_ipsi th (Fin u)) = Ok (Fin r) /\ u <= r <= u + exp th.
Proof.
  intros H Hu. rewrite frank_ipsi_pos by lra. set (s := fr_f th u).
  assert (Hs : 0 <= s) by (apply (g_pos _ _ _ (fr_gen th ltac:(lra))); lra).
  unfold frank_psi. rewrite (proj2 (Rleb_true th (-36))) by lra. unfold log1pexp. cbn [eopp esub eadd eexp].
  pose proof (exp_pos (- s + - th)) as PX. rewrite elog_pos by lra. cbn [eopp ediv escal].
  eexists. split; [reflexivity|].
  assert (Eu : u = - ln (1 + (exp (- th) - 1) * exp (- s)) / th) by (unfold s; symmetry; apply (fr_inv th u); lra).
  pose proof (fr_arg th s Hs) as PA. set (A := 1 + (exp (- th) - 1) * exp (- s)) in *.
  set (B := 1 + exp (- s + - th)).
  assert (AB : A = B - exp (- s)) by (unfold A, B; rewrite exp_plus; ring).
  pose proof (exp_pos (- s)) as Ps.
  assert (PB : 0 < B) by (unfold B; lra).
  assert (Q : exp (- s) / B <= exp th).
  { apply Rmult_le_reg_r with B; [exact PB|]. unfold Rdiv. rewrite Rmult_assoc, Rinv_l by lra. unfold B.
    rewrite Rmult_plus_distr_l, <- exp_plus. replace (th + (- s + - th)) with (- s) by ring. pose proof (exp_pos th). lra. }
  assert (X : exp th <= 1 / 2).
  { apply Rle_trans with (exp (-1)); [apply exp_mono; lra|]. replace (-1) with (- (1)) by ring. rewrite exp_Ropp. pose proof exp_1_ge2.
    replace (1 / 2) with (/ 2) by field. apply Rinv_le_contravar; lra. }
  assert (Q0 : 0 <= exp (- s) / B) by (left; apply Rdiv_lt_0_compat; assumption).
  assert (LA : ln A = ln B + ln (1 - exp (- s) / B)).
  { rewrite <- ln_mult by lra. f_equal. rewrite AB. field. lra. }
  pose proof (ln_1m_lower (exp (- s) / B) ltac:(lra)).
  assert (ln (1 - exp (- s) / B) <= 0) by (rewrite <- ln_1; apply ln_mono; lra).
  rewrite Eu at 1 2. rewrite LA.
  pose proof (Rinv_lt_0_compat th ltac:(lra)) as N.
  assert (N2 : - / 36 <= / th).
  { assert (/ - th <= / 36) by (apply Rinv_le_contravar; lra). rewrite <- Ropp_inv_permute in H2 by lra. lra. }
  unfold Rdiv. split; nra.
Qed.
(** Frank below the cut: theta in (0,1] *)
Lemma frank_small th u : 0 < th <= 1 -> 0 <= u <= 1 / 100 ->
  exists r, frank_psi th (frank_ipsi th (Fin u)) = Ok (Fin r) /\ 1 / 2 <= r.
Proof.
  intros H Hu. unfold frank_ipsi.
  rewrite (proj2 (Rleb_true (Rabs (u * th)) (1 / 100 * Rabs th))).
  2:{ rewrite Rabs_mult, (Rabs_right u), (Rabs_right th) by lra. nra. }
  rewrite frank_psi_pos by nra. eexists. split; [reflexivity|].
  rewrite <- (fr_inv th (1 / 2)) at 1 by lra. apply (g_psi_anti _ _ _ (fr_gen th ltac:(lra))); [nra|].
  unfold fr_f. pose proof (em_ratio th (1 / 2) ltac:(lra) ltac:(lra)) as ER. pose proof (em_nz th ltac:(lra)) as NZ.
  pose proof (exp_pos (- (1 / 2 * th))) as PE. set (q := exp (- (1 / 2 * th))) in *.
  assert (Eq : exp (- th) = q * q) by (unfold q; rewrite <- exp_plus; f_equal; field). rewrite Eq in *.
  assert (q < 1) by (unfold q; apply exp_lt_1; lra).
  assert (1 / 2 <= q).
  { unfold q. pose proof (exp_ineq1_le (- (1 / 2 * th))). lra. }
  replace ((q - 1) / (q * q - 1)) with (/ (1 + q)) by (field; split; lra).
  rewrite ln_Rinv by lra. rewrite Ropp_involutive.
  assert (1 / 100 <= ln (1 + q)); [|nra].
  rewrite <- (ln_exp (1 / 100)). apply ln_mono; [apply exp_pos|].
  (* exp(1/100) <= exp(1)^(..): use 1/exp(-x) *)
  pose proof (exp_ineq1_le (- (1 / 100))). rewrite exp_Ropp in H2. pose proof (exp_pos (1 / 100)).
  assert (exp (1 / 100) <= / (99 / 100)).
  { rewrite <- (Rinv_inv (exp (1 / 100))). apply Rinv_le_contravar; lra. }
  lra.
Qed.
Lemma lsum_all0 (A : Type) (l : list A) : lsum (map (fun _ => 0) l) = 0.
Proof. induction l as [|x l IH]; [reflexivity|]. cbn [map lsum]. rewrite IH. ring. Qed.
Lemma frank_zero_coordinate th (l : list ext) : (forall x, In x l -> x = Fin 0 \/ x = Fin 1) -> th <> 0 -> -36 < th ->
  frank_cdf th l = Ok (Fin 1).
Proof.
  intros F H H36. unfold frank_cdf, arch_cdf.
  assert (E : map (frank_ipsi th) l = map Fin (map (fun _ => 0) l)).
  { rewrite map_map. apply map_ext_in. intros x I. destruct (F x I) as [->| ->].
    - unfold frank_ipsi. rewrite Rmult_0_l, Rabs_R0, (proj2 (Rleb_true 0 _)); [reflexivity|]. pose proof (Rabs_pos th). lra.
    - rewrite frank_ipsi_pos by lra. rewrite (g_one _ _ _ (fr_gen th H)). reflexivity. }
  rewrite E, esum_fin. replace (lsum (map (fun _ => 0) l)) with 0.
  - rewrite frank_psi_pos by (try assumption; lra). do 2 f_equal. rewrite <- (g_one _ _ _ (fr_gen th H)). apply fr_inv; [exact H|lra].
  - symmetry. apply lsum_all0.
Qed.
Lemma frank_zero_theta (l : list R) : frank_cdf 0 (map Fin l) = Ok (Fin 1).
Proof.
  unfold frank_cdf, arch_cdf. rewrite map_map.
  assert (E : map (fun x => frank_ipsi 0 (Fin x)) l = map Fin (map (fun _ => 0) l)).
  { rewrite map_map. apply map_ext. intros x. unfold frank_ipsi. rewrite Rmult_0_r, Rabs_R0, Rmult_0_r.
    rewrite (proj2 (Rleb_true 0 0)) by lra. reflexivity. }
  rewrite E, esum_fin. replace (lsum (map (fun _ => 0) l)) with 0 by (symmetry; apply lsum_all0).
  unfold frank_psi. rewrite (proj2 (Rleb_false 0 (-36))) by lra. rewrite Rltb_irrefl, Reqb_refl. cbn. rewrite Ropp_0, exp_0. reflexivity.
Qed.
(** cdf is symmetric *)
Lemma arch_cdf_perm psi ipsi l l' : Permutation l l' -> arch_cdf psi ipsi l = arch_cdf psi ipsi l'.
Proof. intros P. unfold arch_cdf. f_equal. apply esum_perm. apply Permutation_map. exact P. Qed.
