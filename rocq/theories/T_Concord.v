(** C85: Kendall's tau of the Archimedean copulas. *)
From Coquelicot Require Import Coquelicot.
From Verif Require Import Base RSumLib Ext S_Archimedean S_Concord M_Archimedean M_Debye P_Arch P_ArchCode P_Arch2 P_Debye P_Debye2 T_Debye P_Kendall P_Kendall2 P_Kendall3.
Open Scope R_scope.

(** the bivariate distribution function computed by the code *)
Definition bivariate (cdf : list ext -> result ext) (u v : R) : R := val (cdf [Fin u; Fin v]).

(** ** C85 *)
(** A copula has at most one Kendall's tau. *)
Theorem C85_unique : forall C t t', kendall_tau C t -> kendall_tau C t' -> t = t'.
Proof.
  intros C t t' [Cu [Cv [I [D [H1 H2]]]]] [Cu' [Cv' [I' [D' [H1' H2']]]]].
  assert (E : forall u, 0 < u < 1 -> I u = I' u).
  { intros u Hu. specialize (H1 u Hu). specialize (H1' u Hu). assert (X : integral_01 (fun v => Cu' u v * Cv' u v) (I u)).
    { apply (integral_ext (fun v => Cu u v * Cv u v)); [|exact H1]. intros v Hv. destruct (D u v Hu Hv) as [A B]. destruct (D' u v Hu Hv) as [A' B'].
      rewrite <- (is_derive_unique _ _ _ A), <- (is_derive_unique _ _ _ B), (is_derive_unique _ _ _ A'), (is_derive_unique _ _ _ B'). reflexivity. }
    unfold integral_01 in *. apply (is_RInt_gen_unique (V := R_CompleteNormedModule)) in X. apply (is_RInt_gen_unique (V := R_CompleteNormedModule)) in H1'. rewrite <- X, <- H1'. reflexivity. }
  apply (integral_ext I I') in H2; [|exact E]. unfold integral_01 in *. apply (is_RInt_gen_unique (V := R_CompleteNormedModule)) in H2. apply (is_RInt_gen_unique (V := R_CompleteNormedModule)) in H2'. rewrite H2 in H2'. lra.
Qed.
Print Assumptions C85_unique.
(** Clayton: the code's tau is Kendall's tau of the code's distribution function, also for negative theta, where it vanishes below a curve *)
Theorem C85_clayton : forall th, -1 < th -> th <> 0 -> kendall_tau (bivariate (clayton_cdf th)) (clayton_tau th).
Proof.
  intros th H H0. unfold clayton_tau. destruct (Rlt_le_dec th 0) as [L|L].
  - apply (kendall_ext (fun u v => pp (Rpower u (- th) + Rpower v (- th) - 1) (1 / - th))).
    + intros u v Hu Hv. unfold bivariate. rewrite clayton_closed_neg by lra. cbn [val]. unfold pp, clayton_C. replace (1 / - th) with (-1 / th) by (field; lra). reflexivity.
    + replace (th / (th + 2)) with (- - th / (- - th + 2)) by (rewrite Ropp_involutive; reflexivity). apply clayton_neg_tau. lra.
  - apply (kendall_ext (clayton_C th)); [|apply clayton_pos_tau; lra]. intros u v Hu Hv. unfold bivariate. rewrite clayton_closed by lra. reflexivity.
Qed.
Print Assumptions C85_clayton.
Theorem C85_gumbel : forall th, 1 <= th -> kendall_tau (bivariate (gumbel_cdf th)) (gumbel_tau th).
Proof.
  intros th H. unfold gumbel_tau. apply (kendall_ext (gumbel_C th)); [|apply gumbel_kendall, H]. intros u v Hu Hv. unfold bivariate. rewrite gumbel_closed by lra. reflexivity.
Qed.
Print Assumptions C85_gumbel.
(** Frank, with the Debye function that the code computes (C70): Kendall's tau of the textbook copula, which is the code's where its
    generator is not approximated (C18) *)
Theorem C85_frank : forall th, / 100000000 < Rabs th -> exists t, frank_tau_code (raw 1) th = Some t /\ kendall_tau (frank_C th) t.
Proof.
  intros th H. assert (N : th <> 0) by (intros ->; rewrite Rabs_R0 in H; lra). exists (1 + 4 * (debye 1 th - 1) / th). split; [|apply frank_kendall, N].
  unfold frank_tau_code. rewrite (proj2 (Rleb_false _ _) H), (proj1 (C70_debye th N)). reflexivity.
Qed.
Print Assumptions C85_frank.
(** fitting by inversion: the copula with parameter itau(t) has Kendall's tau t *)
Theorem C85_itau : forall t,
  (-1 < t < 1 -> t <> 0 -> kendall_tau (bivariate (clayton_cdf (clayton_itau t))) t) /\
  (0 <= t < 1 -> kendall_tau (bivariate (gumbel_cdf (gumbel_itau t))) t).
Proof.
  intros t. split.
  - intros H N. assert (R : -1 < clayton_itau t).
    { unfold clayton_itau. apply Rmult_lt_reg_r with (1 - t); [lra|]. unfold Rdiv. rewrite Rmult_assoc, Rinv_l by lra. lra. }
    assert (Z : clayton_itau t <> 0).
    { unfold clayton_itau, Rdiv. apply Rmult_integral_contrapositive_currified; [lra|]. apply Rinv_neq_0_compat. lra. }
    replace t with (clayton_tau (clayton_itau t)) at 2; [apply C85_clayton; assumption|]. unfold clayton_tau, clayton_itau. field. lra.
  - intros H. assert (E : gumbel_itau t = 1 / (1 - t)) by (unfold gumbel_itau; rewrite Rltb_ge by lra; reflexivity).
    assert (R : 1 <= gumbel_itau t). { rewrite E. apply Rmult_le_reg_r with (1 - t); [lra|]. unfold Rdiv. rewrite Rmult_assoc, Rinv_l by lra. lra. }
    replace t with (gumbel_tau (gumbel_itau t)) at 2; [apply C85_gumbel, R|]. rewrite E. unfold gumbel_tau. field. lra.
Qed.
Print Assumptions C85_itau.
(** independence has tau 0; Clayton's tau at 2 and -1/2, Gumbel's at 4 *)
Example C85_case : kendall_tau (fun u v => u * v) 0 /\ kendall_tau (bivariate (clayton_cdf 2)) (1 / 2) /\ kendall_tau (bivariate (clayton_cdf (-1 / 2))) (-1 / 3) /\
  kendall_tau (bivariate (gumbel_cdf 4)) (3 / 4).
Proof.
  split; [|split; [|split]].
  - exists (fun u v => v), (fun u v => u), (fun u => 1 / 2 * u). split; [|split].
    + intros u v _ _. split; auto_derive; try exact Logic.I; ring.
    + intros u _. replace (1 / 2 * u) with (u * (1 / 2 * 1) - u * (1 / 2 * 0)) by field. apply (integral_primitive _ (fun v => u * (1 / 2 * v ^ 2))).
      * intros v _. auto_derive; [exact Logic.I|field].
      * intros v _. apply (ex_derive_continuous (V := R_NormedModule)). auto_derive. exact Logic.I.
      * apply lim0_scal, lim0_scal, lim0_sq.
      * apply lim1_scal, lim1_scal, lim1_sq.
    + replace ((1 - 0) / 4) with (1 / 4 * 1 - 1 / 4 * 0) by field. apply (integral_primitive _ (fun v => 1 / 4 * v ^ 2)).
      * intros v _. auto_derive; [exact Logic.I|field].
      * intros v _. apply (ex_derive_continuous (V := R_NormedModule)). auto_derive. exact Logic.I.
      * apply lim0_scal, lim0_sq.
      * apply lim1_scal, lim1_sq.
  - replace (1 / 2) with (clayton_tau 2) by (unfold clayton_tau; field). apply C85_clayton; lra.
  - replace (-1 / 3) with (clayton_tau (-1 / 2)) by (unfold clayton_tau; field). apply C85_clayton; lra.
  - replace (3 / 4) with (gumbel_tau 4) by (unfold gumbel_tau; field). apply C85_gumbel; lra.
Qed.
