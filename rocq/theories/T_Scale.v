(** Theorems: tests, empirical copulas and fits see the ranks of the data only. *)
From Coq Require Import Reals QArith Qreals FunctionalExtensionality.
From Verif Require Import Base RSumLib CountLib Ext S_Matrix S_Rank M_Rank M_Special M_Stats M_Empirical M_Gof P_Gof M_GofRun S_Scale.
Local Close Scope Q_scope. Local Close Scope Z_scope. Open Scope R_scope. Open Scope list_scope.

Lemma scale_leb f j : increasing_scales f -> (fun a b => Rleb (f j a) (f j b)) = Rleb.
Proof.
  intros H. apply functional_extensionality. intros a. apply functional_extensionality. intros b.
  destruct (Rleb a b) eqn:E.
  - apply Rleb_true in E. apply Rleb_true. destruct E as [E| ->]; [left; apply H; exact E|right; reflexivity].
  - apply Rleb_false in E. apply Rleb_false. apply H. exact E.
Qed.
Lemma rankdata_scale f j t n x : increasing_scales f -> rankdata Rleb t n (fun k => f j (x k)) = rankdata Rleb t n x.
Proof.
  intros H. transitivity (rankdata (fun a b => Rleb (f j a) (f j b)) t n x); [reflexivity|]. rewrite (scale_leb f j H). reflexivity.
Qed.
Lemma rank_data_scale f x ties : increasing_scales f -> rank_data2 Rleb (rescaled f x) 1 ties = rank_data2 Rleb x 1 ties.
Proof.
  intros H. unfold rank_data2. destruct (parse_ties ties) as [t|]; [|reflexivity]. cbn [bind rescaled nr nc get]. do 2 f_equal.
  apply functional_extensionality. intros i. apply functional_extensionality. intros j. rewrite (rankdata_scale f j t (nr x) (fun k => get x k j) H). reflexivity.
Qed.
Lemma pobs_scale f x ties : increasing_scales f -> pseudo_obs Rleb (rescaled f x) ties = pseudo_obs Rleb x ties.
Proof. intros H. unfold pseudo_obs. rewrite (rank_data_scale f x ties H). reflexivity. Qed.
Lemma pobs1_scale f j n x ties : increasing_scales f -> pseudo_obs1 Rleb n (fun k => f j (x k)) ties = pseudo_obs1 Rleb n x ties.
Proof. intros H. unfold pseudo_obs1, rank_data1. destruct (parse_ties ties) as [t|]; [|reflexivity]. cbn [bind rmap]. rewrite (rankdata_scale f j t n x H). reflexivity. Qed.
Lemma has_ties_scale f x : increasing_scales f -> has_ties (rescaled f x) = has_ties x.
Proof.
  intros H. unfold has_ties. f_equal. cbn [rescaled nc].
  assert (I : forall j a b, Reqb (f j a) (f j b) = Reqb a b).
  { intros j a b. destruct (Reqb a b) eqn:E; [apply Reqb_true in E; subst; apply Reqb_true; reflexivity|]. apply Reqb_false in E. apply Reqb_false.
    destruct (Rtotal_order a b) as [L|[L|L]]; [pose proof (H j a b L); lra|contradiction|pose proof (H j b a L); lra]. }
  assert (X : forall {A} (p q : A -> bool) l, (forall a, In a l -> p a = q a) -> forallb p l = forallb q l).
  { intros A p q l. induction l as [|a l IH]; intros K; [reflexivity|]. cbn. rewrite (K a) by (left; reflexivity). rewrite IH; [reflexivity|]. intros; apply K; right; assumption. }
  apply X. intros j _. unfold distinct. replace (length (column (rescaled f x) j)) with (length (column x j)) by (unfold column; rewrite !map_length; reflexivity).
  apply X. intros i Hi. apply X. intros k Hk. apply in_seq in Hi, Hk. do 2 f_equal.
  assert (N : forall i, (i < length (column x j))%nat -> nth i (column (rescaled f x) j) 0 = f j (nth i (column x j) 0)).
  { intros a Ha. unfold column in *. rewrite map_length, seq_length in Ha. cbn [rescaled nr get].
    rewrite (nth_indep _ 0 ((fun i0 => f j (get x i0 j)) 0%nat)) by (rewrite map_length, seq_length; exact Ha). rewrite (map_nth (fun i0 => f j (get x i0 j))), seq_nth by exact Ha.
    rewrite (nth_indep _ 0 ((fun i0 => get x i0 j) 0%nat)) by (rewrite map_length, seq_length; exact Ha). rewrite (map_nth (fun i0 => get x i0 j)), seq_nth by exact Ha. reflexivity. }
  rewrite !N by lia. apply I.
Qed.

(** Test of exchangeability: statistic, p-value and errors. *)
Theorem C125_exchangeability : forall f argsort n n' x y N m ties normals bits, increasing_scales f ->
  exch_test argsort n n' (fun i => f 0%nat (x i)) (fun i => f 1%nat (y i)) N m ties normals bits = exch_test argsort n n' x y N m ties normals bits.
Proof. intros. unfold exch_test. rewrite !pobs1_scale by assumption. reflexivity. Qed.
Print Assumptions C125_exchangeability.
(** Test of radial symmetry. *)
Theorem C125_radial_symmetry : forall f argsort x N ties bits, increasing_scales f ->
  rad_sym_test argsort (rescaled f x) N ties bits = rad_sym_test argsort x N ties bits.
Proof. intros. unfold rad_sym_test. rewrite pobs_scale, has_ties_scale by assumption. reflexivity. Qed.
Print Assumptions C125_radial_symmetry.
(** Goodness of fit, with all options, for the same samples. *)
Theorem C125_goodness_of_fit : forall f fit0 sample x reps ties fit_ties o, increasing_scales f ->
  gof_call fit0 sample (rescaled f x) reps ties fit_ties o = gof_call fit0 sample x reps ties fit_ties o.
Proof.
  intros. unfold gof_call, gof_copula, gof_pobs, duplicated_ranks. rewrite !pobs_scale, has_ties_scale, rank_data_scale by assumption. reflexivity.
Qed.
Print Assumptions C125_goodness_of_fit.
(** The empirical copula and its density. *)
Theorem C125_empirical_copula : forall f btdtr e u log, increasing_scales f ->
  emp_cdf btdtr (mkEmp (rescaled f (e_data e)) (e_smoothing e) (e_ties e) (e_offset e)) u log = emp_cdf btdtr e u log.
Proof. intros. unfold emp_cdf. cbn [e_data e_smoothing e_ties e_offset]. rewrite pobs_scale by assumption. reflexivity. Qed.
Print Assumptions C125_empirical_copula.
Theorem C125_empirical_density : forall f beta_pdf beta_logpdf e u log, increasing_scales f ->
  emp_pdf beta_pdf beta_logpdf (mkEmp (rescaled f (e_data e)) (e_smoothing e) (e_ties e) (e_offset e)) u log = emp_pdf beta_pdf beta_logpdf e u log.
Proof. intros. unfold emp_pdf. cbn [e_data e_smoothing e_ties e_offset]. rewrite rank_data_scale by assumption. reflexivity. Qed.
Print Assumptions C125_empirical_density.
(** A fit that ranks its data. *)
Theorem C125_fit : forall f fit0 o x, increasing_scales f -> o_to_pobs o <> Some false -> base_fit fit0 o (rescaled f x) = base_fit fit0 o x.
Proof.
  intros f fit0 o x H N. unfold base_fit. destruct (o_to_pobs o) as [[|]|]; cbn [get_or]; [|contradiction (N eq_refl)|]; rewrite pobs_scale by assumption; reflexivity.
Qed.
Print Assumptions C125_fit.
(** exponentials of the first column and of twice the others *)
Example C125_case : increasing_scales (fun j a => if Nat.eqb j 0 then exp a else exp (2 * a)) /\ exp 1 <> 1.
Proof.
  split; [intros j a b H; destruct (Nat.eqb j 0); apply exp_increasing; lra|]. pose proof (exp_ineq1 1 ltac:(lra)). lra.
Qed.
