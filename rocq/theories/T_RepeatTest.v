(** Theorems: the statistics of the symmetry tests on data in which all observations occur several times. *)
From Coq Require Import Reals Lra Lia.
From Verif Require Import Base RSumLib CountLib Ext M_Empirical M_Gof S_Gof S_Repeat T_Repeat T_Gof.
Local Close Scope Z_scope. Open Scope R_scope.

Lemma share_copies t n P : (0 < t)%nat -> share (t * n) (fun i => P (i mod n)%nat) = share n P.
Proof.
  intros Ht. unfold share. rewrite count_copies, !mult_INR. apply lt_0_INR in Ht. destruct n as [|n]; [cbn; unfold Rdiv; ring|].
  assert (0 < INR (S n)) by (apply lt_0_INR; lia). field. split; lra.
Qed.
(** Both statistics are multiplied by the number of copies. *)
Theorem C136_exchangeability : forall t u g m, (0 < t)%nat -> exch_test_stat (repeated t u) g (t * nr u) m = INR t * exch_test_stat u g (nr u) m.
Proof.
  intros t u g m Ht. rewrite !C59_meaning, mult_INR.
  match goal with |- _ * ?a = INR t * (_ * ?b) => assert (E : a = b) end.
  { apply rsum_ext. intros i _. cbn [repeated get].
    pose proof (share_copies t (nr u) (fun k => Rleb (get u k 0) (get g i 0) && Rleb (get u k 1) (get g i 1)) Ht) as E1.
    pose proof (share_copies t (nr u) (fun k => Rleb (get u k 0) (get g i 1) && Rleb (get u k 1) (get g i 0)) Ht) as E2.
    cbv beta in E1, E2. rewrite E1, E2. reflexivity. }
  rewrite E. unfold Rdiv. ring.
Qed.
Print Assumptions C136_exchangeability.
Theorem C136_radial_symmetry : forall t u, (0 < t)%nat ->
  rad_sym_test_stat (ravelF (repeated t u)) (nr (repeated t u)) (nc u) = INR t * rad_sym_test_stat (ravelF u) (nr u) (nc u).
Proof.
  intros t u Ht. change (nc u) with (nc (repeated t u)) at 1. rewrite !C60_meaning. cbn [repeated nr nc get].
  rewrite <- (rsum_copies t (nr u)). apply rsum_ext. intros k _. cbv beta.
  pose proof (share_copies t (nr u) (fun i => forallb (fun j => Rleb (get u i j) (get u (k mod nr u)%nat j)) (seq 0 (nc u))) Ht) as E1.
  pose proof (share_copies t (nr u) (fun i => forallb (fun j => Rleb (1 - get u i j) (get u (k mod nr u)%nat j)) (seq 0 (nc u))) Ht) as E2.
  cbv beta in E1, E2. rewrite E1, E2. reflexivity.
Qed.
Print Assumptions C136_radial_symmetry.
(** One observation at (1/4, 1/2), twice: it lies below itself and its mirror image does not, so the statistic is 1 once and 2 twice. *)
Example C136_statistic_case : let u := mkMat 1 2 (fun _ j => if Nat.eqb j 0 then / 4 else / 2) in
  rad_sym_test_stat (ravelF u) (nr u) (nc u) = 1 /\ rad_sym_test_stat (ravelF (repeated 2 u)) (nr (repeated 2 u)) (nc u) = 2.
Proof.
  intros u. assert (E : rad_sym_test_stat (ravelF u) (nr u) (nc u) = 1).
  { rewrite C60_meaning. cbn. rewrite !(proj2 (Rleb_true _ _)) by lra. unfold share, count. cbn. replace (Rleb (1 - / 4) (/ 4)) with false by (symmetry; apply Rleb_false; lra). cbn. field. }
  split; [exact E|]. rewrite C136_radial_symmetry by lia. rewrite E. cbn. ring.
Qed.
