(** int64 wrap-around, and tables of Stirling numbers to compute with. *)
From Verif Require Import Base M_Special S_Special P_Stirling.
From Coq Require Import ZArith Lia.
Lemma wrap64_mul a b : wrap64 (wrap64 a * b) = wrap64 (a * b).
Proof.
  unfold wrap64. f_equal. set (W := (2 ^ 64)%Z). set (H := (2 ^ 63)%Z).
  assert (E : (exists q, (a + H) mod W = a + H - W * q)%Z). { exists ((a + H) / W)%Z. pose proof (Z.div_mod (a + H) W ltac:(unfold W; lia)). lia. }
  destruct E as [q ->]. replace ((a + H - W * q - H) * b + H)%Z with (a * b + H + (- q * b) * W)%Z by ring. apply Z_mod_plus_full.
Qed.
Lemma wrap64_small z : (- 2 ^ 63 <= z < 2 ^ 63)%Z -> wrap64 z = z.
Proof. intros H. unfold wrap64. rewrite Z.mod_small by lia. lia. Qed.
Lemma wrap64_range z : (- 2 ^ 63 <= wrap64 z < 2 ^ 63)%Z.
Proof. unfold wrap64. pose proof (Z.mod_pos_bound (z + 2 ^ 63) (2 ^ 64) ltac:(lia)). lia. Qed.
Lemma wrap64_le z : (0 <= z -> wrap64 z <= z)%Z.
Proof.
  intros H. unfold wrap64. pose proof (Z.mod_le (z + 2 ^ 63) (2 ^ 64)). lia.
Qed.
Lemma wrap64_lt z : (2 ^ 63 <= z -> wrap64 z < z)%Z.
Proof. intros H. pose proof (wrap64_range z). lia. Qed.
Lemma fits64_spec z : fits64 z = true <-> (- 2 ^ 63 <= z < 2 ^ 63)%Z.
Proof. unfold fits64. rewrite andb_true_iff, Z.leb_le, Z.ltb_lt. reflexivity. Qed.
Lemma all_below (P : nat -> bool) n : forallb P (seq 0 n) = true -> forall i, (i < n)%nat -> P i = true.
Proof. intros H i Hi. rewrite forallb_forall in H. apply H, in_seq. lia. Qed.

(** ** Row-wise tables, to compute with *)
Fixpoint step (f : nat -> Z) (k : nat) (a : Z) (r : list Z) : list Z :=
  match r with [] => [a] | b :: r' => (a + f k * b)%Z :: step f (S k) b r' end.
Fixpoint r1 (n : nat) : list Z := match n with O => [1%Z] | S m => step (fun _ => - Z.of_nat m)%Z 0 0 (r1 m) end.
Fixpoint r2 (n : nat) : list Z := match n with O => [1%Z] | S m => step Z.of_nat 0 0 (r2 m) end.
Lemma step_nth f r : forall k a i, nth i (step f k a r) 0%Z = (match i with O => a | S p => nth p r 0%Z end + f (k + i)%nat * nth i r 0%Z)%Z.
Proof.
  induction r as [|b r IH]; intros k a i; cbn [step].
  - destruct i as [|[|i]]; cbn [nth]; ring.
  - destruct i as [|i]; cbn [nth]; [rewrite Nat.add_0_r; reflexivity|]. rewrite IH. replace (k + S i)%nat with (S k + i)%nat by lia. destruct i; reflexivity.
Qed.
Lemma r1_ok n : forall k, nth k (r1 n) 0%Z = s1 n k.
Proof.
  induction n as [|n IH]; intros k; [destruct k as [|[|k]]; reflexivity|]. cbn [r1]. rewrite step_nth, IH. destruct k as [|k].
  - rewrite (s1_n0 (S n)) by lia. destruct n; [reflexivity|]. rewrite s1_n0 by lia. ring.
  - rewrite IH, s1_SS. ring.
Qed.
Lemma r2_ok n : forall k, nth k (r2 n) 0%Z = s2 n k.
Proof.
  induction n as [|n IH]; intros k; [destruct k as [|[|k]]; reflexivity|]. cbn [r2]. rewrite step_nth, IH. destruct k as [|k].
  - cbn [Nat.add]. change (Z.of_nat 0) with 0%Z. destruct n; reflexivity.
  - rewrite IH. cbn [Nat.add]. change (s2 (S n) (S k)) with (s2 n k + Z.of_nat (S k) * s2 n (S k))%Z. ring.
Qed.

