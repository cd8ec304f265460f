(** Finite sums of reals over 0..n-1 and over lists, and boolean real comparisons. *)
From Coq Require Export Reals Lra.
From Verif Require Import Base.
Open Scope R_scope.

Definition Rleb (x y : R) : bool := if Rle_dec x y then true else false.
Definition Rltb (x y : R) : bool := if Rlt_dec x y then true else false.
Definition Reqb (x y : R) : bool := if Req_EM_T x y then true else false.

Lemma Rleb_true x y : Rleb x y = true <-> x <= y.
Proof. unfold Rleb; destruct (Rle_dec x y); split; auto; discriminate. Qed.
Lemma Rleb_false x y : Rleb x y = false <-> y < x.
Proof. unfold Rleb; destruct (Rle_dec x y); split; try discriminate; try lra; reflexivity. Qed.
Lemma Rltb_true x y : Rltb x y = true <-> x < y.
Proof. unfold Rltb; destruct (Rlt_dec x y); split; auto; discriminate. Qed.
Lemma Rltb_false x y : Rltb x y = false <-> y <= x.
Proof. unfold Rltb; destruct (Rlt_dec x y); split; try discriminate; try lra; reflexivity. Qed.
Lemma Reqb_true x y : Reqb x y = true <-> x = y.
Proof. unfold Reqb; destruct (Req_EM_T x y); split; auto; discriminate. Qed.
Lemma Reqb_false x y : Reqb x y = false <-> x <> y.
Proof. unfold Reqb; destruct (Req_EM_T x y); split; auto; try discriminate; contradiction. Qed.

Lemma Rleb_total_preorder_total x y : Rleb x y = true \/ Rleb y x = true.
Proof. rewrite !Rleb_true. lra. Qed.

(** sum of f 0 .. f (n-1) *)
Fixpoint rsum (n : nat) (f : nat -> R) : R :=
  match n with O => 0 | S k => rsum k f + f k end.
(** sum of a list *)
Fixpoint lsum (l : list R) : R := match l with [] => 0 | x :: r => x + lsum r end.
(** product of a list *)
Fixpoint lprod (l : list R) : R := match l with [] => 1 | x :: r => x * lprod r end.

Lemma rsum_ext n f g : (forall i, (i < n)%nat -> f i = g i) -> rsum n f = rsum n g.
Proof. induction n as [|n IH]; intros H; [reflexivity|]. simpl. rewrite IH, (H n); auto. Qed.
Lemma rsum_plus n f g : rsum n (fun i => f i + g i) = rsum n f + rsum n g.
Proof. induction n as [|n IH]; simpl; [ring|]. rewrite IH; ring. Qed.
Lemma rsum_minus n f g : rsum n (fun i => f i - g i) = rsum n f - rsum n g.
Proof. induction n as [|n IH]; simpl; [ring|]. rewrite IH; ring. Qed.
Lemma rsum_scal n c f : rsum n (fun i => c * f i) = c * rsum n f.
Proof. induction n as [|n IH]; simpl; [ring|]. rewrite IH; ring. Qed.
Lemma rsum_scal_r n c f : rsum n (fun i => f i * c) = rsum n f * c.
Proof. induction n as [|n IH]; simpl; [ring|]. rewrite IH; ring. Qed.
Lemma rsum_opp n f : rsum n (fun i => - f i) = - rsum n f.
Proof. induction n as [|n IH]; simpl; [ring|]. rewrite IH; ring. Qed.
Lemma rsum_const n c : rsum n (fun _ => c) = INR n * c.
Proof. induction n as [|n IH]; [simpl; ring|]. rewrite S_INR; simpl rsum. rewrite IH; ring. Qed.
Lemma rsum_zero n f : (forall i, (i < n)%nat -> f i = 0) -> rsum n f = 0.
Proof. intros H. rewrite (rsum_ext n f (fun _ => 0)) by exact H. rewrite rsum_const; ring. Qed.
Lemma rsum_le n f g : (forall i, (i < n)%nat -> f i <= g i) -> rsum n f <= rsum n g.
Proof. induction n as [|n IH]; intros H; simpl; [lra|]. apply Rplus_le_compat; auto. Qed.
Lemma rsum_nonneg n f : (forall i, (i < n)%nat -> 0 <= f i) -> 0 <= rsum n f.
Proof. intros H. rewrite <- (rsum_zero n (fun _ => 0)) by auto. apply rsum_le; exact H. Qed.
Lemma rsum_pos n f : (forall i, (i < n)%nat -> 0 <= f i) -> (exists i, (i < n)%nat /\ 0 < f i) -> 0 < rsum n f.
Proof.
  induction n as [|n IH]; intros H [i [Hi Hp]]; [lia|]. simpl.
  destruct (Nat.eq_dec i n) as [->|Hne].
  - pose proof (rsum_nonneg n f ltac:(auto)). lra.
  - assert (0 < rsum n f) by (apply IH; [auto|exists i; split; [lia|exact Hp]]).
    pose proof (H n ltac:(lia)). lra.
Qed.
Lemma rsum_swap n m (f : nat -> nat -> R) : rsum n (fun i => rsum m (fun j => f i j)) = rsum m (fun j => rsum n (fun i => f i j)).
Proof.
  induction n as [|n IH]; simpl.
  - symmetry; apply rsum_zero; reflexivity.
  - rewrite IH, <- rsum_plus. reflexivity.
Qed.
Lemma rsum_delta n k f : (k < n)%nat -> rsum n (fun i => if Nat.eqb i k then f i else 0) = f k.
Proof.
  induction n as [|n IH]; intros H; [lia|]. simpl. destruct (Nat.eqb_spec n k) as [->|Hne].
  - rewrite rsum_zero; [ring|]. intros i Hi. destruct (Nat.eqb_spec i k); [lia|reflexivity].
  - rewrite IH by lia. ring.
Qed.
Lemma rsum_Sl n f : rsum (S n) f = f O + rsum n (fun i => f (S i)).
Proof. induction n as [|n IH]; [simpl; ring|]. simpl in *. rewrite IH. ring. Qed.
Lemma rsum_lsum n f : rsum n f = lsum (map f (seq 0 n)).
Proof.
  revert f. induction n as [|n IH]; intros f; [reflexivity|]. rewrite rsum_Sl. cbn [seq map lsum].
  rewrite <- seq_shift, map_map, <- IH. reflexivity.
Qed.
Lemma rsum_mul n m f g : rsum n f * rsum m g = rsum n (fun i => rsum m (fun j => f i * g j)).
Proof.
  induction n as [|n IH]; simpl; [ring|]. rewrite <- IH, rsum_scal. ring.
Qed.

Lemma lsum_app l l' : lsum (l ++ l') = lsum l + lsum l'.
Proof. induction l as [|x l IH]; simpl; [ring|rewrite IH; ring]. Qed.
Lemma lprod_app l l' : lprod (l ++ l') = lprod l * lprod l'.
Proof. induction l as [|x l IH]; simpl; [ring|rewrite IH; ring]. Qed.
From Coq Require Import Permutation.
Lemma lsum_perm l l' : Permutation l l' -> lsum l = lsum l'.
Proof. induction 1; simpl; lra. Qed.
Lemma lprod_perm l l' : Permutation l l' -> lprod l = lprod l'.
Proof. induction 1; simpl; try congruence; ring. Qed.
Lemma lsum_nonneg l : (forall x, In x l -> 0 <= x) -> 0 <= lsum l.
Proof. induction l as [|x l IH]; intros H; simpl; [lra|]. pose proof (H x (or_introl eq_refl)). pose proof (IH (fun y Hy => H y (or_intror Hy))). lra. Qed.
Lemma lsum_map_ext {A} (f g : A -> R) l : (forall x, In x l -> f x = g x) -> lsum (map f l) = lsum (map g l).
Proof. intros H. f_equal. apply map_ext_in. exact H. Qed.
Lemma lsum_map_scal {A} c (f : A -> R) l : lsum (map (fun x => c * f x) l) = c * lsum (map f l).
Proof. induction l as [|x l IH]; simpl; [ring|rewrite IH; ring]. Qed.
Lemma lsum_map_plus {A} (f g : A -> R) l : lsum (map (fun x => f x + g x) l) = lsum (map f l) + lsum (map g l).
Proof. induction l as [|x l IH]; simpl; [ring|rewrite IH; ring]. Qed.
Lemma lsum_map_le {A} (f g : A -> R) l : (forall x, In x l -> f x <= g x) -> lsum (map f l) <= lsum (map g l).
Proof.
  induction l as [|x l IH]; intros H; simpl; [lra|].
  pose proof (H x (or_introl eq_refl)). pose proof (IH (fun y Hy => H y (or_intror Hy))). lra.
Qed.
