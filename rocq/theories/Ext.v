(** Floating point values as extended reals: exact finite values, the two infinities and nan.
    Rounding, overflow and signed zeros are not modelled.  The operations follow IEEE/numpy on the special values. *)
From Verif Require Import Base RSumLib.
Open Scope R_scope.

Inductive ext := Fin (r : R) | Pinf | Ninf | Nan.

Definition eopp (a : ext) : ext := match a with Fin r => Fin (- r) | Pinf => Ninf | Ninf => Pinf | Nan => Nan end.
Definition eadd (a b : ext) : ext :=
  match a, b with
  | Nan, _ | _, Nan => Nan
  | Fin x, Fin y => Fin (x + y)
  | Pinf, Ninf | Ninf, Pinf => Nan
  | Pinf, _ | _, Pinf => Pinf
  | Ninf, _ | _, Ninf => Ninf
  end.
Definition esub (a b : ext) : ext := eadd a (eopp b).
(** product with a finite number *)
Definition escal (c : R) (a : ext) : ext :=
  match a with
  | Fin x => Fin (c * x)
  | Nan => Nan
  | Pinf => if Rltb 0 c then Pinf else if Rltb c 0 then Ninf else Nan
  | Ninf => if Rltb 0 c then Ninf else if Rltb c 0 then Pinf else Nan
  end.
(** np.maximum: nan propagates *)
Definition emax (a b : ext) : ext :=
  match a, b with
  | Nan, _ | _, Nan => Nan
  | Fin x, Fin y => Fin (Rmax x y)
  | Pinf, _ | _, Pinf => Pinf
  | Ninf, y => y
  | x, Ninf => x
  end.
(** [a ** y] for a finite exponent.  Simplification: a negative base gives nan for every non-zero exponent
    (numpy would accept integer exponents); the code never produces one on its domain. *)
Definition epow (a : ext) (y : R) : ext :=
  if Reqb y 0 then Fin 1
  else match a with
       | Nan => Nan
       | Fin x => if Rltb 0 x then Fin (Rpower x y)
                  else if Reqb x 0 then (if Rltb 0 y then Fin 0 else Pinf)
                  else Nan
       | Pinf => if Rltb 0 y then Pinf else Fin 0
       | Ninf => Nan
       end.
Definition elog (a : ext) : ext :=
  match a with
  | Fin x => if Rltb 0 x then Fin (ln x) else if Reqb x 0 then Ninf else Nan
  | Pinf => Pinf
  | _ => Nan
  end.
Definition eexp (a : ext) : ext :=
  match a with Fin x => Fin (exp x) | Pinf => Pinf | Ninf => Fin 0 | Nan => Nan end.
(** division by a finite non-zero number *)
Definition ediv (a : ext) (c : R) : ext := escal (/ c) a.
(** array.sum() *)
Definition esum (l : list ext) : ext := fold_right eadd (Fin 0) l.
(** np.sign of a finite number *)
Definition sgn (x : R) : R := if Rltb 0 x then 1 else if Rltb x 0 then -1 else 0.

Lemma sgn_pos x : 0 < x -> sgn x = 1.
Proof. intros H. unfold sgn. rewrite (proj2 (Rltb_true 0 x) H). reflexivity. Qed.
Lemma sgn_neg x : x < 0 -> sgn x = -1.
Proof. intros H. unfold sgn. destruct (Rltb 0 x) eqn:E; [apply Rltb_true in E; lra|]. rewrite (proj2 (Rltb_true x 0) H). reflexivity. Qed.
Lemma sgn_0 : sgn 0 = 0.
Proof. unfold sgn. destruct (Rltb 0 0) eqn:E; [apply Rltb_true in E; lra|reflexivity]. Qed.

Lemma epow_pos x y : 0 < x -> epow (Fin x) y = Fin (Rpower x y).
Proof.
  intros H. unfold epow. destruct (Reqb y 0) eqn:E.
  - apply Reqb_true in E. subst. rewrite Rpower_O by exact H. reflexivity.
  - rewrite (proj2 (Rltb_true 0 x) H). reflexivity.
Qed.
Lemma Rltb_irrefl x : Rltb x x = false.
Proof. apply Rltb_false. lra. Qed.
Lemma Reqb_refl x : Reqb x x = true.
Proof. apply Reqb_true. reflexivity. Qed.
Lemma epow_0_pos y : 0 < y -> epow (Fin 0) y = Fin 0.
Proof.
  intros H. unfold epow. rewrite (proj2 (Reqb_false y 0)) by lra. rewrite Rltb_irrefl, Reqb_refl, (proj2 (Rltb_true 0 y) H). reflexivity.
Qed.
Lemma epow_0_neg y : y < 0 -> epow (Fin 0) y = Pinf.
Proof.
  intros H. unfold epow. rewrite (proj2 (Reqb_false y 0)) by lra. rewrite Rltb_irrefl, Reqb_refl, (proj2 (Rltb_false 0 y)) by lra. reflexivity.
Qed.
Lemma epow_inf_pos y : 0 < y -> epow Pinf y = Pinf.
Proof. intros H. unfold epow. rewrite (proj2 (Reqb_false y 0)) by lra. rewrite (proj2 (Rltb_true 0 y) H). reflexivity. Qed.
Lemma epow_inf_neg y : y < 0 -> epow Pinf y = Fin 0.
Proof. intros H. unfold epow. rewrite (proj2 (Reqb_false y 0)) by lra. rewrite (proj2 (Rltb_false 0 y)) by lra. reflexivity. Qed.
Lemma elog_pos x : 0 < x -> elog (Fin x) = Fin (ln x).
Proof. intros H. unfold elog. rewrite (proj2 (Rltb_true 0 x) H). reflexivity. Qed.
Lemma elog_0 : elog (Fin 0) = Ninf.
Proof. unfold elog. rewrite Rltb_irrefl, Reqb_refl. reflexivity. Qed.

Lemma esum_fin (l : list R) : esum (map Fin l) = Fin (lsum l).
Proof. induction l as [|x l IH]; [reflexivity|]. cbn. unfold esum in IH. rewrite IH. reflexivity. Qed.
(** terms that are finite or +inf *)
Definition fin_or_pinf (a : ext) : Prop := match a with Fin _ | Pinf => True | _ => False end.
Lemma esum_fin_or_pinf l : Forall fin_or_pinf l -> fin_or_pinf (esum l).
Proof. intros F. induction F as [|b l Hb F IH]; [exact I|]. cbn. fold (esum l). destruct b, (esum l); cbn in *; auto. Qed.
Lemma esum_pinf l : Forall fin_or_pinf l -> In Pinf l -> esum l = Pinf.
Proof.
  induction l as [|a l IH]; intros F I; [destruct I|]. inversion F as [|? ? Ha Fl]; subst.
  assert (Hs : fin_or_pinf (esum l)) by (apply esum_fin_or_pinf; exact Fl).
  cbn [esum fold_right]. fold (esum l). destruct I as [->|I].
  - destruct (esum l); cbn in *; tauto.
  - rewrite (IH Fl I). destruct a; cbn in *; tauto.
Qed.
Lemma eadd_comm a b : eadd a b = eadd b a.
Proof. destruct a, b; cbn; try reflexivity. f_equal; ring. Qed.
Lemma eadd_assoc a b c : eadd a (eadd b c) = eadd (eadd a b) c.
Proof. destruct a, b, c; cbn; try reflexivity. f_equal; ring. Qed.
From Coq Require Import Permutation.
Lemma esum_perm l l' : Permutation l l' -> esum l = esum l'.
Proof.
  unfold esum. induction 1 as [|x l l' P IH|x y l|l l' l'' P1 IH1 P2 IH2]; cbn [fold_right]; try reflexivity.
  - rewrite IH. reflexivity.
  - rewrite !eadd_assoc, (eadd_comm y x). reflexivity.
  - congruence.
Qed.
