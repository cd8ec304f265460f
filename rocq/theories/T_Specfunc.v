(** C36 - C38, C67: find_root, threaded element maps, Clausen function, Chebyshev evaluation. *)
From Verif Require Import Base RSumLib Ext M_Specfunc S_Specfunc P_Specfunc.
Open Scope R_scope.

(** ** C36 *)
(** an answer is the solver's answer on a finite sign-changing bracket that contains the given one *)
Theorem C36_solver_sees_sign_change : forall brentq f a b delta m x, 0 < delta ->
  find_root brentq f a b delta m = Ok x ->
  exists a0 b0 a' b' fa fb, a = Fin a0 /\ b = Fin b0 /\ a' <= Rmin a0 b0 /\ Rmax a0 b0 <= b' /\
    f a' = Some fa /\ f b' = Some fb /\ fa * fb < 0 /\ x = brentq f a' b'.
Proof.
  intros brentq f [a| | |] [b| | |] delta m x Hd H; try discriminate H. unfold find_root in H.
  set (ab := if Rltb b a then (b, a) else (a, b)) in H.
  assert (E : ab = (Rmin a b, Rmax a b)).
  { unfold ab. destruct (Rltb b a) eqn:L.
    - apply Rltb_true in L. rewrite Rmin_right, Rmax_left by lra. reflexivity.
    - apply Rltb_false in L. rewrite Rmin_left, Rmax_right by lra. reflexivity. }
  rewrite E in H. destruct (expand f delta m (Rmin a b) (Rmax a b)) as [a' b'] eqn:X.
  pose proof (expand_grows f delta m Hd _ _ _ _ X) as [G1 G2].
  destruct (prod_of f a' b') as [p|] eqn:P; [|discriminate H]. destruct (Rltb p 0) eqn:N; [|discriminate H].
  injection H as <-. unfold prod_of in P. destruct (f a') as [fa|] eqn:Fa; [|discriminate P]. destruct (f b') as [fb|] eqn:Fb; [|discriminate P].
  injection P as <-. apply Rltb_true in N. exists a, b, a', b', fa, fb. repeat split; auto.
Qed.
Print Assumptions C36_solver_sees_sign_change.
(** hence a root whenever the solver finds one in every sign-changing bracket *)
Theorem C36_answer_is_a_root : forall brentq f,
  (forall a b fa fb, a <= b -> f a = Some fa -> f b = Some fb -> fa * fb < 0 -> f (brentq f a b) = Some 0) ->
  forall a b delta m x, 0 < delta -> find_root brentq f a b delta m = Ok x -> f x = Some 0.
Proof.
  intros brentq f Hs a b delta m x Hd H.
  destruct (C36_solver_sees_sign_change _ _ _ _ _ _ _ Hd H) as (a0 & b0 & a' & b' & fa & fb & -> & -> & H1 & H2 & Fa & Fb & N & ->).
  apply (Hs a' b' fa fb); auto. pose proof (Rmin_l a0 b0). pose proof (Rmax_l a0 b0). lra.
Qed.
Print Assumptions C36_answer_is_a_root.
Theorem C36_order_of_end_points : forall brentq f a b delta m,
  find_root brentq f a b delta m = find_root brentq f b a delta m.
Proof.
  intros brentq f [a| | |] [b| | |] delta m; try reflexivity. unfold find_root.
  destruct (Rtotal_order a b) as [H|[->|H]]; [| reflexivity |].
  - rewrite (proj2 (Rltb_false b a)) by lra. rewrite (proj2 (Rltb_true a b)) by lra. reflexivity.
  - rewrite (proj2 (Rltb_true b a)) by lra. rewrite (proj2 (Rltb_false a b)) by lra. reflexivity.
Qed.
Print Assumptions C36_order_of_end_points.
(** a bracket that already changes sign goes to the solver as it is *)
Theorem C36_good_bracket_is_kept : forall brentq f a b delta m fa fb, a <= b ->
  f a = Some fa -> f b = Some fb -> fa * fb < 0 -> find_root brentq f (Fin a) (Fin b) delta m = Ok (brentq f a b).
Proof.
  intros brentq f a b delta m fa fb Hab Fa Fb N. unfold find_root. rewrite (proj2 (Rltb_false b a)) by lra.
  assert (P : prod_of f a b = Some (fa * fb)) by (unfold prod_of; rewrite Fa, Fb; reflexivity).
  rewrite (expand_stop f delta m a b _ P N), P. rewrite (proj2 (Rltb_true _ 0)) by exact N. reflexivity.
Qed.
Print Assumptions C36_good_bracket_is_kept.
(** if the function is negative far to the left and positive far to the right, enough expansion steps always succeed *)
Theorem C36_expansion_succeeds : forall brentq f a b delta m L U, 0 < delta ->
  (forall x, exists y, f x = Some y) ->
  (forall x y, x <= L -> f x = Some y -> y < 0) -> (forall x y, U <= x -> f x = Some y -> 0 < y) ->
  Rmin a b - INR m * delta <= L -> U <= Rmax a b + INR m * delta ->
  exists x, find_root brentq f (Fin a) (Fin b) delta m = Ok x.
Proof.
  intros brentq f a b delta m L U Hd Hf HL HU H1 H2. unfold find_root.
  assert (E : (if Rltb b a then (b, a) else (a, b)) = (Rmin a b, Rmax a b)).
  { destruct (Rltb b a) eqn:Q.
    - apply Rltb_true in Q. rewrite Rmin_right, Rmax_left by lra. reflexivity.
    - apply Rltb_false in Q. rewrite Rmin_left, Rmax_right by lra. reflexivity. }
  rewrite E.
  destruct (expand_reaches f delta m Hd (Rmin a b) (Rmax a b) L U) as (a' & b' & p & X & P & N); auto.
  { pose proof (Rmin_l a b). pose proof (Rmax_l a b). lra. }
  rewrite X, P. rewrite (proj2 (Rltb_true p 0)) by exact N. eexists. reflexivity.
Qed.
Print Assumptions C36_expansion_succeeds.
(** no sign change anywhere, or an end point that is not finite: an error, never an answer *)
Theorem C36_fails_loudly : forall brentq f a b delta m, 0 < delta ->
  ((forall x y fx fy, f x = Some fx -> f y = Some fy -> 0 <= fx * fy) \/ (forall r, a <> Fin r) \/ (forall r, b <> Fin r)) ->
  find_root brentq f a b delta m = Err AssertionError.
Proof.
  intros brentq f a b delta m Hd H.
  assert (K : match find_root brentq f a b delta m with Ok _ => True | Err e => e = AssertionError end).
  { unfold find_root. destruct a, b; try reflexivity. destruct (if Rltb r0 r then (r0, r) else (r, r0)) as [a b].
    destruct (expand f delta m a b) as [a' b']. destruct (prod_of f a' b') as [p|]; [|reflexivity]. destruct (Rltb p 0); [exact Logic.I|reflexivity]. }
  destruct (find_root brentq f a b delta m) as [x|e] eqn:E; [|rewrite K; reflexivity].
  destruct (C36_solver_sees_sign_change _ _ _ _ _ _ _ Hd E) as (a0 & b0 & a' & b' & fa & fb & -> & -> & _ & _ & Fa & Fb & N & _).
  exfalso. destruct H as [H|[H|H]]; [|apply (H a0); reflexivity|apply (H b0); reflexivity].
  pose proof (H a' b' fa fb Fa Fb). lra.
Qed.
Print Assumptions C36_fails_loudly.
(** a root exactly at an end point is not recognised: the product is 0 and the bracket keeps growing *)
Theorem C36_root_at_end_point_refuted : exists f : R -> option R,
  f 0 = Some 0 /\ forall brentq delta m, 0 < delta -> find_root brentq f (Fin 0) (Fin 1) delta m = Err AssertionError.
Proof.
  exists (fun x => Some (x * x)). split; [f_equal; ring|]. intros brentq delta m Hd. apply C36_fails_loudly; [exact Hd|]. left.
  intros x y fx fy [= <-] [= <-]. pose proof (Rle_0_sqr (x * y)). unfold Rsqr in *. nra.
Qed.
Print Assumptions C36_root_at_end_point_refuted.
Example C36_case : let f := fun x => Some (x - 3) in
  (forall x y, x <= 2 -> f x = Some y -> y < 0) /\ (forall x y, 4 <= x -> f x = Some y -> 0 < y) /\
  0 - INR 50 * (1 / 10) <= 2 /\ 4 <= 1 + INR 50 * (1 / 10) /\
  find_root (fun _ _ _ => 3) f (Fin 7) (Fin 1) (1 / 10) 0 = Ok 3.
Proof.
  cbv zeta. split; [intros x y H [= <-]; lra|]. split; [intros x y H [= <-]; lra|]. rewrite !INR_IZR_INZ. cbn [Z.of_nat].
  split; [cbn; lra|]. split; [cbn; lra|]. rewrite C36_order_of_end_points.
  apply (C36_good_bracket_is_kept (fun _ _ _ => 3) (fun x => Some (x - 3)) 1 7 (1/10) 0 (1 - 3) (7 - 3)); [lra|reflexivity|reflexivity|lra].
Qed.

(** ** C37 *)
(** every interleaving of the iterations computes the same array, the one of element-wise scalar calls *)
Theorem C37_any_schedule : forall (A : Type) (f : A -> A) (d : A) (threaded alias : bool) sched x,
  interleaving (length x) sched ->
  fst (vectorised f d threaded alias sched x) = match x with [a] => VScalar (f a) | _ => VArray (map f x) end.
Proof.
  intros A f d threaded alias sched x H.
  assert (S : map_dbl_s f d x = map f x) by (apply run_schedule_ok; apply sequential_interleaving).
  assert (P : map_dbl_p f d sched x = map f x) by (apply run_schedule_ok; exact H).
  unfold vectorised. destruct x as [|a [|b x]]; cbn [fst]; [|reflexivity|]; destruct threaded; rewrite ?S, ?P; reflexivity.
Qed.
Print Assumptions C37_any_schedule.
(** a copied input survives; so does a single element *)
Theorem C37_copied_input_unchanged : forall (A : Type) (f : A -> A) (d : A) threaded sched x,
  snd (vectorised f d threaded false sched x) = x.
Proof. intros A f d threaded sched [|a [|b x]]; reflexivity. Qed.
Print Assumptions C37_copied_input_unchanged.
(** a float64 array is overwritten with the results: the second identical call gets different data *)
Theorem C37_caller_array_overwritten_refuted : forall (A : Type) (f : A -> A) (d : A) threaded sched x,
  (2 <= length x)%nat -> interleaving (length x) sched ->
  snd (vectorised f d threaded true sched x) = map f x.
Proof.
  intros A f d threaded sched x HL H.
  assert (S : map_dbl_s f d x = map f x) by (apply run_schedule_ok; apply sequential_interleaving).
  assert (P : map_dbl_p f d sched x = map f x) by (apply run_schedule_ok; exact H).
  destruct x as [|a [|b x]]; [cbn in HL; lia|cbn in HL; lia|]. unfold vectorised. cbn [snd]. destruct threaded; auto.
Qed.
Print Assumptions C37_caller_array_overwritten_refuted.
Example C37_case : interleaving 2 [Read 1; Read 0; Write 0; Write 1] /\
  vectorised (fun x => x + 1)%nat 0%nat true true [Read 1; Read 0; Write 0; Write 1] [5; 6]%nat = (VArray [6; 7]%nat, [6; 7]%nat).
Proof.
  split; [|reflexivity]. split.
  - intros e H. cbn in H. repeat (destruct H as [<-|H]; [cbn; lia|]). destruct H.
  - intros [|[|i]] H; [reflexivity|reflexivity|lia].
Qed.

(** ** C38 *)
Theorem C38_odd : forall coef x, clausen coef (- x) = option_map Ropp (clausen coef x).
Proof. exact clausen_odd. Qed.
Print Assumptions C38_odd.
(** periodicity holds on the first period around 0, apart from its middle point *)
Theorem C38_periodic_partial : forall coef x, - (2 * PI) < x < 0 -> x <> - PI -> clausen coef (x + 2 * PI) = clausen coef x.
Proof. exact clausen_period. Qed.
Print Assumptions C38_periodic_partial.
(** and the value there is a number *)
Theorem C38_defined_on_one_period : forall coef x, - (2 * PI) < x < 2 * PI -> exists v, clausen coef x = Some v.
Proof.
  intros coef x H. pose proof PI_pos as P.
  assert (G : forall r s, 0 <= r < 2 * PI -> exists v, clausen_core coef (r, s) = Some v).
  { intros r s Hr. unfold clausen_core.
    destruct (Rltb PI r) eqn:E.
    - apply Rltb_true in E. destruct (Reqb (2 * PI - r) 0); [eexists; reflexivity|]. unfold log_nan. rewrite (proj2 (Rltb_true 0 _)) by lra.
      match goal with |- exists _, (if ?c then _ else _) = _ => destruct c; eexists; reflexivity end.
    - destruct (Reqb r 0) eqn:E0; [eexists; reflexivity|]. apply Reqb_false in E0. unfold log_nan. rewrite (proj2 (Rltb_true 0 _)) by lra.
      match goal with |- exists _, (if ?c then _ else _) = _ => destruct c; eexists; reflexivity end. }
  destruct (Rlt_le_dec x 0) as [N|N].
  - rewrite clausen_neg, restrict_small by lra. apply G. lra.
  - rewrite clausen_pos, restrict_small by lra. apply G. lra.
Qed.
Print Assumptions C38_defined_on_one_period.
(** outside, every value is nan: the reduction subtracts 8 pi instead of 2 pi per period *)
Theorem C38_nan_outside_one_period_refuted : forall coef x, 2 * PI <= Rabs x -> clausen coef x = None.
Proof.
  intros coef x H. unfold Rabs in H. destruct (Rcase_abs x) as [N|N].
  - replace x with (- - x) by ring. rewrite clausen_odd, clausen_large by exact H. reflexivity.
  - apply clausen_large. exact H.
Qed.
Print Assumptions C38_nan_outside_one_period_refuted.
Example C38_case : - (2 * PI) < -1 < 0 /\ -1 <> - PI /\ 2 * PI <= Rabs 7.
Proof.
  pose proof PI2_3_2 as A. pose proof PI_4. rewrite Rabs_pos_eq by lra. unfold PI2 in *. 
  split; [lra|]. split; [lra|]. assert (PI < 7/2) by (pose proof (PI_ineq 1) as [_ B]; cbn in B; unfold tg_alt, PI_tg in B; cbn in B; lra). lra.
Qed.

(** ** C67 *)
(** cheb_eval sums the Chebyshev series c_0/2 + sum c_i T_i, T_i(cos t) = cos(i t), on the interval [a, b] *)
Theorem C67_clenshaw : forall c x a b t, c <> [] -> a < b -> x = (a + b) / 2 + (b - a) / 2 * cos t ->
  cheb_eval c x a b = cosine_sum c t.
Proof. intros c x a b t Hc Hab ->. apply cheb_eval_cos; [exact Hc|]. field. lra. Qed.
Print Assumptions C67_clenshaw.
Example C67_case : cheb_eval [4; 1; 3] (1 / 2) 0 1 = 2 - 3 /\ 1 / 2 = (0 + 1) / 2 + (1 - 0) / 2 * cos (PI / 2).
Proof. split; [unfold cheb_eval; cbn; lra|]. rewrite cos_PI2. lra. Qed.
