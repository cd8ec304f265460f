(** Theorems: Frank's Debye functions on arrays and at infinity. *)
From Coquelicot Require Import Coquelicot.
From Verif Require Import Base RSumLib Ext S_Archimedean P_Gen M_Archimedean P_Debye M_Specfunc M_Debye P_Debye2 T_Debye M_DebyeVec.
Open Scope R_scope.

Lemma gather_map {A B} (f : A -> bool) (g : A -> B) l : gather (map f l) (map g l) = map g (filter f l).
Proof. induction l as [|x l IH]; [reflexivity|]. cbn. destruct (f x); cbn; rewrite IH; reflexivity. Qed.
Lemma scatter_map {A B} (f : A -> bool) (g h : A -> B) l : scatter (map f l) (map g l) (map h (filter f l)) = map (fun x => if f x then h x else g x) l.
Proof. induction l as [|x l IH]; [reflexivity|]. cbn. destruct (f x); cbn; rewrite IH; reflexivity. Qed.
Lemma zip_map {A B C D} (f : B -> C -> D) (g : A -> B) (h : A -> C) l : zip_with f (map g l) (map h l) = map (fun x => f (g x) (h x)) l.
Proof. unfold zip_with. induction l as [|x l IH]; [reflexivity|]. cbn. rewrite IH. reflexivity. Qed.
Lemma exists_map_false {A} (f : A -> bool) l : existsb (fun b => b) (map f l) = false -> forall x, In x l -> f x = false.
Proof. intros H x Hx. apply not_true_is_false. intros E. assert (existsb (fun b => b) (map f l) = true) by (apply existsb_exists; exists (f x); split; [apply in_map, Hx|exact E]). congruence. Qed.
Lemma forall_map_true {A} (f : A -> bool) l : forallb (fun b => b) (map f l) = true -> forall x, In x l -> f x = true.
Proof. induction l as [|y l IH]; cbn; [contradiction|]. intros H x [->|Hx]; apply andb_true_iff in H; destruct H as [H1 H2]; [exact H1|apply IH; assumption]. Qed.

(** the value for one entry: the function of the number, its limits at the infinities, nan for nan *)
Definition entry (one : R -> option R) (v : ext) : ext :=
  match v with Fin r => of_raw (one r) | Pinf => Fin 0 | Ninf => Pinf | Nan => Nan end.
Lemma debye_entries raw share x : 0 < share ->
  debye_array raw share x = map (entry (fun r => match raw (Rabs r) with None => None | Some d => Some (if Rltb r 0 then d - share * r else d) end)) x.
Proof.
  intros Hs. unfold debye_array.
  set (rw := fun v => match v with Fin r => of_raw (raw r) | _ => Nan end).
  set (pi := fun v => match v with Pinf => true | _ => false end). set (ng := fun v => match v with Fin r => Rltb r 0 | Ninf => true | _ => false end).
  set (dv := fun v => match v with Fin r => of_raw (raw (Rabs r)) | Pinf => Fin 0 | Ninf => Pinf | Nan => Nan end).
  assert (D : (if forallb (fun b => b) (map is_fin x) then raw_array raw (map eabs x)
     else if existsb (fun b => b) (map pi x) then scatter (map pi x) (scatter (map is_fin x) (map eabs x) (raw_array raw (gather (map is_fin x) (map eabs x))))
            (map (fun _ => Fin 0) (gather (map pi x) (scatter (map is_fin x) (map eabs x) (raw_array raw (gather (map is_fin x) (map eabs x))))))
          else scatter (map is_fin x) (map eabs x) (raw_array raw (gather (map is_fin x) (map eabs x)))) = map dv x).
  { assert (S : scatter (map is_fin x) (map eabs x) (raw_array raw (gather (map is_fin x) (map eabs x))) = map (fun v => if is_fin v then rw (eabs v) else eabs v) x).
    { unfold raw_array. rewrite gather_map, map_map. apply (scatter_map is_fin eabs (fun v => rw (eabs v))). }
    rewrite S. destruct (forallb (fun b => b) (map is_fin x)) eqn:F.
    - unfold raw_array. rewrite map_map. apply map_ext_in. intros v Hv. pose proof (forall_map_true _ _ F v Hv) as E. destruct v; try discriminate. reflexivity.
    - destruct (existsb (fun b => b) (map pi x)) eqn:P.
      + rewrite gather_map, map_map. rewrite (scatter_map pi (fun v => if is_fin v then rw (eabs v) else eabs v) (fun _ => Fin 0)). apply map_ext. intros [r| | |]; reflexivity.
      + apply map_ext_in. intros v Hv. pose proof (exists_map_false _ _ P v Hv) as E. destruct v; try discriminate; reflexivity. }
  rewrite D. clear D. rewrite gather_map. assert (G : gather (map ng x) x = filter ng x) by (pose proof (gather_map ng (fun v => v) x) as G; rewrite !map_id in G; exact G). rewrite G, zip_map. rewrite (scatter_map ng dv (fun v => esub (dv v) (escal share v))).
  apply map_ext. intros [r| | |]; cbn; try reflexivity.
  - destruct (raw (Rabs r)); cbn; destruct (Rltb r 0); reflexivity.
  - rewrite (proj2 (Rltb_true 0 share) Hs). reflexivity.
Qed.
(** Every entry is treated on its own, whatever the others are. *)
Theorem C128_entries : forall raw1 raw2 x,
  debye_array raw1 (/ 2) x = map (entry (frank_debye1 raw1)) x /\ debye_array raw2 (2 / 3) x = map (entry (frank_debye2 raw2)) x.
Proof.
  intros raw1 raw2 x. split; rewrite debye_entries by lra; apply map_ext; intros [r| | |]; try reflexivity; cbn [entry]; f_equal; unfold frank_debye1, frank_debye2.
  destruct (raw1 (Rabs r)); [|reflexivity]. f_equal. destruct (Rltb r 0); [|reflexivity]. lra.
Qed.
Print Assumptions C128_entries.
Lemma kernel_bound t : 0 < t -> debye_kernel 1 t <= exp (- t / 2) /\ debye_kernel 2 t <= 4.
Proof.
  intros H. unfold debye_kernel. rewrite (proj2 (Reqb_false t 0)) by lra. cbn [Nat.eqb]. rewrite pow_1. assert (E : 0 < exp t - 1) by (pose proof (exp_ineq1 t); lra). split.
  - apply (Rmult_le_reg_r (exp t - 1)); [exact E|]. replace (t / (exp t - 1) * (exp t - 1)) with t by (field; lra).
    assert (M : exp (- t / 2) * (exp t - 1) = exp (t / 2) - exp (- (t / 2))) by (rewrite Rmult_minus_distr_l, <- exp_plus, Rmult_1_r; f_equal; f_equal; lra). rewrite M.
    assert (G : forall y, 0 <= y -> 2 * y <= exp y - exp (- y)).
    { intros y Hy. destruct (Req_dec y 0) as [->|Ny]; [rewrite Ropp_0; lra|].
      destruct (MVT_gen (fun y => exp y - exp (- y) - 2 * y) 0 y (fun y => exp y + exp (- y) - 2)) as [c [Hc Ec]].
      - intros z _. auto_derive; [exact I|ring].
      - intros z _. apply continuity_pt_filterlim. apply (ex_derive_continuous (fun y => exp y - exp (- y) - 2 * y)). auto_derive. exact I.
      - rewrite Ropp_0 in Ec. assert (P : 0 <= exp c + exp (- c) - 2).
        { pose proof (exp_pos c). pose proof (exp_pos (- c)). assert (Q : exp c * exp (- c) = 1) by (rewrite <- exp_plus, Rplus_opp_r; apply exp_0). pose proof (Rle_0_sqr (exp c - 1)). unfold Rsqr in *. nra. }
        assert (0 <= (exp c + exp (- c) - 2) * (y - 0)) by (apply Rmult_le_pos; lra). lra. }
    specialize (G (t / 2)). lra.
  - apply (Rmult_le_reg_r (exp t - 1)); [exact E|]. replace (t ^ 2 / (exp t - 1) * (exp t - 1)) with (t ^ 2) by (field; lra).
    assert (P : 1 + t / 2 <= exp (t / 2)) by apply exp_ineq1_le. assert (Q : exp t = exp (t / 2) * exp (t / 2)) by (rewrite <- exp_plus; f_equal; lra). rewrite Q. nra.
Qed.
Lemma ex1 x : ex_RInt (debye_kernel 1) 0 x.
Proof. apply (@ex_RInt_continuous R_CompleteNormedModule). intros z _. apply kernel1_cont. Qed.
Lemma ex2 x : ex_RInt (debye_kernel 2) 0 x.
Proof. apply (@ex_RInt_continuous R_CompleteNormedModule). intros z _. apply k2_cont. Qed.
Lemma debye_small x : 0 < x -> 0 < debye 1 x <= 2 / x /\ 0 < debye 2 x <= 8 / x.
Proof.
  intros H. assert (Ix : 0 < / x) by (apply Rinv_0_lt_compat, H). split; (split; [apply debye1_pos, H || apply debye2_pos, H|]); unfold debye.
  - rewrite pow_1. change (INR 1) with 1. assert (B : RInt (debye_kernel 1) 0 x <= 2).
    { assert (I : is_RInt (fun t => exp (- t / 2)) 0 x (- 2 * exp (- x / 2) - - 2 * exp (- 0 / 2))).
      { apply (is_RInt_derive (fun t => - 2 * exp (- t / 2)) (fun t => exp (- t / 2))).
        - intros t _. auto_derive; [exact I|]. unfold Rdiv. field.
        - intros t _. apply (ex_derive_continuous (fun t => exp (- t / 2))). auto_derive. exact I. }
      apply Rle_trans with (RInt (fun t => exp (- t / 2)) 0 x).
      - apply RInt_le; [lra|apply ex1|eexists; exact I|]. intros t Ht. apply kernel_bound. lra.
      - rewrite (is_RInt_unique _ _ _ _ I). replace (- 0 / 2) with 0 by lra. rewrite exp_0. pose proof (exp_pos (- x / 2)). lra. }
    unfold Rdiv. nra.
  - replace (INR 2) with 2 by (cbn; ring). assert (B : RInt (debye_kernel 2) 0 x <= 4 * x).
    { apply Rle_trans with (RInt (fun _ => 4) 0 x).
      - apply RInt_le; [lra|apply ex2|apply ex_RInt_const|]. intros t Ht. apply kernel_bound. lra.
      - rewrite RInt_const. unfold scal. cbn. unfold mult. cbn. lra. }
    apply Rle_trans with (2 / x ^ 2 * (4 * x)); [apply Rmult_le_compat_l; [|exact B]; apply Rlt_le, Rdiv_lt_0_compat; [lra|apply pow_lt, H]|right; field; lra].
Qed.
(** The values at the infinities are the limits. *)
Theorem C128_limits : is_lim (debye 1) p_infty 0 /\ is_lim (debye 1) m_infty p_infty /\ is_lim (debye 2) p_infty 0 /\ is_lim (debye 2) m_infty p_infty.
Proof.
  assert (Z : forall c, 0 < c -> forall eps : posreal, exists M, forall x, M < x -> 0 < x /\ c / x < eps).
  { intros c Hc eps. exists (c / eps). pose proof (cond_pos eps) as He. intros x Hx. assert (0 < c / eps) by (apply Rdiv_lt_0_compat; assumption). split; [lra|].
    apply (Rmult_lt_reg_r x); [lra|]. replace (c / x * x) with c by (field; lra). apply (Rmult_lt_reg_r (/ eps)); [apply Rinv_0_lt_compat, He|]. replace (eps * x * / eps) with x by (field; lra). exact Hx. }
  split; [|split; [|split]].
  - apply is_lim_spec. intros eps. destruct (Z 2 ltac:(lra) eps) as [M HM]. exists M. intros x Hx. destruct (HM x Hx) as [Px Q]. destruct (debye_small x Px) as [[A B] _]. rewrite Rminus_0_r, Rabs_pos_eq by lra. lra.
  - apply is_lim_spec. intros M. exists (Rmin (-1) (- 2 * M)). intros x Hx. assert (x < -1) by (pose proof (Rmin_l (-1) (- 2 * M)); lra). assert (x < - 2 * M) by (pose proof (Rmin_r (-1) (- 2 * M)); lra).
    pose proof (debye1_opp (- x) ltac:(lra)) as E. rewrite Ropp_involutive in E. rewrite E. destruct (debye_small (- x) ltac:(lra)) as [[A _] _]. lra.
  - apply is_lim_spec. intros eps. destruct (Z 8 ltac:(lra) eps) as [M HM]. exists M. intros x Hx. destruct (HM x Hx) as [Px Q]. destruct (debye_small x Px) as [_ [A B]]. rewrite Rminus_0_r, Rabs_pos_eq by lra. lra.
  - apply is_lim_spec. intros M. exists (Rmin (-1) (- 2 * M)). intros x Hx. assert (x < -1) by (pose proof (Rmin_l (-1) (- 2 * M)); lra). assert (x < - 2 * M) by (pose proof (Rmin_r (-1) (- 2 * M)); lra).
    pose proof (debye2_opp (- x) ltac:(lra)) as E. rewrite Ropp_involutive in E. rewrite E. destruct (debye_small (- x) ltac:(lra)) as [_ [A _]]. lra.
Qed.
Print Assumptions C128_limits.
(** At finite parameters other than 0 tau and rho are those of M_Debye; at +infinity (comonotonicity) both are 1. *)
Theorem C128_frank : forall raw1 raw2,
  (forall th, / 100000000 < Rabs th -> tau_ext raw1 (Fin th) = of_raw (frank_tau_code raw1 th) /\ rho_ext raw1 raw2 (Fin th) = of_raw (frank_rho_code raw1 raw2 th)) /\
  tau_ext raw1 Pinf = Fin 1 /\ rho_ext raw1 raw2 Pinf = Fin 1.
Proof.
  intros raw1 raw2. split; [|split].
  - intros th H. unfold tau_ext, rho_ext, frank_tau_code, frank_rho_code, near_zero. rewrite (proj2 (Rleb_false _ _) H).
    rewrite (proj1 (C128_entries raw1 raw2 [Fin th])), (proj2 (C128_entries raw1 raw2 [Fin th])). cbn [map entry first nth].
    destruct (frank_debye1 raw1 th) as [d1|], (frank_debye2 raw2 th) as [d2|]; cbn [of_raw option_map esub eadd eopp escal over times]; split; try reflexivity; f_equal; unfold frank_tau_, frank_rho; rewrite ?(proj2 (Rleb_false _ _) H); reflexivity.
  - unfold tau_ext. cbn. f_equal. lra.
  - unfold rho_ext. rewrite (proj1 (C128_entries raw1 raw2 [Pinf])), (proj2 (C128_entries raw1 raw2 [Pinf])). cbn. f_equal. lra.
Qed.
Print Assumptions C128_frank.
(** Refuted at -infinity, which two-dimensional copulas accept (countermonotonicity): tau and rho are nan, their limits are -1. *)
Theorem C128_countermonotone_refuted : forall raw1 raw2, tau_ext raw1 Ninf = Nan /\ rho_ext raw1 raw2 Ninf = Nan /\
  is_lim (fun th => 1 + 4 / th * (debye 1 th - 1)) m_infty (-1) /\ is_lim (fun th => 1 + 12 / th * (debye 2 th - debye 1 th)) m_infty (-1).
Proof.
  intros raw1 raw2. split; [|split; [|split]].
  - unfold tau_ext. rewrite (proj1 (C128_entries raw1 raw1 [Ninf])). cbn. rewrite (proj2 (Rltb_true 0 4)) by lra. reflexivity.
  - unfold rho_ext. rewrite (proj1 (C128_entries raw1 raw2 [Ninf])), (proj2 (C128_entries raw1 raw2 [Ninf])). cbn. reflexivity.
  - apply is_lim_spec. intros eps. pose proof (cond_pos eps) as He. exists (Rmin (-2) (- 4 / eps)). intros x Hx. assert (H1 : x < -2) by (pose proof (Rmin_l (-2) (- 4 / eps)); lra). assert (H2 : x < - 4 / eps) by (pose proof (Rmin_r (-2) (- 4 / eps)); lra).
    pose proof (debye1_opp (- x) ltac:(lra)) as E. rewrite Ropp_involutive in E. rewrite E. destruct (debye_small (- x) ltac:(lra)) as [[A B] _].
    assert (D : debye 1 (- x) < 1) by (apply debye1_lt_1; lra).
    replace (1 + 4 / x * (debye 1 (- x) + - x / 2 - 1) - -1) with (4 / (- x) * (1 - debye 1 (- x))) by (field; lra).
    assert (Ix : 0 < 4 / - x) by (apply Rdiv_lt_0_compat; lra). rewrite Rabs_pos_eq by nra.
    assert (Q : 4 / - x < eps).
    { apply (Rmult_lt_reg_r (- x)); [lra|]. replace (4 / - x * - x) with 4 by (field; lra). apply (Rmult_lt_reg_r (/ eps)); [apply Rinv_0_lt_compat, He|]. replace (eps * - x * / eps) with (- x) by (field; lra). lra. }
    nra.
  - apply is_lim_spec. intros eps. pose proof (cond_pos eps) as He. exists (Rmin (-2) (- 12 / eps)). intros x Hx. assert (H1 : x < -2) by (pose proof (Rmin_l (-2) (- 12 / eps)); lra). assert (H2 : x < - 12 / eps) by (pose proof (Rmin_r (-2) (- 12 / eps)); lra).
    pose proof (debye1_opp (- x) ltac:(lra)) as E. pose proof (debye2_opp (- x) ltac:(lra)) as E2. rewrite Ropp_involutive in E, E2. rewrite E, E2.
    assert (D : debye 1 (- x) < 1) by (apply debye1_lt_1; lra). assert (D2 : 0 < debye 2 (- x)) by (apply debye2_pos; lra). assert (D3 : debye 2 (- x) < debye 1 (- x)) by (apply debye2_lt_debye1; lra).
    replace (1 + 12 / x * (debye 2 (- x) + 2 / 3 * - x - (debye 1 (- x) + - x / 2)) - -1) with (12 / (- x) * (debye 1 (- x) - debye 2 (- x))) by (field; lra).
    assert (Ix : 0 < 12 / - x) by (apply Rdiv_lt_0_compat; lra). rewrite Rabs_pos_eq by nra.
    assert (Q : 12 / - x < eps).
    { apply (Rmult_lt_reg_r (- x)); [lra|]. replace (12 / - x * - x) with 12 by (field; lra). apply (Rmult_lt_reg_r (/ eps)); [apply Rinv_0_lt_compat, He|]. replace (eps * - x * / eps) with (- x) by (field; lra). lra. }
    nra.
Qed.
Print Assumptions C128_countermonotone_refuted.
(** a number below 0, both infinities and nan in one array *)
Example C128_case : debye_array (raw 1) (/ 2) [Fin (-3); Pinf; Nan; Ninf; Fin 2] = [Fin (debye 1 (-3)); Fin 0; Nan; Pinf; Fin (debye 1 2)].
Proof.
  rewrite (proj1 (C128_entries (raw 1) (raw 2) _)). cbn [map entry]. rewrite (proj1 (C70_debye (-3) ltac:(lra))), (proj1 (C70_debye 2 ltac:(lra))). reflexivity.
Qed.
