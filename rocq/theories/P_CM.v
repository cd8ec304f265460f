(** Completely monotone functions; boxes get non-negative mass in every dimension. *)
From Coquelicot Require Import Coquelicot.
From Verif Require Import Base RSumLib Ext S_Archimedean P_Gen M_Archimedean P_Arch.
Open Scope R_scope.

Fixpoint CM (n : nat) (g : R -> R) : Prop :=
  (forall s, 0 < s -> 0 <= g s) /\
  match n with
  | O => True
  | S m => exists g', (forall s, 0 < s -> is_derive g s (- g' s)) /\ CM m g'
  end.
Lemma CM_pos n g : CM n g -> forall s, 0 < s -> 0 <= g s.
Proof. destruct n; intros [H _]; exact H. Qed.
Lemma CM_S n g : CM (S n) g -> CM n g.
Proof.
  revert g. induction n as [|n IH]; intros g [H [g' [D C]]]; [split; [exact H|exact I]|].
  split; [exact H|]. exists g'. split; [exact D|]. apply IH. exact C.
Qed.
Lemma loc_pos (P : R -> Prop) s : 0 < s -> (forall y, 0 < y -> P y) -> locally s P.
Proof.
  intros Hs H. exists (mkposreal s Hs). intros y Hy. apply H.
  unfold ball in Hy; cbn in Hy; unfold AbsRing_ball, abs, minus, plus, opp in Hy; cbn in Hy. apply Rabs_def2 in Hy. lra.
Qed.
Lemma CM_ext n g h : (forall s, 0 < s -> g s = h s) -> CM n g -> CM n h.
Proof.
  intros E C. destruct n as [|n].
  - split; [|exact I]. intros s Hs. rewrite <- E by exact Hs. apply (proj1 C). exact Hs.
  - destruct C as [P [g' [D C]]]. split; [intros s Hs; rewrite <- E by exact Hs; apply P; exact Hs|].
    exists g'. split; [|exact C]. intros s Hs. apply (is_derive_ext_loc g); [|apply D; exact Hs].
    apply loc_pos; [exact Hs|exact E].
Qed.
Lemma CM_plus n g h : CM n g -> CM n h -> CM n (fun s => g s + h s).
Proof.
  revert g h. induction n as [|n IH]; intros g h Cg Ch.
  - split; [|exact I]. intros s Hs. pose proof (CM_pos _ _ Cg s Hs). pose proof (CM_pos _ _ Ch s Hs). lra.
  - split; [intros s Hs; pose proof (CM_pos _ _ Cg s Hs); pose proof (CM_pos _ _ Ch s Hs); lra|].
    destruct Cg as [_ [g' [Dg Cg]]], Ch as [_ [h' [Dh Ch]]]. exists (fun s => g' s + h' s). split; [|apply IH; assumption].
    intros s Hs. evar_last; [apply (@is_derive_plus R_AbsRing R_NormedModule); [apply Dg|apply Dh]; exact Hs|].
    unfold plus; cbn. ring.
Qed.
Lemma CM_mult n g h : CM n g -> CM n h -> CM n (fun s => g s * h s).
Proof.
  revert g h. induction n as [|n IH]; intros g h Cg Ch.
  - split; [|exact I]. intros s Hs. pose proof (CM_pos _ _ Cg s Hs). pose proof (CM_pos _ _ Ch s Hs). nra.
  - split; [intros s Hs; pose proof (CM_pos _ _ Cg s Hs); pose proof (CM_pos _ _ Ch s Hs); nra|].
    pose proof (CM_S _ _ Cg) as Cg0. pose proof (CM_S _ _ Ch) as Ch0.
    destruct Cg as [_ [g' [Dg Cg]]], Ch as [_ [h' [Dh Ch]]]. exists (fun s => g' s * h s + g s * h' s). split.
    + intros s Hs. evar_last; [apply (@is_derive_mult R_AbsRing); [apply Dg; exact Hs|apply Dh; exact Hs|intros; apply Rmult_comm]|].
      unfold plus, mult; cbn. ring.
    + apply CM_plus; apply IH; assumption.
Qed.
Lemma CM_const n c : 0 <= c -> CM n (fun _ => c).
Proof.
  revert c. induction n as [|n IH]; intros c H; (split; [intros; exact H|]); [exact I|].
  exists (fun _ => 0). split; [|apply IH; lra]. intros s _. rewrite Ropp_0. apply (@is_derive_const R_AbsRing R_NormedModule).
Qed.
Lemma CM_scal n c g : 0 <= c -> CM n g -> CM n (fun s => c * g s).
Proof. intros H C. apply (CM_mult n (fun _ => c) g); [apply CM_const; exact H|exact C]. Qed.

(** alternating differences *)
Fixpoint D (g : R -> R) (hs : list R) (s : R) : R :=
  match hs with [] => g s | h :: r => D g r s - D g r (s + h) end.
Lemma D_derive g g' hs : Forall (fun h => 0 <= h) hs -> (forall s, 0 < s -> is_derive g s (- g' s)) ->
  forall s, 0 < s -> is_derive (D g hs) s (- D g' hs s).
Proof.
  intros F Dg. induction F as [|h hs Hh F IH]; intros s Hs; cbn [D]; [apply Dg; exact Hs|].
  evar_last.
  - apply (@is_derive_minus R_AbsRing R_NormedModule); [apply IH; exact Hs|].
    apply (is_derive_comp (D g hs) (fun s => s + h)); [apply IH; lra|]. auto_derive; [exact I|reflexivity].
  - unfold minus, plus, opp, scal; cbn. unfold mult; cbn. ring.
Qed.
Lemma D_nonneg hs : Forall (fun h => 0 <= h) hs -> forall n g, CM n g -> (length hs <= n)%nat -> forall s, 0 < s -> 0 <= D g hs s.
Proof.
  induction 1 as [|h hs Hh F IH]; intros n g C L s Hs; cbn [D]; [apply (CM_pos n); assumption|].
  cbn [length] in L. destruct n as [|n]; [lia|]. destruct C as [_ [g' [Dg C]]].
  destruct Hh as [Hh|<-]; [|rewrite Rplus_0_r; lra].
  destruct (MVT_cor2 (D g hs) (fun s => - D g' hs s) s (s + h) ltac:(lra)) as [c [E [C1 C2]]].
  - intros c Hc. apply is_derive_Reals. apply D_derive; [exact F|exact Dg|lra].
  - pose proof (IH n g' C ltac:(lia) c ltac:(lra)). replace (s + h - s) with h in E by ring. nra.
Qed.
Lemma D_continuous g hs : Forall (fun h => 0 <= h) hs -> (forall s, 0 <= s -> continuous g s) -> forall s, 0 <= s -> continuous (D g hs) s.
Proof.
  intros F Cg. induction F as [|h hs Hh F IH]; intros s Hs; cbn [D]; [apply Cg; exact Hs|].
  apply (@continuous_minus R_UniformSpace R_AbsRing R_NormedModule); [apply IH; exact Hs|].
  apply (continuous_comp (fun s => s + h) (D g hs)); [|apply IH; lra].
  apply (@continuous_plus R_UniformSpace R_AbsRing R_NormedModule); [apply continuous_id|apply continuous_const].
Qed.
(** non-negative alternating differences from s >= 0 on *)
Lemma D_nonneg0 g hs : Forall (fun h => 0 <= h) hs -> (forall n, CM n g) -> (forall s, 0 <= s -> continuous g s) ->
  forall s, 0 <= s -> 0 <= D g hs s.
Proof.
  intros F C Cg s [Hs|<-]; [apply (D_nonneg hs F (length hs)); auto|].
  destruct (Rle_lt_dec 0 (D g hs 0)) as [P|N]; [exact P|exfalso].
  pose proof (D_continuous g hs F Cg 0 ltac:(lra)) as K.
  assert (LT : locally (D g hs 0) (fun y => y < 0)) by (apply (open_lt 0); exact N).
  destruct (K _ LT) as [e He].
  assert (HB : ball 0 e (pos e / 2)).
  { unfold ball; cbn. unfold AbsRing_ball, abs, minus, plus, opp; cbn. destruct e as [e He0]; cbn. rewrite Rabs_right; lra. }
  specialize (He _ HB). pose proof (D_nonneg hs F (length hs) g (C _) (Nat.le_refl _) (pos e / 2) ltac:(destruct e; cbn; lra)). lra.
Qed.

(** boxes *)
Section Box.
  Variables (lo : R) (psi f : R -> R).
  Hypothesis G : gen lo psi f.
  Hypothesis Hlo : 0 <= lo.
  Hypothesis ALT : forall hs s, Forall (fun h => 0 <= h) hs -> 0 <= s -> 0 <= D psi hs s.
  Definition inside (x : R) := lo < x <= 1.
  Lemma rcdf_app0 acc : In 0 acc -> forall sides, box_mass (rcdf psi f) sides acc = 0.
  Proof.
    intros I sides. revert acc I. induction sides as [|[a b] r IH]; intros acc I; cbn [box_mass].
    - apply rcdf_zero. exact I.
    - rewrite !IH by (apply in_or_app; left; exact I). ring.
  Qed.
  Lemma rcdf_inside acc : Forall inside acc -> rcdf psi f acc = psi (lsum (map f acc)).
  Proof.
    intros F. unfold rcdf. destruct (existsb _ acc) eqn:E; [|reflexivity]. apply has_zero in E. rewrite Forall_forall in F.
    specialize (F 0 E). unfold inside in F. lra.
  Qed.
  Lemma lsum_snoc acc b : lsum (map f (acc ++ [b])) = lsum (map f acc) + f b.
  Proof. rewrite map_app. induction acc as [|x acc IH]; cbn in *; [ring|]. unfold lsum in *. rewrite IH. ring. Qed.
  Lemma box_form sides : Forall (fun s => pt lo (fst s) /\ pt lo (snd s) /\ fst s <= snd s) sides ->
    (forall acc, Forall inside acc -> box_mass (rcdf psi f) sides acc = 0) \/
    (exists hs sh, Forall (fun h => 0 <= h) hs /\ 0 <= sh /\
       forall acc, Forall inside acc -> box_mass (rcdf psi f) sides acc = D psi hs (lsum (map f acc) + sh)).
  Proof.
    induction 1 as [|[a b] r [Pa [Pb Lab]] F IH]; cbn [fst snd] in *.
    - right. exists [], 0. split; [constructor|]. split; [lra|]. intros acc Ha. cbn [box_mass D]. rewrite Rplus_0_r. apply rcdf_inside. exact Ha.
    - assert (SN : forall acc x, Forall inside acc -> lo < x <= 1 -> Forall inside (acc ++ [x])).
      { intros acc x Fa Hx. apply Forall_app. split; [exact Fa|]. constructor; [exact Hx|constructor]. }
      destruct Pb as [->|Pb].
      { left. intros acc Fa. assert (a = 0) by (destruct Pa; lra). subst. cbn [box_mass].
        rewrite !rcdf_app0 by (apply in_or_app; right; left; reflexivity). ring. }
      destruct IH as [Z|[hs [sh [Fh [Hsh E]]]]].
      { left. intros acc Fa. cbn [box_mass]. rewrite (Z (acc ++ [b])) by auto. destruct Pa as [->|Pa].
        - rewrite rcdf_app0 by (apply in_or_app; right; left; reflexivity). ring.
        - rewrite (Z (acc ++ [a])) by auto. ring. }
      right. pose proof (g_pos _ _ _ G b Pb) as Fb. destruct Pa as [->|Pa].
      + exists hs, (f b + sh). split; [exact Fh|]. split; [lra|]. intros acc Fa. cbn [box_mass].
        rewrite (rcdf_app0 (acc ++ [0])) by (apply in_or_app; right; left; reflexivity). rewrite E by auto. rewrite lsum_snoc.
        rewrite Rminus_0_r. f_equal. ring.
      + exists ((f a - f b) :: hs), (f b + sh). split; [constructor; [pose proof (g_anti _ _ _ G a b ltac:(lra) Lab ltac:(lra)); lra|exact Fh]|].
        split; [lra|]. intros acc Fa. cbn [box_mass D]. rewrite !E by auto. rewrite !lsum_snoc. f_equal; f_equal; ring.
  Qed.
  Lemma box_nonneg sides : Forall (fun s => pt lo (fst s) /\ pt lo (snd s) /\ fst s <= snd s) sides ->
    0 <= box_mass (rcdf psi f) sides [].
  Proof.
    intros F. destruct (box_form sides F) as [Z|[hs [sh [Fh [Hs E]]]]].
    - rewrite Z by constructor. lra.
    - rewrite E by constructor. apply ALT; [exact Fh|]. cbn. lra.
  Qed.
End Box.
Lemma box_mass_ext C C' sides acc (P : R -> Prop) : Forall P acc -> Forall (fun s => P (fst s) /\ P (snd s)) sides ->
  (forall l, Forall P l -> C l = C' l) -> box_mass C sides acc = box_mass C' sides acc.
Proof.
  intros Fa F E. revert acc Fa. induction F as [|[a b] r [Ha Hb] F IH]; intros acc Fa; cbn [box_mass]; [apply E; exact Fa|].
  rewrite !IH by (apply Forall_app; split; [exact Fa|constructor; [assumption|constructor]]). reflexivity.
Qed.

(** instances *)
Lemma CM_pow c a : 0 <= c -> a <= 0 -> forall n, CM n (fun s => Rpower (c + s) a).
Proof.
  intros Hc Ha n. revert a Ha. induction n as [|n IH]; intros a Ha; (split; [intros; left; apply Rpower_pos|]); [exact I|].
  exists (fun s => - a * Rpower (c + s) (a - 1)). split.
  - intros s Hs. evar_last.
    + apply (is_derive_comp (fun x => Rpower x a) (fun s => c + s)); [apply Rpower_derive; lra|]. auto_derive; [exact I|reflexivity].
    + unfold scal; cbn. unfold mult; cbn. ring.
  - apply CM_scal; [lra|]. apply IH. lra.
Qed.
Lemma CM_exp n : CM n (fun s => exp (- s)).
Proof.
  induction n as [|n IH]; (split; [intros; left; apply exp_pos|]); [exact I|].
  exists (fun s => exp (- s)). split; [|exact IH]. intros s Hs. auto_derive; [exact I|]. ring.
Qed.
Lemma CM_gumbel th : 1 <= th -> forall n, CM n (gu_psi th).
Proof.
  intros H n. pose proof (inv_01 th H) as Ha. set (a := 1 / th) in *.
  apply (CM_ext n (fun s => exp (- Rpower s a))).
  { intros s Hs. unfold gu_psi. rewrite (proj2 (Rltb_true 0 s) Hs). reflexivity. }
  induction n as [|n IH]; (split; [intros; left; apply exp_pos|]); [exact I|].
  exists (fun s => (a * Rpower (0 + s) (a - 1)) * exp (- Rpower s a)). split.
  - intros s Hs. evar_last.
    + apply (is_derive_comp exp (fun s => - Rpower s a)); [apply is_derive_Reals; apply derivable_pt_lim_exp|].
      apply (@is_derive_opp R_AbsRing R_NormedModule). apply Rpower_derive. exact Hs.
    + unfold scal, opp; cbn. unfold mult; cbn. rewrite Rplus_0_l. ring.
  - apply CM_mult; [|exact IH]. apply CM_scal; [lra|]. apply CM_pow; lra.
Qed.
Lemma CM_frank th : 0 < th -> forall n, CM n (fr_psi th).
Proof.
  intros H n. set (c := 1 - exp (- th)). pose proof (em_neg th H) as Hc.
  assert (P : forall s, 0 < s -> 0 < 1 - c * exp (- s)).
  { intros s Hs. pose proof (fr_arg th s ltac:(lra)). unfold c. lra. }
  assert (Hh : forall n, CM n (fun s => / (1 - c * exp (- s)))).
  { clear n. induction n as [|n IH]; (split; [intros s Hs; left; apply Rinv_0_lt_compat; apply P; exact Hs|]); [exact I|].
    exists (fun s => (c * exp (- s)) * (/ (1 - c * exp (- s)) * / (1 - c * exp (- s)))). split.
    - intros s Hs. pose proof (P s Hs). auto_derive; [lra|]. field. lra.
    - apply CM_mult; [apply CM_scal; [unfold c; lra|apply CM_exp]|apply CM_mult; exact IH]. }
  destruct n as [|n]; (split; [intros s Hs; apply (g_psi_nonneg _ _ _ (fr_gen th ltac:(lra))); lra|]); [exact I|].
  exists (fun s => (c / th * exp (- s)) * / (1 - c * exp (- s))). split.
  - intros s Hs. pose proof (P s Hs). unfold fr_psi. apply (is_derive_ext (fun s => - ln (1 - c * exp (- s)) / th)).
    + intros t. unfold c. do 3 f_equal. ring.
    + auto_derive; [lra|]. field. split; lra.
  - apply CM_mult; [|apply Hh]. apply CM_scal; [|apply CM_exp]. unfold c. apply Rmult_le_pos; [lra|]. left. apply Rinv_0_lt_compat. exact H.
Qed.
Lemma CM_clayton th : 0 < th -> forall n, CM n (cp_psi th).
Proof. intros H n. apply CM_pow; [lra|]. pose proof (inv_neg th H). lra. Qed.
(** continuity on [0, oo) *)
Lemma cp_cont th s : 0 <= s -> continuous (cp_psi th) s.
Proof.
  intros H. apply (@ex_derive_continuous R_AbsRing R_NormedModule). eexists. unfold cp_psi.
  apply (is_derive_comp (fun x => Rpower x (-1 / th)) (fun s => 1 + s)); [apply Rpower_derive; lra|]. auto_derive; [exact I|reflexivity].
Qed.
Lemma fr_cont th s : th <> 0 -> 0 <= s -> continuous (fr_psi th) s.
Proof.
  intros Hth H. pose proof (fr_arg th s H). apply (@ex_derive_continuous R_AbsRing R_NormedModule). unfold fr_psi.
  auto_derive. exact H0.
Qed.
Lemma gu_cont th s : 1 <= th -> 0 <= s -> continuous (gu_psi th) s.
Proof.
  intros Hth [H|<-].
  - apply (@ex_derive_continuous R_AbsRing R_NormedModule). destruct (CM_gumbel th Hth 1) as [_ [g' [D' _]]]. eexists. apply D'. exact H.
  - pose proof (inv_01 th Hth) as Ha. set (a := 1 / th) in *.
    (* |psi s - 1| <= s^a for s > 0 *)
    intros P [e He]. assert (E0 : gu_psi th 0 = 1) by (unfold gu_psi; rewrite Rltb_irrefl; reflexivity). rewrite E0 in He.
    exists (mkposreal (Rpower e (/ a)) (Rpower_pos _ _)). intros y Hy. apply He.
    unfold ball in *; cbn in *; unfold AbsRing_ball, abs, minus, plus, opp in *; cbn in *.
    unfold gu_psi. fold a. destruct (Rltb 0 y) eqn:E.
    + apply Rltb_true in E. rewrite Ropp_0, Rplus_0_r, Rabs_right in Hy by lra.
      assert (Rpower y a < e).
      { replace (pos e) with (Rpower (Rpower e (/ a)) a) by (apply Rpower_inv2; [apply cond_pos|field; lra]).
        unfold Rpower at 1 3. apply exp_increasing. apply Rmult_lt_compat_l; [lra|]. apply ln_increasing; assumption. }
      pose proof (Rpower_pos y a). pose proof (exp_ineq1_le (- Rpower y a)).
      assert (exp (- Rpower y a) <= 1) by (rewrite <- exp_0; apply exp_mono; lra).
      apply Rabs_def1; lra.
    + rewrite Rplus_opp_r, Rabs_R0. apply cond_pos.
Qed.
