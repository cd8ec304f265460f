From Verif Require Import Base RSumLib Ext M_Specfunc S_Specfunc.
Open Scope R_scope.

(** ** find_root *)
Lemma step_of_pos delta x : 0 < delta -> delta <= step_of delta x /\ 0 < step_of delta x.
Proof. intros H. unfold step_of. pose proof (Rmax_r (1 / 100 * Rabs x) delta). lra. Qed.
Lemma expand_grows f delta m : 0 < delta -> forall a b a' b', expand f delta m a b = (a', b') -> a' <= a /\ b <= b'.
Proof.
  intros Hd. induction m as [|m IH]; intros a b a' b' H; cbn [expand] in H.
  - injection H as <- <-. lra.
  - destruct (prod_of f a b) as [p|]; [|injection H as <- <-; lra].
    destruct (Rleb 0 p); [|injection H as <- <-; lra].
    apply IH in H. pose proof (step_of_pos delta a Hd). pose proof (step_of_pos delta b Hd). lra.
Qed.
Lemma expand_stop f delta m a b p : prod_of f a b = Some p -> p < 0 -> expand f delta m a b = (a, b).
Proof. intros H Hp. destruct m as [|m]; [reflexivity|]. cbn [expand]. rewrite H. apply Rleb_false in Hp. rewrite Hp. reflexivity. Qed.
(** after m steps without success the bracket has grown by m * delta on both sides *)
Lemma expand_reaches f delta m : 0 < delta -> forall a b L U, a <= b ->
  (forall x, exists y, f x = Some y) ->
  (forall x y, x <= L -> f x = Some y -> y < 0) -> (forall x y, U <= x -> f x = Some y -> 0 < y) ->
  a - INR m * delta <= L -> U <= b + INR m * delta ->
  exists a' b' p, expand f delta m a b = (a', b') /\ prod_of f a' b' = Some p /\ p < 0.
Proof.
  intros Hd. induction m as [|m IH]; intros a b L U Hab Hf HL HU H1 H2.
  - destruct (Hf a) as [ya Ea], (Hf b) as [yb Eb]. exists a, b, (ya * yb). cbn [expand]. split; [reflexivity|].
    unfold prod_of. rewrite Ea, Eb. split; [reflexivity|]. cbn [INR] in *.
    assert (ya < 0) by (apply (HL a); [lra|exact Ea]). assert (0 < yb) by (apply (HU b); [lra|exact Eb]). nra.
  - destruct (Hf a) as [ya Ea], (Hf b) as [yb Eb]. cbn [expand]. unfold prod_of at 1. rewrite Ea, Eb.
    destruct (Rleb 0 (ya * yb)) eqn:E.
    + pose proof (step_of_pos delta a Hd). pose proof (step_of_pos delta b Hd). rewrite S_INR in *.
      apply (IH _ _ L U); auto; lra.
    + apply Rleb_false in E. exists a, b, (ya * yb). split; [reflexivity|]. unfold prod_of. rewrite Ea, Eb. auto.
Qed.

(** ** schedules *)
Lemma set_nth_length {A} i (v : A) l : length (set_nth i v l) = length l.
Proof.
  unfold set_nth. rewrite app_length, firstn_length. destruct (skipn i l) as [|a r] eqn:E.
  - assert (length (skipn i l) = 0)%nat by (rewrite E; reflexivity). rewrite skipn_length in H. cbn. lia.
  - assert (length (skipn i l) = S (length r)) by (rewrite E; reflexivity). rewrite skipn_length in H. cbn. lia.
Qed.
Lemma set_nth_nth {A} i (v : A) l j d : nth j (set_nth i v l) d = if Nat.eqb j i && Nat.ltb i (length l) then v else nth j l d.
Proof.
  revert i j; induction l as [|a l IH]; intros i j.
  - unfold set_nth. rewrite firstn_nil, skipn_nil. cbn [length]. rewrite (proj2 (Nat.ltb_ge i 0)) by lia. rewrite andb_false_r. destruct j; reflexivity.
  - destruct i as [|i].
    + unfold set_nth. cbn. destruct j as [|j]; reflexivity.
    + change (set_nth (S i) v (a :: l)) with (a :: set_nth i v l). destruct j as [|j]; [reflexivity|]. cbn [nth]. rewrite IH. reflexivity.
Qed.
Section Run.
  Context {A : Type} (f : A -> A) (d : A).
  Lemma run_length sched : forall st, length (fst (fold_left (run_event f d) sched st)) = length (fst st).
  Proof.
    induction sched as [|e sched IH]; intros st; [reflexivity|]. cbn [fold_left]. rewrite IH. destruct e; cbn; [reflexivity|apply set_nth_length].
  Qed.
  (** cell i and register i only see the events of iteration i *)
  Lemma run_project i sched : forall st st', length (fst st) = length (fst st') ->
    nth i (fst st) d = nth i (fst st') d -> snd st i = snd st' i ->
    nth i (fst (fold_left (run_event f d) sched st)) d
    = nth i (fst (fold_left (run_event f d) (filter (fun e => Nat.eqb (iteration e) i) sched) st')) d.
  Proof.
    induction sched as [|e sched IH]; intros st st' HL Hn Hr; [exact Hn|]. cbn [fold_left filter].
    destruct (Nat.eqb_spec (iteration e) i) as [E|E].
    - cbn [fold_left]. apply IH; destruct e as [k|k]; cbn in E; subst k; cbn [run_event fst snd]; rewrite ?set_nth_length; auto.
      + rewrite !set_nth_nth, Nat.eqb_refl, HL, Hr, Hn. reflexivity.
      + rewrite Nat.eqb_refl. exact Hn.
    - apply IH; destruct e as [k|k]; cbn in E; cbn [run_event fst snd]; rewrite ?set_nth_length; auto.
      + rewrite set_nth_nth. replace (Nat.eqb i k) with false by (symmetry; apply Nat.eqb_neq; auto). exact Hn.
      + replace (Nat.eqb i k) with false by (symmetry; apply Nat.eqb_neq; auto). exact Hr.
  Qed.
  Lemma run_schedule_ok sched x : interleaving (length x) sched -> run_schedule f d sched x = map f x.
  Proof.
    intros [H1 H2]. unfold run_schedule. apply (nth_ext _ _ d (f d)).
    - rewrite run_length, map_length. reflexivity.
    - rewrite run_length. cbn [fst]. intros i Hi.
      rewrite (run_project i sched (x, fun _ => d) (x, fun _ => d)) by reflexivity. rewrite (H2 i Hi).
      cbn [fold_left run_event fst snd]. rewrite Nat.eqb_refl. rewrite set_nth_nth, Nat.eqb_refl.
      replace (Nat.ltb i (length x)) with true by (symmetry; apply Nat.ltb_lt; exact Hi). cbn [andb]. rewrite map_nth. reflexivity.
  Qed.
End Run.
Lemma sequential_interleaving n : interleaving n (flat_map (fun i => [Read i; Write i]) (seq 0 n)).
Proof.
  split.
  - intros e H. apply in_flat_map in H. destruct H as [i [Hi H]]. apply in_seq in Hi. destruct H as [<-|[<-|[]]]; cbn; lia.
  - intros i Hi. assert (G : forall m s, filter (fun e => Nat.eqb (iteration e) i) (flat_map (fun i => [Read i; Write i]) (seq s m))
       = if (Nat.leb s i && Nat.ltb i (s + m)) then [Read i; Write i] else []).
    { induction m as [|m IH]; intros s; cbn [seq flat_map].
      - replace (Nat.leb s i && Nat.ltb i (s + 0)) with false; [reflexivity|]. symmetry. apply andb_false_iff.
        rewrite Nat.leb_gt, Nat.ltb_ge. lia.
      - cbn [app filter iteration]. rewrite IH. destruct (Nat.eqb_spec s i) as [->|E].
        + replace (Nat.leb (S i) i) with false by (symmetry; apply Nat.leb_gt; lia). cbn [andb].
          replace (Nat.leb i i && Nat.ltb i (i + S m)) with true; [reflexivity|]. symmetry. apply andb_true_iff. rewrite Nat.leb_le, Nat.ltb_lt. lia.
        + replace (Nat.leb (S s) i && Nat.ltb i (S s + m)) with (Nat.leb s i && Nat.ltb i (s + S m)); [reflexivity|].
          apply eq_true_iff_eq. rewrite !andb_true_iff, !Nat.leb_le, !Nat.ltb_lt. lia. }
    rewrite G. replace (Nat.leb 0 i && Nat.ltb i (0 + n)) with true; [reflexivity|]. symmetry. apply andb_true_iff. rewrite Nat.leb_le, Nat.ltb_lt. lia.
Qed.

(** ** Clenshaw recurrence *)
Lemma cos_step k t : cos (INR (S (S k)) * t) = 2 * cos t * cos (INR (S k) * t) - cos (INR k * t).
Proof.
  rewrite !S_INR. replace ((INR k + 1 + 1) * t) with ((INR k + 1) * t + t) by ring.
  replace (INR k * t) with ((INR k + 1) * t - t) by ring. rewrite cos_plus, cos_minus. ring.
Qed.
Lemma clenshaw t l : forall k,
  let '(d, dd) := fold_left (fun '(d, dd) ci => (2 * cos t * d - dd + ci, d)) (rev l) (0, 0) in
  rsum (length l) (fun i => nth i l 0 * cos (INR (S k + i) * t)) = d * cos (INR (S k) * t) - dd * cos (INR k * t).
Proof.
  induction l as [|c l IH]; intros k.
  - cbn. ring.
  - cbn [rev]. rewrite fold_left_app. cbn [fold_left].
    specialize (IH (S k)). destruct (fold_left _ (rev l) (0, 0)) as [d dd].
    cbn [length]. rewrite rsum_Sl. cbn [nth]. rewrite Nat.add_0_r.
    rewrite (rsum_ext _ _ (fun i => nth i l 0 * cos (INR (S (S k) + i) * t))).
    2:{ intros i _. replace (S k + S i)%nat with (S (S k) + i)%nat by lia. reflexivity. }
    rewrite IH, (cos_step k t). ring.
Qed.
Lemma cheb_eval_cos c x a b t : c <> [] -> (2 * x - a - b) / (b - a) = cos t -> cheb_eval c x a b = cosine_sum c t.
Proof.
  intros Hc Hx. destruct c as [|c0 l]; [congruence|]. unfold cheb_eval. rewrite Hx. cbn [tl hd].
  pose proof (clenshaw t l 0) as C. destruct (fold_left _ (rev l) (0, 0)) as [d dd].
  unfold cosine_sum. cbn [length nth]. rewrite Nat.sub_0_r || idtac. replace (S (length l) - 1)%nat with (length l) by lia.
  rewrite (rsum_ext _ (fun i => nth i l 0 * cos (INR (S i) * t)) (fun i => nth i l 0 * cos (INR (1 + i) * t))) by reflexivity.
  rewrite C. cbn [INR]. rewrite Rmult_0_l, cos_0, Rmult_1_l. field.
Qed.

(** ** Clausen *)
Lemma Int_part_between x z : IZR z <= x < IZR z + 1 -> Int_part x = z.
Proof.
  intros H. unfold Int_part. rewrite <- (tech_up x (z + 1)); [lia| |]; rewrite plus_IZR; lra.
Qed.
Lemma PI_pos : 0 < PI. Proof. exact PI_RGT_0. Qed.
Lemma big_angle_big : 2 * PI < big_angle.
Proof. pose proof PI_4. unfold big_angle. lra. Qed.
Lemma restrict_small x : 0 <= x < 2 * PI -> angle_restrict_pos_err x = Some x.
Proof.
  intros H. pose proof PI_pos as P. pose proof big_angle_big as B. unfold angle_restrict_pos_err.
  rewrite (Int_part_between (x / (2 * PI)) 0).
  2:{ cbn [IZR]. split; [apply Rmult_le_pos; [lra|left; apply Rinv_0_lt_compat; lra]|].
      apply (Rmult_lt_reg_r (2 * PI)); [lra|]. unfold Rdiv. rewrite Rmult_assoc, Rinv_l by lra. lra. }
  cbv zeta. replace (x - 2 * IZR 0 * 2 * (2 * PI)) with x by (cbn [IZR]; ring).
  rewrite Rabs_pos_eq by lra. rewrite (proj2 (Rltb_false big_angle x)) by lra.
  rewrite (proj2 (Rltb_false (2 * PI) x)) by lra. rewrite (proj2 (Rltb_false x 0)) by lra. reflexivity.
Qed.
Lemma restrict_large x : 2 * PI <= x -> angle_restrict_pos_err x = None \/ exists r, angle_restrict_pos_err x = Some r /\ r < 0.
Proof.
  intros H. pose proof PI_pos as P. unfold angle_restrict_pos_err. cbv zeta.
  destruct (Rltb big_angle (Rabs x)); [left; reflexivity|right].
  set (m := Int_part (x / (2 * PI))).
  destruct (base_Int_part (x / (2 * PI))) as [_ B2]. fold m in B2.
  assert (Hx : x < 2 * PI * (IZR m + 1)).
  { apply (Rmult_lt_reg_r (/ (2 * PI))); [apply Rinv_0_lt_compat; lra|]. replace (2 * PI * (IZR m + 1) * / (2 * PI)) with (IZR m + 1) by (field; lra). unfold Rdiv in B2. lra. }
  assert (Hm : 1 <= IZR m).
  { apply IZR_le. assert (0 < IZR m) by nra. apply lt_IZR in H0. lia. }
  assert (Hr : x - 2 * IZR m * 2 * (2 * PI) < - (2 * PI)) by nra.
  exists (x - 2 * IZR m * 2 * (2 * PI) + 2 * PI).
  rewrite (proj2 (Rltb_false _ _)) by nra. rewrite (proj2 (Rltb_true _ 0)) by lra. split; [reflexivity|lra].
Qed.
(** the part after the reduction *)
Definition clausen_core (coef : list R) (xs : R * R) : option R :=
  let '(x, sgn) := xs in
    let '(x, sgn) := if Rltb PI x then (2 * PI - x, - sgn) else (x, sgn) in
    if Reqb x 0 then Some 0
    else match log_nan x with
         | None => None
         | Some lx => if Rltb x (PI * / 2 ^ 52) then Some (x * (1 - lx) * sgn)
                      else Some (x * (cheb_eval coef (2 * (x * x / PI ^ 2 - 1 / 2)) (-1) 1 - lx) * sgn)
         end.
Lemma clausen_pos coef x : 0 <= x -> clausen coef x = match angle_restrict_pos_err x with None => None | Some r => clausen_core coef (r, 1) end.
Proof. intros H. unfold clausen, clausen_core. rewrite (proj2 (Rltb_false x 0)) by lra. reflexivity. Qed.
Lemma clausen_neg coef x : x < 0 -> clausen coef x = match angle_restrict_pos_err (- x) with None => None | Some r => clausen_core coef (r, -1) end.
Proof. intros H. unfold clausen, clausen_core. rewrite (proj2 (Rltb_true x 0)) by lra. reflexivity. Qed.
Lemma core_sign coef r s : clausen_core coef (r, - s) = option_map Ropp (clausen_core coef (r, s)).
Proof.
  unfold clausen_core. destruct (Rltb PI r).
  - destruct (Reqb (2 * PI - r) 0); [cbn; f_equal; ring|]. destruct (log_nan (2 * PI - r)); [|reflexivity].
    destruct (Rltb (2 * PI - r) (PI * / 2 ^ 52)); cbn [option_map]; f_equal; ring.
  - destruct (Reqb r 0); [cbn; f_equal; ring|]. destruct (log_nan r); [|reflexivity].
    destruct (Rltb r (PI * / 2 ^ 52)); cbn [option_map]; f_equal; ring.
Qed.
Lemma clausen_0 coef : clausen coef 0 = Some 0.
Proof.
  rewrite clausen_pos by lra. rewrite restrict_small by (pose proof PI_pos; lra). unfold clausen_core.
  rewrite (proj2 (Rltb_false PI 0)) by (left; apply PI_pos). rewrite (proj2 (Reqb_true 0 0)) by reflexivity. reflexivity.
Qed.
Lemma clausen_odd coef x : clausen coef (- x) = option_map Ropp (clausen coef x).
Proof.
  destruct (Rtotal_order x 0) as [H|[->|H]].
  - rewrite clausen_pos, clausen_neg by lra. destruct (angle_restrict_pos_err (- x)) as [r|]; [|reflexivity].
    rewrite <- core_sign. f_equal. f_equal. ring.
  - rewrite Ropp_0, clausen_0. cbn. f_equal. ring.
  - rewrite clausen_neg, clausen_pos by lra. rewrite Ropp_involutive. destruct (angle_restrict_pos_err x) as [r|]; [|reflexivity].
    rewrite <- core_sign. reflexivity.
Qed.
Lemma clausen_large coef x : 2 * PI <= x -> clausen coef x = None.
Proof.
  intros H. pose proof PI_pos as P. rewrite clausen_pos by lra. destruct (restrict_large x H) as [->|[r [-> Hr]]]; [reflexivity|].
  unfold clausen_core. rewrite (proj2 (Rltb_false PI r)) by lra. rewrite (proj2 (Reqb_false r 0)) by lra.
  unfold log_nan. rewrite (proj2 (Rltb_false 0 r)) by lra. reflexivity.
Qed.
Lemma core_reflect coef r s : PI < r -> clausen_core coef (r, s) = clausen_core coef (2 * PI - r, - s).
Proof.
  intros H. unfold clausen_core. rewrite (proj2 (Rltb_true PI r)) by exact H.
  rewrite (proj2 (Rltb_false PI (2 * PI - r))) by lra. reflexivity.
Qed.
Lemma clausen_period coef x : - (2 * PI) < x < 0 -> x <> - PI -> clausen coef (x + 2 * PI) = clausen coef x.
Proof.
  intros H Hx. pose proof PI_pos as P. rewrite clausen_pos, clausen_neg by lra. rewrite !restrict_small by lra.
  destruct (Rlt_le_dec (- PI) x) as [L|L].
  - rewrite (core_reflect coef (x + 2 * PI)) by lra. f_equal. f_equal. ring.
  - rewrite (core_reflect coef (- x)) by lra. f_equal. f_equal; ring.
Qed.
