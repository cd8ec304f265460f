(** log_sum and the logarithm helpers. *)
From Verif Require Import Base RSumLib Ext M_Archimedean M_Special.
Open Scope R_scope.
Lemma emaximum_fin l : l <> [] -> exists m, emaximum (map Fin l) = Fin m.
Proof.
  destruct l as [|a l]; [congruence|]. intros _. unfold emaximum. cbn [map tl hd]. revert a.
  induction l as [|b l IH]; intros a; [exists a; reflexivity|]. cbn [map fold_left emax]. apply IH.
Qed.
Lemma lsum_exp_pos l : l <> [] -> 0 < lsum (map exp l).
Proof.
  destruct l as [|a l]; [congruence|]. intros _. cbn [map lsum].
  assert (0 <= lsum (map exp l)) by (apply lsum_nonneg; intros x Hx; apply in_map_iff in Hx; destruct Hx as [y [<- _]]; left; apply exp_pos).
  pose proof (exp_pos a). lra.
Qed.
Lemma lsum_exp_shift l o : lsum (map (fun x => exp (x + - o)) l) = exp (- o) * lsum (map exp l).
Proof. induction l as [|a l IH]; cbn [map lsum]; [ring|]. rewrite IH, exp_plus. ring. Qed.
Lemma log_sum_shift l o : l <> [] ->
  eadd (Fin o) (elog (esum (map (fun x => eexp (esub x (Fin o))) (map Fin l)))) = Fin (ln (lsum (map exp l))).
Proof.
  intros H. rewrite map_map. cbn [esub eopp eadd eexp].
  rewrite <- (map_map (fun x => exp (x + - o)) Fin l). rewrite esum_fin, lsum_exp_shift.
  rewrite elog_pos by (apply Rmult_lt_0_compat; [apply exp_pos|apply lsum_exp_pos; exact H]).
  rewrite ln_mult by (try apply exp_pos; apply lsum_exp_pos; exact H). rewrite ln_exp. cbn [eadd]. f_equal. ring.
Qed.
Lemma log_sum_col_ok off l : l <> [] -> (off = None \/ exists o, off = Some (Fin o)) ->
  log_sum_col off (map Fin l) = Ok (Fin (ln (lsum (map exp l)))).
Proof.
  intros H [->|[o ->]].
  - destruct (emaximum_fin l H) as [m Hm]. destruct l as [|a l]; [congruence|]. unfold log_sum_col. cbn [map] in *. rewrite Hm. cbv zeta.
    f_equal. apply (log_sum_shift (a :: l) m H).
  - unfold log_sum_col. f_equal. apply log_sum_shift. exact H.
Qed.
Lemma mapM_ok' {A B} (f : A -> result B) (g : A -> B) l : (forall x, In x l -> f x = Ok (g x)) -> mapM f l = Ok (map g l).
Proof.
  induction l as [|x l IH]; intros H; [reflexivity|]. cbn [mapM map]. rewrite H by (left; reflexivity). cbn [bind].
  rewrite IH by (intros y Hy; apply H; right; exact Hy). reflexivity.
Qed.
Definition lse (l : list R) : ext := Fin (ln (lsum (map exp l))).
Lemma log_sum_ok off cols : cols <> [] -> (forall c, In c cols -> c <> []) ->
  (off = NoOffset \/ (exists o, off = ScalarOffset (Fin o)) \/ (exists os, off = VectorOffset (map Fin os) /\ length os = length cols)) ->
  log_sum off (map (map Fin) cols) = Ok (map lse cols).
Proof.
  intros H0 Hc Ho.
  assert (E : forall l : list ext, l = map lse cols -> match l with [] => Err IndexError | _ => Ok l end = Ok (map lse cols)).
  { intros l ->. destruct cols; [congruence|reflexivity]. }
  destruct Ho as [->|[[o ->]|[os [-> L]]]]; unfold log_sum.
  - rewrite (mapM_ok' _ (fun c => match c with _ => elog (esum (map eexp c)) end)).
    + cbn [bind]. apply E. rewrite map_map. apply map_ext_in. intros c Hin. unfold lse. rewrite map_map. cbn [eexp].
      rewrite <- (map_map exp Fin), esum_fin, elog_pos by (apply lsum_exp_pos, Hc, Hin). reflexivity.
    + intros x Hx. apply in_map_iff in Hx. destruct Hx as [c [<- Hin]]. rewrite log_sum_col_ok by auto.
      rewrite map_map. cbn [eexp]. rewrite <- (map_map exp Fin), esum_fin, elog_pos by (apply lsum_exp_pos, Hc, Hin). reflexivity.
  - rewrite (mapM_ok' _ (fun c => elog (esum (map eexp c)))).
    + cbn [bind]. apply E. rewrite map_map. apply map_ext_in. intros c Hin. unfold lse. rewrite map_map. cbn [eexp].
      rewrite <- (map_map exp Fin), esum_fin, elog_pos by (apply lsum_exp_pos, Hc, Hin). reflexivity.
    + intros x Hx. apply in_map_iff in Hx. destruct Hx as [c [<- Hin]]. rewrite log_sum_col_ok by eauto.
      rewrite map_map. cbn [eexp]. rewrite <- (map_map exp Fin), esum_fin, elog_pos by (apply lsum_exp_pos, Hc, Hin). reflexivity.
  - rewrite !map_length, L, Nat.eqb_refl.
    rewrite (mapM_ok' _ (fun '(o, c) => elog (esum (map eexp c)))).
    + cbn [bind]. apply E. clear E H0. revert cols L Hc. induction os as [|o os IH]; intros [|c cols] L Hc; cbn in L; try discriminate; [reflexivity|].
      cbn [map combine]. f_equal.
      * unfold lse. rewrite map_map. cbn [eexp]. rewrite <- (map_map exp Fin), esum_fin, elog_pos by (apply lsum_exp_pos, Hc; left; reflexivity). reflexivity.
      * apply IH; [lia|]. intros d Hd; apply Hc; right; exact Hd.
    + intros [x c'] Hx. pose proof (in_combine_l _ _ _ _ Hx) as H1. pose proof (in_combine_r _ _ _ _ Hx) as H2.
      apply in_map_iff in H1, H2. destruct H1 as [o [<- _]], H2 as [c [<- Hin]]. rewrite log_sum_col_ok by eauto.
      rewrite map_map. cbn [eexp]. rewrite <- (map_map exp Fin), esum_fin, elog_pos by (apply lsum_exp_pos, Hc, Hin). reflexivity.
Qed.
Lemma log_sum_all_ninf m : log_sum NoOffset [repeat Ninf (S m)] = Ok [Nan].
Proof.
  unfold log_sum. cbn [mapM]. assert (M : emaximum (repeat Ninf (S m)) = Ninf).
  { unfold emaximum. cbn [repeat tl hd]. induction m as [|m IH]; [reflexivity|]. cbn [repeat fold_left emax]. exact IH. }
  unfold log_sum_col. cbn [repeat] in *. rewrite M. cbn. reflexivity.
Qed.
Lemma log_sum_pinf l : log_sum NoOffset [Pinf :: map Fin l] = Ok [Nan].
Proof.
  unfold log_sum. cbn [mapM]. assert (M : emaximum (Pinf :: map Fin l) = Pinf).
  { unfold emaximum. cbn [tl hd]. induction l as [|a l IH]; [reflexivity|]. cbn [map fold_left emax]. exact IH. }
  unfold log_sum_col. rewrite M. cbn. reflexivity.
Qed.
