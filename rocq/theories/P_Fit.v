(** Lemmas about the fitting model. *)
From Verif Require Import Base RSumLib Ext M_Matrix S_Matrix P_Matrix M_Linalg S_Linalg P_Linalg M_Elliptical S_Elliptical P_Elliptical
  M_Dict M_Fit S_Fit.
Open Scope R_scope.

(** ---- parameters ---- *)
Lemma parameters_get s : parameters s = sarr_list (get_params s).
Proof. destruct s; reflexivity. Qed.
Lemma numbers_list a : numbers a = sarr_list a.
Proof. destruct a; reflexivity. Qed.

Lemma same_object_refl s : same_object s s.
Proof. destruct s; cbn; auto. Qed.
Lemma same_object_trans s t u : same_object s t -> same_object t u -> same_object s u.
Proof. destruct s, t, u; cbn; intros; try contradiction; auto; congruence. Qed.

Lemma set_params_same F s p : same_object s (fst (set_params F s p)).
Proof.
  destruct s as [e|t|th|v]; cbn [set_params].
  - destruct p; cbn; reflexivity.
  - destruct p as [v|l]; cbn; [reflexivity|]. destruct (negb _); cbn; [reflexivity|].
    destruct l as [|df rho]; cbn; [reflexivity|]. destruct (match df with Some r => Rleb r 0 | None => false end); reflexivity.
  - destruct (sarr_list p) as [|[x|] [|? ?]]; cbn; try exact I. destruct (f_theta_ok F x); exact I.
  - exact I.
Qed.
(** an assignment that raises leaves the parameters *)
Lemma set_params_err F s p s' e : set_params F s p = (s', Err e) -> s' = s.
Proof.
  destruct s as [el|t|th|v]; cbn [set_params].
  - destruct p; cbn; intros H; discriminate.
  - destruct p as [v|l]; cbn; [intros H; injection H; auto|].
    destruct (negb _); cbn; [intros H; injection H as <- _; destruct t; reflexivity|].
    destruct l as [|df rho]; cbn; [intros H; injection H as <- _; reflexivity|].
    destruct (match df with Some r => Rleb r 0 | None => false end); intros H; [injection H as <- _; reflexivity|discriminate].
  - destruct (sarr_list p) as [|[x|] [|? ?]]; cbn; try (intros H; injection H; congruence); try discriminate.
    destruct (f_theta_ok F x); intros H; [discriminate|injection H; congruence].
  - discriminate.
Qed.
(** a vector that is accepted gives the same parameters whatever they were before *)
Lemma set_params_vec F s t l s' t' : same_object s t -> set_params F s (SVec l) = (s', Ok tt) -> set_params F t (SVec l) = (t', Ok tt) -> s' = t'.
Proof.
  destruct s as [e|a|th|v], t as [e'|b|th'|v']; cbn [same_object]; intros K; try contradiction; cbn [set_params sarr_list].
  - cbn. rewrite K. congruence.
  - cbn. rewrite K. destruct (negb _); [discriminate|]. destruct l as [|df rho]; [discriminate|].
    destruct (match df with Some r => Rleb r 0 | None => false end); [discriminate|]. congruence.
  - destruct l as [|[x|] [|? ?]]; try discriminate; [destruct (f_theta_ok F x); [|discriminate]|]; congruence.
  - congruence.
Qed.
Lemma set_params_parameters F s l s' : set_params F s (SVec l) = (s', Ok tt) -> parameters s' = l.
Proof.
  destruct s as [e|t|th|v]; cbn [set_params sarr_list].
  - cbn. intros H. injection H as <-. reflexivity.
  - cbn. destruct (negb _); [discriminate|]. destruct l as [|df rho]; [discriminate|].
    destruct (match df with Some r => Rleb r 0 | None => false end); [discriminate|]. intros H. injection H as <-. reflexivity.
  - destruct l as [|[x|] [|? ?]]; try discriminate; [destruct (f_theta_ok F x); [|discriminate]|]; intros H; injection H as <-; reflexivity.
  - intros H. injection H as <-. reflexivity.
Qed.

(** ---- the objective ---- *)
Lemma calc_same F d sc p s : same_object s (snd (calc_log_lik F d sc p s)).
Proof.
  unfold calc_log_lik. destruct (existsb is_nan (sarr_list p)); [apply same_object_refl|].
  pose proof (set_params_same F s p) as K. destruct (set_params F s p) as [s' [[]|e]]; cbn in K.
  - destruct (f_log_lik F s' d false) as [v|[]]; exact K.
  - destruct e; exact K.
Qed.
Lemma calc_assigned F d sc p s r s' : calc_log_lik F d sc p s = (r, s') -> exists l, assigned F s l s' /\ (l = [] \/ l = [p]).
Proof.
  unfold calc_log_lik. destruct (existsb is_nan (sarr_list p)).
  - intros H. injection H as _ <-. exists []. split; [constructor|auto].
  - destruct (set_params F s p) as [s1 [[]|e]] eqn:E.
    + intros H. assert (s1 = s') by (destruct (f_log_lik F s1 d false) as [v|[]]; congruence). subst s1.
      exists [p]. split; [eapply as_ok; [exact E|constructor]|auto].
    + pose proof (set_params_err F s p s1 e E) as ->. intros H. assert (s = s') by (destruct e; congruence). subst s'.
      exists [p]. split; [eapply as_err; [exact E|constructor]|auto].
Qed.
Lemma assigned_app F s l t l' u : assigned F s l t -> assigned F t l' u -> assigned F s (l ++ l') u.
Proof. intros H. induction H; intros H'; cbn; [exact H'|eapply as_ok|eapply as_err]; eauto. Qed.

Lemma better_nan_l b : ~ better Nan b. Proof. destruct b; cbn; tauto. Qed.
Lemma better_pinf_l b : ~ better Pinf b. Proof. destruct b; cbn; tauto. Qed.

(** ---- a run of the optimiser ---- *)
Lemma run_same F d sc o : forall s tr r s' tr', run F d sc o s tr = (r, s', tr') -> same_object s s'.
Proof.
  induction o as [p k IH|b x f|e]; intros s tr r s' tr'; cbn [run].
  - pose proof (calc_same F d sc p s) as K. destruct (calc_log_lik F d sc p s) as [[v|e] s1]; cbn in K.
    + intros H. eapply same_object_trans; [exact K|]. eapply IH; exact H.
    + intros H. injection H as _ <- _. exact K.
  - intros H. injection H as _ <- _. apply same_object_refl.
  - intros H. injection H as _ <- _. apply same_object_refl.
Qed.
Lemma run_assigned F d sc o : forall s tr r s' tr', run F d sc o s tr = (r, s', tr') -> exists l, assigned F s l s'.
Proof.
  induction o as [p k IH|b x f|e]; intros s tr r s' tr'; cbn [run].
  - destruct (calc_log_lik F d sc p s) as [[v|e] s1] eqn:E.
    + intros H. destruct (calc_assigned F d sc p s _ s1 E) as [l [A _]]. destruct (IH v s1 _ r s' tr' H) as [l' A'].
      exists (l ++ l'). eapply assigned_app; eassumption.
    + intros H. injection H as _ <- _. destruct (calc_assigned F d sc p s _ s1 E) as [l [A _]]. exists l. exact A.
  - intros H. injection H as _ <- _. exists []. constructor.
  - intros H. injection H as _ <- _. exists []. constructor.
Qed.
(** every point of the trace was evaluated at an object of the same copula *)
Definition evaluated F d sc (s0 : pstate) (q : sarr * ext) : Prop :=
  exists s, same_object s0 s /\ fst (calc_log_lik F d sc (fst q) s) = Ok (snd q).
Lemma run_trace F d sc o s0 : forall s tr r s' tr', same_object s0 s -> (forall q, In q tr -> evaluated F d sc s0 q) ->
  run F d sc o s tr = (r, s', tr') -> forall q, In q tr' -> evaluated F d sc s0 q.
Proof.
  induction o as [p k IH|b x f|e]; intros s tr r s' tr' K T; cbn [run].
  - pose proof (calc_same F d sc p s) as K1. destruct (calc_log_lik F d sc p s) as [[v|e] s1] eqn:E; cbn in K1.
    + apply IH; [eapply same_object_trans; eassumption|]. intros q Hq. apply in_app_or in Hq. destruct Hq as [Hq|[<-|[]]]; [auto|].
      exists s. split; [exact K|]. cbn. rewrite E. reflexivity.
    + intros H. injection H as _ _ <-. exact T.
  - intros H. injection H as _ _ <-. exact T.
  - intros H. injection H as _ _ <-. exact T.
Qed.
Lemma run_honest F d sc o seen (Ho : honest seen o) : forall s tr b x f s' tr', (forall q, In q seen -> In q tr) ->
  run F d sc o s tr = (Ok (b, x, f), s', tr') -> In (x, f) tr'.
Proof.
  induction Ho as [seen p k Hk IH|seen b0 x0 f0 Hin|seen e]; intros s tr b x f s' tr' S; cbn [run].
  - destruct (calc_log_lik F d sc p s) as [[v|e] s1]; [|discriminate].
    apply IH. intros q [<-|Hq]; apply in_or_app; [right; left; reflexivity|left; auto].
  - intros H. injection H as <- <- <- _ <-. auto.
  - discriminate.
Qed.
Lemma run_vectors F d sc o (Ho : uses_vectors o) : forall s tr b x f s' tr',
  run F d sc o s tr = (Ok (b, x, f), s', tr') -> exists l, x = SVec l.
Proof.
  induction Ho as [l k Hk IH|b0 l f0|e]; intros s tr b x f s' tr'; cbn [run].
  - destruct (calc_log_lik F d sc (SVec l) s) as [[v|e] s1]; [|discriminate]. apply IH.
  - intros H. injection H as _ <- _ _ _. eauto.
  - discriminate.
Qed.
Lemma run_never F d sc o (Ho : never_converges o) : forall s tr b x f s' tr',
  run F d sc o s tr = (Ok (b, x, f), s', tr') -> b = false.
Proof.
  induction Ho as [p k Hk IH|x0 f0|e]; intros s tr b x f s' tr'; cbn [run].
  - destruct (calc_log_lik F d sc p s) as [[v|e] s1]; [|discriminate]. apply IH.
  - intros H. injection H as <- _ _ _ _. reflexivity.
  - discriminate.
Qed.
(** a finite objective value is minus the scaled log-likelihood at the assigned point *)
Lemma calc_finite F d sc p s r : fst (calc_log_lik F d sc p s) = Ok (Fin r) ->
  exists s' ll, set_params F s p = (s', Ok tt) /\ f_log_lik F s' d false = Ok (Fin ll) /\ r = sc * - ll.
Proof.
  unfold calc_log_lik. destruct (existsb is_nan (sarr_list p)); [discriminate|].
  destruct (set_params F s p) as [s' [[]|e]].
  - destruct (f_log_lik F s' d false) as [v|e] eqn:El.
    + cbn. destruct v as [ll| | |]; cbn; try discriminate.
      * intros H. injection H as <-. exists s', ll. auto.
      * destruct (Rltb 0 sc), (Rltb sc 0); discriminate.
      * destruct (Rltb 0 sc), (Rltb sc 0); discriminate.
    + destruct e; discriminate.
  - destruct e; discriminate.
Qed.

(** ---- fit ---- *)
Lemma not_outside_check (l : list fl) : (forall v, In v l -> ~ outside_unit v) <->
  existsb (fun v => match v with Some r => Rltb r 0 || Rltb 1 r | None => false end) l = false.
Proof.
  rewrite <- Bool.not_true_iff_false, existsb_exists. split.
  - intros H [v [Hv C]]. apply (H v Hv). destruct v as [r|]; [|discriminate]. exists r. split; [reflexivity|].
    apply orb_true_iff in C. destruct C as [C|C]; apply Rltb_true in C; auto.
  - intros H v Hv [r [-> C]]. apply H. exists (Some r). split; [exact Hv|]. apply orb_true_iff. rewrite !Rltb_true. exact C.
Qed.
Lemma any_ok (l : list fl) : let any := Z.b2z (existsb (fun v => match v with Some r => negb (Reqb r 0) | None => true end) l) in
  ((any <? 0)%Z || (1 <? any)%Z)%bool = false.
Proof. cbn zeta. destruct (existsb _ _); reflexivity. Qed.

Lemma fit_valid F opt fuel pobs opts d d' x0 m tp sc c : worked_on pobs tp d d' -> well_shaped F d' -> in_unit d' ->
  fit F opt fuel pobs opts d x0 m tp sc c =
  match fit_copula F opt fuel opts d' x0 m sc (c_params c) with
  | None => None
  | Some (Err e, s) => Some (Err e, mkCop s (c_smry c) (c_columns c))
  | Some (Ok smry, s) => Some (Ok tt, mkCop s (Some smry) (match d_labels d' with Some l => Some l | None => c_columns c end))
  end.
Proof.
  intros W [N C] U. unfold fit.
  assert (E : (if tp then pobs d else Ok d) = Ok d') by (destruct tp; cbn in W; congruence). rewrite E.
  rewrite N, C, !Nat.eqb_refl. cbn [negb]. rewrite (proj1 (not_outside_check (d_vals d')) U). reflexivity.
Qed.
Lemma fit_copula_rows F opt fuel d x0 m sc s : (f_dim F <= d_rows d)%nat ->
  fit_copula F opt fuel (Ok tt) d x0 m sc s =
  (let m := lower m in
   if String.eqb m "ml" then
     match initial_params F fuel d x0 s with
     | None => None
     | Some (Err e, s') => Some (Err e, s')
     | Some (Ok x0, s') => Some (estimate_ml F opt d x0 sc s')
     end
   else if String.eqb m "itau" || String.eqb m "irho" then Some (estimate_inverse F d m s)
   else Some (Err NotImplementedError, s)).
Proof.
  intros H. unfold fit_copula. cbv zeta. rewrite any_ok. destruct (Nat.ltb_spec (d_rows d) (f_dim F)); [lia|]. reflexivity.
Qed.
(** a user's start without nan is used as it is *)
Lemma initial_user F fuel d x s : (forall v, In v (numbers x) -> v <> None) -> initial_params F fuel d (Some x) s = Some (Ok x, s).
Proof.
  intros H. unfold initial_params. rewrite numbers_list in H.
  replace (forallb (fun v => negb (is_nan v)) (sarr_list x)) with true; [reflexivity|].
  symmetry. apply forallb_forall. intros v Hv. destruct v; [reflexivity|]. elim (H None Hv eq_refl).
Qed.
Lemma lower_idem s : lower (lower s) = lower s.
Proof.
  induction s as [|a s IH]; [reflexivity|]. cbn [lower]. rewrite IH. f_equal.
  destruct a as [[] [] [] [] [] [] [] []]; reflexivity.
Qed.

(** ---- inversion ---- *)
Lemma sarr_list_squeeze l : sarr_list (squeeze l) = l.
Proof. destruct l as [|a [|b l]]; reflexivity. Qed.
Lemma squeeze_long l : (2 <= length l)%nat -> squeeze l = SVec l.
Proof. destruct l as [|a [|b l]]; cbn; intros; try lia. reflexivity. Qed.
Lemma below_diag_map {A B} (f : A -> B) (m : mat A) : below_diag (mkMat (nr m) (nc m) (fun i j => f (get m i j))) = map f (below_diag m).
Proof.
  rewrite (below_diag_tri (mkMat (nr m) (nc m) (fun i j => f (get m i j))) (nr m) eq_refl), (below_diag_tri m (nr m) eq_refl), map_map.
  reflexivity.
Qed.
Lemma below_diag_eq {A} (m m' : mat A) d : square d m -> mat_eq m m' -> below_diag m = below_diag m'.
Proof.
  intros [S1 S2] [E1 [E2 G]]. rewrite (below_diag_tri m d S1), (below_diag_tri m' d ltac:(congruence)).
  apply map_ext_in. intros [i j] Hin. apply tri_loop_in in Hin. apply G; cbn; lia.
Qed.
Lemma tri_idx d : exists idx, tri_indices d 1 "lower" = Ok idx.
Proof. rewrite tri_lower by reflexivity. eauto. Qed.
Lemma take_idx {A} (m : mat A) d idx : tri_indices d 1 "lower" = Ok idx -> (2 <= d)%nat -> square d m -> take m idx = Ok (below_diag m).
Proof. intros E Hd Sq. pose proof (take_lower m d "lower" eq_refl Hd Sq) as H. rewrite E in H. exact H. Qed.

Definition g_matrix (g : R -> R) (t : mat R) : mat R := mkMat (nr t) (nc t) (fun i j => g (get t i j)).
Lemma inverse_psd (F : family) g tm d idx : eig_ok (f_eig F) -> (2 <= d)%nat -> corr_shape 1 d tm -> g 1 = 1 ->
  pos_semidef d (get (g_matrix g tm)) -> tri_indices d 1 "lower" = Ok idx ->
  let L : list fl := map (fun t => Some (g t)) (below_diag tm) in
  bind (create_cov_matrix (Some 0) (Some 1) L) (fun c => bind (near_psd_fl (f_eig F) (f_nearest F) (VMat c)) (fun n => rmap SVec (take n idx))) = Ok (SVec L) /\
  consistent (mkEll d false L) /\ shows (mkEll d false L) (g_matrix g tm).
Proof.
  intros He Hd [[S1 S2] [Sy U]] G1 P Ei L.
  assert (CS : corr_shape (Some 1) d (enfl (g_matrix g tm))).
  { split; [split; assumption|]. split.
    - intros i j Hi Hj. cbn in *. f_equal. f_equal. apply Sy; assumption.
    - intros i Hi. cbn in *. rewrite U, G1 by assumption. reflexivity. }
  assert (EL : L = below_diag (enfl (g_matrix g tm))).
  { unfold L. symmetry. exact (below_diag_map (fun t => Some (g t)) tm). }
  assert (C : consistent (mkEll d false L)).
  { split; [exact Hd|]. cbn [e_rhos e_dim]. rewrite EL, below_diag_length. cbn [enfl g_matrix nr]. rewrite S1. reflexivity. }
  assert (Sh : shows (mkEll d false L) (g_matrix g tm)).
  { unfold shows, sigma. cbn [e_rhos]. rewrite EL.
    destruct (create_cov_of_below (Some 0) (Some 1) (enfl (g_matrix g tm)) d Hd CS) as [m' [E1 E2]].
    exists m'. split; [exact E1|]. exact E2. }
  split; [|split; assumption].
  pose proof (force_psd_keeps (f_eig F) (f_nearest F) He (mkEll d false L) (g_matrix g tm) C Sh P) as K.
  unfold force_psd, sigma in K. cbn [e_dim e_rhos] in K. rewrite Ei in K.
  destruct (create_cov_matrix (Some 0) (Some 1) L) as [c|x]; cbn [bind] in K |- *; [|discriminate].
  destruct (near_psd_fl (f_eig F) (f_nearest F) (VMat c)) as [n|x]; cbn [bind] in K |- *; [|discriminate].
  destruct (take n idx) as [rh|x]; [|discriminate]. injection K as ->. reflexivity.
Qed.

Lemma fit_cor_ell (F : family) d typ corr g T tm :
  (typ = "itau"%string /\ f_ktau F = corr /\ (forall l, f_itau F (map Some l) = Ok (map (fun t => Some (g t)) l)) \/
   typ = "irho"%string /\ f_srho F = corr /\ (forall l, f_irho F (map Some l) = Ok (map (fun t => Some (g t)) l))) ->
  eig_ok (f_eig F) -> (3 <= f_dim F)%nat -> is_elliptical (f_name F) = true -> corr d = Ok T -> mat_eq T (enfl tm) ->
  corr_shape 1 (f_dim F) tm -> g 1 = 1 -> pos_semidef (f_dim F) (get (g_matrix g tm)) ->
  let L : list fl := map (fun t => Some (g t)) (below_diag tm) in
  fit_cor F d typ = Ok (SVec L) /\ consistent (mkEll (f_dim F) false L) /\ shows (mkEll (f_dim F) false L) (g_matrix g tm).
Proof.
  intros Ht He Hd Hell ET Em CS G1 P L.
  destruct (tri_idx (f_dim F)) as [idx Ei].
  destruct (inverse_psd F g tm (f_dim F) idx He ltac:(lia) CS G1 P Ei) as [A [B C]]. fold L in A, B, C.
  split; [|split; assumption].
  assert (ST : square (f_dim F) T).
  { destruct Em as [E1 [E2 _]], CS as [[S1 S2] _]. cbn in E1, E2. split; congruence. }
  assert (EB : below_diag T = map Some (below_diag tm)).
  { rewrite (below_diag_eq T (enfl tm) (f_dim F) ST Em). exact (below_diag_map Some tm). }
  assert (HL : (2 <= length L)%nat).
  { unfold L. rewrite map_length. pose proof (below_diag_length tm) as Hl. destruct CS as [[S1 _] _]. rewrite S1 in Hl.
    revert Hl Hd. generalize (length (below_diag tm)) (f_dim F). intros n k Hl Hk. nia. }
  unfold fit_cor. rewrite Ei. cbn [bind].
  destruct Ht as [[-> [Ec Ef]]|[-> [Ec Ef]]]; cbn [String.eqb Ascii.eqb Bool.eqb]; rewrite Ec, ET; cbn [bind];
    rewrite (take_idx T (f_dim F) idx Ei ltac:(lia) ST), EB; cbn [bind]; rewrite Ef; cbn [bind]; fold L;
    rewrite Hell, (squeeze_long L HL); exact A.
Qed.

Lemma set_nth_app {A} (a : list A) x b v : set_nth (a ++ x :: b) (length a) v = a ++ v :: b.
Proof. induction a; cbn; [reflexivity|f_equal; assumption]. Qed.
Lemma store_all_float (e : ell) : e_int e = false -> forall l done rest, e_rhos e = done ++ rest -> length rest = length l ->
  store_all e (length done) l = (mkEll (e_dim e) false (done ++ l), Ok tt).
Proof.
  intros Hi l. revert e Hi. induction l as [|v l IH]; intros e Hi done rest Er Hl.
  - destruct rest; [|discriminate]. rewrite app_nil_r in *. cbn. destruct e; cbn in *; subst. reflexivity.
  - destruct rest as [|x rest]; [discriminate|]. cbn [store_all].
    rewrite store_float; [|exact Hi|rewrite Er, app_length; cbn; lia].
    rewrite Er, set_nth_app.
    pose proof (IH (mkEll (e_dim e) false (done ++ v :: rest)) eq_refl (done ++ [v]) rest) as K.
    cbn [e_rhos e_dim] in K. rewrite app_length in K. cbn [length] in K.
    replace (length done + 1)%nat with (S (length done)) in K by lia. rewrite K.
    + rewrite <- app_assoc. reflexivity.
    + rewrite <- app_assoc. reflexivity.
    + cbn in Hl. lia.
Qed.

Lemma elliptical_name F s : elliptical_object F s -> is_elliptical (f_name F) = true.
Proof.
  unfold elliptical_object, is_elliptical. destruct s as [e|t|th|v]; try contradiction; intros [E _]; rewrite E; reflexivity.
Qed.
Lemma inverse_ell_ok (F : family) d typ corr g T tm s :
  (typ = "itau"%string /\ f_ktau F = corr /\ (forall l, f_itau F (map Some l) = Ok (map (fun t => Some (g t)) l)) \/
   typ = "irho"%string /\ f_srho F = corr /\ (forall l, f_irho F (map Some l) = Ok (map (fun t => Some (g t)) l))) ->
  eig_ok (f_eig F) -> (3 <= f_dim F)%nat -> elliptical_object F s -> corr d = Ok T -> mat_eq T (enfl tm) ->
  corr_shape 1 (f_dim F) tm -> g 1 = 1 -> pos_semidef (f_dim F) (get (g_matrix g tm)) ->
  exists s', object_shows s' (g_matrix g tm) /\ same_object s s' /\ 
    (match s, s' with PStudent a, PStudent b => s_df a = s_df b | _, _ => True end) /\
    estimate_inverse F d typ s = 
      match f_log_lik F s' d true with
      | Err e => (Err e, s')
      | Ok v => (Ok (mkSummary (SVec (map (fun t => Some (g t)) (below_diag tm))) (if String.eqb typ "irho" then "Inversion of Spearman Rho Correlation"
                                      else "Inversion of Kendall Tau Correlation") v (d_rows d)), s')
      end.
Proof.
  intros Ht He Hd Ho ET Em CS G1 P. pose proof (elliptical_name F s Ho) as Hell.
  destruct (fit_cor_ell F d typ corr g T tm Ht He Hd Hell ET Em CS G1 P) as [A [B C]].
  set (L := map (fun t => Some (g t)) (below_diag tm) : list fl) in *.
  assert (Hty : lower typ = typ /\ (String.eqb typ "itau" || String.eqb typ "irho") = true) by (destruct Ht as [[-> _]|[-> _]]; split; reflexivity).
  destruct Hty as [Hty1 Hty2].
  unfold estimate_inverse. cbv zeta. rewrite Hty1, Hty2. cbn [negb]. rewrite A, Hell. cbn [sarr_list].
  destruct s as [e|t|th|v]; try contradiction Ho.
  - destruct Ho as [_ [Hdim [[_ Ce] Hi]]].
    assert (HlL : length L = length (e_rhos e)).
    { destruct B as [_ B]. cbn [e_rhos e_dim] in B. rewrite Hdim in Ce. apply (Nat.mul_cancel_l _ _ 2); [lia|]. etransitivity; [exact B|symmetry; exact Ce]. }
    change (@length (option R) L) with (@length fl L). rewrite HlL, Nat.eqb_refl.
    pose proof (store_all_float e Hi L [] (e_rhos e) eq_refl (eq_sym HlL)) as K. cbn [length app] in K. rewrite K.
    exists (PGauss (mkEll (e_dim e) false L)). rewrite Hdim. repeat split; [exact C|exact Hdim].
  - destruct Ho as [_ Hdim]. cbn [student_set_params fst pa_int pa_vals].
    exists (PStudent (mkStudent (s_df t) (mkEll (e_dim (s_ell t)) false L))). rewrite Hdim. repeat split; [exact C|exact Hdim].
Qed.

(** Archimedean: the mean *)
Lemma fl_mean_some a l : fl_mean (map Some (a :: l)) = Some (fold_right Rplus 0 (a :: l) / INR (length (a :: l))).
Proof.
  unfold fl_mean. cbn [map].
  replace (existsb is_nan (Some a :: map Some l)) with false.
  - f_equal. cbn [map val length]. rewrite map_length.
    replace (map val (map Some l)) with l; [reflexivity|]. rewrite map_map. symmetry. apply map_id.
  - symmetry. apply not_true_is_false. rewrite existsb_exists. intros [v [Hv C]]. change (Some a :: map Some l) with (map Some (a :: l)) in Hv.
    apply in_map_iff in Hv. destruct Hv as [y [<- _]]. discriminate.
Qed.
Lemma fl_mean_spec l x : l <> [] -> fl_mean (map Some l) = Some x <-> average l x.
Proof.
  intros Hl. unfold average. destruct l as [|a l]; [congruence|]. rewrite fl_mean_some.
  assert (H : 0 < INR (length (a :: l))) by (apply lt_0_INR; cbn; lia).
  revert H. generalize (INR (length (a :: l))) (fold_right Rplus 0 (a :: l)). intros n sm H. split.
  - intros H0. injection H0 as <-. split; [congruence|]. field. lra.
  - intros [_ H0]. f_equal. rewrite <- H0. field. lra.
Qed.
Lemma fl_mean_nan l : In None l -> fl_mean l = None.
Proof.
  intros H. unfold fl_mean. destruct l; [contradiction|].
  replace (existsb is_nan _) with true; [reflexivity|]. symmetry. apply existsb_exists. exists None. auto.
Qed.
Lemma archimedean_not_elliptical name : is_archimedean name = true -> is_elliptical name = false.
Proof.
  unfold is_archimedean, is_elliptical. cbn [existsb].
  repeat match goal with |- context [String.eqb (lower name) ?x] => destruct (String.eqb_spec (lower name) x) as [->|]; cbn; auto end; discriminate.
Qed.
Lemma fit_cor_arch (F : family) d T l : is_archimedean (f_name F) = true -> (2 <= f_dim F)%nat -> f_ktau F d = Ok T -> square (f_dim F) T ->
  f_itau F (below_diag T) = Ok l -> fit_cor F d "itau" = Ok (squeeze l).
Proof.
  intros Ha Hd ET ST El. destruct (tri_idx (f_dim F)) as [idx Ei]. unfold fit_cor. rewrite Ei. cbn [bind String.eqb Ascii.eqb Bool.eqb].
  rewrite ET. cbn [bind]. rewrite (take_idx T (f_dim F) idx Ei Hd ST). cbn [bind]. rewrite El. cbn [bind].
  rewrite (archimedean_not_elliptical _ Ha). reflexivity.
Qed.
Lemma inverse_arch (F : family) d T l th : is_archimedean (f_name F) = true -> (2 <= f_dim F)%nat -> f_ktau F d = Ok T -> square (f_dim F) T ->
  f_itau F (below_diag T) = Ok l ->
  estimate_inverse F d "itau" (PArch th) =
    match set_params F (PArch th) (SScalar (fl_mean l)) with
    | (s', Ok _) => match f_log_lik F s' d true with
                    | Err e => (Err e, s')
                    | Ok v => (Ok (mkSummary (SScalar (fl_mean l)) "Inversion of Kendall Tau Correlation" v (d_rows d)), s')
                    end
    | (s', Err e) => (Err e, s')
    end.
Proof.
  intros Ha Hd ET ST El. unfold estimate_inverse. cbv zeta. change (lower "itau") with "itau"%string. cbn [String.eqb Ascii.eqb Bool.eqb orb negb].
  rewrite (fit_cor_arch F d T l Ha Hd ET ST El), (archimedean_not_elliptical _ Ha), Ha, sarr_list_squeeze.
  destruct (set_params F (PArch th) (SScalar (fl_mean l))) as [s' [u|e]]; reflexivity.
Qed.
(** whatever the data: an Archimedean inversion that succeeds records a number that passed the setter *)
Lemma inverse_arch_inv (F : family) d th smry s' typ : is_elliptical (f_name F) = false ->
  estimate_inverse F d typ (PArch th) = (Ok smry, s') -> exists v, fs_params smry = SScalar v /\ s' = PArch v /\ admissible F v.
Proof.
  intros Hell. unfold estimate_inverse. cbv zeta. destruct (negb _); [discriminate|]. destruct (fit_cor F d (lower typ)) as [icor|e]; [|discriminate].
  rewrite Hell. destruct (is_archimedean (f_name F)); [|discriminate].
  set (m := fl_mean (sarr_list icor)). cbn [set_params sarr_list]. destruct m as [x|].
  - destruct (f_theta_ok F x) eqn:Eo; [|discriminate].
    destruct (f_log_lik F (PArch (Some x)) d true); [|discriminate]. intros H. injection H as <- <-. exists (Some x). auto.
  - destruct (f_log_lik F (PArch None) d true); [|discriminate]. intros H. injection H as <- <-. exists None. split; [reflexivity|]. split; [reflexivity|exact I].
Qed.
Lemma inverse_arch_state (F : family) d th r s' typ : is_elliptical (f_name F) = false -> admissible F th ->
  estimate_inverse F d typ (PArch th) = (r, s') -> exists v, s' = PArch v /\ admissible F v.
Proof.
  intros Hell Ad. unfold estimate_inverse. cbv zeta. destruct (negb _); [intros H; injection H as _ <-; eauto|].
  destruct (fit_cor F d (lower typ)) as [icor|e]; [|intros H; injection H as _ <-; eauto].
  rewrite Hell. destruct (is_archimedean (f_name F)); [|intros H; injection H as _ <-; eauto].
  set (m := fl_mean (sarr_list icor)). cbn [set_params sarr_list]. destruct m as [x|].
  - destruct (f_theta_ok F x) eqn:Eo; [|intros H; injection H as _ <-; eauto].
    destruct (f_log_lik F (PArch (Some x)) d true); intros H; injection H as _ <-; exists (Some x); auto.
  - destruct (f_log_lik F (PArch None) d true); intros H; injection H as _ <-; exists None; (split; [reflexivity|exact I]).
Qed.

(** ---- starting values ---- *)
Lemma clayton_loop_ends F d n : forall x s, 0 <= x + INR n / 5 -> clayton_loop F n d (Some x) s <> None.
Proof.
  induction n as [|n IH]; intros x s H.
  - cbn in *. replace (Rltb x 0) with false; [discriminate|]. symmetry. apply Rltb_false. lra.
  - cbn [clayton_loop]. destruct (Rltb x 0); [|discriminate].
    destruct (set_params F s (SScalar (Some (x + / 5)))) as [s' [[]|e]]; [|discriminate].
    destruct (f_log_lik F s' d true) as [v|e]; [|discriminate]. destruct (finite v); [discriminate|].
    apply IH. rewrite S_INR in H. lra.
Qed.
Lemma clayton_loop_arch F d n : forall v w r s', admissible F v -> admissible F w -> clayton_loop F n d v (PArch w) = Some (r, s') ->
  (exists w', s' = PArch w' /\ admissible F w') /\ (forall a, r = Ok a -> admissible F a).
Proof.
  induction n as [|n IH]; intros v w r s' Av Aw; cbn [clayton_loop].
  - destruct v as [x|]; [destruct (Rltb x 0); [discriminate|]|]; intros H; injection H as <- <-;
      (split; [eauto|intros a E; injection E as <-; assumption]).
  - destruct v as [x|]; [|intros H; injection H as <- <-; split; [eauto|intros a E; injection E as <-; assumption]].
    destruct (Rltb x 0); [|intros H; injection H as <- <-; split; [eauto|intros a E; injection E as <-; assumption]].
    cbn [set_params sarr_list]. destruct (f_theta_ok F (x + / 5)) eqn:Eo.
    + destruct (f_log_lik F (PArch (Some (x + / 5))) d true) as [ll|e].
      * destruct (finite ll); [|apply IH; exact Eo].
        intros H. injection H as <- <-. split; [exists (Some (x + / 5)); auto|]. intros a E. injection E as <-. exact Eo.
      * intros H. injection H as <- <-. split; [exists (Some (x + / 5)); auto|discriminate].
    + intros H. injection H as <- <-. split; [eauto|discriminate].
Qed.
Lemma initial_arch F fuel d w r s' : is_elliptical (f_name F) = false -> admissible F w ->
  initial_params F fuel d None (PArch w) = Some (r, s') ->
  (exists w', s' = PArch w' /\ admissible F w') /\ (forall a, r = Ok a -> exists v, a = SScalar v /\ admissible F v).
Proof.
  intros Hell Aw. unfold initial_params. rewrite Hell.
  destruct (estimate_inverse F d "itau" (PArch w)) as [[smry|e] s1] eqn:Ei.
  - destruct (inverse_arch_inv F d w smry s1 "itau" Hell Ei) as [v [Ev [Es Av]]]. subst s1.
    destruct (f_log_lik F (PArch v) d true) as [ll|e].
    + destruct (finite ll).
      * intros H. injection H as <- <-. split; [eauto|]. intros a E. injection E as <-. eauto.
      * cbv zeta. destruct (String.eqb (lower (f_name F)) "clayton" && Nat.eqb (f_dim F) 2).
        -- rewrite Ev. destruct (clayton_loop F fuel d v (PArch v)) as [[[st|e] s2]|] eqn:El; [| |discriminate].
           ++ destruct (clayton_loop_arch F d fuel v v (Ok st) s2 Av Av El) as [[w' [-> Aw']] Hst].
              destruct (infinite ll); intros H; injection H as <- <-; (split; [eauto|intros a E; injection E as <-; eauto]).
           ++ destruct (clayton_loop_arch F d fuel v v (Err e) s2 Av Av El) as [[w' [-> Aw']] _].
              destruct e; intros H; injection H as <- <-; (split; [eauto|intros a E; try discriminate]).
              injection E as <-. eauto.
        -- rewrite Ev. destruct (infinite ll); intros H; injection H as <- <-; (split; [eauto|intros a E; injection E as <-; eauto]).
    + destruct e; intros H; injection H as <- <-; (split; [eauto|intros a E; try discriminate]). injection E as <-. eauto.
  - destruct (inverse_arch_state F d w (Err e) s1 "itau" Hell Aw Ei) as [v [-> Av]].
    destruct e; intros H; injection H as <- <-; (split; [eauto|intros a E; try discriminate]). injection E as <-. eauto.
Qed.
Lemma initial_ends F fuel d x0 w : (forall v, admissible F v -> match v with Some x => 0 <= x + INR fuel / 5 | None => True end) ->
  initial_params F fuel d x0 (PArch w) <> None.
Proof.
  intros Hf. unfold initial_params. destruct (match x0 with Some x => _ | None => None end); [discriminate|].
  destruct (is_elliptical (f_name F)) eqn:Hell; [discriminate|].
  destruct (estimate_inverse F d "itau" (PArch w)) as [[smry|e] s1] eqn:Ei; [|destruct e; discriminate].
  destruct (inverse_arch_inv F d w smry s1 "itau" Hell Ei) as [v [Ev [-> Av]]].
  destruct (f_log_lik F (PArch v) d true) as [ll|e]; [|destruct e; discriminate].
  destruct (finite ll); [discriminate|]. cbv zeta.
  destruct (String.eqb (lower (f_name F)) "clayton" && Nat.eqb (f_dim F) 2); [|destruct (infinite ll); discriminate].
  rewrite Ev. destruct (clayton_loop F fuel d v (PArch v)) as [[[st|e] s2]|] eqn:El.
  - destruct (infinite ll); discriminate.
  - destruct e; discriminate.
  - exfalso. specialize (Hf v Av). destruct v as [x|].
    + exact (clayton_loop_ends F d fuel x (PArch (Some x)) Hf El).
    + destruct fuel; discriminate.
Qed.

(** stores into an integer array *)
Lemma store_all_int (e : ell) : e_int e = true -> forall l done rest, e_rhos e = done ++ rest -> length rest = length l ->
  Forall (fun r => -1 < r < 1) l ->
  store_all e (length done) (map Some l) = (mkEll (e_dim e) true (done ++ map (fun _ => Some 0) l), Ok tt).
Proof.
  assert (I0 : forall r, 0 <= r < 1 -> Int_part r = 0%Z).
  { intros r Hr. pose proof (base_Int_part r) as [A B].
    assert (Int_part r < 1)%Z by (apply lt_IZR; lra). assert (-1 < Int_part r)%Z by (apply lt_IZR; lra). lia. }
  assert (T0 : forall r, -1 < r < 1 -> trunc r = 0).
  { intros r Hr. unfold trunc. destruct (Rle_dec 0 r) as [H|H]; rewrite I0 by lra; cbn; lra. }
  intros Hi l. revert e Hi. induction l as [|v l IH]; intros e Hi done rest Er Hl HF.
  - destruct rest; [|discriminate]. rewrite app_nil_r in *. cbn. destruct e; cbn in *; subst. reflexivity.
  - destruct rest as [|x rest]; [discriminate|]. inversion HF as [|? ? Hv HF']; subst. cbn [store_all map].
    unfold store. rewrite Hi. cbn [to_dtype]. rewrite (T0 v Hv).
    replace (length done <? length (e_rhos e))%nat with true by (symmetry; apply Nat.ltb_lt; rewrite Er, app_length; cbn; lia).
    rewrite Er, set_nth_app.
    pose proof (IH (mkEll (e_dim e) true (done ++ Some 0 :: rest)) eq_refl (done ++ [Some 0]) rest) as K.
    cbn [e_rhos e_dim] in K. rewrite app_length in K. cbn [length] in K.
    replace (length done + 1)%nat with (S (length done)) in K by lia.
    etransitivity; [apply K|].
    + rewrite <- app_assoc. reflexivity.
    + cbn in Hl. lia.
    + exact HF'.
    + rewrite <- app_assoc. reflexivity.
Qed.
