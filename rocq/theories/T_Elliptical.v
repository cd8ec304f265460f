(** Properties C11-C15: elliptical copula parameters
    (/repo/copulae/elliptical/abstract.py, gaussian.py, student.py). *)
From Verif Require Import Base RSumLib M_Matrix S_Matrix P_Matrix M_Linalg S_Linalg P_Linalg M_Elliptical S_Elliptical P_Elliptical.
Open Scope R_scope.

(** C11: [cop[x,y] = v].  Whenever the copula shows the real matrix m and the changed matrix is positive
    semi-definite, the copula afterwards shows exactly m with entries (x,y), (y,x) replaced by v. *)
Theorem C11_set_entry :
  forall (eig : mat R -> list R) (nearest : mat R -> mat R), eig_ok eig ->
  forall (e : ell) (m : mat R) (x y : nat) (v : R),
  consistent e -> e_int e = false -> shows e m ->
  (x < e_dim e)%nat -> (y < e_dim e)%nat -> x <> y -> -1 <= v <= 1 ->
  pos_semidef (e_dim e) (get (replaced m x y v)) ->
  exists e', setitem eig nearest e (ITuple [CInt (Z.of_nat x); CInt (Z.of_nat y)]) (VScalar (Some v)) = (e', Ok tt) /\
    e_dim e' = e_dim e /\ consistent e' /\ e_int e' = false /\ shows e' (replaced m x y v).
Proof. exact set_entry_ok. Qed.
Print Assumptions C11_set_entry.

(** the eigenvalue assumption can be met, and so can the other hypotheses *)
Example C11_case_oracle : eig_ok some_eig. Proof. exact some_eig_ok. Qed.
Definition id3 : mat R := mkMat 3 3 (fun i j => if Nat.eqb i j then 1 else 0).
Example C11_case : consistent (new_ell 3) /\ e_int (new_ell 3) = false /\ shows (new_ell 3) id3
  /\ pos_semidef 3 (get (replaced id3 0 2 (1/2))).
Proof.
  split; [apply consistent_new; lia|]. split; [reflexivity|]. split.
  - apply shows_of_entries; [apply consistent_new; lia|reflexivity|reflexivity| |].
    + intros i Hi. cbn. rewrite Nat.eqb_refl. reflexivity.
    + cbn [new_ell e_dim]. intros [|[|[|a]]] [|[|[|b]]] Ha Hb Hab; try lia; reflexivity.
  - intros x. unfold quad. cbn. nra.
Qed.

(** C11, rejected requests: a diagonal or out-of-range pair, or a value outside [-1,1], raises and leaves the
    copula exactly as it was. *)
Theorem C11_rejected_unchanged :
  forall eig nearest (e : ell),
  (forall (x y : Z) (v : value),
     (x < 0 \/ y < 0 \/ Z.of_nat (e_dim e) <= x \/ Z.of_nat (e_dim e) <= y \/ x = y)%Z ->
     exists ex, setitem eig nearest e (ITuple [CInt x; CInt y]) v = (e, Err ex)) /\
  (forall (ix : index) (v : R), (v < -1 \/ 1 < v) ->
     setitem eig nearest e ix (VScalar (Some v)) = (e, Err ValueError)) /\
  (forall (ix : index) (l : list fl) (r : R), In (Some r) l -> (r < -1 - EPS \/ 1 + EPS < r) ->
     setitem eig nearest e ix (VVec l) = (e, Err ValueError)).
Proof.
  intros eig nearest e. split; [|split].
  - exact (set_entry_bad_index eig nearest e).
  - exact (set_out_of_range eig nearest e).
  - exact (set_list_out_of_range eig nearest e).
Qed.
Print Assumptions C11_rejected_unchanged.
Example C11_rejected_case : forall eig nearest,
  setitem eig nearest (new_ell 3) (ITuple [CInt 1; CInt 1]) (VScalar (Some 0)) = (new_ell 3, Err IndexError).
Proof. intros. unfold setitem. cbn [out_of_range]. 
  destruct (Rltb 0 (-1)) eqn:L1; [apply Rltb_true in L1; lra|].
  destruct (Rltb 1 0) eqn:L2; [apply Rltb_true in L2; lra|]. reflexivity. Qed.

(** C11, whole row or column: [cop[x,:] = l] and [cop[:,x] = l] replace row and column x, keep the diagonal. *)
Theorem C11_set_line :
  forall (eig : mat R -> list R) (nearest : mat R -> mat R), eig_ok eig ->
  forall (e : ell) (m : mat R) (x : nat) (l : list R) (row : bool),
  consistent e -> e_int e = false -> shows e m ->
  (x < e_dim e)%nat -> (length l = e_dim e)%nat -> (forall r, In r l -> -1 <= r <= 1) ->
  pos_semidef (e_dim e) (get (line_replaced m x (fun i => nth i l 0))) ->
  exists e', setitem eig nearest e
      (ITuple (if row then [CInt (Z.of_nat x); CSlice] else [CSlice; CInt (Z.of_nat x)])) (VVec (map Some l)) = (e', Ok tt) /\
    consistent e' /\ e_int e' = false /\ shows e' (line_replaced m x (fun i => nth i l 0)).
Proof. exact set_line_ok. Qed.
Print Assumptions C11_set_line.
Example C11_set_line_case : pos_semidef 3 (get (line_replaced id3 0 (fun i => nth i [1; 1/2; 1/2] 0))).
Proof.
  intros x. unfold quad. cbn.
  pose proof (Rle_0_sqr (x 0%nat + (x 1%nat + x 2%nat) / 2)) as H1. pose proof (Rle_0_sqr (x 1%nat - x 2%nat)) as H2.
  pose proof (Rle_0_sqr (x 1%nat + x 2%nat)) as H3. unfold Rsqr in *. nra.
Qed.

(** C11, whole matrix: [cop[:] = m] or [cop[:,:] = m] with m symmetric, positive semi-definite, entries in [-1,1]:
    the copula then shows m with its diagonal replaced by ones, again positive semi-definite. *)
Theorem C11_set_matrix :
  forall (eig : mat R -> list R) (nearest : mat R -> mat R), eig_ok eig ->
  forall (e : ell) (m : mat R) (ix : index), consistent e -> (ix = ISlice \/ ix = ITuple [CSlice; CSlice]) ->
  nr m = e_dim e -> nc m = e_dim e -> symmetric m -> pos_semidef (e_dim e) (get m) ->
  (forall i j, (i < e_dim e)%nat -> (j < e_dim e)%nat -> -1 <= get m i j <= 1) ->
  exists e', setitem eig nearest e ix (VMat (enfl m)) = (e', Ok tt) /\
    e_dim e' = e_dim e /\ consistent e' /\ e_int e' = false /\ shows e' (with_unit_diagonal m) /\
    pos_semidef (e_dim e) (get (with_unit_diagonal m)).
Proof. exact set_all_ok. Qed.
Print Assumptions C11_set_matrix.
Example C11_set_matrix_case : symmetric (replaced id3 1 2 (-1)) /\ pos_semidef 3 (get (replaced id3 1 2 (-1))).
Proof.
  split; [intros [|[|[|i]]] [|[|[|j]]] Hi Hj; cbn in *; try lia; reflexivity|].
  intros x. unfold quad. cbn. pose proof (Rle_0_sqr (x 1%nat - x 2%nat)) as H1. pose proof (Rle_0_sqr (x 0%nat)) as H2.
  unfold Rsqr in *. nra.
Qed.

(** C11 is violated for nan: [cop[0,1] = nan] passes the range check, is stored, and only then raises, leaving the
    nan in the copula. *)
Theorem C11_nan_stored_on_error_refuted :
  exists (e e' : ell) (ex : exn), consistent e /\ forall eig nearest,
    setitem eig nearest e (ITuple [CInt 0; CInt 1]) (VScalar None) = (e', Err ex) /\
    getitem2 e 0 1 = Ok (Some 0) /\ getitem2 e' 0 1 = Ok None.
Proof.
  exists (new_ell 2), (mkEll 2 false [None]), NonSymmetricMatrixError.
  split; [apply consistent_new; lia|]. intros eig nearest. split; [|split]; reflexivity.
Qed.
Print Assumptions C11_nan_stored_on_error_refuted.

(** C11 is violated after integer parameters: [cop.params = 0] makes an integer array, [cop[0,1] = 0.5] then succeeds
    but the entry stays 0. *)
Theorem C11_integer_params_refuted :
  exists (e e' : ell), e = fst (gauss_set_params (new_ell 2) (GScalar true (Some 0))) /\
    forall eig nearest, eig_ok eig ->
    setitem eig nearest e (ITuple [CInt 0; CInt 1]) (VScalar (Some (1/2))) = (e', Ok tt) /\
    getitem2 e' 0 1 = Ok (Some 0).
Proof.
  exists (mkEll 2 true [Some 0]), (mkEll 2 false [Some 0]). split; [reflexivity|]. intros eig nearest Heig.
  assert (T : trunc (1/2) = 0).
  { unfold trunc. destruct (Rle_dec 0 (1/2)); [|lra]. replace (Int_part (1/2)) with 0%Z; [reflexivity|].
    unfold Int_part. rewrite <- (tech_up (1/2) 1); [reflexivity| |]; lra. }
  split; [|reflexivity].
  unfold setitem. cbn [out_of_range].
  destruct (Rltb (1/2) (-1)) eqn:L1; [apply Rltb_true in L1; lra|].
  destruct (Rltb 1 (1/2)) eqn:L2; [apply Rltb_true in L2; lra|]. cbn [orb].
  change (get_rho_index (e_dim (mkEll 2 true [Some 0])) 0 1) with (@Ok nat 0%nat). cbn [as_scalar].
  unfold store. cbn [to_dtype e_int e_rhos e_dim length set_nth]. rewrite T.
  change ((0 <? 1)%nat) with true. cbn [and_then set_nth].
  set (m := mkMat 2 2 (fun i j => if Nat.eqb i j then 1 else 0)).
  assert (C : consistent (mkEll 2 true [Some 0])) by (split; cbn; lia).
  apply (force_psd_keeps eig nearest Heig (mkEll 2 true [Some 0]) m C).
  - apply shows_of_entries; [exact C|reflexivity|reflexivity| |].
    + intros i Hi. cbn. rewrite Nat.eqb_refl. reflexivity.
    + cbn [e_dim]. intros [|[|a]] [|[|b]] Ha Hb Hab; try lia; reflexivity.
  - intros x. unfold quad. cbn. nra.
Qed.
Print Assumptions C11_integer_params_refuted.

(** C12: for every correlation and every rank correlation in [-1,1] the maps invert each other and stay in [-1,1]. *)
Theorem C12_rank_correlation_maps_inverse :
  forall t : R, -1 <= t <= 1 ->
  (ell_itau (ell_tau t) = t /\ ell_tau (ell_itau t) = t) /\
  (gauss_irho (ell_rho t) = t /\ ell_rho (gauss_irho t) = t) /\
  (-1 <= ell_tau t <= 1 /\ -1 <= ell_itau t <= 1) /\ (-1 <= ell_rho t <= 1 /\ -1 <= gauss_irho t <= 1).
Proof.
  intros t H. split; [exact (conj (ell_itau_tau t H) (ell_tau_itau t H))|].
  split; [exact (conj (gauss_irho_rho t H) (gauss_rho_irho t H))|].
  split; [exact (conj (ell_tau_range t) (ell_itau_range t))|exact (conj (ell_rho_range t H) (gauss_irho_range t H))].
Qed.
Print Assumptions C12_rank_correlation_maps_inverse.
Example C12_case : -1 <= 1/2 <= 1 /\ ell_tau (ell_itau (1/2)) = 1/2 /\ gauss_irho 1 = 1.
Proof.
  split; [lra|]. split; [apply ell_tau_itau; lra|]. unfold gauss_irho. replace (1 * PI / 6) with (PI / 6) by field.
  rewrite sin_PI6. field.
Qed.

(** C13: the code's derivatives are the derivatives. *)
Theorem C13_drho_dtau_are_derivatives :
  forall x : R, -1 < x < 1 ->
  derivable_pt_lim (fun r => 6 / PI * asin (r / 2)) x (ell_drho x) /\
  derivable_pt_lim (fun r => 2 / PI * asin r) x (ell_dtau x) /\
  (forall r, ell_rho r = 6 / PI * asin (r / 2)) /\ (forall r, ell_tau r = 2 / PI * asin r).
Proof.
  intros x H. assert (E1 : forall r, ell_rho r = 6 / PI * asin (r / 2)) by (intros; unfold ell_rho; field; apply PI_neq0).
  assert (E2 : forall r, ell_tau r = 2 / PI * asin r) by (intros; unfold ell_tau; field; apply PI_neq0).
  split; [exact (lim_ext _ _ _ _ E1 (ell_drho_deriv x H))|]. split; [exact (lim_ext _ _ _ _ E2 (ell_dtau_deriv x H))|].
  split; assumption.
Qed.
Print Assumptions C13_drho_dtau_are_derivatives.
Example C13_case : -1 < 0 < 1 /\ ell_dtau 0 = 2 / PI.
Proof. split; [lra|]. unfold ell_dtau. replace (1 - 0 ^ 2) with 1 by ring. rewrite sqrt_1. f_equal. ring. Qed.

(** C14: after every history of item and parameter assignments (whatever they contain: wrong indices, nan, values out of
    range, failing calls), sigma exists, is d x d, symmetric, with ones on the diagonal -- provided every assigned
    parameter vector has d(d-1)/2 entries. *)
Theorem C14_sigma_is_correlation_shaped :
  forall (eig : mat R -> list R) (nearest : mat R -> mat R), shape_kept nearest ->
  forall (d : nat) (ops : list gop), (2 <= d)%nat -> Forall (gop_fits d) ops ->
  exists s : mat fl, sigma (gauss_run eig nearest d ops) = Ok s /\ @corr_shape fl (Some 1) d s.
Proof.
  intros eig nearest Hn d ops Hd F. destruct (gauss_run_inv eig nearest Hn d ops Hd F) as [C D].
  destruct (sigma_ok _ C) as [s [E [S _]]]. exists s. rewrite D in S. split; assumption.
Qed.
Print Assumptions C14_sigma_is_correlation_shaped.
Theorem C14_student_sigma_is_correlation_shaped :
  forall (eig : mat R -> list R) (nearest : mat R -> mat R), shape_kept nearest ->
  forall (d : nat) (df : fl) (ops : list sop), (2 <= d)%nat -> Forall (sop_fits d) ops ->
  exists s : mat fl, sigma (s_ell (student_run eig nearest d df ops)) = Ok s /\ @corr_shape fl (Some 1) d s.
Proof.
  intros eig nearest Hn d df ops Hd F. destruct (student_run_inv eig nearest Hn d df ops Hd F) as [C D].
  destruct (sigma_ok _ C) as [s [E [S _]]]. exists s. rewrite D in S. split; assumption.
Qed.
Print Assumptions C14_student_sigma_is_correlation_shaped.
Example C14_case : shape_kept (fun m => m) /\
  Forall (gop_fits 3) [GSetItem (ITuple [CInt 0; CInt 7]) (VScalar None); GSetParams (GScalar true (Some 0));
                       GSetParams (GArr (mkParr false [Some 1; None; Some 5]))].
Proof. split; [intros m; split; reflexivity|]. repeat constructor. Qed.

(** After every *successful* item assignment sigma holds no nan and is positive semi-definite up to the code's tolerance. *)
Theorem C14_item_assignment_leaves_psd :
  forall (eig : mat R -> list R) (nearest : mat R -> mat R), eig_ok eig -> nearest_ok nearest ->
  forall (e e' : ell) (ix : index) (v : value), consistent e -> positive_diagonal v ->
  setitem eig nearest e ix v = (e', Ok tt) ->
  consistent e' /\ exists m, shows e' m /\ almost_psd (e_dim e) m.
Proof. intros eig nearest H1 H2 e e' ix v. exact (setitem_psd eig nearest H1 H2 e ix v e'). Qed.
Print Assumptions C14_item_assignment_leaves_psd.
Example C14_item_case : nearest_ok drop_offdiag /\ positive_diagonal (VScalar (Some (1/2))) /\ consistent (new_ell 4).
Proof. split; [exact drop_offdiag_ok|]. split; [exact I|apply consistent_new; lia]. Qed.

(** C14 is violated by parameter vectors of another length, which the Gaussian setter accepts: sigma of a 2-dimensional
    copula becomes 3 x 3, or cannot be computed at all. *)
Theorem C14_wrong_length_params_refuted :
  exists p q : gparams, forall eig nearest,
    (exists s, sigma (gauss_run eig nearest 2 [GSetParams p]) = Ok s /\ nr s = 3%nat) /\
    (exists ex, sigma (gauss_run eig nearest 2 [GSetParams q]) = Err ex).
Proof.
  exists (GArr (mkParr false [Some 0; Some 0; Some 0])), (GArr (mkParr false [Some 0; Some 0])).
  intros eig nearest. split; eexists; [split|]; reflexivity.
Qed.
Print Assumptions C14_wrong_length_params_refuted.
(** nothing checks the range either: sigma can hold the "correlation" 7 *)
Theorem C14_unchecked_range_refuted :
  exists p : gparams, gop_fits 2 (GSetParams p) /\ forall eig nearest,
    getitem2 (gauss_run eig nearest 2 [GSetParams p]) 0 1 = Ok (Some 7).
Proof. exists (GArr (mkParr false [Some 7])). split; [reflexivity|]. intros. reflexivity. Qed.
Print Assumptions C14_unchecked_range_refuted.

(** C15: assigning a vector to a Student copula: it succeeds exactly when the length is 1 + d(d-1)/2 and df is not <= 0;
    then reading gives the vector back; otherwise the object is unchanged. *)
Theorem C15_student_params_vector :
  forall (s : student) (a : parr),
  let d := e_dim (s_ell s) in
  (forall df rho, pa_vals a = df :: rho -> (2 * length rho = d * (d - 1))%nat -> (forall r, df = Some r -> 0 < r) ->
     exists s', student_set_params s (SArr a) = (s', Ok tt) /\ student_get_params s' = (df, rho) /\ e_dim (s_ell s') = d) /\
  (((2 * length (pa_vals a) <> 2 + d * (d - 1))%nat \/ (exists r rho, pa_vals a = Some r :: rho /\ r <= 0)) ->
     exists ex, student_set_params s (SArr a) = (s, Err ex)).
Proof.
  intros s a d. pose proof (n_rhos_spec d) as N. unfold student_set_params, d in *. split.
  - intros df rho E L Hp. rewrite E. cbn [length].
    destruct (Nat.eqb_spec (S (length rho)) (1 + n_rhos (e_dim (s_ell s)))); [cbn [negb]|lia].
    destruct df as [r|]; [|eexists; repeat split; reflexivity].
    destruct (Rleb r 0) eqn:Lr; [apply Rleb_true in Lr; specialize (Hp r eq_refl); lra|]. eexists; repeat split; reflexivity.
  - intros H. destruct (Nat.eqb_spec (length (pa_vals a)) (1 + n_rhos (e_dim (s_ell s)))) as [L|L]; cbn [negb]; [|eexists; reflexivity].
    destruct H as [H|[r [rho [E Hr]]]]; [lia|]. rewrite E. rewrite (proj2 (Rleb_true r 0) Hr). eexists; reflexivity.
Qed.
Print Assumptions C15_student_params_vector.
Example C15_case : exists s', student_set_params (new_student 2 (Some 1)) (SArr (mkParr false [Some 4; Some (1/2)])) = (s', Ok tt)
  /\ student_get_params s' = (Some 4, [Some (1/2)]).
Proof.
  unfold student_set_params. cbn. destruct (Rleb 4 0) eqn:L; [apply Rleb_true in L; lra|]. eexists. split; reflexivity.
Qed.

(** Over histories in which df only comes from the vector setter, df is never <= 0. *)
Theorem C15_df_positive_over_vector_histories :
  forall (eig : mat R -> list R) (nearest : mat R -> mat R) (d : nat) (df0 : R) (ops : list sop),
  0 < df0 -> Forall (fun o => match o with SSetParams (SParams _ _) => False | _ => True end) ops ->
  forall r, s_df (student_run eig nearest d (Some df0) ops) = Some r -> 0 < r.
Proof.
  intros eig nearest d df0 ops H0 F. unfold student_run.
  assert (G : forall s, (forall r, s_df s = Some r -> 0 < r) ->
     forall r, s_df (fold_left (student_step eig nearest) ops s) = Some r -> 0 < r).
  { induction F as [|o ops Ho F IH]; intros s Hs; cbn [fold_left]; [exact Hs|]. apply IH.
    destruct o as [ix v|[df r|a]]; cbn [student_step s_df]; [exact Hs|destruct Ho|].
    unfold student_set_params. destruct (negb _); [exact Hs|]. destruct (pa_vals a) as [|[r|] rho]; [exact Hs| |].
    - destruct (Rleb r 0) eqn:L; [exact Hs|]. cbn. intros r' E. injection E as <-. apply Rleb_false in L. exact L.
    - cbn. discriminate. }
  apply G. cbn. intros r E. injection E as <-. exact H0.
Qed.
Print Assumptions C15_df_positive_over_vector_histories.
Example C15_history_case : 0 < 1 /\ Forall (fun o => match o with SSetParams (SParams _ _) => False | _ => True end)
  [SSetItem (IInt 0) (VScalar (Some 0)); SSetParams (SArr (mkParr false [Some (-3); Some 0]))].
Proof. split; [lra|]. repeat constructor. Qed.

(** C15 is violated by the StudentParams form and by the constructor: both store df = -1. *)
Theorem C15_nonpositive_df_refuted :
  (exists s s' p, student_set_params s (SParams (Some (-1)) p) = (s', Ok tt) /\ s_df s' = Some (-1)) /\
  s_df (new_student 2 (Some (-1))) = Some (-1).
Proof. split; [|reflexivity]. exists (new_student 2 (Some 1)). do 2 eexists. split; reflexivity. Unshelve. exact (mkParr false [Some 0]). Qed.
Print Assumptions C15_nonpositive_df_refuted.

(** log_lik guards (abstract.py:39-46): a numeric log-likelihood is reported only for a nan-free, almost positive
    semi-definite sigma and df not <= 0; otherwise it is -inf. *)
Theorem C14_log_lik_guard :
  forall (eig : mat R -> list R), eig_ok eig ->
  forall (e : ell) (df : option R) (base : R) (l : R), consistent e ->
  ell_log_lik eig e df (Ok base) = Ok (Some l) ->
  l = base /\ (forall v, df = Some v -> 0 < v) /\ exists m, shows e m /\ almost_psd (e_dim e) m.
Proof.
  intros eig Heig e df base l C. unfold ell_log_lik.
  destruct (sigma_ok e C) as [s [E [[[S1 S2] [Sy U]] B]]]. rewrite E. cbn [bind].
  destruct (has_nan s) eqn:N; cbn [negb andb]; [discriminate|].
  destruct (is_psd eig false psd_tol (AMat (unfl s))) eqn:P; cbn [negb]; [|discriminate].
  intros H. assert (Hl : l = base /\ (forall v, df = Some v -> 0 < v)).
  { destruct df as [v|]; [destruct (Rleb v 0) eqn:L; [discriminate|]|]; cbn in H; injection H as <-; split; try reflexivity; try discriminate.
    intros w Ew. injection Ew as <-. apply Rleb_false in L. exact L. }
  destruct Hl as [Hl1 Hl2]. split; [exact Hl1|]. split; [exact Hl2|].
  exists (unfl s). split.
  - exists s. split; [exact E|]. repeat split. intros i j Hi Hj. cbn. unfold has_nan in N.
    destruct (get s i j) as [r|] eqn:G; [reflexivity|]. exfalso.
    rewrite <- not_true_iff_false in N. apply N, existsb_exists. exists i. split; [apply in_seq; lia|].
    apply existsb_exists. exists j. split; [apply in_seq; lia|]. rewrite G. reflexivity.
  - unfold is_psd in P. destruct (is_symmetric _ _) eqn:Sm; cbn [negb] in P; [|discriminate]. rewrite forallb_Rleb in P.
    intros x. pose proof (proj1 (Heig (unfl s) (- psd_tol) ltac:(cbn; congruence)) P x) as Q. cbn [unfl nr] in Q. rewrite S1 in Q.
    rewrite (quad_ext _ _ (get (unfl s))) in Q.
    + pose proof (norm2_nonneg (e_dim e) x). unfold EPS. nra.
    + intros i j Hi Hj. apply lower_sym_symmetric; [|cbn; lia|cbn; lia]. intros a b Ha Hb. cbn in *. rewrite Sy by assumption. reflexivity.
Qed.
Print Assumptions C14_log_lik_guard.
Example C14_log_lik_case : ell_log_lik (fun _ => [1]) (new_ell 2) (Some (-1)) (Ok 3) = Ok None.
Proof.
  unfold ell_log_lik. destruct (sigma (new_ell 2)) as [s|ex] eqn:E; [|discriminate E]. cbn [bind].
  destruct (negb _); [reflexivity|]. destruct (Rleb (-1) 0) eqn:L; [reflexivity|]. apply Rleb_false in L. lra.
Qed.
