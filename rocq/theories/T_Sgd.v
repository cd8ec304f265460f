(** Theorems about fitting a Gaussian mixture copula by a minimiser ("sgd"). *)
From Verif Require Import Base RSumLib CountLib Ext S_Matrix S_Linalg M_Special M_Stats M_Linalg P_Linalg P_Rayleigh M_Gmc S_Gmc P_Gmc P_GmcVec P_GmcMarg P_GmcDens M_Sgd S_Sgd P_Sgd T_Gmc.
Local Close Scope Z_scope. Open Scope R_scope. Open Scope list_scope.

(** ** C95 *)
(** the objective is minus the log-likelihood of the mixture a vector stands for, *)
Theorem C95_objective : forall eig cn pdf npdf round u m d v y, libraries eig cn ->
  objective eig cn pdf npdf round u m d v = Ok y ->
  exists p l, from_vector eig cn v m d = Ok p /\ valid p /\ lsum (prob p) = 1 /\ log_likelihood pdf npdf round u p = Ok l /\ y = eopp l.
Proof.
  intros eig cn pdf npdf round u m d v y L H. rewrite objective_value in H by exact L. destruct (from_vector eig cn v m d) as [p|] eqn:F; [|discriminate]. cbn [bind] in H.
  destruct (log_likelihood pdf npdf round u p) as [l|] eqn:E; [|discriminate]. injection H as <-. exists p, l. destruct (from_vector_valid _ _ _ _ _ _ L F) as [V [_ [_ S1]]]. auto.
Qed.
Print Assumptions C95_objective.
(** and at the start it is minus the log-likelihood of the start itself *)
Theorem C95_start : forall eig cn pdf npdf round u p, libraries eig cn -> entries_only pdf ->
  (1 <= n_dim p)%nat -> (2 <= n_clusters p)%nat -> valid p -> Forall (covariance (n_dim p)) (covs p) -> Forall (fun x => 0 < x < 1) (prob p) -> lsum (prob p) = 1 -> nc u = n_dim p ->
  objective eig cn pdf npdf round u (n_clusters p) (n_dim p) (fst (to_vector p)) = rmap eopp (log_likelihood pdf npdf round u p).
Proof.
  intros eig cn pdf npdf round u p L EO Hd Hm V F P S1 Hu. rewrite objective_value by exact L. destruct (C63_round_trip eig cn p L Hd Hm V F P S1) as [p' [E [Sm _]]].
  rewrite E. cbn [bind]. f_equal. symmetry. apply same_loglik; assumption.
Qed.
Print Assumptions C95_start.
(** what comes back is a valid mixture of the same sizes; the reported value is minus its log-likelihood, which is at least that of the start *)
Theorem C95_result : forall eig cn pdf npdf round minimize u p kw p' s, libraries eig cn -> minimiser minimize ->
  gradient_descent eig cn pdf npdf round minimize u p kw = (p', Ok s) ->
  let b := best_params s in
  valid b /\ n_clusters b = n_clusters p /\ n_dim b = n_dim p /\ lsum (prob b) = 1 /\ nsample s = nr u
  /\ (exists l, log_likelihood pdf npdf round u b = Ok l /\ fn_value s = eopp l)
  /\ (entries_only pdf -> (1 <= n_dim p)%nat -> (2 <= n_clusters p)%nat -> valid p -> Forall (covariance (n_dim p)) (covs p) -> Forall (fun x => 0 < x < 1) (prob p) -> lsum (prob p) = 1 -> nc u = n_dim p ->
      p' = p /\ forall l0, log_likelihood pdf npdf round u p = Ok (Fin l0) -> exists l, log_likelihood pdf npdf round u b = Ok (Fin l) /\ l0 <= l).
Proof.
  intros eig cn pdf npdf round minimize u p kw p' s L Mz H. unfold gradient_descent in H.
  destruct (pop "method" _ kw) as [method kw1]. destruct (pop "max_iter" _ kw1) as [mi kw2]. destruct (pop "disp" _ kw2) as [disp kw3]. destruct method as [method| | | |]; try discriminate.
  destruct (pop "options" _ kw3) as [o kw4]. set (kw5 := drop_key "args" (kw4 ++ [("options"%string, o)])) in H.
  destruct (to_vector p) as [x0 p1] eqn:TV. destruct (negb _); [discriminate|].
  set (f := objective eig cn pdf npdf round u (n_clusters p) (n_dim p)) in H. destruct (minimize f x0 method kw5) as [opt|] eqn:E; [|discriminate]. cbn [bind] in H.
  assert (Hp1 : n_clusters p1 = n_clusters p /\ n_dim p1 = n_dim p) by (unfold to_vector in TV; injection TV as _ <-; split; reflexivity). destruct Hp1 as [N1 N2]. rewrite N1, N2 in H.
  destruct (from_vector eig cn (o_x opt) (n_clusters p) (n_dim p)) as [b|] eqn:F; [|discriminate]. cbn [rmap] in H. injection H as <- <-. cbn [best_params nsample fn_value].
  destruct (from_vector_valid _ _ _ _ _ _ L F) as [V [V1 [V2 S1]]]. destruct (proj2 (Mz f x0 method kw5) opt E) as [Ef Hle].
  assert (Q := Ef). unfold f in Q. rewrite objective_value, F in Q by exact L. cbn [bind] in Q. destruct (log_likelihood pdf npdf round u b) as [l|] eqn:El; [|discriminate]. injection Q as Q.
  split; [exact V|]. split; [exact V1|]. split; [exact V2|]. split; [exact S1|]. split; [reflexivity|]. split; [exists l; auto|].
  intros EO Hd Hm Vp Fc P Sp Hu. split.
  - destruct (C63_round_trip eig cn p L Hd Hm Vp Fc P Sp) as [_ [_ [_ Ep]]]. rewrite TV in Ep. exact Ep.
  - intros l0 E0. pose proof (C95_start eig cn pdf npdf round u p L EO Hd Hm Vp Fc P Sp Hu) as St. rewrite TV, E0 in St. cbn [fst rmap eopp] in St. fold f in St.
    destruct (Hle _ St) as [y [Ey Hy]]. rewrite Ey in Q. destruct l; try discriminate Q. cbn in Q. injection Q as Q. exists r. split; [reflexivity|lra].
Qed.
Print Assumptions C95_result.
(** the copula object: a fit with method "sgd" from a given mixture never lowers the log-likelihood *)
Theorem C95_fit : forall eig cn pdf npdf round minimize u c p method km pem max_iter opts c' l0, libraries eig cn -> minimiser minimize -> entries_only pdf ->
  (1 <= n_dim p)%nat -> (2 <= n_clusters p)%nat -> valid p -> Forall (covariance (n_dim p)) (covs p) -> Forall (fun x => 0 < x < 1) (prob p) -> lsum (prob p) = 1 -> nc u = n_dim p ->
  lower method = "sgd"%string ->
  fit eig cn c (PParam p) method km pem (fun p => rmap best_params (snd (fit_sgd eig cn pdf npdf round minimize u p max_iter opts))) = (c', Ok tt) ->
  log_likelihood pdf npdf round u p = Ok (Fin l0) ->
  exists b l, c_param c' = Some b /\ valid b /\ lsum (prob b) = 1 /\ log_likelihood pdf npdf round u b = Ok (Fin l) /\ l0 <= l.
Proof.
  intros eig cn pdf npdf round minimize u c p method km pem max_iter opts c' l0 L Mz EO Hd Hm V F P S1 Hu Em H E0. unfold fit in H. rewrite Em in H. cbn [set_params] in H.
  destruct (Nat.eqb (n_dim p) (c_dim c) && Nat.eqb (n_clusters p) (c_clusters c)); [|discriminate]. cbn [with_param c_param String.eqb Ascii.eqb Bool.eqb] in H.
  destruct (fit_sgd eig cn pdf npdf round minimize u p max_iter opts) as [p1 [s|e]] eqn:G; [|discriminate]. cbn [snd rmap bind set_params with_param c_dim c_clusters] in H.
  unfold fit_sgd in G. destruct (existsb _ opts); [discriminate|]. destruct (C95_result _ _ _ _ _ _ _ _ _ _ _ L Mz G) as [Vb [_ [_ [Sb [_ [_ K]]]]]].
  destruct (K EO Hd Hm V F P S1 Hu) as [_ K2]. destruct (K2 l0 E0) as [l [El Hl]]. exists (best_params s), l.
  destruct (_ && _); [|discriminate]. injection H as <-. cbn. auto.
Qed.
Print Assumptions C95_fit.

(** ** C96: the limit on the number of iterations *)
Lemma find_drop k k' d : k <> k' -> find_key k (drop_key k' d) = find_key k d.
Proof.
  intros H. induction d as [|[a v] d IH]; [reflexivity|]. cbn. destruct (String.eqb_spec k' a) as [->|Ha]; cbn; [destruct (String.eqb_spec k a); [contradiction|exact IH]|].
  destruct (String.eqb_spec k a); [reflexivity|exact IH].
Qed.
Lemma find_app k d d' : find_key k (d ++ d') = match find_key k d with Some v => Some v | None => find_key k d' end.
Proof. induction d as [|[a v] d IH]; [reflexivity|]. cbn. destruct (String.eqb k a); [reflexivity|exact IH]. Qed.
Lemma find_dropped k d : find_key k (drop_key k d) = None.
Proof. induction d as [|[a v] d IH]; [reflexivity|]. cbn. destruct (String.eqb k a) eqn:E; cbn; [exact IH|]. rewrite E. exact IH. Qed.
Lemma drop_in k d e : In e (drop_key k d) <-> In e d /\ fst e <> k.
Proof. unfold drop_key. rewrite filter_In, negb_true_iff, String.eqb_neq. split; intros [H1 H2]; (split; [exact H1|congruence]). Qed.
Lemma default_maxiter method disp n : In (lower method) known_methods -> find_key "maxiter" (get_default_option method disp n) = Some n.
Proof. unfold get_default_option, known_methods. intros [H|[H|[H|[H|[H|[]]]]]]; rewrite <- H; reflexivity. Qed.
Lemma default_none method disp n : ~ In (lower method) known_methods -> get_default_option method disp n = [].
Proof.
  unfold get_default_option, known_methods. cbn [In]. intros H. repeat match goal with |- context [String.eqb ?a ?b] => destruct (String.eqb_spec a b); [exfalso; apply H; intuition|] end. reflexivity.
Qed.
(** the options of a known method carry max_iter to the minimiser: a minimiser that fails on every call that carries it makes the fit fail *)
Theorem C96_max_iter : forall eig cn pdf npdf round minimize u p n opts method e,
  find_key "method" opts = Some (PyStr method) \/ (find_key "method" opts = None /\ method = "nelder-mead"%string) ->
  In (lower method) known_methods -> find_key "options" opts = None ->
  Forall (fun kv => In (fst kv) (["method"; "disp"; "args"]%string ++ minimize_keys)) opts ->
  (forall f x0 kw, option_of "maxiter" kw = Some (PyNum n) -> minimize f x0 method kw = Err e) ->
  snd (fit_sgd eig cn pdf npdf round minimize u p n opts) = Err e.
Proof.
  intros eig cn pdf npdf round minimize u p n opts method e Hm Hk Ho Fk H. unfold fit_sgd.
  assert (D : existsb (fun kv => existsb (String.eqb (fst kv)) ["u"; "param"; "max_iter"]) opts = false).
  { apply not_true_is_false. intros T. apply existsb_exists in T. destruct T as [kv [I T]]. rewrite Forall_forall in Fk. specialize (Fk kv I).
    apply existsb_exists in T. destruct T as [k [Ik Ek]]. apply String.eqb_eq in Ek. rewrite Ek in Fk. cbn in Fk, Ik. destruct Ik as [<-|[<-|[<-|[]]]]; repeat (destruct Fk as [Fk|Fk]; [discriminate|]); destruct Fk. }
  rewrite D. unfold gradient_descent, pop. cbn [find_key String.eqb Ascii.eqb Bool.eqb].
  assert (Em : (match find_key "method" opts with Some v => v | None => PyStr "nelder-mead" end) = PyStr method) by (destruct Hm as [->|[-> ->]]; reflexivity). rewrite Em. clear Em.
  change (drop_key "method" (("max_iter"%string, PyNum n) :: opts)) with (("max_iter"%string, PyNum n) :: drop_key "method" opts).
  cbn [find_key String.eqb Ascii.eqb Bool.eqb]. change (drop_key "max_iter" (("max_iter"%string, PyNum n) :: drop_key "method" opts)) with (drop_key "max_iter" (drop_key "method" opts)).
  assert (Eo : find_key "options" (drop_key "disp" (drop_key "max_iter" (drop_key "method" opts))) = None) by (rewrite !find_drop by discriminate; exact Ho). rewrite Eo.
  destruct (to_vector p) as [x0 p1]. cbn [snd]. set (disp := match find_key "disp" _ with Some v => v | None => _ end).
  set (kw := drop_key "args" _). assert (A : forallb (fun kv => existsb (String.eqb (fst kv)) minimize_keys) kw = true).
  { apply forallb_forall. intros kv I. unfold kw in I. apply drop_in in I. destruct I as [I Na]. apply in_app_iff in I. apply existsb_exists. destruct I as [I|[<-|[]]].
    - rewrite !drop_in in I. destruct I as [[[[I N1] N2] N3] N4]. rewrite Forall_forall in Fk. specialize (Fk kv I). apply in_app_iff in Fk. exists (fst kv). split; [|apply String.eqb_refl].
      destruct Fk as [Fk|Fk]; [|exact Fk]. cbn in Fk. destruct Fk as [Fk|[Fk|[Fk|[]]]]; symmetry in Fk; contradiction.
    - exists "options"%string. split; [cbn; auto 10|reflexivity]. }
  rewrite A. cbn [negb]. rewrite H; [reflexivity|]. unfold option_of, kw. rewrite find_drop by discriminate. rewrite find_app, find_dropped. cbn [find_key String.eqb Ascii.eqb Bool.eqb].
  apply default_maxiter, Hk.
Qed.
Print Assumptions C96_max_iter.
(** any other method of scipy, or any options of the user's, and max_iter has no effect at all *)
Theorem C96_max_iter_refuted : forall eig cn pdf npdf round minimize u p n n' opts method,
  find_key "method" opts = Some (PyStr method) -> ~ In (lower method) known_methods \/ find_key "options" opts <> None ->
  fit_sgd eig cn pdf npdf round minimize u p n opts = fit_sgd eig cn pdf npdf round minimize u p n' opts.
Proof.
  intros eig cn pdf npdf round minimize u p n n' opts method Hm Hk. unfold fit_sgd. destruct (existsb _ opts); [reflexivity|]. unfold gradient_descent, pop. cbn [find_key String.eqb Ascii.eqb Bool.eqb].
  change (drop_key "method" (("max_iter"%string, PyNum n) :: opts)) with (("max_iter"%string, PyNum n) :: drop_key "method" opts).
  change (drop_key "method" (("max_iter"%string, PyNum n') :: opts)) with (("max_iter"%string, PyNum n') :: drop_key "method" opts).
  cbn [find_key String.eqb Ascii.eqb Bool.eqb].
  change (drop_key "max_iter" (("max_iter"%string, PyNum n) :: drop_key "method" opts)) with (drop_key "max_iter" (drop_key "method" opts)).
  change (drop_key "max_iter" (("max_iter"%string, PyNum n') :: drop_key "method" opts)) with (drop_key "max_iter" (drop_key "method" opts)).
  rewrite Hm. destruct Hk as [Hk|Hk]; [rewrite !default_none by exact Hk; reflexivity|].
  assert (Eo : find_key "options" (drop_key "disp" (drop_key "max_iter" (drop_key "method" opts))) = find_key "options" opts) by (rewrite !find_drop by discriminate; reflexivity). rewrite Eo.
  destruct (find_key "options" opts); [reflexivity|contradiction].
Qed.
Print Assumptions C96_max_iter_refuted.
(** a mixture of one component cannot be fitted: the start itself is refused *)
Theorem C96_single_refuted : forall eig cn pdf npdf round minimize u p n, libraries eig cn -> minimiser minimize ->
  (1 <= n_dim p)%nat -> n_clusters p = 1%nat -> valid p -> Forall (covariance (n_dim p)) (covs p) ->
  snd (fit_sgd eig cn pdf npdf round minimize u p n []) = Err GMCParamError.
Proof.
  intros eig cn pdf npdf round minimize u p n L Mz Hd H1 V F. pose proof (round_trip_single eig cn p L Hd H1 V F) as R1.
  unfold fit_sgd. cbn [existsb]. unfold gradient_descent, pop. cbn [find_key String.eqb Ascii.eqb Bool.eqb drop_key filter negb app fst]. destruct (to_vector p) as [x0 p1]. cbn [snd fst forallb existsb minimize_keys String.eqb Ascii.eqb Bool.eqb orb andb negb] in *.
  erewrite (proj1 (Mz _ _ _ _)); [reflexivity|]. rewrite objective_value by exact L. rewrite R1. reflexivity.
Qed.
Print Assumptions C96_single_refuted.
(** max_iter inside optim_options is no way round: the fit raises TypeError *)
Theorem C96_duplicate_refuted : forall eig cn pdf npdf round minimize u p n v opts,
  fit_sgd eig cn pdf npdf round minimize u p n (("max_iter"%string, v) :: opts) = (p, Err TypeError).
Proof. reflexivity. Qed.
Print Assumptions C96_duplicate_refuted.

(** a minimiser that stays where it is *)
Definition stay (f : list ext -> result ext) (x0 : list ext) (method : string) (kw : kwargs) : result optimum := rmap (fun y => mkOpt x0 true y) (f x0).
Lemma stay_minimiser : minimiser stay.
Proof.
  intros f x0 method kw. unfold stay. split; [intros e ->; reflexivity|]. intros o H. destruct (f x0) as [y|] eqn:E0; [|discriminate]. injection H as <-. cbn. split; [exact E0|].
  intros a E. injection E as ->. exists a. split; [reflexivity|lra].
Qed.
(** one observation, at a point of the grid of the mixture of normal distributions around (0, 0) and (3, 4) *)
Definition bell (mu : nat -> R) (c : mat R) (x : nat -> R) : R := exp (- rsum (nr c) (fun j => (x j - mu j) ^ 2)).
Definition bell1 (x m v : R) : R := exp (- (x - m) ^ 2).
Lemma bell_entries : entries_only bell.
Proof. intros mu mu' c c' x [M _] H. unfold bell. rewrite <- M. do 2 f_equal. apply rsum_ext. intros j Hj. rewrite H by exact Hj. reflexivity. Qed.
Definition one_row : mat R := mkMat 1 2 (fun _ j => marginal_cdf (two (/ 4) (3 / 4)) j (-5)).
Lemma one_row_ll : exists l, log_likelihood bell bell1 (fun _ => 2%Z) one_row (two (/ 4) (3 / 4)) = Ok (Fin l).
Proof.
  set (p := two (/ 4) (3 / 4)). assert (V : valid p) by (apply two_valid, two_weights; lra).
  assert (P : forall j, (j < 2)%nat -> forall k, (k < n_clusters p)%nat -> 0 < get (spread_of p k) j j) by (intros [|[|j]] Hj [|[|k]] Hk; cbn in *; try lia; lra).
  assert (G : forall j, (j < 2)%nat -> marginal_ppf (fun _ => 2%Z) p 2000 5 j (marginal_cdf p j (-5)) = Ok (-5)).
  { intros j Hj. destruct (C66_inverse p j (fun _ => 2%Z) 2000 5 V (P j Hj)) as [_ [_ [G _]]]. apply G. destruct (C66_grid p j (fun _ => 2%Z) 2000 5 V ltac:(lra)) as [K _].
    destruct (K 0%nat ltac:(cbn; lia)) as [I _]. replace (-5) with (centre p 0 j - 5 * deviation p 0 j); [exact I|]. destruct j as [|[|j]]; [| |lia]; unfold deviation; cbn; rewrite sqrt_1; ring. }
  unfold log_likelihood, gmm_marginal_ppf. cbn [nr nc one_row n_dim p two seq mapM]. cbn [get one_row]. fold p. rewrite (G 0%nat), (G 1%nat) by lia. cbn [bind rmap].
  match goal with |- context [gmcm_log_likelihood _ _ ?q p] => destruct (C77_likelihood bell bell1 q p) as [l [E _]] end.
  - intros i _. unfold mixed, weight. cbn. pose proof (exp_pos 0). repeat match goal with |- context [bell ?a ?b ?c] => pose proof (exp_pos (- rsum (nr b) (fun j => (c j - a j) ^ 2))); change (exp (- rsum (nr b) (fun j => (c j - a j) ^ 2))) with (bell a b c) in *; generalize dependent (bell a b c); intros end. nra.
  - intros i j _ _. unfold mixed, weight. cbn. repeat match goal with |- context [bell1 ?a ?b ?c] => pose proof (exp_pos (- (a - b) ^ 2)); change (exp (- (a - b) ^ 2)) with (bell1 a b c) in *; generalize dependent (bell1 a b c); intros end. nra.
  - exists l. rewrite E. reflexivity.
Qed.
Example C95_case : forall eig cn, libraries eig cn -> exists s l0 l,
  log_likelihood bell bell1 (fun _ => 2%Z) one_row (two (/ 4) (3 / 4)) = Ok (Fin l0)
  /\ fit_sgd eig cn bell bell1 (fun _ => 2%Z) stay one_row (two (/ 4) (3 / 4)) 10 [] = (two (/ 4) (3 / 4), Ok s)
  /\ log_likelihood bell bell1 (fun _ => 2%Z) one_row (best_params s) = Ok (Fin l) /\ l0 <= l /\ fn_value s = Fin (- l).
Proof.
  intros eig cn L. assert (V : valid (two (/ 4) (3 / 4))) by (apply two_valid, two_weights; lra).
  destruct one_row_ll as [l0 E0].
  pose proof (C95_start eig cn bell bell1 (fun _ => 2%Z) one_row (two (/ 4) (3 / 4)) L bell_entries ltac:(cbn; lia) ltac:(cbn; lia) V (two_covs _ _) ltac:(cbn; fall; lra) ltac:(cbn; lra) eq_refl) as St. rewrite E0 in St.
  destruct (C63_case eig cn L) as [p' [Ev _]].
  destruct (fit_sgd eig cn bell bell1 (fun _ => 2%Z) stay one_row (two (/ 4) (3 / 4)) 10 []) as [p1 r] eqn:G.
  assert (exists s, r = Ok s) as [s ->].
  { unfold fit_sgd in G. cbn [existsb] in G. unfold gradient_descent, pop in G. cbn [find_key String.eqb Ascii.eqb Bool.eqb drop_key filter negb app fst] in G.
    change (n_clusters (two (/ 4) (3 / 4))) with 2%nat in *. change (n_dim (two (/ 4) (3 / 4))) with 2%nat in *.
    assert (Np : n_clusters (snd (to_vector (two (/ 4) (3 / 4)))) = 2%nat /\ n_dim (snd (to_vector (two (/ 4) (3 / 4)))) = 2%nat) by (split; reflexivity). destruct Np as [N1 N2].
    destruct (to_vector (two (/ 4) (3 / 4))) as [x0 p2]. cbn [fst snd] in *. cbn [forallb existsb minimize_keys String.eqb Ascii.eqb Bool.eqb orb andb negb fst] in G. unfold stay in G. rewrite St in G. cbn [rmap bind o_x o_success o_fun] in G.
    rewrite N1, N2, Ev in G. cbn [rmap] in G. injection G as _ <-. eexists. reflexivity. }
  assert (G' := G). unfold fit_sgd in G'. cbn [existsb] in G'. destruct (C95_result _ _ _ _ _ _ _ _ _ _ _ L stay_minimiser G') as [_ [_ [_ [_ [_ [[l [El Ef]] K]]]]]].
  destruct (K bell_entries ltac:(cbn; lia) ltac:(cbn; lia) V (two_covs _ _) ltac:(cbn; fall; lra) ltac:(cbn; lra) eq_refl) as [-> K2]. destruct (K2 l0 E0) as [l1 [E1 H1]].
  exists s, l0, l1. rewrite E1 in El. injection El as <-. auto.
Qed.
Example C96_case : ~ In (lower "Powell") known_methods /\ In (lower "SLSQP") known_methods
  /\ forall eig cn u, libraries eig cn -> snd (fit_sgd eig cn bell bell1 (fun _ => 2%Z) stay u (mkGmc 1 2 [1] (mkMat 1 2 (fun _ _ => 0)) [id2]) 10 []) = Err GMCParamError.
Proof.
  split; [cbn; intuition discriminate|]. split; [cbn; auto 10|]. intros eig cn u L. apply C96_single_refuted; [exact L|exact stay_minimiser|cbn; lia|reflexivity| |constructor; [apply id2_covariance|constructor]].
  unfold valid. cbn. split; [reflexivity|]. split; [apply weights_exact; [fall; lra|cbn; lra]|]. repeat (split; [reflexivity|]). constructor; [apply covariance_almost, id2_covariance|constructor].
Qed.
