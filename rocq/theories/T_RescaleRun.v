(** Theorems: whole fits of mixtures on other scales of the coordinates. *)
From Coq Require Import Reals.
From Verif Require Import Base RSumLib Ext S_Matrix S_Linalg M_Gmc S_Gmc P_Gmc P_GmcEm S_GmcAscent P_GmcAscent T_GmcAscent T_Relabel S_Rescale T_Rescale.
Local Close Scope Z_scope. Open Scope R_scope. Open Scope list_scope.

Lemma rsum_nonzero n f : rsum n f <> 0 -> exists i, (i < n)%nat /\ f i <> 0.
Proof.
  induction n as [|n IH]; cbn; intros H; [contradiction|]. destruct (Req_dec (f n) 0) as [Z|Z]; [|exists n; split; [lia|exact Z]].
  destruct IH as [i [Hi Hf]]; [intros X; apply H; lra|]. exists i. split; [lia|exact Hf].
Qed.
Lemma from_end_map {A B} (f : A -> B) l k : from_end (map f l) k = match from_end l k with Ok x => Ok (f x) | Err e => Err e end.
Proof. unfold from_end. rewrite <- map_rev, nth_error_map. destruct (nth_error (rev l) (k - 1)); reflexivity. Qed.

Section Run.
  Variables (eig : mat R -> list R) (cn : mat R -> mat R) (pdf : (nat -> R) -> mat R -> (nat -> R) -> R) (a b : nat -> R).
  Variables (ppf : mat R -> gmc -> result (mat R)) (gmm_ll gmcm_ll : mat R -> gmc -> R) (u : mat R) (K : R).
  Hypotheses (L : libraries eig cn) (N : documented_normal pdf) (A : positive_scale (nc u) a).
  Hypotheses (H1 : quantiles_follow a b u ppf) (H2 : mixture_ll_moves a b u K gmm_ll) (H3 : copula_ll_stays a b u gmcm_ll).
  Hypothesis H4 : forall p q, ppf u p = Ok q -> nr q = nr u /\ nc q = nc u.

  Definition moved_logs (l l' : log_lik) : Prop := l_gmm l' = map (fun x => x - K) (l_gmm l) /\ l_gmcm l' = l_gmcm l /\ Forall2 (rescaled a b) (l_params l) (l_params l').
  Lemma log_set_moved l l' q q' p p' : valid p -> valid p' -> n_dim p = nc u -> nr q = nr u -> nc q = nc u -> regular p -> rescaled a b p p' -> rescaled_rows a b q q' -> moved_logs l l' ->
    moved_logs (log_set gmm_ll gmcm_ll l q u p) (log_set gmm_ll gmcm_ll l' q' u p').
  Proof.
    intros V V' Hd Hn Hc P E Q [S1 [S2 S3]]. unfold log_set. split; [|split]; cbn [l_gmm l_gmcm l_params].
    - rewrite S1, map_app, (H2 q q' p p') by assumption. reflexivity.
    - rewrite S2, (H3 p p') by assumption. reflexivity.
    - apply Forall2_app; [exact S3|]. constructor; [exact E|constructor].
  Qed.
  Lemma converged_moved c eps l l' : c = "gmcm"%string \/ c = "gmm"%string -> moved_logs l l' -> has_converged c eps l' = has_converged c eps l.
  Proof.
    intros Hc [S1 [S2 _]]. unfold has_converged. rewrite S1, S2. destruct Hc as [-> | ->]; cbn [String.eqb Ascii.eqb Bool.eqb]; [reflexivity|].
    rewrite !from_end_map. destruct (from_end (l_gmm l) 1) as [x|]; [|reflexivity]. cbn [bind]. destruct (from_end (l_gmm l) 2) as [y|]; [|reflexivity]. cbn [bind].
    replace (x - K - (y - K)) with (x - y) by ring. reflexivity.
  Qed.
  Lemma step_moved q q' p p' : valid p -> valid p' -> n_dim p = nc u -> nc q = nc u -> regular p -> rescaled a b p p' -> rescaled_rows a b q q' ->
    existsb (fun i => Reqb (col_sum (e_step pdf q' p') i) 0) (seq 0 (nc (e_step pdf q' p'))) = existsb (fun i => Reqb (col_sum (e_step pdf q p) i) 0) (seq 0 (nc (e_step pdf q p))) /\
    (existsb (fun i => Reqb (col_sum (e_step pdf q p) i) 0) (seq 0 (nc (e_step pdf q p))) = false ->
     exists p1 p1', m_step eig cn q (e_step pdf q p) = Ok p1 /\ m_step eig cn q' (e_step pdf q' p') = Ok p1' /\ valid p1 /\ valid p1' /\ n_dim p1 = nc q /\ em_update pdf q p p1 /\ rescaled a b p1 p1').
  Proof.
    intros V V' Hd Hc P E Q. assert (A' : positive_scale (n_dim p) a) by (rewrite Hd; exact A).
    destruct (C131_step eig cn pdf a b p p' q q' L N V V' A' E Q ltac:(congruence) P) as [T1 T2].
    assert (C : forall k, (k < n_clusters p)%nat -> col_sum (e_step pdf q' p') k = col_sum (e_step pdf q p) k).
    { intros k Hk. unfold col_sum. cbn [e_step nr]. rewrite (proj1 Q). apply rsum_ext. intros i Hi. apply T1; assumption. }
    assert (X : existsb (fun i => Reqb (col_sum (e_step pdf q' p') i) 0) (seq 0 (nc (e_step pdf q' p'))) = existsb (fun i => Reqb (col_sum (e_step pdf q p) i) 0) (seq 0 (nc (e_step pdf q p)))).
    { cbn [e_step nc]. rewrite (proj1 E). assert (G : forall l, (forall k, In k l -> (k < n_clusters p)%nat) ->
        existsb (fun i => Reqb (col_sum (e_step pdf q' p') i) 0) l = existsb (fun i => Reqb (col_sum (e_step pdf q p) i) 0) l).
      { induction l as [|h l IH]; intros H; [reflexivity|]. cbn [existsb]. rewrite C by (apply H; left; reflexivity). rewrite IH; [reflexivity|]. intros; apply H; right; assumption. }
      apply G. intros k Hk. apply in_seq in Hk. lia. }
    split; [exact X|]. intros F. assert (F' := F). rewrite <- X in F'.
    destruct (em_step eig cn pdf L (proj1 N) q p V) as [[F1 _]|[_ [p1 [M1 [V1 [_ [_ U1]]]]]]]; [congruence|].
    destruct (em_step eig cn pdf L (proj1 N) q' p' V') as [[F1 _]|[_ [p1' [M1' [V1' _]]]]]; [congruence|].
    destruct (T2 p1 M1) as [p2 [M2 R2]].
    { intros k Hk. apply rsum_nonzero. change (rsum (nr q) (fun i => get (e_step pdf q p) i k)) with (col_sum (e_step pdf q p) k). intros Z.
      assert (Y : existsb (fun i => Reqb (col_sum (e_step pdf q p) i) 0) (seq 0 (nc (e_step pdf q p))) = true); [|congruence].
      apply existsb_exists. exists k. split; [apply in_seq; cbn; lia|]. apply Reqb_true, Z. }
    exists p1, p1'. split; [exact M1|]. split; [exact M1'|]. split; [exact V1|]. split; [exact V1'|]. split; [apply U1|]. split; [exact U1|]. congruence.
  Qed.
  Lemma loop_moved fuel c eps : c = "gmcm"%string \/ c = "gmm"%string -> forall q q' p p' l l', valid p -> valid p' -> n_dim p = nc u -> regular p -> ppf u p = Ok q ->
    (forall ps, (length ps <= fuel)%nat -> trajectory pdf ppf u p ps -> Forall valid ps -> Forall regular ps) -> rescaled a b p p' -> rescaled_rows a b q q' -> moved_logs l l' ->
    match em_loop eig cn pdf ppf gmm_ll gmcm_ll fuel c eps u q p l with
    | Ok r => exists r', em_loop eig cn pdf ppf gmm_ll gmcm_ll fuel c eps u q' p' l' = Ok r' /\ moved_logs r r'
    | Err e => em_loop eig cn pdf ppf gmm_ll gmcm_ll fuel c eps u q' p' l' = Err e
    end.
  Proof.
    intros Hc. induction fuel as [|fuel IH]; intros q q' p p' l l' V V' Hd P Eq T E Q S; cbn [em_loop]; [exists l'; split; [reflexivity|exact S]|].
    destruct (H4 p q Eq) as [Hn Hq].
    destruct (step_moved q q' p p' V V' Hd Hq P E Q) as [X Y]. rewrite X. destruct (existsb _ (seq 0 (nc (e_step pdf q p)))); [reflexivity|].
    destruct (Y eq_refl) as [p1 [p1' [M1 [M2 [V1 [V2 [N2 [U1 E1]]]]]]]]. rewrite M1, M2. cbn [bind].
    assert (T1 : forall ps, (length ps <= fuel)%nat -> trajectory pdf ppf u p1 ps -> Forall valid ps -> Forall regular (p1 :: ps)) by (intros ps Lp Tp Vp; apply T; [cbn; lia|cbn; split; [exists q; split; assumption|exact Tp]|constructor; assumption]).
    assert (P1 : regular p1) by (specialize (T1 [] ltac:(cbn; lia) I (Forall_nil _)); inversion T1; assumption).
    pose proof (H1 p1 p1' V1 V2 ltac:(congruence) P1 E1) as Hq1. destruct (ppf u p1) as [q1|e] eqn:Eq1; [|rewrite Hq1; reflexivity]. destruct Hq1 as [q1' [-> Q1]]. cbn [bind].
    assert (S1 : moved_logs (log_set gmm_ll gmcm_ll l q u p1) (log_set gmm_ll gmcm_ll l' q' u p1')) by (apply log_set_moved; try assumption; congruence).
    rewrite (converged_moved c eps _ _ Hc S1). destruct (has_converged c eps (log_set gmm_ll gmcm_ll l q u p1)) as [[|]|e]; cbn [bind]; [eexists; split; [reflexivity|exact S1]| |reflexivity].
    apply IH; try assumption; [congruence|]. intros ps Lp Tp Vp. specialize (T1 ps Lp Tp Vp). inversion T1; assumption.
  Qed.
End Run.

(** A whole run under the criteria GMCM and GMM, started from the same mixture on another scale: it fails with the same error, or returns the same
    mixture on the other scale, the same flag and the same log-likelihood.  The covariances on the way have to be positive definite. *)
Theorem C131_run : forall eig cn pdf a b ppf gmm_ll gmcm_ll u K p p' max_iter criteria eps, libraries eig cn -> documented_normal pdf -> positive_scale (nc u) a ->
  quantiles_follow a b u ppf -> mixture_ll_moves a b u K gmm_ll -> copula_ll_stays a b u gmcm_ll -> (forall p q, ppf u p = Ok q -> nr q = nr u /\ nc q = nc u) ->
  lower criteria <> "li"%string -> valid p -> valid p' -> n_dim p = nc u -> regular p ->
  (forall ps, (length ps <= max_iter)%nat -> trajectory pdf ppf u p ps -> Forall valid ps -> Forall regular ps) -> rescaled a b p p' ->
  match expectation_maximization eig cn pdf ppf gmm_ll gmcm_ll u p max_iter criteria eps with
  | Ok (best, converged, ll) => exists best', expectation_maximization eig cn pdf ppf gmm_ll gmcm_ll u p' max_iter criteria eps = Ok (best', converged, ll) /\ rescaled a b best best'
  | Err e => expectation_maximization eig cn pdf ppf gmm_ll gmcm_ll u p' max_iter criteria eps = Err e
  end.
Proof.
  intros eig cn pdf a b ppf gmm_ll gmcm_ll u K p p' max_iter criteria eps L N A H1 H2 H3 H4 Nl V V' Hd P T E. unfold expectation_maximization.
  pose proof (H1 p p' V V' Hd P E) as Hq. destruct (ppf u p) as [q|e] eqn:Eq; [|rewrite Hq; reflexivity]. destruct Hq as [q' [-> Q]]. cbn [bind].
  unfold check_criteria. destruct (existsb _ _) eqn:Ec; [|reflexivity]. cbn [bind]. set (c := lower criteria) in *.
  assert (Hc : c = "gmcm"%string \/ c = "gmm"%string).
  { apply existsb_exists in Ec. destruct Ec as [x [Hx Ex]]. apply String.eqb_eq in Ex. subst x. destruct Hx as [<-|[<-|[X|[]]]]; [auto|auto|]. symmetry in X. contradiction. }
  destruct (H4 p q Eq) as [Hn Hnc].
  assert (S0 : moved_logs a b K (log_set gmm_ll gmcm_ll (mkLog [] [] []) q u p) (log_set gmm_ll gmcm_ll (mkLog [] [] []) q' u p')).
  { apply log_set_moved; try assumption. split; [reflexivity|]. split; [reflexivity|constructor]. }
  pose proof (loop_moved eig cn pdf a b ppf gmm_ll gmcm_ll u K L N A H1 H2 H3 H4 max_iter c eps Hc q q' p p' _ _ V V' Hd P Eq T E Q S0) as Kl.
  destruct (em_loop eig cn pdf ppf gmm_ll gmcm_ll max_iter c eps u q p _) as [l|e]; [|rewrite Kl; reflexivity]. destruct Kl as [l' [-> S]]. cbn [bind].
  rewrite (converged_moved a b K c eps _ _ Hc S). destruct S as [S1 [S2 S3]].
  assert (B : match best_param c l with Ok b0 => exists b', best_param c l' = Ok b' /\ rescaled a b b0 b' | Err e => best_param c l' = Err e end).
  { unfold best_param. destruct (String.eqb c "gmm").
    - unfold from_end. pose proof (Forall2_error _ _ _ (1 - 1) (Forall2_rev _ _ _ S3)) as F. destruct (nth_error (rev (l_params l)) (1 - 1)), (nth_error (rev (l_params l')) (1 - 1)); try contradiction; [eauto|reflexivity].
    - rewrite S2. pose proof (Forall2_error _ _ _ (argmax (l_gmcm l)) S3) as F. destruct (nth_error (l_params l) _), (nth_error (l_params l') _); try contradiction; [eauto|reflexivity]. }
  destruct (best_param c l) as [b0|e]; [|rewrite B; reflexivity]. destruct B as [b' [-> Hb]]. cbn [bind].
  destruct (has_converged c eps l) as [cv|e]; [|reflexivity]. cbn [bind]. unfold best_log_lik. rewrite S2. destruct (from_end (l_gmcm l) 1); [|reflexivity]. cbn [bind]. exists b'. split; [reflexivity|exact Hb].
Qed.
Print Assumptions C131_run.

(** ** A case: one step from the mixture of C122_case, measured in half units from 1, with the code's own log-likelihoods.  For the quantiles
    the centres of the components stand in, so that the rows are the points 0 and 2. *)
Definition centres (u : mat R) (p : gmc) : result (mat R) :=
  Ok (mkMat (nr u) (nc u) (fun i j => centre p (if Nat.ltb i (n_clusters p) then i else 0) j)).
Lemma loglik_finite pdf q p : documented_normal pdf -> valid p -> regular p -> exists g, gmm_log_likelihood pdf q p = Fin g.
Proof.
  intros N V P. eexists. unfold gmm_log_likelihood. apply (esum_map_fin (fun i => elog (mixture (plain pdf) p (get q i))) (fun i => ln (mixed p (fun mu c => pdf mu c (get q i))))).
  intros i _. rewrite P_GmcDens.mixture_plain. unfold elog. rewrite (proj2 (Rltb_true _ _)) by (apply (mixed_pos pdf p (get q i) N V P)). reflexivity.
Qed.
Lemma centres_follow a b u : quantiles_follow a b u centres.
Proof.
  intros p p' V V' Hd P E. unfold centres. eexists. split; [reflexivity|]. split; [reflexivity|]. split; [reflexivity|]. cbn [get nr nc]. intros i j Hi Hj.
  destruct E as [E1 [E2 E3]]. rewrite E1. pose proof (valid_clusters p V) as Hm. destruct (Nat.ltb_spec i (n_clusters p)) as [H|H].
  - apply (E3 i H). lia.
  - apply (E3 O Hm). lia.
Qed.
Example C131_run_case : forall eig cn pdf norm_pdf, libraries eig cn -> documented_normal pdf -> documented_univariate norm_pdf ->
  let a := fun _ : nat => 2 in let b := fun _ : nat => 1 in let u := mkMat 2 1 (fun i _ => if Nat.eqb i 0 then 1 / 4 else 3 / 4) in
  let gmm := fun q p => M_Gmc.number_of (gmm_log_likelihood pdf q p) in
  let gmcm := fun u p => match centres u p with Ok q => M_Gmc.number_of (gmcm_log_likelihood pdf norm_pdf q p) | Err _ => 0 end in
  positive_scale (nc u) a /\ quantiles_follow a b u centres /\ mixture_ll_moves a b u (2 * ln 2) gmm /\ copula_ll_stays a b u gmcm /\ (forall p q, centres u p = Ok q -> nr q = nr u /\ nc q = nc u) /\ valid pair01 /\ valid (rescale a b pair01) /\ n_dim pair01 = nc u /\ regular pair01 /\ (forall ps, (length ps <= 1)%nat -> trajectory pdf centres u pair01 ps -> Forall valid ps -> Forall regular ps) /\ rescaled a b pair01 (rescale a b pair01) /\ exists best conv ll, expectation_maximization eig cn pdf centres gmm gmcm u pair01 1 "GMCM" (/ 2) = Ok (best, conv, ll).
Proof.
  intros eig cn pdf norm_pdf L N U a b u gmm gmcm.
  destruct (C131_case eig cn pdf L N) as [V [V' [A [E [_ [_ [P [[p1 M] [Nz _]]]]]]]]].
  split; [intros j _; unfold a; lra|]. split; [apply centres_follow|].
  assert (Ps : forall p : gmc, positive_scale (n_dim p) a) by (intros p j _; unfold a; lra).
  split.
  { intros q q' p p' Vp Vp' Hd Hn Hc R0 Er Q. unfold gmm.
    destruct (C131_likelihood pdf norm_pdf a b p p' q q' N U (Ps p) Er Q ltac:(congruence) R0) as [_ H]. rewrite H.
    destruct (loglik_finite pdf q p N Vp R0) as [g ->]. cbn. rewrite Hd, Hn. unfold a. cbn. ring. }
  split.
  { intros p p' Vp Vp' Hd R0 Er. unfold gmcm. pose proof (centres_follow a b u p p' Vp Vp' Hd R0 Er) as Q. unfold centres in *. destruct Q as [q' [Eq' Q]]. injection Eq' as <-.
    destruct (C131_likelihood pdf norm_pdf a b p p' _ _ N U (Ps p) Er Q ltac:(symmetry; exact Hd) R0) as [H _]. exact (f_equal M_Gmc.number_of H). }
  split; [intros p q Hq; injection Hq as <-; split; reflexivity|]. split; [exact V|]. split; [exact V'|]. split; [reflexivity|]. split; [exact P|].
  set (q0 := mkMat 2 1 (fun i j => centre pair01 (if Nat.ltb i 2 then i else 0) j)).
  assert (Post : forall i k, (k < 2)%nat -> 0 < posterior pdf q0 pair01 i k).
  { intros i k Hk. unfold posterior. pose proof (mixed_pos pdf pair01 (get q0 i) N V P) as Mp. unfold mixed in Mp.
    destruct (Reqb _ 0) eqn:Ez; [apply Reqb_true in Ez; lra|]. apply Rdiv_lt_0_compat; [|exact Mp].
    apply Rmult_lt_0_compat; [destruct k as [|[|k]]; cbn; lra || lia|]. apply (normal_pos pdf 1); [exact N|]. apply P. exact Hk. }
  split.
  { intros ps Lp T Fv. destruct ps as [|p2 [|p3 ps]]; [constructor| |cbn in Lp; lia]. constructor; [|constructor]. inversion Fv as [|? ? Vp2 _]; subst.
    destruct T as [[q [Eq Up]] _]. injection Eq as <-. change (mkMat _ _ _) with q0 in Up. destruct Up as [U1 [U2 [U3 [U4 U5]]]]. intros k Hk. rewrite U1 in Hk. change (n_clusters pair01) with 2%nat in Hk.
    destruct (U5 k Hk) as [_ [_ [_ Hc]]]. pose proof (spread_square p2 k Vp2 ltac:(rewrite U1; exact Hk)) as Sq. change (nc q0) with 1%nat in *. rewrite U2 in *.
    apply pd1; [exact Sq|]. rewrite (Hc O O) by lia. pose proof (Post O k Hk) as K0. pose proof (Post 1%nat k Hk) as K1.
    change (nr q0) with 2%nat. cbn [rsum]. set (m := centre p2 k O).
    change (get q0 0 O) with 0. change (get q0 1 O) with 2.
    set (x := posterior pdf q0 pair01 0 k) in *. set (y := posterior pdf q0 pair01 1 k) in *.
    apply Rdiv_lt_0_compat; [|lra]. match goal with |- 0 < ?e => replace e with (x * (m * m) + y * ((2 - m) * (2 - m))) by ring end.
    pose proof (Rle_0_sqr m) as Q1. pose proof (Rle_0_sqr (2 - m)) as Q2. unfold Rsqr in Q1, Q2.
    destruct (Req_dec m 0) as [Z|Nm]; [rewrite Z; lra|]. pose proof (Rmult_lt_0_compat _ _ K0 (Rlt_0_sqr m Nm)) as Q. unfold Rsqr in Q.
    pose proof (Rmult_le_pos y _ (Rlt_le _ _ K1) Q2). lra. }
  split; [exact E|].
  destruct (expectation_maximization eig cn pdf centres gmm gmcm u pair01 1 "GMCM" (/ 2)) as [[[bb cc] l]|e] eqn:Er; [eauto|]. exfalso.
  unfold expectation_maximization in Er. cbn [bind centres] in Er. change (check_criteria "GMCM") with (@Ok string "gmcm"%string) in Er. cbn [bind em_loop] in Er.
  change (mkMat (nr u) (nc u) (fun i j => centre pair01 (if Nat.ltb i (n_clusters pair01) then i else 0) j)) with q0 in Er.
  destruct (em_step eig cn pdf L (proj1 N) q0 pair01 V) as [[_ [k [Hk Z]]]|[Ex [p' [Mp _]]]].
  - specialize (Post O k Hk). rewrite (Z O) in Post by (cbn; lia). lra.
  - rewrite Ex, Mp in Er. cbn [bind] in Er. unfold centres in Er. cbn [bind] in Er.
    set (l1 := log_set gmm gmcm (log_set gmm gmcm (mkLog [] [] []) q0 u pair01) q0 u p') in *.
    assert (Hh : exists h, has_converged "gmcm" (/ 2) l1 = Ok h) by (eexists; reflexivity). destruct Hh as [h Hh]. rewrite Hh in Er. cbn [bind] in Er.
    destruct h; cbn [bind] in Er; rewrite Hh in Er; cbn [bind] in Er; unfold best_param in Er; cbn [String.eqb Ascii.eqb Bool.eqb l1 log_set l_params l_gmcm app] in Er;
      destruct (argmax_spec [gmcm u pair01; gmcm u p']) as [Am _]; try discriminate; cbn [length] in Am;
      destruct (argmax [gmcm u pair01; gmcm u p']) as [|[|n]]; try lia; cbn in Er; discriminate.
Qed.
