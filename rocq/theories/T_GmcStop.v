(** Theorems about when the pseudo expectation maximisation stops. *)
From Coq Require Import Reals.
From Verif Require Import Base RSumLib Ext S_Matrix S_Linalg M_Gmc S_Gmc P_GmcDens P_GmcEm P_GmcFit T_Gmc P_Gmc S_GmcStop.
Local Close Scope Z_scope. Open Scope R_scope. Open Scope list_scope.

Lemma from_end_nth (l : list R) k : (1 <= k <= length l)%nat -> from_end l k = Ok (nth (length l - k) l 0).
Proof.
  intros H. unfold from_end. rewrite (nth_error_nth' (rev l) 0) by (rewrite rev_length; lia). rewrite rev_nth by lia. f_equal. f_equal. lia.
Qed.

Section Stop.
  Variables (eig : mat R -> list R) (cn : mat R -> mat R) (pdf : (nat -> R) -> mat R -> (nat -> R) -> R).
  Variables (ppf : mat R -> gmc -> result (mat R)) (gmm_ll gmcm_ll : mat R -> gmc -> R) (u : mat R) (p0 : gmc).
  Let qn := quantiles ppf u.
  Let G := mixture_ll ppf gmm_ll u.
  Let M := copula_ll gmcm_ll u.

  (** the record kept by the loop, in terms of the parameters alone *)
  Definition kept (l : log_lik) : Prop :=
    let n := length (l_params l) in
    (0 < n)%nat /\ length (l_gmm l) = n /\ length (l_gmcm l) = n /\
    forall i, (i < n)%nat -> nth i (l_gmm l) 0 = G (l_params l) p0 i /\ nth i (l_gmcm l) 0 = M (l_params l) p0 i.

  Lemma prefix_G ps r i : (i < length ps)%nat -> G (ps ++ r) p0 i = G ps p0 i.
  Proof. intros H. unfold G, mixture_ll. rewrite !app_nth1 by lia. reflexivity. Qed.
  Lemma prefix_M ps r i : (i < length ps)%nat -> M (ps ++ r) p0 i = M ps p0 i.
  Proof. intros H. unfold M, copula_ll. rewrite !app_nth1 by lia. reflexivity. Qed.
  Lemma prefix_gap c ps r i : (S i < length ps)%nat -> gap ppf gmm_ll gmcm_ll u c (ps ++ r) p0 i = gap ppf gmm_ll gmcm_ll u c ps p0 i.
  Proof. intros H. unfold gap. fold G M. rewrite !prefix_G, !prefix_M by lia. reflexivity. Qed.

  Lemma last_nth_any {A} (l : list A) d : l <> [] -> last l d = nth (length l - 1) l d.
  Proof.
    intros H. destruct (exists_last H) as [r [a ->]]. rewrite last_last, app_length. cbn. rewrite app_nth2 by lia.
    replace (length r + 1 - 1 - length r)%nat with 0%nat by lia. reflexivity.
  Qed.

  Lemma kept_set l p p' q : kept l -> last (l_params l) p0 = p -> ppf u p = Ok q -> kept (log_set gmm_ll gmcm_ll l q u p').
  Proof.
    intros [K0 [K1 [K2 K]]] La Eq. unfold kept, log_set. cbn [l_params l_gmm l_gmcm]. rewrite !app_length, K1, K2. cbn [length].
    split; [lia|]. split; [reflexivity|]. split; [reflexivity|]. intros i Hi.
    destruct (Nat.eq_dec i (length (l_params l))) as [->|Ne].
    - rewrite (app_nth2 (l_gmm l)), (app_nth2 (l_gmcm l)) by lia. rewrite K1, K2, Nat.sub_diag. cbn [nth]. unfold G, M, mixture_ll, copula_ll.
      rewrite (app_nth2 (l_params l) [p'] p0 (n := length (l_params l))) by lia. rewrite Nat.sub_diag. cbn [nth]. rewrite app_nth1 by lia.
      rewrite <- last_nth_any by (destruct (l_params l); [cbn in K0; lia|discriminate]). rewrite La. unfold quantiles. rewrite Eq. split; reflexivity.
    - rewrite !app_nth1 by lia. rewrite prefix_G, prefix_M by lia. apply K. lia.
  Qed.

  Lemma converged_gap c eps l : In c ["gmcm"; "gmm"; "li"]%string -> kept l -> (2 <= length (l_params l))%nat ->
    has_converged c eps l = Ok (Rltb (gap ppf gmm_ll gmcm_ll u c (l_params l) p0 (length (l_params l) - 2)) eps).
  Proof.
    intros Hc [K0 [K1 [K2 K]]] H2. unfold has_converged, gap. fold G M.
    assert (K3 := K (length (l_params l) - 1)%nat ltac:(lia)). assert (K4 := K (length (l_params l) - 2)%nat ltac:(lia)).
    replace (S (length (l_params l) - 2)) with (length (l_params l) - 1)%nat by lia.
    destruct Hc as [<-|[<-|[<-|[]]]]; cbn [String.eqb Ascii.eqb Bool.eqb]; rewrite !from_end_nth by lia; cbn [bind]; rewrite ?K1, ?K2;
      destruct K3 as [K3 K3'], K4 as [K4 K4']; rewrite ?K3, ?K3', ?K4, ?K4'; reflexivity.
  Qed.

  Lemma loop_gaps c eps fuel : In c ["gmcm"; "gmm"; "li"]%string -> forall p q l l', ppf u p = Ok q -> kept l -> last (l_params l) p0 = p ->
    em_loop eig cn pdf ppf gmm_ll gmcm_ll fuel c eps u q p l = Ok l' ->
    kept l' /\ exists ps, l_params l' = l_params l ++ ps /\
      (forall i, (length (l_params l) - 1 <= i)%nat -> (S (S i) < length (l_params l'))%nat -> eps <= gap ppf gmm_ll gmcm_ll u c (l_params l') p0 i).
  Proof.
    intros Hc. induction fuel as [|fuel IH]; intros p q l l' Eq K La H.
    - injection H as <-. split; [exact K|]. exists []. rewrite app_nil_r. split; [reflexivity|]. intros; lia.
    - cbn [em_loop] in H. destruct (existsb _ _); [discriminate|]. destruct (m_step eig cn q (e_step pdf q p)) as [p'|]; cbn [bind] in H; [|discriminate].
      destruct (ppf u p') as [q'|] eqn:Eq'; cbn [bind] in H; [|discriminate].
      pose proof (kept_set l p p' q K La Eq) as K1. set (l1 := log_set gmm_ll gmcm_ll l q u p') in *.
      assert (P1 : l_params l1 = l_params l ++ [p']) by reflexivity.
      assert (N1 : length (l_params l1) = S (length (l_params l))) by (rewrite P1, app_length; cbn; lia).
      assert (N0 : (0 < length (l_params l))%nat) by apply K.
      rewrite (converged_gap c eps l1 Hc K1) in H by lia. cbn [bind] in H. destruct (Rltb _ _) eqn:Es.
      + injection H as <-. split; [exact K1|]. exists [p']. split; [exact P1|]. intros i Hi Hj. lia.
      + destruct (IH p' q' l1 l' Eq' K1) as [K' [ps [Pp Hg]]]; [rewrite P1; apply last_last|exact H|].
        split; [exact K'|]. exists (p' :: ps). split; [rewrite Pp, P1, <- app_assoc; reflexivity|].
        intros i Hi Hj. destruct (Nat.eq_dec i (length (l_params l) - 1)) as [->|Ne]; [|apply Hg; lia].
        rewrite Pp, prefix_gap by lia. apply Rltb_false in Es. replace (length (l_params l) - 1)%nat with (length (l_params l1) - 2)%nat by lia. lra.
  Qed.
End Stop.

(** A run that returns has made at least one and at most max_iter steps.  Under each of the three criteria the gap of every step but the last
    was at least eps, the run counts as converged just when the gap of the last step is below eps, and one that does not has made all
    max_iter steps. *)
Theorem C130_stops : forall eig cn pdf ppf gmm_ll gmcm_ll u p max_iter criteria eps best conv ll,
  libraries eig cn -> (forall mu c x, 0 <= pdf mu c x) -> valid p ->
  expectation_maximization eig cn pdf ppf gmm_ll gmcm_ll u p max_iter criteria eps = Ok (best, conv, ll) ->
  In (lower criteria) ["gmcm"; "gmm"; "li"]%string /\
  exists ps, trajectory pdf ppf u p ps /\ (0 < length ps <= max_iter)%nat /\
    let d := gap ppf gmm_ll gmcm_ll u (lower criteria) (p :: ps) p in
    (forall i, (S i < length ps)%nat -> eps <= d i) /\
    (conv = true <-> d (length ps - 1)%nat < eps) /\
    (conv = false -> length ps = max_iter).
Proof.
  intros eig cn pdf ppf gmm_ll gmcm_ll u p max_iter criteria eps best conv ll L Hp V H. unfold expectation_maximization in H.
  destruct (ppf u p) as [q|] eqn:Eq; cbn [bind] in H; [|discriminate].
  unfold check_criteria in H. destruct (existsb _ _) eqn:Ec; cbn [bind] in H; [|discriminate].
  assert (Hc : In (lower criteria) ["gmcm"; "gmm"; "li"]%string) by (apply existsb_exists in Ec; destruct Ec as [x [Hx E]]; apply String.eqb_eq in E; subst x; exact Hx).
  split; [exact Hc|].
  set (l0 := log_set gmm_ll gmcm_ll (mkLog [] [] []) q u p) in *.
  destruct (em_loop eig cn pdf ppf gmm_ll gmcm_ll max_iter (lower criteria) eps u q p l0) as [l|] eqn:El; cbn [bind] in H; [|discriminate].
  assert (G0 : good gmcm_ll u l0) by (split; reflexivity).
  destruct (em_loop_ok eig cn pdf L Hp ppf gmm_ll gmcm_ll (lower criteria) eps u max_iter p q l0 l V Eq G0) as [ps [T [Le [[G1 G2] [Pl [Vs [St Gc]]]]]]]; [discriminate|reflexivity|exact El|].
  assert (P0 : l_params l = p :: ps) by exact Pl.
  assert (K0 : kept ppf gmm_ll gmcm_ll u p l0).
  { unfold kept. cbn. repeat (split; [lia|]). intros i Hi. replace i with 0%nat by lia. unfold mixture_ll, copula_ll, quantiles. cbn. rewrite Eq. split; reflexivity. }
  destruct (loop_gaps eig cn pdf ppf gmm_ll gmcm_ll u p (lower criteria) eps max_iter Hc p q l0 l Eq K0 eq_refl El) as [K [_ [_ Hg]]].
  destruct (best_param (lower criteria) l) as [b|] eqn:Eb; cbn [bind] in H; [|discriminate].
  destruct (has_converged (lower criteria) eps l) as [cv|] eqn:Eh; cbn [bind] in H; [|discriminate].
  destruct (best_log_lik l) as [bl|] eqn:Ebl; cbn [bind] in H; [|discriminate]. injection H as -> -> ->.
  assert (Ne : ps <> []).
  { intros ->. unfold has_converged in Eh. rewrite G2, P0 in Eh. destruct (l_gmm l) as [|g [|g' gl]] eqn:Eg; rewrite P0 in G1; try discriminate.
    destruct (lower criteria =? "gmcm")%string, (lower criteria =? "gmm")%string; cbn in Eh; discriminate. }
  assert (N : (0 < length ps)%nat) by (destruct ps; [contradiction|cbn; lia]).
  exists ps. split; [exact T|]. split; [lia|]. cbv zeta. rewrite P0 in Hg. cbn [length] in Hg.
  rewrite (converged_gap ppf gmm_ll gmcm_ll u p (lower criteria) eps l Hc K) in Eh by (rewrite P0; cbn; lia). rewrite P0 in Eh. cbn [length] in Eh.
  replace (S (length ps) - 2)%nat with (length ps - 1)%nat in Eh by lia. injection Eh as <-.
  split; [intros i Hi; apply Hg; cbn; lia|]. split; [apply Rltb_true|].
  intros F. destruct St as [St|[_ St]]; [exact St|congruence].
Qed.
Print Assumptions C130_stops.

(** A run of one step under each criterion: the start has mean 5 and the data the mean 0, so that the mixture's log-likelihood, here taken to be
    the mean, goes down by 5 and the copula's, here 5 throughout, does not change.  Only "GMCM" counts as converged. *)
Example C130_stops_case : forall eig cn, libraries eig cn ->
  let u := mkMat 2 1 (fun i _ => if Nat.eqb i 0 then -1 else 1) in
  let run c := expectation_maximization eig cn (fun _ _ _ => 1) (fun _ _ => Ok u) (fun _ p => get (means p) 0 0) (fun _ _ => 5) u (one 5) 1 c (/ 2) in
  exists b1 b2 b3, run "GMCM"%string = Ok (b1, true, 5) /\ run "GMM"%string = Ok (b2, false, 5) /\ run "Li"%string = Ok (b3, false, 5).
Proof.
  intros eig cn L u run.
  assert (V : valid (one 5)).
  { unfold valid. cbn. split; [reflexivity|]. split; [apply weights_exact; [repeat constructor; lra|cbn; lra]|]. repeat (split; [reflexivity|]). constructor; [|constructor].
    apply covariance_almost. split; [split; reflexivity|]. split; [intros i j _ _; reflexivity|]. intros x. unfold quad. cbn. lra. }
  destruct (em_step eig cn (fun _ _ _ => 1) L ltac:(intros; lra) u (one 5) V) as [[E [k [Hk H]]]|[E [p' [Em [V' [S' [C' U']]]]]]].
  { exfalso. cbn in Hk. assert (k = 0)%nat by lia. subst k. specialize (H 0%nat ltac:(cbn; lia)). unfold posterior in H. cbn in H.
    destruct (Reqb (0 + 1 * 1) 0) eqn:F; [apply Reqb_true in F; lra|]. assert (1 * 1 / (0 + 1 * 1) = 1) by field. lra. }
  assert (M : get (means p') 0 0 = 0).
  { destruct U' as [_ [_ [_ [_ U']]]]. destruct (U' 0%nat ltac:(cbn; lia)) as [_ [_ [Um _]]]. unfold centre in Um. rewrite Um by (cbn; lia).
    unfold posterior, weight. cbn. destruct (Reqb (0 + 1 * 1) 0) eqn:F; [apply Reqb_true in F; lra|]. field. }
  assert (R : forall c c', check_criteria c = Ok c' -> run c =
    let l := mkLog [5; get (means p') 0 0] [5; 5] [one 5; p'] in
    bind (has_converged c' (/ 2) l) (fun _ => bind (best_param c' l) (fun best => bind (has_converged c' (/ 2) l) (fun conv => bind (best_log_lik l) (fun ll => Ok (best, conv, ll)))))).
  { intros c c' Ecc. unfold run, expectation_maximization. cbn [bind]. rewrite Ecc. cbn [bind em_loop]. rewrite E, Em. cbn [bind].
    change (log_set _ _ (log_set _ _ _ u u (one 5)) u u p') with (mkLog [5; get (means p') 0 0] [5; 5] [one 5; p']).
    cbv zeta. destruct (has_converged c' (/ 2) _) as [[|]|] eqn:Eh; cbn [bind]; rewrite ?Eh; reflexivity. }
  assert (T1 : Rltb (Rabs (5 - 5)) (/ 2) = true) by (apply Rltb_true; replace (5 - 5) with 0 by ring; rewrite Rabs_R0; lra).
  assert (T2 : Rltb (Rabs (get (means p') 0 0 - 5)) (/ 2) = false) by (apply Rltb_false; rewrite M; rewrite Rabs_left; lra).
  assert (X : forall c', In c' ["gmcm"; "gmm"; "li"]%string -> exists b, best_param c' (mkLog [5; get (means p') 0 0] [5; 5] [one 5; p']) = Ok b).
  { intros c' Hc'. unfold best_param. destruct (c' =? "gmm")%string; [eexists; reflexivity|]. cbn. destruct (Rltb 5 5); eexists; reflexivity. }
  destruct (X "gmcm"%string) as [b1 X1]; [cbn; auto|]. destruct (X "gmm"%string) as [b2 X2]; [cbn; auto|]. destruct (X "li"%string) as [b3 X3]; [cbn; auto|].
  exists b1, b2, b3. rewrite (R "GMCM"%string "gmcm"%string), (R "GMM"%string "gmm"%string), (R "Li"%string "li"%string) by reflexivity. cbv zeta. rewrite X1, X2, X3.
  unfold has_converged. cbn [String.eqb Ascii.eqb Bool.eqb l_gmm l_gmcm]. cbn. rewrite T1, T2. auto.
Qed.
