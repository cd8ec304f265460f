(** C88, C89: Spearman's rho of the Frank copula; Frank's parameter from Kendall's tau. *)
From Coquelicot Require Import Coquelicot.
From Verif Require Import Base RSumLib Ext S_Archimedean S_Concord M_Archimedean M_Specfunc P_Specfunc T_Specfunc M_Debye M_DebyeSeries P_Arch P_ArchCode P_Arch2 P_Debye P_Debye2 T_Debye T_DebyeSeries P_Kendall P_Kendall2 P_Kendall3 T_Concord P_FrankRho P_FrankRho2.
Open Scope R_scope.

(** ** C88 *)
(** the formula of the code, with the Debye functions that it computes (C70), is Spearman's rho of the textbook copula *)
Theorem C88_frank_rho : forall th, / 100000000 < Rabs th -> exists r, frank_rho_code (raw 1) (raw 2) th = Some r /\ spearman_rho (frank_C th) r.
Proof.
  intros th H. assert (N : th <> 0) by (intros ->; rewrite Rabs_R0 in H; lra). exists (1 + 12 / th * (debye 2 th - debye 1 th)). split; [|apply frank_spearman, N].
  unfold frank_rho_code. destruct (C70_debye th N) as [-> ->]. rewrite (proj2 (Rleb_false _ _) H). unfold frank_rho. rewrite (proj2 (Rleb_false _ _) H). reflexivity.
Qed.
Print Assumptions C88_frank_rho.
Lemma tau_near_abs th : th <> 0 -> Rabs th <= 1 -> Rabs (frank_tau_ (debye 1) th - th / 9) <= th ^ 2 / 10.
Proof.
  intros N H. destruct (Rlt_le_dec th 0) as [L|L].
  - rewrite Rabs_left in H by exact L. pose proof (tau_near (- th) ltac:(lra)) as X. rewrite tau_odd in X by exact N. replace (- frank_tau_ (debye 1) th - - th / 9) with (- (frank_tau_ (debye 1) th - th / 9)) in X by field.
    rewrite Rabs_Ropp in X. replace ((- th) ^ 2) with (th ^ 2) in X by ring. exact X.
  - rewrite Rabs_pos_eq in H by lra. apply tau_near. lra.
Qed.
Lemma rho_near_abs th : th <> 0 -> Rabs th <= 1 -> Rabs (1 + 12 / th * (debye 2 th - debye 1 th) - th / 6) <= th ^ 2.
Proof.
  intros N H. destruct (Rlt_le_dec th 0) as [L|L].
  - rewrite Rabs_left in H by exact L. pose proof (rho_near (- th) ltac:(lra)) as X. rewrite rho_odd in X by exact N. set (r := 1 + 12 / th * (debye 2 th - debye 1 th)) in *. replace (- r - - th / 6) with (- (r - th / 6)) in X by field.
    rewrite Rabs_Ropp in X. replace ((- th) ^ 2) with (th ^ 2) in X by ring. exact X.
  - rewrite Rabs_pos_eq in H by lra. apply rho_near. lra.
Qed.
(** both rank correlations that the code returns, computed with its tables and series (C81) and with the tangent for |theta| <= 1e-8, against
    those of the copula: the error is at most 1e-15/|theta|, 4e-15/|theta|, and never more than 1e-7, 4e-7 *)
Theorem C88_error : forall th, th <> 0 -> exists t r tau rho,
  frank_tau_code debye_1 th = Some t /\ frank_rho_code debye_1 debye_2 th = Some r /\ kendall_tau (frank_C th) tau /\ spearman_rho (frank_C th) rho /\
  Rabs (t - tau) <= Rmin (/ 10 ^ 15 / Rabs th) (/ 10 ^ 7) /\ Rabs (r - rho) <= Rmin (4 / 10 ^ 15 / Rabs th) (4 / 10 ^ 7).
Proof.
  intros th N. assert (P : 0 < Rabs th) by (apply Rabs_pos_lt, N). pose proof (frank_kendall th N) as K. pose proof (frank_spearman th N) as S.
  assert (I : 0 < / Rabs th) by (apply Rinv_0_lt_compat, P).
  destruct (Rle_lt_dec (Rabs th) (/ 100000000)) as [L|L].
  - exists (th / 9), (th / 6), (1 + 4 * (debye 1 th - 1) / th), (1 + 12 / th * (debye 2 th - debye 1 th)). unfold frank_tau_code, frank_rho_code. rewrite (proj2 (Rleb_true _ _) L). do 2 (split; [reflexivity|]). do 2 (split; [assumption|]).
    pose proof (tau_near_abs th N ltac:(lra)) as A. pose proof (rho_near_abs th N ltac:(lra)) as B. change (1 + 4 * (debye 1 th - 1) / th) with (frank_tau_ (debye 1) th). rewrite Rabs_minus_sym in A, B.
    assert (I' : 100000000 <= / Rabs th) by (replace 100000000 with (/ / 100000000) by (apply Rinv_inv); apply Rinv_le_contravar; lra).
    assert (Q : th ^ 2 <= / 10 ^ 16). { rewrite <- (Rabs_pos_eq (th ^ 2)), <- RPow_abs by nra. replace (/ 10 ^ 16) with ((/ 100000000) ^ 2) by field. apply pow_incr. lra. }
    assert (/ 10 ^ 16 <= / 10 ^ 7) by (apply Rinv_le_contravar; [apply pow_lt; lra|apply Rle_pow; [lra|lia]]). assert (0 < / 10 ^ 16) by (apply Rinv_0_lt_compat, pow_lt; lra).
    assert (E : / 10 ^ 7 <= / 10 ^ 15 / Rabs th) by (unfold Rdiv; replace (/ 10 ^ 7) with (/ 10 ^ 15 * 100000000) by field; apply Rmult_le_compat_l; [left; apply Rinv_0_lt_compat, pow_lt; lra|exact I']).
    split; apply Rmin_glb; unfold Rdiv in *; lra.
  - destruct (C81_frank th L) as [t [r [T [Et [R Er]]]]]. exists t, r, (1 + 4 * (debye 1 th - 1) / th), (1 + 12 / th * (debye 2 th - debye 1 th)). do 4 (split; [assumption|]).
    replace (1 + 4 / th * (debye 1 th - 1)) with (1 + 4 * (debye 1 th - 1) / th) in Et by (field; exact N).
    assert (I' : / Rabs th <= 100000000) by (replace 100000000 with (/ / 100000000) by (apply Rinv_inv); apply Rinv_le_contravar; lra).
    assert (E : / 10 ^ 15 / Rabs th <= / 10 ^ 7) by (unfold Rdiv; replace (/ 10 ^ 7) with (/ 10 ^ 15 * 100000000) by field; apply Rmult_le_compat_l; [left; apply Rinv_0_lt_compat, pow_lt; lra|exact I']).
    split; apply Rmin_glb; try assumption; unfold Rdiv in *; lra.
Qed.
Print Assumptions C88_error.
Example C88_case : / 100000000 < Rabs (-3) /\ -3 <> 0 /\ exists r, frank_rho_code (raw 1) (raw 2) (-3) = Some r /\ spearman_rho (frank_C (-3)) r /\ -1 < r < 0.
Proof.
  assert (A : / 100000000 < Rabs (-3)) by (rewrite Rabs_left by lra; lra). split; [exact A|]. split; [lra|]. destruct (C88_frank_rho (-3) A) as [r [E S]]. exists r. split; [exact E|]. split; [exact S|].
  destruct (C70_range (-3)) as [t [r' [_ [E' [_ [[B _] [_ [D _]]]]]]]]. rewrite E in E'. injection E' as <-. specialize (D ltac:(lra)). lra.
Qed.

(** ** C89 *)
(** what is assumed of scipy's solver for the function at hand: in a bracket on which f is continuous and changes sign it returns a root *)
Definition finds_root (brentq : (R -> option R) -> R -> R -> R) (f : R -> option R) : Prop :=
  forall a b g, a < b -> (forall x, a <= x <= b -> f x = Some (g x) /\ continuous g x) -> g a * g b < 0 -> a <= brentq f a b <= b /\ f (brentq f a b) = Some 0.
(** the function whose root is sought *)
Definition tau_minus (t x : R) : option R := option_map (fun y => y - t) (frank_tau_static (raw 1) x).
Lemma static_value x : x <> 0 -> frank_tau_static (raw 1) x = Some (frank_tau_ (debye 1) x).
Proof. intros N. unfold frank_tau_static. rewrite Reqb_neq by exact N. rewrite (proj1 (C70_debye x N)). reflexivity. Qed.
Lemma tau_minus_value t x : x <> 0 -> tau_minus t x = Some (frank_tau_ (debye 1) x - t).
Proof. intros N. unfold tau_minus. rewrite static_value by exact N. reflexivity. Qed.
Lemma tau_sign x : (0 < x -> 0 < frank_tau_ (debye 1) x < 1) /\ (x < 0 -> -1 < frank_tau_ (debye 1) x < 0).
Proof.
  split; intros H; [pose proof (tau_pos x H); pose proof (tau_upper x H); lra|]. pose proof (tau_pos (- x) ltac:(lra)) as A. pose proof (tau_upper (- x) ltac:(lra)) as B. rewrite tau_odd in A, B by lra. lra.
Qed.
Lemma tau_inj x y : x <> 0 -> y <> 0 -> frank_tau_ (debye 1) x = frank_tau_ (debye 1) y -> x = y.
Proof.
  intros Nx Ny E. assert (K : forall x y, x <> 0 -> y <> 0 -> x < y -> frank_tau_ (debye 1) x < frank_tau_ (debye 1) y).
  { clear. intros x y Nx Ny L. pose proof (tau_sign x) as [A B]. pose proof (tau_sign y) as [A' B']. destruct (Rlt_le_dec x 0) as [X|X], (Rlt_le_dec y 0) as [Y|Y].
    - pose proof (tau_incr (- y) (- x) ltac:(lra)) as I. rewrite !tau_odd in I by assumption. lra.
    - specialize (B X). specialize (A' ltac:(lra)). lra.
    - lra.
    - apply tau_incr. lra. }
  destruct (Rtotal_order x y) as [L|[L|L]]; [|exact L|]; [pose proof (K x y Nx Ny L)|pose proof (K y x Ny Nx L)]; lra.
Qed.
Lemma tau_cont x : x <> 0 -> continuous (frank_tau_ (debye 1)) x.
Proof.
  intros N. destruct (Rlt_le_dec 0 x) as [L|L].
  - apply (ex_derive_continuous (V := R_NormedModule)). eexists. apply frank_tau_derive, L.
  - apply (continuous_ext_loc _ (fun y => - frank_tau_ (debye 1) (- y))).
    + assert (P : 0 < - x) by lra. exists (mkposreal _ P). intros y Hy. apply Rabs_def2 in Hy. unfold minus, plus, opp in Hy; cbn in Hy. rewrite tau_odd by lra. apply Ropp_involutive.
    + apply (continuous_opp (V := R_NormedModule) (fun y => frank_tau_ (debye 1) (- y))). apply (continuous_comp (fun y => - y) (frank_tau_ (debye 1))).
      * apply (continuous_opp (V := R_NormedModule) (fun y => y)), continuous_id.
      * apply (ex_derive_continuous (V := R_NormedModule)). eexists. apply frank_tau_derive. lra.
Qed.
Lemma minus_cont t x : x <> 0 -> continuous (fun x => frank_tau_ (debye 1) x - t) x.
Proof. intros N. apply (continuous_minus (V := R_NormedModule) (frank_tau_ (debye 1)) (fun _ => t)); [apply tau_cont, N|apply continuous_const]. Qed.
Notation eps := (22 / 10 ^ 17).
Notation far := (10 ^ 20).
Lemma eps_pos : 0 < eps < / 10 ^ 6. Proof. cbn [pow]. lra. Qed.
Lemma far_big : 1 < far. Proof. cbn [pow]. lra. Qed.
Lemma tau_eps : frank_tau_ (debye 1) eps < / 10 ^ 16.
Proof. pose proof (tau_near eps) as X. cbn [pow] in *. specialize (X ltac:(lra)). apply Rabs_le_between in X. lra. Qed.
Lemma tau_far : 1 - / 10 ^ 15 < frank_tau_ (debye 1) far.
Proof.
  pose proof far_big. pose proof (debye1_pos far ltac:(lra)) as D. unfold frank_tau_. assert (I : 0 < / far) by (apply Rinv_0_lt_compat; lra). assert (4 * / far < / 10 ^ 15) by (clear; cbn [pow]; lra). unfold Rdiv. nra.
Qed.
Lemma itau_root brentq t a b : a < b -> 0 < a * b -> (frank_tau_ (debye 1) a - t) * (frank_tau_ (debye 1) b - t) < 0 -> finds_root brentq (tau_minus t) ->
  forall d m, find_root brentq (tau_minus t) (Fin a) (Fin b) d m = Ok (brentq (tau_minus t) a b) /\ brentq (tau_minus t) a b <> 0 /\ frank_tau_ (debye 1) (brentq (tau_minus t) a b) = t.
Proof.
  intros L AB S F d m. assert (NZ : forall x, a <= x <= b -> x <> 0) by (intros x Hx ->; nra).
  assert (G := F a b (fun x => frank_tau_ (debye 1) x - t) L). destruct G as [G1 G2]; [intros x Hx; split; [apply tau_minus_value, NZ, Hx|apply minus_cont, NZ, Hx]|exact S|].
  split; [|split; [apply NZ, G1|]].
  - apply (C36_good_bracket_is_kept brentq (tau_minus t) a b d m (frank_tau_ (debye 1) a - t) (frank_tau_ (debye 1) b - t)); [lra|apply tau_minus_value, NZ; lra|apply tau_minus_value, NZ; lra|exact S].
  - rewrite tau_minus_value in G2 by apply NZ, G1. injection G2 as G2. lra.
Qed.
(** itau inverts tau: the copula with the returned parameter has Kendall's tau t, and no other Frank copula has *)
Theorem C89_inverse : forall brentq t, / 10 ^ 16 <= Rabs t <= 1 - / 10 ^ 15 -> finds_root brentq (tau_minus t) ->
  exists x, frank_itau1 brentq (raw 1) t = Ok x /\ x <> 0 /\ kendall_tau (frank_C x) t /\ forall y, y <> 0 -> kendall_tau (frank_C y) t -> y = x.
Proof.
  intros brentq t H F. assert (T : 0 < / 10 ^ 16) by (apply Rinv_0_lt_compat, pow_lt; lra). assert (Nt : t <> 0) by (intros ->; rewrite Rabs_R0 in H; lra).
  assert (K : forall x, x <> 0 -> frank_tau_ (debye 1) x = t -> kendall_tau (frank_C x) t /\ forall y, y <> 0 -> kendall_tau (frank_C y) t -> y = x).
  { intros x Nx E. split; [rewrite <- E; apply frank_kendall, Nx|]. intros y Ny Ky. apply (tau_inj y x Ny Nx). rewrite E. apply (C85_unique (frank_C y)); [apply frank_kendall, Ny|exact Ky]. }
  pose proof tau_eps. pose proof tau_far. pose proof eps_pos. pose proof far_big. assert (1 < / 10 ^ 6 + far) by lra. assert (EF : eps < far) by (cbn [pow]; lra).
  unfold frank_itau1. fold (tau_minus t). rewrite (Reqb_neq _ _ Nt). change (fun x => option_map (fun y => y - t) (frank_tau_static (raw 1) x)) with (tau_minus t).
  destruct (Rltb 0 t) eqn:S; [apply Rltb_true in S; rewrite Rabs_pos_eq in H by lra|apply Rltb_false in S; rewrite Rabs_left in H by lra].
  - destruct (itau_root brentq t eps far EF ltac:(nra) ltac:(nra) F (/ 10 ^ 6) 1000) as [E [N V]]. rewrite E. eexists. split; [reflexivity|]. split; [exact N|]. apply K; assumption.
  - assert (V1 : frank_tau_ (debye 1) (- far) = - frank_tau_ (debye 1) far) by (apply tau_odd; lra). assert (V2 : frank_tau_ (debye 1) (- eps) = - frank_tau_ (debye 1) eps) by (apply tau_odd; lra).
    destruct (itau_root brentq t (- far) (- eps) ltac:(lra) ltac:(nra) ltac:(rewrite V1, V2; nra) F (/ 10 ^ 6) 1000) as [E [N V]]. rewrite E. eexists. split; [reflexivity|]. split; [exact N|]. apply K; assumption.
Qed.
Print Assumptions C89_inverse.
(** tau = 0 gives 0, whatever the solver returns: the bracket grows once and straddles 0 *)
Theorem C89_zero : forall brentq, frank_itau1 brentq (raw 1) 0 = Ok 0.
Proof.
  intros brentq. unfold frank_itau1. change (fun x => option_map (fun y => y - 0) (frank_tau_static (raw 1) x)) with (tau_minus 0). rewrite Reqb_refl, (proj2 (Rltb_false 0 0)) by lra.
  pose proof eps_pos as He. pose proof far_big as Hf. assert (P6 : 0 < / 10 ^ 6) by lra.
  unfold find_root. rewrite (proj2 (Rltb_false _ _)) by lra. change 1000%nat with (S 999). generalize 999%nat as m. intros m. cbn [expand].
  assert (Q : forall x y, x <> 0 -> y <> 0 -> prod_of (tau_minus 0) x y = Some (frank_tau_ (debye 1) x * frank_tau_ (debye 1) y)).
  { intros x y Nx Ny. unfold prod_of. rewrite !tau_minus_value by assumption. rewrite !Rminus_0_r. reflexivity. }
  rewrite Q by lra. pose proof (proj2 (tau_sign (- far)) ltac:(lra)). pose proof (proj2 (tau_sign (- eps)) ltac:(lra)). rewrite (proj2 (Rleb_true _ _)) by nra.
  assert (S1 : 0 <= step_of (/ 10 ^ 6) (- far)) by (unfold step_of; pose proof (Rmax_r (1 / 100 * Rabs (- far)) (/ 10 ^ 6)); lra).
  assert (S2 : / 10 ^ 6 <= step_of (/ 10 ^ 6) (- eps)) by apply Rmax_r.
  set (a := - far - step_of (/ 10 ^ 6) (- far)) in *. set (b := - eps + step_of (/ 10 ^ 6) (- eps)) in *. assert (Ha : a < 0) by (unfold a; lra). assert (Hb : 0 < b) by (unfold b; lra).
  pose proof (proj2 (tau_sign a) Ha). pose proof (proj1 (tau_sign b) Hb). assert (N : frank_tau_ (debye 1) a * frank_tau_ (debye 1) b < 0) by nra.
  rewrite (expand_stop (tau_minus 0) (/ 10 ^ 6) m a b _ (Q a b ltac:(lra) ltac:(lra)) N). rewrite Q by lra. rewrite (proj2 (Rltb_true _ _)) by exact N. reflexivity.
Qed.
Print Assumptions C89_zero.
(** |tau| >= 1: an error, never a parameter, whatever the solver is *)
Theorem C89_outside : forall brentq t, 1 <= Rabs t -> frank_itau1 brentq (raw 1) t = Err AssertionError.
Proof.
  intros brentq t H. unfold frank_itau1. change (fun x => option_map (fun y => y - t) (frank_tau_static (raw 1) x)) with (tau_minus t). rewrite C36_fails_loudly; [reflexivity|apply Rinv_0_lt_compat, pow_lt; lra|]. left.
  assert (K : forall x fx, tau_minus t x = Some fx -> (1 <= t -> fx < 0) /\ (t <= -1 -> 0 < fx)).
  { intros x fx E. destruct (Req_dec x 0) as [->|N]; [unfold tau_minus, frank_tau_static in E; rewrite Reqb_refl in E; discriminate|]. rewrite tau_minus_value in E by exact N. injection E as <-. pose proof (tau_sign x) as [A B]. destruct (Rlt_le_dec x 0) as [L|L]; [specialize (B L)|specialize (A ltac:(lra))]; lra. }
  intros x y fx fy Ex Ey. apply K in Ex. apply K in Ey. destruct (Rle_lt_dec 0 t) as [L|L].
  - rewrite Rabs_pos_eq in H by lra. destruct Ex as [Ex _], Ey as [Ey _]. specialize (Ex H). specialize (Ey H). nra.
  - rewrite Rabs_left in H by lra. destruct Ex as [_ Ex], Ey as [_ Ey]. specialize (Ex ltac:(lra)). specialize (Ey ltac:(lra)). nra.
Qed.
Print Assumptions C89_outside.
(** arrays: entry by entry, except that one entry with |tau| >= 1 makes the whole call raise *)
Theorem C89_array : forall brentq taus,
  (forall xs, frank_itau brentq (raw 1) taus = Ok xs <-> Forall2 (fun t x => frank_itau1 brentq (raw 1) t = Ok x) taus xs) /\
  (Exists (fun t => 1 <= Rabs t) taus -> frank_itau brentq (raw 1) taus = Err AssertionError).
Proof.
  intros brentq. assert (Q : forall t e, frank_itau1 brentq (raw 1) t = Err e -> e = AssertionError).
  { intros t e E. unfold frank_itau1, find_root in E. destruct (if Rltb _ (if Rltb 0 t then eps else - far) then _ else _) as [a b]. destruct (expand _ _ _ a b) as [a' b']. destruct (prod_of _ a' b') as [p|]; [|congruence]. destruct (Rltb p 0); congruence. }
  assert (Q2 : forall ts e, frank_itau brentq (raw 1) ts = Err e -> e = AssertionError).
  { induction ts as [|t ts IH]; intros e E; cbn [frank_itau] in E; [discriminate|]. destruct (frank_itau1 brentq (raw 1) t) eqn:E1; [|injection E as <-; apply (Q t), E1]. destruct (frank_itau brentq (raw 1) ts) eqn:E2; [discriminate|]. injection E as <-. apply IH. reflexivity. }
  induction taus as [|t ts IH]; cbn [frank_itau].
  - split; [|intros X; inversion X]. intros xs. split; [intros [= <-]; constructor|intros X; inversion X; reflexivity].
  - destruct IH as [IH1 IH2]. split.
    + intros xs. destruct (frank_itau1 brentq (raw 1) t) as [x|e] eqn:E1.
      * destruct (frank_itau brentq (raw 1) ts) as [ys|e] eqn:E2.
        -- split; [intros [= <-]; constructor; [exact E1|apply IH1; reflexivity]|]. intros X. inversion X; subst. rewrite E1 in H1. injection H1 as <-. apply IH1 in H3. injection H3 as <-. reflexivity.
        -- split; [discriminate|]. intros X. inversion X; subst. apply IH1 in H3. discriminate.
      * split; [discriminate|]. intros X. inversion X; subst. rewrite E1 in H1. discriminate.
    + intros X. inversion X as [? ? H|? ? H]; subst; [rewrite (C89_outside brentq t H); reflexivity|]. rewrite (IH2 H). destruct (frank_itau1 brentq (raw 1) t) as [x|e] eqn:E1; [reflexivity|]. rewrite (Q t e E1). reflexivity.
Qed.
Print Assumptions C89_array.
(** a solver that meets the hypothesis, for the tau of the Frank copula with parameter 1 *)
Example C89_case : let t := frank_tau_ (debye 1) 1 in finds_root (fun _ _ _ => 1) (tau_minus t) /\ / 10 ^ 16 <= Rabs t <= 1 - / 10 ^ 15 /\ frank_itau1 (fun _ _ _ => 1) (raw 1) t = Ok 1.
Proof.
  intros t. assert (R : / 10 ^ 16 <= Rabs t <= 1 - / 10 ^ 15).
  { pose proof (tau_near 1 ltac:(lra)) as A. fold t in A. apply Rabs_le_between in A. rewrite Rabs_pos_eq by lra. cbn [pow]. lra. }
  assert (F : finds_root (fun _ _ _ => 1) (tau_minus t)).
  { intros a b g L G S. assert (Z : ~ a <= 0 <= b).
    { intros Z. destruct (G 0 Z) as [Z' _]. unfold tau_minus, frank_tau_static in Z'. rewrite Reqb_refl in Z'. discriminate. }
    assert (V : forall x, a <= x <= b -> x <> 0 /\ g x = frank_tau_ (debye 1) x - t).
    { intros x Hx. assert (N : x <> 0) by (intros ->; exact (Z Hx)). split; [exact N|]. destruct (G x Hx) as [E _]. rewrite tau_minus_value in E by exact N. congruence. }
    destruct (V a ltac:(lra)) as [Na Ea]. destruct (V b ltac:(lra)) as [Nb Eb]. rewrite Ea, Eb in S. pose proof (proj1 (tau_sign 1) ltac:(lra)) as T. fold t in T.
    split; [|rewrite tau_minus_value by lra; f_equal; unfold t; ring].
    destruct (Rlt_le_dec a 0) as [A|A].
    - assert (B : b < 0) by (destruct (Rlt_le_dec b 0); [assumption|exfalso; apply Z; lra]). pose proof (proj2 (tau_sign a) A). pose proof (proj2 (tau_sign b) B). nra.
    - assert (A' : 0 < a) by lra. pose proof (tau_incr a b ltac:(lra)) as I. split.
      + destruct (Rle_lt_dec a 1) as [|Q]; [assumption|]. pose proof (tau_incr 1 a ltac:(lra)) as J. fold t in J. nra.
      + destruct (Rle_lt_dec 1 b) as [|Q]; [assumption|]. pose proof (tau_incr b 1 ltac:(lra)) as J. fold t in J. nra. }
  split; [exact F|]. split; [exact R|]. destruct (C89_inverse _ t R F) as [x [E [N [K U]]]]. rewrite E. f_equal. symmetry. apply U; [lra|]. apply (frank_kendall 1). lra.
Qed.
