(** Theorems: components of a mixture may be divided into equal parts. *)
From Coq Require Import Reals.
From Verif Require Import Base RSumLib Ext S_Matrix S_Linalg M_Special M_Gmc S_Gmc P_Gmc P_GmcEm P_GmcDens S_Sgd T_Relabel S_Merge.
Local Close Scope Z_scope. Open Scope R_scope. Open Scope list_scope.

Lemma sum_parts m m' h (w w' F : nat -> R) : (forall k, (k < m')%nat -> (h k < m)%nat) ->
  (forall c, (c < m)%nat -> rsum m' (fun k => if Nat.eqb (h k) c then w' k else 0) = w c) -> rsum m' (fun k => w' k * F (h k)) = rsum m (fun c => w c * F c).
Proof.
  intros H W. rewrite (rsum_ext m (fun c => w c * F c) (fun c => rsum m' (fun k => if Nat.eqb (h k) c then w' k * F c else 0))).
  - rewrite rsum_swap. apply rsum_ext. intros k Hk. rewrite (rsum_ext m _ (fun c => if Nat.eqb c (h k) then w' k * F c else 0)) by (intros c _; rewrite Nat.eqb_sym; reflexivity).
    symmetry. apply (rsum_delta m (h k) (fun c => w' k * F c)). apply H, Hk.
  - intros c Hc. rewrite <- (W c Hc), <- rsum_scal_r. apply rsum_ext. intros k _. destruct (Nat.eqb (h k) c); [reflexivity|ring].
Qed.

Section Divided.
  Variables (h : nat -> nat) (p p' : gmc).
  Hypotheses (V : valid p) (D : divided h p p').

  Lemma mixed_parts (f : (nat -> R) -> mat R -> R) : (forall k, (k < n_clusters p')%nat -> f (centre p' k) (spread_of p' k) = f (centre p (h k)) (spread_of p (h k))) -> mixed p' f = mixed p f.
  Proof.
    intros H. destruct D as [_ [D2 D3]]. unfold mixed. rewrite (rsum_ext (n_clusters p') _ (fun k => weight p' k * f (centre p (h k)) (spread_of p (h k)))) by (intros k Hk; rewrite (H k Hk); reflexivity).
    apply (sum_parts _ _ h (weight p) (weight p') (fun c => f (centre p c) (spread_of p c))); [intros k Hk; apply D2, Hk|intros c Hc; apply D3, Hc].
  Qed.
  Lemma part_density pdf x k : entries_only pdf -> (k < n_clusters p')%nat -> pdf (centre p' k) (spread_of p' k) x = pdf (centre p (h k)) (spread_of p (h k)) x.
  Proof.
    intros E Hk. destruct D as [_ [D2 _]]. destruct (D2 k Hk) as [K1 [K2 K3]]. apply E; [exact K3|]. intros j Hj. apply K2.
    destruct (spread_square p (h k) V K1) as [Q _]. destruct K3 as [Q1 _]. lia.
  Qed.
  Lemma part_entry j k : (j < n_dim p)%nat -> (k < n_clusters p')%nat -> get (spread_of p' k) j j = get (spread_of p (h k)) j j /\ centre p' k j = centre p (h k) j.
  Proof.
    intros Hj Hk. destruct D as [_ [D2 _]]. destruct (D2 k Hk) as [K1 [K2 [Q1 [Q2 Q3]]]]. destruct (spread_square p (h k) V K1) as [S1 S2]. split; [apply Q3; lia|apply K2, Hj].
  Qed.
  Lemma marginals_parts norm_pdf q : n_dim p = nc q -> gmm_log_likelihood_marginals norm_pdf q p' = gmm_log_likelihood_marginals norm_pdf q p.
  Proof.
    intros Hd. unfold gmm_log_likelihood_marginals. apply map_ext_in. intros j Hj. apply in_seq in Hj. f_equal. apply map_ext. intros i. f_equal.
    assert (M : forall r, fold_left (fun out k => let '(w, mu, c) := component r k in eadd out (escal w (Fin (norm_pdf (get q i j) (mu j) (get c j j))))) (seq 0 (n_clusters r)) (Fin 0) = Fin (mixed r (fun mu c => norm_pdf (get q i j) (mu j) (get c j j)))).
    { intros r. unfold mixed. rewrite rsum_lsum. rewrite (fold_mix (fun k => weight r k * norm_pdf (get q i j) (centre r k j) (get (spread_of r k) j j))); [f_equal; ring|]. intros o k _. reflexivity. }
    rewrite !M. f_equal. apply mixed_parts. intros k Hk. destruct (part_entry j k ltac:(lia) Hk) as [-> ->]. reflexivity.
  Qed.
End Divided.

(** Density, log-likelihoods and the approximate marginal probabilities. *)
Theorem C134_values : forall h p p' pdf norm_pdf, valid p -> divided h p p' -> entries_only pdf ->
  (forall x, mixture (plain pdf) p' x = mixture (plain pdf) p x) /\
  (forall q, gmm_log_likelihood pdf q p' = gmm_log_likelihood pdf q p) /\
  (forall q, n_dim p = nc q -> gmcm_log_likelihood pdf norm_pdf q p' = gmcm_log_likelihood pdf norm_pdf q p) /\
  (forall j x, (j < n_dim p)%nat -> marginal_cdf p' j x = marginal_cdf p j x).
Proof.
  intros h p p' pdf norm_pdf V D E.
  assert (M : forall x, mixture (plain pdf) p' x = mixture (plain pdf) p x).
  { intros x. rewrite !mixture_plain. f_equal. apply (mixed_parts h p p' D (fun mu c => pdf mu c x)). intros k Hk. apply (part_density h p p' V D); assumption. }
  assert (L : forall q, gmm_log_likelihood pdf q p' = gmm_log_likelihood pdf q p).
  { intros q. unfold gmm_log_likelihood. f_equal. apply map_ext. intros i. rewrite M. reflexivity. }
  split; [exact M|]. split; [exact L|]. split.
  - intros q Hd. unfold gmcm_log_likelihood. rewrite L, (marginals_parts h p p' V D) by exact Hd. reflexivity.
  - intros j x Hj. unfold marginal_cdf. rewrite <- !rsum_lsum. unfold component.
    transitivity (mixed p' (fun mu c => phi_approx x (mu j) (sqrt (get c j j)))); [apply rsum_ext; intros k _; apply Rmult_comm|].
    transitivity (mixed p (fun mu c => phi_approx x (mu j) (sqrt (get c j j)))); [|apply rsum_ext; intros k _; apply Rmult_comm].
    apply (mixed_parts h p p' D). intros k Hk. destruct (part_entry h p p' V D j k Hj Hk) as [-> ->]. reflexivity.
Qed.
Print Assumptions C134_values.

(** Responsibilities: each part takes its share. *)
Theorem C134_responsibilities : forall h p p' pdf q i k, valid p -> divided h p p' -> entries_only pdf -> (k < n_clusters p')%nat -> weight p (h k) <> 0 ->
  get (e_step pdf q p') i k = weight p' k / weight p (h k) * get (e_step pdf q p) i (h k).
Proof.
  intros h p p' pdf q i k V D E Hk W. rewrite !e_step_eq. unfold posterior.
  assert (S : rsum (n_clusters p') (fun k => weight p' k * pdf (centre p' k) (spread_of p' k) (get q i)) = rsum (n_clusters p) (fun k => weight p k * pdf (centre p k) (spread_of p k) (get q i))).
  { apply (mixed_parts h p p' D (fun mu c => pdf mu c (get q i))). intros c Hc. apply (part_density h p p' V D); assumption. }
  rewrite S. destruct (Reqb _ 0) eqn:Z; [ring|]. apply Reqb_false in Z. rewrite (part_density h p p' V D pdf (get q i) k E Hk). field. split; assumption.
Qed.
Print Assumptions C134_responsibilities.

(** A step of the expectation maximisation: stops because of an empty component for both mixtures or gives mixtures related in the same way. *)
Theorem C134_step : forall h p p' pdf eig cn q, libraries eig cn -> (forall mu c x, 0 <= pdf mu c x) -> entries_only pdf -> valid p -> valid p' -> divided h p p' ->
  (forall k, (k < n_clusters p')%nat -> 0 < weight p' k) ->
  let stuck r := existsb (fun i => Reqb (col_sum (e_step pdf q r) i) 0) (seq 0 (nc (e_step pdf q r))) in
  stuck p' = stuck p /\
  (stuck p = false -> exists p1 p1', m_step eig cn q (e_step pdf q p) = Ok p1 /\ m_step eig cn q (e_step pdf q p') = Ok p1' /\ divided h p1 p1').
Proof.
  intros h p p' pdf eig cn q Lb Np E V V' D W stuck. pose proof D as [D1 [D2 D3]].
  assert (Wp : forall c, (c < n_clusters p)%nat -> 0 < weight p c).
  { intros c Hc. destruct (D3 c Hc) as [[k [Hk Ek]] S]. rewrite <- S. apply rsum_pos.
    - intros i Hi. destruct (Nat.eqb (h i) c); [left; apply W, Hi|lra].
    - exists k. split; [exact Hk|]. rewrite Ek, Nat.eqb_refl. apply W, Hk. }
  assert (Hh : forall k, (k < n_clusters p')%nat -> (h k < n_clusters p)%nat) by (intros k Hk; apply D2, Hk).
  assert (R : forall i k, (k < n_clusters p')%nat -> posterior pdf q p' i k = weight p' k / weight p (h k) * posterior pdf q p i (h k)).
  { intros i k Hk. rewrite <- !e_step_eq. apply C134_responsibilities; try assumption. pose proof (Wp (h k) (Hh k Hk)). lra. }
  assert (N : forall k, (k < n_clusters p')%nat -> rsum (nr q) (fun i => posterior pdf q p' i k) = weight p' k / weight p (h k) * rsum (nr q) (fun i => posterior pdf q p i (h k))).
  { intros k Hk. rewrite <- rsum_scal. apply rsum_ext. intros i _. apply R, Hk. }
  assert (Sh : forall k, (k < n_clusters p')%nat -> 0 < weight p' k / weight p (h k)) by (intros k Hk; apply Rdiv_lt_0_compat; [apply W, Hk|apply Wp, Hh, Hk]).
  assert (F : stuck p' = stuck p).
  { apply Bool.eq_iff_eq_true. unfold stuck. cbn [e_step nc]. rewrite !existsb_exists. split.
    - intros [k [Ik Z]]. apply in_seq in Ik. apply Reqb_true in Z. rewrite col_sum_posterior, N in Z by lia. exists (h k). split; [apply in_seq; pose proof (Hh k ltac:(lia)); lia|].
      apply Reqb_true. rewrite col_sum_posterior. pose proof (Sh k ltac:(lia)). apply Rmult_integral in Z. destruct Z; lra.
    - intros [c [Ic Z]]. apply in_seq in Ic. apply Reqb_true in Z. destruct (D3 c ltac:(lia)) as [[k [Hk Ek]] _]. exists k. split; [apply in_seq; lia|]. apply Reqb_true.
      rewrite col_sum_posterior, N, Ek by exact Hk. rewrite col_sum_posterior in Z. rewrite Z. ring. }
  split; [exact F|]. intros Sf.
  destruct (em_step eig cn pdf Lb Np q p V) as [[X _]|[_ [p1 [M1 [V1 [_ [_ U1]]]]]]]; [unfold stuck in Sf; congruence|].
  destruct (em_step eig cn pdf Lb Np q p' V') as [[X _]|[_ [p1' [M1' [V1' [_ [_ U1']]]]]]]; [unfold stuck in F, Sf; congruence|].
  exists p1, p1'. split; [exact M1|]. split; [exact M1'|]. destruct U1 as [A1 [A2 [_ [_ A]]]]. destruct U1' as [B1 [B2 [_ [_ B]]]].
  assert (T : rsum (n_clusters p') (fun k => rsum (nr q) (fun i => posterior pdf q p' i k)) = rsum (n_clusters p) (fun k => rsum (nr q) (fun i => posterior pdf q p i k))).
  { rewrite (rsum_ext (n_clusters p') _ (fun k => weight p' k * (rsum (nr q) (fun i => posterior pdf q p i (h k)) / weight p (h k)))).
    - rewrite (sum_parts (n_clusters p) (n_clusters p') h (weight p) (weight p') (fun c => rsum (nr q) (fun i => posterior pdf q p i c) / weight p c) Hh (fun c Hc => proj2 (D3 c Hc))).
      apply rsum_ext. intros c Hc. field. pose proof (Wp c Hc). lra.
    - intros k Hk. rewrite (N k Hk). field. pose proof (Wp _ (Hh k Hk)). lra. }
  assert (C : forall k, (k < n_clusters p')%nat -> forall j, (j < nc q)%nat -> centre p1' k j = centre p1 (h k) j).
  { intros k Hk j Hj. destruct (B k Hk) as [_ [_ [Bc _]]]. destruct (A (h k) (Hh k Hk)) as [An [_ [Ac _]]]. rewrite (Bc j Hj), (Ac j Hj), (N k Hk).
    rewrite (rsum_ext (nr q) _ (fun i => weight p' k / weight p (h k) * (posterior pdf q p i (h k) * get q i j))) by (intros i _; rewrite (R i k Hk); ring). rewrite rsum_scal.
    pose proof (W k Hk). pose proof (Wp _ (Hh k Hk)). field. repeat split; try lra; exact An. }
  split; [congruence|]. split.
  - intros k Hk. rewrite B1 in Hk. split; [rewrite A1; apply Hh, Hk|]. split; [intros j Hj; apply C; [exact Hk|congruence]|].
    destruct (spread_square p1 (h k) V1 ltac:(rewrite A1; apply Hh, Hk)) as [S1 S2]. destruct (spread_square p1' k V1' ltac:(rewrite B1; exact Hk)) as [S3 S4].
    split; [congruence|]. split; [congruence|]. intros a b Ha Hb. destruct (B k Hk) as [_ [_ [_ Bs]]]. destruct (A (h k) (Hh k Hk)) as [An [_ [_ As]]].
    assert (Ha' : (a < nc q)%nat) by congruence. assert (Hb' : (b < nc q)%nat) by congruence. rewrite (Bs a b Ha' Hb'), (As a b Ha' Hb'), (N k Hk).
    rewrite (rsum_ext (nr q) _ (fun i => weight p' k / weight p (h k) * (posterior pdf q p i (h k) * (get q i a - centre p1 (h k) a) * (get q i b - centre p1 (h k) b)))).
    2:{ intros i _. rewrite (R i k Hk), !C by assumption. ring. }
    rewrite rsum_scal. pose proof (W k Hk). pose proof (Wp _ (Hh k Hk)). field. repeat split; try lra; exact An.
  - intros c Hc. rewrite A1 in Hc. destruct (D3 c Hc) as [[k [Hk Ek]] S]. split; [exists k; split; [congruence|exact Ek]|]. rewrite B1.
    destruct (A c Hc) as [An [-> _]]. pose proof (Wp c Hc). set (tot := rsum (n_clusters p) _) in *. set (nc_ := rsum (nr q) (fun i => posterior pdf q p i c)) in *.
    rewrite (rsum_ext (n_clusters p') _ (fun k => (nc_ / weight p c / tot) * (if Nat.eqb (h k) c then weight p' k else 0))).
    + rewrite rsum_scal, S. replace (nc_ / weight p c / tot * weight p c) with (nc_ / tot * (/ weight p c * weight p c)) by (unfold Rdiv; ring). rewrite Rinv_l by lra. ring.
    + intros i Hi. destruct (Nat.eqb (h i) c) eqn:Ei; [|ring]. apply Nat.eqb_eq in Ei. destruct (B i Hi) as [_ [-> _]]. rewrite T, (N i Hi), Ei. unfold Rdiv. fold nc_. ring.
Qed.
Print Assumptions C134_step.

(** A component of weight 1 divided into parts of 1/4 and 3/4. *)
Example C134_case : let one := mkMat 1 1 (fun _ _ => 1) in
  let p := mkGmc 1 1 [1] (mkMat 1 1 (fun _ _ => 5)) [one] in let p' := mkGmc 2 1 [1 / 4; 3 / 4] (mkMat 2 1 (fun _ _ => 5)) [one; one] in
  valid p /\ valid p' /\ divided (fun _ => 0%nat) p p' /\ forall k, (k < 2)%nat -> 0 < weight p' k.
Proof.
  intros one p p'.
  assert (S1 : almost_psd 1 one).
  { apply covariance_almost. split; [split; reflexivity|]. split; [intros i j _ _; reflexivity|]. intros x. unfold quad. cbn. nra. }
  split; [|split; [|split]].
  - unfold valid. cbn. split; [reflexivity|]. split; [apply weights_exact; [repeat constructor; lra|cbn; lra]|]. repeat (split; [reflexivity|]). repeat (apply Forall_cons; [exact S1|]); apply Forall_nil.
  - unfold valid. cbn. split; [reflexivity|]. split; [apply weights_exact; [repeat constructor; lra|cbn; lra]|]. repeat (split; [reflexivity|]). repeat (apply Forall_cons; [exact S1|]); apply Forall_nil.
  - split; [reflexivity|]. split.
    + intros [|[|k]] Hk; cbn in *; try lia; (split; [lia|]); (split; [reflexivity|]); repeat split.
    + intros [|c] Hc; cbn in *; [|lia]. split; [exists 0%nat; split; [lia|reflexivity]|]. cbn. unfold weight. cbn. lra.
  - intros [|[|k]] Hk; unfold weight; cbn in *; try lia; lra.
Qed.

(** ** Components of weight 0 *)
Lemma sum_padded m m' (F F' : nat -> R) : (m <= m')%nat -> (forall k, (k < m)%nat -> F' k = F k) -> (forall k, (m <= k < m')%nat -> F' k = 0) -> rsum m' F' = rsum m F.
Proof.
  intros H A B. rewrite <- (rsum_ext m F' F A). clear A. induction H as [|m' H IH]; [reflexivity|]. change (rsum (S m') F') with (rsum m' F' + F' m'). rewrite (B m') by lia. rewrite IH by (intros; apply B; lia). ring.
Qed.
Theorem C135_values : forall p p' pdf norm_pdf, valid p -> padded p p' -> entries_only pdf ->
  (forall x, mixture (plain pdf) p' x = mixture (plain pdf) p x) /\
  (forall q, n_dim p = nc q -> gmcm_log_likelihood pdf norm_pdf q p' = gmcm_log_likelihood pdf norm_pdf q p) /\
  (forall j x, (j < n_dim p)%nat -> marginal_cdf p' j x = marginal_cdf p j x).
Proof.
  intros p p' pdf norm_pdf V [D1 [D2 [D3 D4]]] E.
  assert (M : forall f, (forall k, (k < n_clusters p)%nat -> f (centre p' k) (spread_of p' k) = f (centre p k) (spread_of p k)) -> mixed p' f = mixed p f).
  { intros f Hf. unfold mixed. apply sum_padded; [exact D2| |].
    - intros k Hk. rewrite (Hf k Hk), (proj1 (D3 k Hk)). reflexivity.
    - intros k Hk. rewrite (D4 k Hk). ring. }
  assert (Pe : forall j k, (j < n_dim p)%nat -> (k < n_clusters p)%nat -> get (spread_of p' k) j j = get (spread_of p k) j j /\ centre p' k j = centre p k j).
  { intros j k Hj Hk. destruct (D3 k Hk) as [_ [K2 [Q1 [Q2 Q3]]]]. destruct (spread_square p k V Hk) as [S1 S2]. split; [apply Q3; lia|apply K2, Hj]. }
  assert (Mx : forall x, mixture (plain pdf) p' x = mixture (plain pdf) p x).
  { intros x. rewrite !mixture_plain. f_equal. apply (M (fun mu c => pdf mu c x)). intros k Hk. destruct (D3 k Hk) as [_ [K2 K3]]. apply E; [exact K3|]. intros j Hj. apply K2.
    destruct (spread_square p k V Hk) as [Q _]. destruct K3 as [Q1 _]. lia. }
  split; [exact Mx|]. split.
  - intros q Hd. unfold gmcm_log_likelihood. f_equal.
    + unfold gmm_log_likelihood. f_equal. apply map_ext. intros i. rewrite Mx. reflexivity.
    + f_equal. unfold gmm_log_likelihood_marginals. apply map_ext_in. intros j Hj. apply in_seq in Hj. f_equal. apply map_ext. intros i. f_equal.
      assert (G : forall r, fold_left (fun out k => let '(w, mu, c) := component r k in eadd out (escal w (Fin (norm_pdf (get q i j) (mu j) (get c j j))))) (seq 0 (n_clusters r)) (Fin 0) = Fin (mixed r (fun mu c => norm_pdf (get q i j) (mu j) (get c j j)))).
      { intros r. unfold mixed. rewrite rsum_lsum. rewrite (fold_mix (fun k => weight r k * norm_pdf (get q i j) (centre r k j) (get (spread_of r k) j j))); [f_equal; ring|]. intros o k _. reflexivity. }
      rewrite !G. f_equal. apply M. intros k Hk. destruct (Pe j k ltac:(lia) Hk) as [-> ->]. reflexivity.
  - intros j x Hj. unfold marginal_cdf. rewrite <- !rsum_lsum. unfold component.
    transitivity (mixed p' (fun mu c => phi_approx x (mu j) (sqrt (get c j j)))); [apply rsum_ext; intros k _; apply Rmult_comm|].
    transitivity (mixed p (fun mu c => phi_approx x (mu j) (sqrt (get c j j)))); [|apply rsum_ext; intros k _; apply Rmult_comm].
    apply M. intros k Hk. destruct (Pe j k Hj Hk) as [-> ->]. reflexivity.
Qed.
Print Assumptions C135_values.
(** But a fit that starts with a component of weight 0 never ends well, whatever the data. *)
Theorem C135_fit_refuted : forall eig cn pdf ppf gmm gmcm u p q N c c' eps k,
  (k < n_clusters p)%nat -> weight p k = 0 -> ppf u p = Ok q -> check_criteria c = Ok c' ->
  expectation_maximization eig cn pdf ppf gmm gmcm u p (S N) c eps = Err FitException.
Proof.
  intros eig cn pdf ppf gmm gmcm u p q N c c' eps k Hk Hw Hq Hc. unfold expectation_maximization. rewrite Hq. cbn [bind]. rewrite Hc. cbn [bind em_loop].
  replace (existsb _ _) with true; [reflexivity|]. symmetry. apply existsb_exists. exists k. split; [apply in_seq; cbn; lia|].
  replace (col_sum (e_step pdf q p) k) with 0; [unfold Reqb; destruct (Req_EM_T 0 0); [reflexivity|contradiction]|].
  symmetry. unfold col_sum. rewrite (rsum_ext _ _ (fun _ => 0)); [rewrite rsum_const; ring|].
  intros i _. cbn [e_step get]. change (component p k) with (weight p k, centre p k, spread_of p k). cbv iota beta. rewrite Hw, Rmult_0_l. unfold M_Stats.edivide.
  repeat match goal with |- context [if ?b then _ else _] => destruct b end; try reflexivity; try (unfold Rdiv; ring); try lra.
Qed.
Print Assumptions C135_fit_refuted.
(** The standard normal with a second, empty component far away. *)
Example C135_case : let one := mkMat 1 1 (fun _ _ => 1) in
  let p := mkGmc 1 1 [1] (mkMat 1 1 (fun _ _ => 0)) [one] in let p' := mkGmc 2 1 [1; 0] (mkMat 2 1 (fun k _ => INR k * 9)) [one; one] in
  valid p /\ padded p p' /\ weight p' 1 = 0 /\ check_criteria "GMCM" = Ok "gmcm"%string.
Proof.
  intros one p p'.
  assert (S1 : almost_psd 1 one).
  { apply covariance_almost. split; [split; reflexivity|]. split; [intros i j _ _; reflexivity|]. intros x. unfold quad. cbn. nra. }
  split; [|split; [|split; [reflexivity|reflexivity]]].
  - unfold valid. cbn. split; [reflexivity|]. split; [apply weights_exact; [repeat constructor; lra|cbn; lra]|]. repeat (split; [reflexivity|]). repeat (apply Forall_cons; [exact S1|]); apply Forall_nil.
  - split; [reflexivity|]. split; [cbn; lia|]. split.
    + intros [|k] Hk; cbn in *; [|lia]. split; [reflexivity|]. split; [intros j _; unfold centre; cbn; ring|repeat split].
    + intros [|[|k]] Hk; cbn in *; try lia. reflexivity.
Qed.
