(** Theorems: the scales of the coordinates of a mixture carry no meaning for its copula. *)
From Coq Require Import Reals FunctionalExtensionality.
From Verif Require Import Base RSumLib Ext S_Matrix S_Linalg P_Linalg M_Special M_Gmc S_Gmc P_Gmc P_GmcMarg P_GmcDens P_GmcEm S_GmcAscent P_GmcAscent T_GmcAscent T_Relabel S_Rescale.
Local Close Scope Z_scope. Open Scope R_scope. Open Scope list_scope.

Lemma sqrt_scaled a v : 0 < a -> 0 <= v -> sqrt (a * a * v) = a * sqrt v.
Proof. intros Ha Hv. rewrite sqrt_mult by nra. rewrite sqrt_square by lra. reflexivity. Qed.
Lemma rprod_mult d f g : rprod d (fun i => f i * g i) = rprod d f * rprod d g.
Proof. induction d as [|d IH]; cbn; [ring|]. rewrite IH. ring. Qed.

(** ** Densities *)
Lemma normal_scaled pdf d a b mu mu' c c' x x' : documented_normal pdf -> positive_definite d c -> square d c' -> positive_scale d a ->
  (forall j, (j < d)%nat -> mu' j = a j * mu j + b j) -> (forall i j, (i < d)%nat -> (j < d)%nat -> get c' i j = a i * a j * get c i j) ->
  (forall j, (j < d)%nat -> x' j = a j * x j + b j) -> pdf mu' c' x' = pdf mu c x / rprod d a.
Proof.
  intros [H0 H] P S' A Hm Hc Hx. destruct (pd_root d c P) as [S0 [l [R1 [R2 R3]]]].
  destruct (tri_solve d l (fun i => x i - mu i) (root_tri _ _ _ (conj R1 (conj R2 R3)))) as [z Hz].
  rewrite (H d mu c x l z S0 (conj R1 (conj R2 R3)) Hz).
  rewrite (H d mu' c' x' (fun i j => a i * l i j) z S').
  - rewrite (rprod_ext d (fun i => sqrt (2 * PI) * (a i * l i i)) (fun i => a i * (sqrt (2 * PI) * l i i))) by (intros; ring). rewrite rprod_mult.
    assert (0 < rprod d a) by (apply rprod_pos; exact A).
    assert (0 < rprod d (fun i => sqrt (2 * PI) * l i i)).
    { apply rprod_pos. intros i Hi. apply Rmult_lt_0_compat; [apply sqrt_lt_R0; pose proof PI_RGT_0; lra|apply R2; exact Hi]. }
    field. lra.
  - split; [|split].
    + intros i j Hi Hj. rewrite R1 by assumption. ring.
    + intros i Hi. apply Rmult_lt_0_compat; [apply A|apply R2]; exact Hi.
    + intros i j Hi Hj. rewrite Hc, R3 by assumption. rewrite <- rsum_scal. apply rsum_ext. intros k _. ring.
  - intros i Hi. rewrite Hx, Hm by exact Hi. rewrite (rsum_ext d _ (fun j => a i * (l i j * z j))) by (intros; ring). rewrite rsum_scal, Hz by exact Hi. ring.
Qed.
Lemma univariate_scaled n a b x m v : documented_univariate n -> 0 < a -> 0 < v -> n (a * x + b) (a * m + b) (a * a * v) = n x m v / a.
Proof.
  intros H Ha Hv. assert (0 < a * a * v) by (apply Rmult_lt_0_compat; [nra|exact Hv]). rewrite (H _ _ (a * a * v)), (H x m v) by assumption.
  replace (2 * PI * (a * a * v)) with (a * a * (2 * PI * v)) by ring. pose proof PI_RGT_0. rewrite sqrt_scaled by nra.
  replace (- ((a * x + b - (a * m + b)) * (a * x + b - (a * m + b))) / (2 * (a * a * v))) with (- ((x - m) * (x - m)) / (2 * v)) by (field; lra).
  assert (0 < sqrt (2 * PI * v)) by (apply sqrt_lt_R0; nra). field. lra.
Qed.

Lemma elog_scaled v c : 0 < c -> elog (Fin (v / c)) = eadd (elog (Fin v)) (Fin (- ln c)).
Proof.
  intros Hc. unfold elog. assert (I : 0 < / c) by (apply Rinv_0_lt_compat; exact Hc). unfold Rdiv.
  destruct (Rltb 0 v) eqn:E.
  - apply Rltb_true in E. rewrite (proj2 (Rltb_true _ _)) by (apply Rmult_lt_0_compat; assumption). cbn. rewrite ln_mult, ln_Rinv by assumption. reflexivity.
  - apply Rltb_false in E. rewrite (proj2 (Rltb_false _ _)) by nra. destruct (Reqb v 0) eqn:Z.
    + apply Reqb_true in Z. subst v. rewrite Rmult_0_l. rewrite (proj2 (Reqb_true 0 0) eq_refl). reflexivity.
    + destruct (Reqb (v * / c) 0) eqn:Z2; [|reflexivity]. exfalso. apply Reqb_true in Z2. assert (v = 0) by nra. subst v. rewrite (proj2 (Reqb_true 0 0) eq_refl) in Z. discriminate.
Qed.
Lemma esum_map_fin {A} (f : A -> ext) (g : A -> R) l : (forall x, In x l -> f x = Fin (g x)) -> esum (map f l) = Fin (lsum (map g l)).
Proof. intros H. rewrite <- esum_fin, map_map. f_equal. apply map_ext_in. exact H. Qed.
Lemma esum_shift {A} (f : A -> ext) (g : A -> R) l : esum (map (fun x => eadd (f x) (Fin (g x))) l) = eadd (esum (map f l)) (Fin (lsum (map g l))).
Proof.
  induction l as [|x l IH]; [cbn; f_equal; ring|]. change (esum (map ?h (x :: l))) with (eadd (h x) (esum (map h l))). rewrite IH. cbn [map lsum].
  change (esum (map f (x :: l))) with (eadd (f x) (esum (map f l))). destruct (f x), (esum (map f l)); cbn; try reflexivity. f_equal. ring.
Qed.
Lemma lsum_const n (c : R) : lsum (map (fun _ => c) (seq 0 n)) = INR n * c.
Proof. rewrite <- rsum_lsum. induction n as [|n IH]; [cbn; ring|]. cbn [rsum]. rewrite IH, S_INR. ring. Qed.

Section Rescale.
  Variables (a b : nat -> R) (p p' : gmc).
  Hypotheses (A : positive_scale (n_dim p) a) (E : rescaled a b p p').
  Let d := n_dim p.

  Lemma mixed_scaled pdf x x' : documented_normal pdf -> (forall k, (k < n_clusters p)%nat -> positive_definite d (spread_of p k)) -> (forall j, (j < d)%nat -> x' j = a j * x j + b j) ->
    mixed p' (fun mu c => pdf mu c x') = mixed p (fun mu c => pdf mu c x) / rprod d a.
  Proof.
    intros N P Hx. destruct E as [E1 [E2 E3]]. unfold mixed. rewrite E1. unfold Rdiv. rewrite <- rsum_scal_r. apply rsum_ext. intros k Hk.
    destruct (E3 k Hk) as [W [C [S G]]]. rewrite W, (normal_scaled pdf d a b (centre p k) (centre p' k) (spread_of p k) (spread_of p' k) x x' N (P k Hk) S A C G Hx). unfold Rdiv. ring.
  Qed.
  Lemma loglik_scaled pdf q q' : documented_normal pdf -> (forall k, (k < n_clusters p)%nat -> positive_definite d (spread_of p k)) -> rescaled_rows a b q q' -> nc q = d ->
    gmm_log_likelihood pdf q' p' = eadd (gmm_log_likelihood pdf q p) (Fin (- (INR (nr q) * rsum d (fun j => ln (a j))))).
  Proof.
    intros N P [Q1 [Q2 Q3]] Hd. unfold gmm_log_likelihood. rewrite Q1.
    rewrite (map_ext_in _ (fun i => eadd (elog (mixture (plain pdf) p (get q i))) (Fin (- rsum d (fun j => ln (a j)))))).
    - rewrite (esum_shift (fun i => elog (mixture (plain pdf) p (get q i))) (fun _ => - rsum d (fun j => ln (a j)))). rewrite lsum_const. do 2 f_equal. ring.
    - intros i Hi. apply in_seq in Hi. rewrite !mixture_plain. rewrite (mixed_scaled pdf (get q i) (get q' i) N P) by (intros j Hj; apply Q3; lia).
      destruct (rprod_pos d a A) as [R1 R2]. rewrite elog_scaled by exact R1. rewrite R2. reflexivity.
  Qed.
  Lemma marginal_logs_scaled n q q' : documented_univariate n -> (forall k j, (k < n_clusters p)%nat -> (j < d)%nat -> 0 < get (spread_of p k) j j) -> rescaled_rows a b q q' -> nc q = d ->
    gmm_log_likelihood_marginals n q' p' = map (fun j => eadd (nth j (gmm_log_likelihood_marginals n q p) Nan) (Fin (- (INR (nr q) * ln (a j))))) (seq 0 d).
  Proof.
    intros N P [Q1 [Q2 Q3]] Hd. unfold gmm_log_likelihood_marginals. rewrite Q1, Q2, Hd. apply map_ext_in. intros j Hj. apply in_seq in Hj. rewrite nth_map_seq by lia.
    rewrite (map_ext_in _ (fun i => eadd (elog (Fin (rsum (n_clusters p) (fun k => weight p k * n (get q i j) (centre p k j) (get (spread_of p k) j j))))) (Fin (- ln (a j))))).
    - rewrite (esum_shift (fun i => elog (Fin (rsum (n_clusters p) (fun k => weight p k * n (get q i j) (centre p k j) (get (spread_of p k) j j))))) (fun _ => - ln (a j))).
      rewrite lsum_const. f_equal; [|f_equal; ring]. f_equal. apply map_ext. intros i. f_equal.
      rewrite (fold_mix (fun k => weight p k * n (get q i j) (centre p k j) (get (spread_of p k) j j))) by (intros o k _; reflexivity). rewrite rsum_lsum. f_equal. ring.
    - intros i Hi. apply in_seq in Hi. rewrite <- elog_scaled by (apply A; lia). f_equal.
      rewrite (fold_mix (fun k => weight p' k * n (get q' i j) (centre p' k j) (get (spread_of p' k) j j))) by (intros o k _; reflexivity). f_equal. rewrite Rplus_0_l, <- rsum_lsum.
      destruct E as [E1 [E2 E3]]. rewrite E1. unfold Rdiv. rewrite <- rsum_scal_r. apply rsum_ext. intros k Hk. destruct (E3 k Hk) as [W [C [S G]]].
      rewrite W, C, G, Q3 by (fold d; lia). rewrite (univariate_scaled n) by (try exact N; try (apply A; fold d; lia); apply P; lia). unfold Rdiv. ring.
  Qed.

  (** ** Marginals *)
  Lemma deviation_scaled k j : (k < n_clusters p)%nat -> (j < d)%nat -> 0 < get (spread_of p k) j j -> deviation p' k j = a j * deviation p k j.
  Proof. intros Hk Hj H. unfold deviation. destruct E as [_ [_ E3]]. destruct (E3 k Hk) as [_ [_ [_ G]]]. rewrite G by exact Hj. apply sqrt_scaled; [apply A; exact Hj|lra]. Qed.
  Lemma cdf_scaled j x : (j < d)%nat -> (forall k, (k < n_clusters p)%nat -> 0 < get (spread_of p k) j j) -> marginal_cdf p' j (a j * x + b j) = marginal_cdf p j x.
  Proof.
    intros Hj P. rewrite !marginal_cdf_eq. rewrite (proj1 E). apply rsum_ext. intros k Hk. rewrite (deviation_scaled k j Hk Hj (P k Hk)).
    destruct E as [_ [_ E3]]. destruct (E3 k Hk) as [W [C _]]. rewrite W, C by exact Hj. f_equal. f_equal.
    assert (0 < deviation p k j) by (apply sqrt_lt_R0, P, Hk). specialize (A j Hj). pose proof sqrt2_pos. field. split; [lra|split; lra].
  Qed.
  Lemma linspace_affine s t lo hi n : linspace (s * lo + t) (s * hi + t) n = map (fun x => s * x + t) (linspace lo hi n).
  Proof. unfold linspace. rewrite map_map. apply map_ext. intros k. destruct (Nat.eqb _ _); [reflexivity|]. unfold Rdiv. ring. Qed.
  Lemma flat_map_maps {X Y Z} (f : Y -> Z) (g : X -> list Y) l : map f (flat_map g l) = flat_map (fun x => map f (g x)) l.
  Proof. induction l as [|x l IH]; cbn; [reflexivity|]. rewrite map_app, IH. reflexivity. Qed.
  Lemma grid_scaled round resolution spread j : (j < d)%nat -> (forall k, (k < n_clusters p)%nat -> 0 < get (spread_of p k) j j) ->
    ppf_grid round p' resolution spread j = map (fun x => a j * x + b j) (ppf_grid round p resolution spread j).
  Proof.
    intros Hj P. unfold ppf_grid, component. rewrite flat_map_maps, (proj1 E). apply flat_map_ext_in. intros k Hk. apply in_seq in Hk.
    assert (Hk' : (k < n_clusters p)%nat) by lia. pose proof (deviation_scaled k j Hk' Hj (P k Hk')) as D. unfold deviation, spread_of in D. rewrite D. clear D.
    destruct E as [_ [_ E3]]. destruct (E3 k Hk') as [W [C _]]. specialize (C j Hj). unfold weight in W. unfold centre in C. rewrite W, C, <- linspace_affine. f_equal; ring.
  Qed.
End Rescale.

Definition on_value (f : R -> R) (x : R * R) : R * R := (fst x, f (snd x)).
Lemma insert_value f x l : insert_pair (on_value f x) (map (on_value f) l) = map (on_value f) (insert_pair x l).
Proof. induction l as [|y l IH]; [reflexivity|]. cbn [map insert_pair]. change (fst (on_value f x)) with (fst x). change (fst (on_value f y)) with (fst y). destruct (Rleb _ _); [reflexivity|]. rewrite IH. reflexivity. Qed.
Lemma sort_value f l : sort_pairs (map (on_value f) l) = map (on_value f) (sort_pairs l).
Proof. unfold sort_pairs. induction l as [|x l IH]; [reflexivity|]. cbn [map fold_right]. rewrite IH. apply insert_value. Qed.
Lemma interp_affine s t l : forall x0 y0 q, interp x0 (s * y0 + t) (map (on_value (fun y => s * y + t)) l) q = s * interp x0 y0 l q + t.
Proof. induction l as [|[x1 y1] l IH]; intros x0 y0 q; [reflexivity|]. cbn [map on_value fst snd interp]. destruct (Rltb _ _); [unfold Rdiv; ring|apply IH]. Qed.
Definition result_map {X Y} (f : X -> Y) (r : result X) : result Y := match r with Ok x => Ok (f x) | Err e => Err e end.
Lemma interp1d_affine s t xs ys q : interp1d xs (map (fun y => s * y + t) ys) q = result_map (fun y => s * y + t) (interp1d xs ys q).
Proof.
  unfold interp1d. replace (combine xs (map (fun y => s * y + t) ys)) with (map (on_value (fun y => s * y + t)) (combine xs ys)).
  2:{ revert ys. induction xs as [|x xs IH]; intros [|y ys]; cbn; try reflexivity. rewrite IH. reflexivity. }
  rewrite sort_value. destruct (sort_pairs (combine xs ys)) as [|[x0 y0] r]; [reflexivity|]. cbn [map on_value fst snd].
  replace (fst (last (map (on_value (fun y => s * y + t)) r) (x0, s * y0 + t))) with (fst (last r (x0, y0))).
  2:{ clear. induction r as [|[x y] r IH]; [reflexivity|]. destruct r as [|z r]; [reflexivity|]. cbn [map last] in *. exact IH. }
  destruct (_ || _); [reflexivity|]. rewrite interp_affine. reflexivity.
Qed.

(** The marginal distribution functions follow the scale and the marginal quantiles are measured on it. *)
Theorem C131_marginals : forall a b p p' j, positive_scale (n_dim p) a -> rescaled a b p p' -> (j < n_dim p)%nat ->
  (forall k, (k < n_clusters p)%nat -> 0 < get (spread_of p k) j j) ->
  (forall x, marginal_cdf p' j (a j * x + b j) = marginal_cdf p j x) /\
  (forall round resolution spread u,
     marginal_ppf round p' resolution spread j u = match marginal_ppf round p resolution spread j u with Ok x => Ok (a j * x + b j) | Err e => Err e end).
Proof.
  intros a b p p' j A E Hj P. split; [intros x; apply (cdf_scaled a b p p' A E j x Hj P)|]. intros round resolution spread u. unfold marginal_ppf.
  rewrite (grid_scaled a b p p' A E round resolution spread j Hj P), map_map.
  rewrite (map_ext _ (marginal_cdf p j)) by (intros x; apply (cdf_scaled a b p p' A E j x Hj P)). apply interp1d_affine.
Qed.
Print Assumptions C131_marginals.

(** The copula's log-likelihood is the same number; the mixture's moves by a constant. *)
Theorem C131_likelihood : forall pdf norm_pdf a b p p' q q', documented_normal pdf -> documented_univariate norm_pdf ->
  positive_scale (n_dim p) a -> rescaled a b p p' -> rescaled_rows a b q q' -> nc q = n_dim p ->
  (forall k, (k < n_clusters p)%nat -> positive_definite (n_dim p) (spread_of p k)) ->
  gmcm_log_likelihood pdf norm_pdf q' p' = gmcm_log_likelihood pdf norm_pdf q p /\
  gmm_log_likelihood pdf q' p' = esub (gmm_log_likelihood pdf q p) (Fin (INR (nr q) * rsum (n_dim p) (fun j => ln (a j)))).
Proof.
  intros pdf n a b p p' q q' N U A E Q Hd P.
  pose proof (loglik_scaled a b p p' A E pdf q q' N P Q Hd) as L. split; [|exact L].
  assert (Pd : forall k j, (k < n_clusters p)%nat -> (j < n_dim p)%nat -> 0 < get (spread_of p k) j j).
  { intros k j Hk Hj. destruct (pd_root _ _ (P k Hk)) as [_ [l [R1 [R2 R3]]]]. rewrite R3 by exact Hj.
    apply rsum_pos; [intros i _; nra|]. exists j. split; [exact Hj|]. specialize (R2 j Hj). nra. }
  unfold gmcm_log_likelihood. rewrite L, (marginal_logs_scaled a b p p' A E n q q' U Pd Q Hd).
  rewrite (esum_shift (fun j => nth j (gmm_log_likelihood_marginals n q p) Nan) (fun j => - (INR (nr q) * ln (a j)))).
  assert (M : map (fun j => nth j (gmm_log_likelihood_marginals n q p) Nan) (seq 0 (n_dim p)) = gmm_log_likelihood_marginals n q p).
  { unfold gmm_log_likelihood_marginals. rewrite Hd. apply map_ext_in. intros j Hj. apply in_seq in Hj. rewrite nth_map_seq by lia. reflexivity. }
  rewrite M. replace (lsum (map (fun j => - (INR (nr q) * ln (a j))) (seq 0 (n_dim p)))) with (- (INR (nr q) * rsum (n_dim p) (fun j => ln (a j)))).
  2:{ rewrite <- rsum_lsum, <- rsum_scal, <- rsum_opp. reflexivity. }
  destruct (gmm_log_likelihood pdf q p), (esum (gmm_log_likelihood_marginals n q p)); cbn; try reflexivity. f_equal. ring.
Qed.
Print Assumptions C131_likelihood.

(** One step of the expectation maximisation: the same posterior probabilities, and the next parameter is again measured on the other scale. *)
Theorem C131_step : forall eig cn pdf a b p p' q q', libraries eig cn -> documented_normal pdf -> valid p -> valid p' ->
  positive_scale (n_dim p) a -> rescaled a b p p' -> rescaled_rows a b q q' -> nc q = n_dim p ->
  (forall k, (k < n_clusters p)%nat -> positive_definite (n_dim p) (spread_of p k)) ->
  (forall i k, (i < nr q)%nat -> (k < n_clusters p)%nat -> get (e_step pdf q' p') i k = get (e_step pdf q p) i k) /\
  forall p1, m_step eig cn q (e_step pdf q p) = Ok p1 -> (forall k, (k < n_clusters p)%nat -> exists i, (i < nr q)%nat /\ get (e_step pdf q p) i k <> 0) ->
    exists p1', m_step eig cn q' (e_step pdf q' p') = Ok p1' /\ rescaled a b p1 p1'.
Proof.
  intros eig cn pdf a b p p' q q' L N V V' A E [Q1 [Q2 Q3]] Hd P.
  assert (Post : forall i k, (i < nr q)%nat -> (k < n_clusters p)%nat -> posterior pdf q' p' i k = posterior pdf q p i k).
  { intros i k Hi Hk. unfold posterior. cbv zeta. destruct E as [E1 [E2 E3]]. destruct (rprod_pos (n_dim p) a A) as [R1 _]. set (c := rprod (n_dim p) a) in *.
    assert (F : forall k, (k < n_clusters p)%nat -> weight p' k * pdf (centre p' k) (spread_of p' k) (get q' i) = weight p k * pdf (centre p k) (spread_of p k) (get q i) * / c).
    { intros h Hh. destruct (E3 h Hh) as [W [C [S G]]]. rewrite W, (normal_scaled pdf (n_dim p) a b (centre p h) (centre p' h) (spread_of p h) (spread_of p' h) (get q i) (get q' i) N (P h Hh) S A C G) by (intros j Hj; apply Q3; lia).
      fold c. unfold Rdiv. ring. }
    rewrite E1, (rsum_ext _ _ _ F), rsum_scal_r, F by exact Hk. set (s := rsum _ _).
    destruct (Reqb s 0) eqn:Z.
    - apply Reqb_true in Z. rewrite Z, Rmult_0_l, (proj2 (Reqb_true 0 0) eq_refl). reflexivity.
    - assert (s <> 0) by (intros X; rewrite X, (proj2 (Reqb_true 0 0) eq_refl) in Z; discriminate). assert (0 < / c) by (apply Rinv_0_lt_compat; exact R1).
      destruct (Reqb (s * / c) 0) eqn:Z2; [apply Reqb_true in Z2; exfalso; assert (s = 0) by nra; contradiction|]. field. repeat split; try assumption; lra. }
  split; [intros i k Hi Hk; rewrite !e_step_eq; apply Post; assumption|].
  intros p1 H1 Nz. pose proof (valid_clusters p V) as Hm. destruct E as [E1 [E2 E3]].
  assert (Cs : forall k, (k < n_clusters p)%nat -> col_sum (e_step pdf q' p') k = col_sum (e_step pdf q p) k).
  { intros k Hk. rewrite !col_sum_posterior, Q1. apply rsum_ext. intros i Hi. apply Post; assumption. }
  assert (Cn : forall k, (k < n_clusters p)%nat -> col_sum (e_step pdf q p) k <> 0).
  { intros k Hk Z. destruct (Nz k Hk) as [i [Hi Ni]]. apply Ni. rewrite e_step_eq. rewrite col_sum_posterior in Z.
    apply (rsum_mem0 (nr q) (fun i => posterior pdf q p i k)); [intros h _; apply posterior_nonneg; [apply N|exact V]|exact Z|exact Hi]. }
  destruct (m_step_ok eig cn L q (e_step pdf q p)) as [p2 [M1 [_ [_ [_ [C1 [D1 F1]]]]]]]; [exact Hm|reflexivity|intros; rewrite e_step_eq; apply posterior_nonneg; [apply N|exact V]|exact Cn|].
  destruct (m_step_ok eig cn L q' (e_step pdf q' p')) as [p2' [M1' [V2' [Cv' [_ [C1' [D1' F1']]]]]]]; [cbn; lia|reflexivity|intros; rewrite e_step_eq; apply posterior_nonneg; [apply N|exact V']|
    cbn [e_step nc]; rewrite E1; intros k Hk; rewrite (Cs k Hk); apply Cn; exact Hk|].
  assert (p2 = p1) by congruence. subst p2. exists p2'. split; [exact M1'|]. cbn [e_step nc] in *. rewrite E1 in *.
  split; [congruence|]. split; [congruence|]. rewrite C1. intros k Hk. rewrite D1.
  destruct (F1 k Hk) as [_ [G1 [G2 G3]]]. destruct (F1' k Hk) as [_ [G1' [G2' G3']]].
  assert (T : rsum (n_clusters p) (col_sum (e_step pdf q' p')) = rsum (n_clusters p) (col_sum (e_step pdf q p))) by (apply rsum_ext; exact Cs).
  assert (Mu : forall j, (j < nc q)%nat -> centre p2' k j = a j * centre p1 k j + b j).
  { intros j Hj. rewrite G2', G2, Q1, (Cs k Hk). specialize (Cn k Hk).
    rewrite (rsum_ext (nr q) _ (fun i => a j * (get (e_step pdf q p) i k * get q i j) + get (e_step pdf q p) i k * b j)).
    2:{ intros i Hi. rewrite !e_step_eq, Post, Q3 by assumption. ring. }
    rewrite rsum_plus, rsum_scal, rsum_scal_r. fold (col_sum (e_step pdf q p) k). change (rsum (nr q) (fun i => get (e_step pdf q p) i k)) with (col_sum (e_step pdf q p) k). field. exact Cn. }
  split; [rewrite G1, G1', T, (Cs k Hk); reflexivity|]. split; [exact Mu|]. split.
  { rewrite Forall_forall in Cv'. rewrite <- Q2, <- D1'. apply Cv'. apply nth_In. destruct V2' as [_ [_ [_ [_ [X _]]]]]. rewrite X, C1'. exact Hk. }
  intros i j Hi Hj. rewrite G3', G3, Q1, (Cs k Hk). specialize (Cn k Hk).
  rewrite (rsum_ext (nr q) _ (fun h => a i * a j * (get (e_step pdf q p) h k * (get q h i - centre p1 k i) * (get q h j - centre p1 k j)))).
  2:{ intros h Hh. rewrite !e_step_eq, Post, !Q3, !Mu by assumption. ring. }
  rewrite rsum_scal. unfold Rdiv. ring.
Qed.
Print Assumptions C131_step.

Lemma rescale_ok a b p : length (covs p) = n_clusters p -> rescaled a b p (rescale a b p).
Proof.
  intros H. split; [reflexivity|]. split; [reflexivity|]. intros k Hk. split; [reflexivity|]. split; [intros; reflexivity|].
  unfold spread_of. cbn [rescale covs]. set (f := fun c : mat R => mkMat (n_dim p) (n_dim p) (fun i j => a i * a j * get c i j)).
  rewrite (nth_indep (map f (covs p)) _ (f (mkMat 0 0 (fun _ _ => 0)))) by (rewrite map_length; lia). rewrite map_nth. split; [split; reflexivity|]. intros; reflexivity.
Qed.
Lemma rescale_rows_ok a b q : rescaled_rows a b q (rescale_rows a b q).
Proof. split; [reflexivity|]. split; [reflexivity|]. intros; reflexivity. Qed.

(** Samples are the same when the normal variates are measured on the other scale. *)
Theorem C131_samples : forall a b p p' n labels draw, positive_scale (n_dim p) a -> rescaled a b p p' -> prob p' = prob p ->
  (forall k j, (k < n_clusters p)%nat -> (j < n_dim p)%nat -> 0 < get (spread_of p k) j j) ->
  match random_gmcm n p labels draw, random_gmcm n p' labels (fun k i j => a j * draw k i j + b j) with
  | Ok u, Ok u' => nr u' = nr u /\ nc u' = nc u /\ forall i j, (j < nc u)%nat -> get u' i j = get u i j
  | Err e, Err e' => e = e'
  | _, _ => False
  end.
Proof.
  intros a b p p' n labels draw A E Hp P. unfold random_gmcm. rewrite Hp, (proj1 E), (proj1 (proj2 E)).
  destruct (_ || _); [reflexivity|]. destruct (_ && _); [reflexivity|]. split; [reflexivity|]. split; [reflexivity|]. cbn [get nc]. intros i j Hj.
  apply (cdf_scaled a b p p' A E j _ Hj). intros k Hk. apply P; assumption.
Qed.
Print Assumptions C131_samples.

(** The criterion Li compares the mixture's log-likelihood with the copula's of the step before.  The first moves with the scale and the second does
    not: whatever the two are, on one scale they are closer than eps and on another they are not. *)
Theorem C131_li_refuted : forall pdf norm_pdf p q g v eps, documented_normal pdf -> documented_univariate norm_pdf -> valid p -> nc q = n_dim p -> (0 < nr q)%nat -> (0 < nc q)%nat ->
  (forall k, (k < n_clusters p)%nat -> positive_definite (n_dim p) (spread_of p k)) -> gmm_log_likelihood pdf q p = Fin g -> 0 < eps ->
  exists s t, 0 < s /\ 0 < t /\
    let on s := gmm_log_likelihood pdf (rescale_rows (fun _ => s) (fun _ => 0) q) (rescale (fun _ => s) (fun _ => 0) p) in
    let copula s := gmcm_log_likelihood pdf norm_pdf (rescale_rows (fun _ => s) (fun _ => 0) q) (rescale (fun _ => s) (fun _ => 0) p) in
    copula s = copula t /\ exists x y, on s = Fin x /\ on t = Fin y /\ Rabs (x - v) < eps /\ eps <= Rabs (y - v).
Proof.
  intros pdf n p q g v eps N U V Hd Hn Hc P Eg He. assert (Lc : length (covs p) = n_clusters p) by apply V.
  set (K := INR (nr q) * INR (n_dim p)). assert (HK : 0 < K) by (apply Rmult_lt_0_compat; apply lt_0_INR; lia).
  assert (S : forall z, gmm_log_likelihood pdf (rescale_rows (fun _ => exp z) (fun _ => 0) q) (rescale (fun _ => exp z) (fun _ => 0) p) = Fin (g - K * z)
     /\ gmcm_log_likelihood pdf n (rescale_rows (fun _ => exp z) (fun _ => 0) q) (rescale (fun _ => exp z) (fun _ => 0) p) = gmcm_log_likelihood pdf n q p).
  { intros z. destruct (C131_likelihood pdf n (fun _ => exp z) (fun _ => 0) p _ q _ N U (fun _ _ => exp_pos z) (rescale_ok _ _ p Lc) (rescale_rows_ok _ _ q) Hd P) as [H1 H2].
    split; [|exact H1]. rewrite H2, Eg. cbn. f_equal. rewrite ln_exp, rsum_const. unfold K. ring. }
  exists (exp ((g - v) / K)), (exp ((g - v - eps) / K)). split; [apply exp_pos|]. split; [apply exp_pos|]. cbv zeta.
  destruct (S ((g - v) / K)) as [S1 S2]. destruct (S ((g - v - eps) / K)) as [T1 T2]. split; [congruence|].
  exists v, (v + eps). split; [rewrite S1; f_equal; field; lra|]. split; [rewrite T1; f_equal; field; lra|].
  replace (v - v) with 0 by ring. replace (v + eps - v) with eps by ring. rewrite Rabs_R0, Rabs_pos_eq by lra. lra.
Qed.
Print Assumptions C131_li_refuted.

(** Two components on the line, measured in half units from 1: means 1 and 5, variances 4.  Both are valid and the step exists. *)
Example C131_case : forall eig cn pdf, libraries eig cn -> documented_normal pdf ->
  let a := fun _ : nat => 2 in let b := fun _ : nat => 1 in
  valid pair01 /\ valid (rescale a b pair01) /\ positive_scale (n_dim pair01) a /\ rescaled a b pair01 (rescale a b pair01) /\ rescaled_rows a b points02 (rescale_rows a b points02) /\
  nc points02 = n_dim pair01 /\ (forall k, (k < n_clusters pair01)%nat -> positive_definite (n_dim pair01) (spread_of pair01 k)) /\
  (exists p1, m_step eig cn points02 (e_step pdf points02 pair01) = Ok p1) /\
  (forall k, (k < n_clusters pair01)%nat -> exists i, (i < nr points02)%nat /\ get (e_step pdf points02 pair01) i k <> 0) /\
  centre (rescale a b pair01) 1 0 = 5 /\ (exists norm_pdf, documented_univariate norm_pdf) /\
  (exists g, gmm_log_likelihood pdf points02 pair01 = Fin g).
Proof.
  intros eig cn pdf L N a b. destruct (C122_case eig cn pdf L N) as [p1 [V [_ [PP [Ex [M _]]]]]].
  split; [exact V|]. split.
  { destruct V as [V1 [V2 _]]. split; [exact V1|]. split; [exact V2|]. split; [reflexivity|]. split; [reflexivity|]. split; [reflexivity|].
    assert (C : covariance 1 (mkMat 1 1 (fun i j => a i * a j * get unit1 i j))).
    { split; [split; reflexivity|]. split; [intros i j _ _; cbn; ring|]. intros x. unfold quad, a. cbn. pose proof (Rle_0_sqr (x O)) as Q. unfold Rsqr in Q. nra. }
    cbn [rescale covs n_dim pair01 map]. constructor; [apply covariance_almost, C|]. constructor; [apply covariance_almost, C|constructor]. }
  split; [intros j _; unfold a; lra|]. split; [apply rescale_ok; reflexivity|]. split; [apply rescale_rows_ok|]. split; [reflexivity|]. split; [exact PP|]. split; [exists p1; exact M|].
  assert (Pos : forall i k, (k < 2)%nat -> 0 < weight pair01 k * pdf (centre pair01 k) (spread_of pair01 k) (get points02 i)).
  { intros i k Hk. apply Rmult_lt_0_compat; [destruct k as [|[|k]]; cbn; lra || lia|]. apply (normal_pos pdf 1); [exact N|]. apply PP. exact Hk. }
  split.
  { intros k Hk. exists O. split; [cbn; lia|]. rewrite e_step_eq. unfold posterior. pose proof (mixed_pos pdf pair01 (get points02 O) N V PP) as Mp. unfold mixed in Mp.
    destruct (Reqb _ 0) eqn:E; [apply Reqb_true in E; lra|]. apply Rgt_not_eq. apply Rdiv_lt_0_compat; [apply Pos; exact Hk|exact Mp]. }
  split; [unfold centre, a, b; cbn; ring|].
  split; [exists (fun x m v => exp (- ((x - m) * (x - m)) / (2 * v)) / sqrt (2 * PI * v)); intros x m v _; reflexivity|].
  eexists. unfold gmm_log_likelihood. apply (esum_map_fin (fun i => elog (mixture (plain pdf) pair01 (get points02 i))) (fun i => ln (mixed pair01 (fun mu c => pdf mu c (get points02 i))))).
  intros i _. rewrite mixture_plain. unfold elog. rewrite (proj2 (Rltb_true _ _)) by (apply (mixed_pos pdf pair01 (get points02 i) N V PP)). reflexivity.
Qed.
