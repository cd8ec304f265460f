(** C105: samples of the multivariate t distribution. *)
From Coquelicot Require Import Coquelicot.
From Verif Require Import Base RSumLib Ext S_Linalg M_Linalg S_Stats M_Stats T_Stats S_EllipDensity S_Sampling P_Sampling M_StudentSampling S_StudentSampling.
From Coq Require Import Psatz.
Local Close Scope Z_scope. Open Scope R_scope.

(** scipy's gamma function can be had *)
Lemma euler_gamma_exists : exists gamma, euler_gamma gamma /\ forall a, 0 < a -> 0 < gamma a.
Proof.
  exists (fun a => RInt_gen (fun v => Rpower v (a - 1) * exp (- v)) (at_right 0) (Rbar_locally p_infty)).
  assert (K : forall a, 0 < a -> exists G, 0 < G /\ half_line (fun v => Rpower v (a - 1) * exp (- v)) G /\ RInt_gen (fun v => Rpower v (a - 1) * exp (- v)) (at_right 0) (Rbar_locally p_infty) = G).
  { intros a Ha. destruct (gamma_exists a Ha) as [G [PG HG]]. exists G. split; [exact PG|]. split; [exact HG|]. apply (is_RInt_gen_unique (V := R_CompleteNormedModule)); try typeclasses eauto. exact HG. }
  split; intros a Ha; destruct (K a Ha) as (G & PG & HG & E).
  - cbv beta. rewrite E. exact HG.
  - cbv beta. rewrite E. exact PG.
Qed.
Lemma half_exp a c G : 0 < c -> half_line (fun v => Rpower v (a - 1) * exp (- v)) G -> half_line (fun w => Rpower w (a - 1) * exp (- (c * w))) (Rpower c (- a) * G).
Proof.
  intros Hc H. pose proof (half_scal _ _ (Rpower c (- a)) (half_stretch _ _ c Hc H)) as K. eapply half_ext; [|exact K]. intros w Hw. cbv beta.
  rewrite <- Rpower_mult_distr by assumption. replace (c * (Rpower c (a - 1) * Rpower w (a - 1) * exp (- (c * w)))) with (Rpower c 1 * Rpower c (a - 1) * (Rpower w (a - 1) * exp (- (c * w)))) by (rewrite (Rpower_1 c) by exact Hc; ring).
  rewrite <- Rpower_plus, <- Rmult_assoc, <- Rpower_plus. replace (- a + (1 + (a - 1))) with 0 by ring. rewrite Rpower_O by exact Hc. ring.
Qed.
Lemma sqrt_pow_half x d : 0 < x -> sqrt (x ^ d) = Rpower x (INR d / 2).
Proof. intros H. rewrite <- (Rpower_pow d x H). rewrite <- Rpower_sqrt by apply exp_pos. rewrite Rpower_mult. reflexivity. Qed.

(** The mean of the density of mu + Z / sqrt (W / df) over a chi-square W is the multivariate t density, in every dimension. *)
Theorem C105_mixture : forall gamma nu d det inv mu x, euler_gamma gamma -> 0 < gamma (nu / 2) -> 0 < nu -> 0 < det -> 0 <= student_quad d inv x mu ->
  half_line (fun w => chi_square_density gamma nu w * scaled_normal_density nu d det inv mu x w) (student_density gamma nu d det inv x mu).
Proof.
  intros gamma nu d det inv mu x HG G0 Hn Hd Hq. set (q := student_quad d inv x mu) in *. pose proof PI_RGT_0 as PP.
  assert (D0 : 0 <= INR d) by apply pos_INR. set (a := (nu + INR d) / 2). assert (A0 : 0 < a) by (unfold a; lra).
  assert (Q0 : 0 <= q / nu) by (apply Rmult_le_pos; [exact Hq|left; apply Rinv_0_lt_compat, Hn]). set (c := (1 + q / nu) / 2). assert (C0 : 0 < c) by (unfold c; lra).
  assert (SD : 0 < sqrt det) by (apply sqrt_lt_R0; exact Hd).
  pose proof (half_scal _ _ (/ (Rpower 2 (nu / 2) * gamma (nu / 2) * Rpower nu (INR d / 2) * Rpower (2 * PI) (INR d / 2) * sqrt det)) (half_exp a c (gamma a) C0 (HG a A0))) as K.
  pose proof (exp_pos (nu / 2 * ln 2)) as P1. fold (Rpower 2 (nu / 2)) in P1. pose proof (exp_pos (INR d / 2 * ln nu)) as P2. fold (Rpower nu (INR d / 2)) in P2. pose proof (exp_pos (INR d / 2 * ln (2 * PI))) as P3. fold (Rpower (2 * PI) (INR d / 2)) in P3.
  replace (student_density gamma nu d det inv x mu) with (/ (Rpower 2 (nu / 2) * gamma (nu / 2) * Rpower nu (INR d / 2) * Rpower (2 * PI) (INR d / 2) * sqrt det) * (Rpower c (- a) * gamma a)).
  - eapply half_ext; [|exact K]. intros w Hw. cbv beta. unfold chi_square_density, scaled_normal_density, normal_density_n.
    assert (W0 : 0 < w / nu) by (apply Rdiv_lt_0_compat; assumption).
    assert (EQ : quad d (fun i j => w / nu * inv i j) (fun i => x i - mu i) = w / nu * q).
    { unfold q, student_quad, quad. rewrite <- rsum_scal. apply rsum_ext. intros i _. rewrite <- rsum_scal. apply rsum_ext. intros j _. ring. }
    rewrite EQ. 
    assert (ES : sqrt ((2 * PI) ^ d * (det / (w / nu) ^ d)) = Rpower (2 * PI) (INR d / 2) * sqrt det * Rpower nu (INR d / 2) / Rpower w (INR d / 2)).
    { assert (PW : 0 < (w / nu) ^ d) by (apply pow_lt, W0). unfold Rdiv at 1. rewrite <- Rmult_assoc, sqrt_mult; [|apply Rmult_le_pos; [apply pow_le; lra|lra]|left; apply Rinv_0_lt_compat, PW].
      rewrite sqrt_mult; [|apply pow_le; lra|lra]. rewrite sqrt_inv, !sqrt_pow_half by (try exact W0; lra). unfold Rdiv at 2. rewrite <- (Rpower_mult_distr w (/ nu)) by (try exact Hw; apply Rinv_0_lt_compat, Hn).
      assert (EN : Rpower (/ nu) (INR d / 2) = / Rpower nu (INR d / 2)) by (unfold Rpower; rewrite ln_Rinv by exact Hn; rewrite <- exp_Ropp; f_equal; ring).
      rewrite EN. pose proof (exp_pos (INR d / 2 * ln w)) as P4. fold (Rpower w (INR d / 2)) in P4. field. repeat split; lra. }
    rewrite ES. pose proof (exp_pos (INR d / 2 * ln w)) as P4. fold (Rpower w (INR d / 2)) in P4.
    replace (Rpower w (a - 1)) with (Rpower w (nu / 2 - 1) * Rpower w (INR d / 2)) by (rewrite <- Rpower_plus; f_equal; unfold a; field).
    replace (exp (- (c * w))) with (exp (- (w / 2)) * exp (- (w / nu * q) / 2)) by (rewrite <- exp_plus; f_equal; unfold c; field; lra). field. repeat split; lra.
  - unfold student_density. fold q. fold a. 
    assert (EC : Rpower c (- a) = Rpower 2 (nu / 2) * Rpower 2 (INR d / 2) * Rpower (1 + q / nu) (- a)).
    { unfold c, Rdiv at 1. rewrite <- Rpower_mult_distr by lra. rewrite Rmult_comm. f_equal. rewrite <- Rpower_plus. unfold Rpower. rewrite ln_Rinv by lra. f_equal. unfold a. field. }
    rewrite EC. rewrite <- (Rpower_mult_distr nu PI) by lra. replace (Rpower (2 * PI) (INR d / 2)) with (Rpower 2 (INR d / 2) * Rpower PI (INR d / 2)) by (apply Rpower_mult_distr; lra).
    pose proof (exp_pos (INR d / 2 * ln 2)) as P4. fold (Rpower 2 (INR d / 2)) in P4. pose proof (exp_pos (INR d / 2 * ln PI)) as P5. fold (Rpower PI (INR d / 2)) in P5. field. repeat split; lra.
Qed.
Print Assumptions C105_mixture.

Section Generator.
  Variable St : Type.
  Variable init : Z -> St.
  Variable chisq : R -> nat -> St -> list R * St.
  Variable mvn : list R -> mat R -> nat -> St -> list (list R) * St.
  Notation rvs := (mvt_rvs St init chisq mvn).

  (** Without a seed: the chi-square variates are drawn first and the normal rows from the state they leave; row k is
      mean + Z_k / sqrt (W_k / df), and the generator is left where the normal rows leave it. *)
  Theorem C105_rows : forall cov df n s, 0 < df <= 10000 ->
    let w := chisq df n s in
    let z := mvn (repeat 0 (nr cov)) cov n (snd w) in
    length (fst w) = n -> length (fst z) = n ->
    (forall mean, exists rows, rvs mean cov (Some df) n Shifted None s = (Ok rows, snd z) /\ length rows = n /\
      forall k, (k < n)%nat -> (forall m, mean = Some m -> length m = length (nth k (fst z) [])) ->
        length (nth k rows []) = length (nth k (fst z) []) /\
        forall j, (j < length (nth k (fst z) []))%nat ->
          nth j (nth k rows []) 0 = match mean with Some m => nth j m 0 | None => 0 end + nth j (nth k (fst z) []) 0 / sqrt (nth k (fst w) 0 / df)).
  Proof.
    intros cov df n s Hdf w z Lw Lz mean. unfold mvt_rvs. rewrite (proj2 (Rleb_false df 0)) by lra. unfold t_limit. rewrite (proj2 (Rltb_false 10000 df)) by lra.
    unfold mvn_rvs. fold w. destruct w as [ws s1] eqn:Ew. cbn [fst snd] in *. fold z. destruct z as [zs s2] eqn:Ez. cbn [fst snd] in *.
    set (d := map (fun w => sqrt (w / df)) ws). assert (Ld : length d = n) by (unfold d; rewrite map_length; exact Lw).
    assert (LD : length (divide_rows zs d) = n) by (unfold divide_rows; rewrite map_length, combine_length, Lz, Ld; apply Nat.min_id).
    assert (ND : forall k, (k < n)%nat -> nth k (divide_rows zs d) [] = map (fun x => x / sqrt (nth k ws 0 / df)) (nth k zs [])).
    { intros k Hk. unfold divide_rows. rewrite (nth_indep _ [] ((fun p : list R * R => map (fun x => x / snd p) (fst p)) ([], sqrt (0 / df)))) by (rewrite map_length, combine_length; lia).
      rewrite (map_nth (fun p : list R * R => map (fun x => x / snd p) (fst p))), combine_nth by congruence. cbn [fst snd]. unfold d. rewrite (map_nth (fun w => sqrt (w / df))). reflexivity. }
    assert (NE : forall k j, (k < n)%nat -> nth j (nth k (divide_rows zs d) []) 0 = nth j (nth k zs []) 0 / sqrt (nth k ws 0 / df)).
    { intros k j Hk. rewrite (ND k Hk). replace 0 with (0 / sqrt (nth k ws 0 / df)) at 1 by (unfold Rdiv; ring). rewrite (map_nth (fun x => x / sqrt (nth k ws 0 / df))). reflexivity. }
    exists (shift_rows mean (divide_rows zs d)). split; [reflexivity|]. destruct mean as [m|]; cbn [shift_rows].
    - split; [rewrite map_length; exact LD|]. intros k Hk Hm. specialize (Hm m eq_refl).
      assert (E : nth k (map (fun row => map (fun p => fst p + snd p) (combine row m)) (divide_rows zs d)) [] = map (fun p => fst p + snd p) (combine (nth k (divide_rows zs d) []) m)).
      { rewrite (nth_indep _ [] ((fun row => map (fun p => fst p + snd p) (combine row m)) [])) by (rewrite map_length; lia). rewrite (map_nth (fun row => map (fun p => fst p + snd p) (combine row m))). reflexivity. }
      rewrite E. assert (L : length (nth k (divide_rows zs d) []) = length m) by (rewrite (ND k Hk), map_length; congruence). split; [rewrite map_length, combine_length, L; lia|].
      intros j Hj. rewrite (nth_indep _ 0 ((fun p => fst p + snd p) (0, 0))) by (rewrite map_length, combine_length; lia). rewrite (map_nth (fun p => fst p + snd p)), combine_nth by exact L. cbn [fst snd]. rewrite (NE k j Hk). ring.
    - split; [exact LD|]. intros k Hk _. split; [rewrite (ND k Hk), map_length; reflexivity|]. intros j Hj. rewrite (NE k j Hk). ring.
  Qed.

  (** With a seed the result does not depend on the state before the call. *)
  Theorem C105_reproducible : forall mean cov df n ty k s s', fst (rvs mean cov df n ty (Some k) s) = fst (rvs mean cov df n ty (Some k) s').
  Proof.
    intros. unfold mvt_rvs, mvn_rvs. destruct df as [df|]; [|reflexivity]. destruct (Rleb df 0); [reflexivity|]. destruct (Rltb t_limit df); [reflexivity|].
    destruct (chisq df n (init k)) as [w s1]. destruct ty; reflexivity.
  Qed.
  (** Both kinds of non-central t coincide when there is no mean. *)
  Theorem C105_central : forall cov df n seed s, rvs None cov df n Kshirsagar seed s = rvs None cov df n Shifted seed s.
  Proof. intros. unfold mvt_rvs. cbn [mean_or_zero shift_rows]. destruct df as [df|]; reflexivity. Qed.
  (** Above 10000 degrees of freedom the rows are normal. *)
  Theorem C105_normal_limit : forall mean cov df n ty s, 10000 < df ->
    rvs mean cov (Some df) n ty None s = (let z := mvn (match mean with Some m => m | None => repeat 0 (nr cov) end) cov n s in (Ok (fst z), snd z)).
  Proof. intros. unfold mvt_rvs. rewrite (proj2 (Rleb_false df 0)) by lra. unfold t_limit. rewrite (proj2 (Rltb_true 10000 df)) by lra. unfold mvn_rvs, mean_or_zero. destruct (mvn _ _ _ _); reflexivity. Qed.
  Theorem C105_invalid : forall mean cov df n ty seed s, (forall v, df = Some v -> v <= 0) -> rvs mean cov df n ty seed s = (Err ValueError, s).
  Proof. intros mean cov df n ty seed s H. unfold mvt_rvs. destruct df as [v|]; [|reflexivity]. rewrite (proj2 (Rleb_true v 0)) by (apply H; reflexivity). reflexivity. Qed.

  (** The copula's sample: every row is the row of t variates under the t distribution function, so it lies below us exactly where the
      t variates lie below the quantiles of us. *)
  Theorem C105_copula : forall t_cdf q sigma df n seed s, 0 < df ->
    (forall x y, x < y -> t_cdf x df < t_cdf y df) -> (forall u, 0 < u < 1 -> t_cdf (q u) df = u) ->
    let r := rvs None sigma (Some df) n Shifted seed s in
    let c := student_random St init chisq mvn t_cdf sigma df n seed s in
    snd c = snd r /\ (forall e, fst r = Err e -> fst c = Err e) /\
    forall rows, fst r = Ok rows -> exists us, fst c = Ok us /\ length us = length rows /\
      forall k v, (k < length rows)%nat -> Forall (fun x => 0 < x < 1) v ->
        (Forall2 Rle (nth k us []) v <-> Forall2 Rle (nth k rows []) (map q v)).
  Proof.
    intros t_cdf q sigma df n seed s Hdf Hi Hq r c. unfold c, student_random. fold r. destruct r as [res s']. cbn [fst snd]. split; [reflexivity|]. split; [intros e ->; reflexivity|].
    intros rows ->. cbn [rmap bind]. eexists; split; [reflexivity|]. split; [apply map_length|]. intros k v Hk Hv.
    rewrite (nth_indep _ [] (map (fun x => t_cdf x df) [])) by (rewrite map_length; exact Hk). rewrite (map_nth (map (fun x => t_cdf x df))). generalize (nth k rows []). clear k Hk rows.
    intros row. revert v Hv. induction row as [|x row IH]; intros [|u v] Hv; cbn [map]; [split; constructor|split; intros K; inversion K|split; intros K; inversion K|].
    inversion Hv as [|? ? Hu Hv']; subst. assert (E : t_cdf x df <= u <-> x <= q u).
    { rewrite <- (Hq u Hu) at 1. split; intros K; destruct (Rle_or_lt x (q u)) as [L|L]; try exact L.
      - pose proof (Hi _ _ L). lra.
      - destruct L as [L|L]; [left; apply Hi, L|rewrite L; lra].
      - lra. }
    split; intros K; inversion K as [|? ? ? ? K1 K2]; subst; constructor; try (apply E; exact K1); apply (IH v Hv'); exact K2.
  Qed.
End Generator.

(** The density evaluated by multivariate_t.pdf is that of the rows drawn by multivariate_t.rvs: the mean over the chi-square variate
    of the density of mu + Z / sqrt (W / df). *)
Theorem C105_density : forall eig det inv gamma beta mvn_pdf d rows xs mu df ic, euler_gamma gamma -> gamma_beta gamma beta ->
  (1 <= d)%nat -> length rows = d -> length mu = d -> Forall (fun x => length x = d) xs -> 0 < df <= 10000 ->
  let cov := rows_mat d rows in
  is_psd eig false psd_tol (AMat cov) = true -> pos_semidef d (get cov) -> 0 < det cov -> inv cov = Ok ic -> inverse d (get cov) (get ic) ->
  exists vs, mvt_pdf eig det inv gamma beta mvn_pdf (XMat d xs) (MVec mu) (CRows d rows) (Some df) = Ok (map Fin vs) /\
    Forall2 (fun x v => 0 < v /\ half_line (fun w => chi_square_density gamma df w *
      scaled_normal_density df d (det cov) (get ic) (fun i => nth i mu 0) (fun i => nth i x 0) w) v) xs vs.
Proof.
  intros eig det inv gamma beta mvn_pdf d rows xs mu df ic HG GB Hd HL HM HX Hdf cov Hpsd Hp Hdet Hinv Hi.
  destruct (C51_density eig det inv gamma beta mvn_pdf d rows xs mu df ic GB Hd HL HM HX Hdf Hpsd Hp Hdet Hinv Hi) as [E _]. fold cov in E.
  exists (map (fun x => student_density gamma df d (det cov) (get ic) (fun i => nth i x 0) (fun i => nth i mu 0)) xs). split; [rewrite E, map_map; reflexivity|].
  clear E HX. induction xs as [|x xs IH]; cbn [map]; constructor; [|exact IH]. destruct GB as [Gp _].
  assert (D0 := pos_INR d). pose proof PI_RGT_0 as PP. split.
  - unfold student_density. apply Rmult_lt_0_compat; [|apply exp_pos]. apply Rdiv_lt_0_compat; [apply Gp; lra|].
    apply Rmult_lt_0_compat; [apply Rmult_lt_0_compat; [apply Gp; lra|apply exp_pos]|apply sqrt_lt_R0; exact Hdet].
  - apply C105_mixture; [exact HG|apply Gp; lra|lra|exact Hdet|]. unfold student_quad. apply (inverse_quad d (get cov) (get ic) (fun i => nth i x 0 - nth i mu 0) Hp Hi).
Qed.
Print Assumptions C105_density.

(** With a seed the chi-square variates and the normal rows start from the same state, so they are not independent: if the first
    chi-square variate is made from the normal number that also begins the first row, the first number of the sample never exceeds
    sqrt (2 df / 3), whatever the seed, although the density is positive everywhere. *)
Theorem C105_seed_refuted : forall St init chisq mvn (g : St -> R) acc cov df n k s rows, shares_normals g acc chisq mvn ->
  2 < df <= 10000 -> (1 <= n)%nat -> (forall i j, get cov i j = if Nat.eqb i j then 1 else 0) -> acc df (init k) ->
  fst (mvt_rvs St init chisq mvn None cov (Some df) n Shifted (Some k) s) = Ok rows ->
  exists x more rest, rows = (x :: more) :: rest /\ x <= sqrt (2 * df / 3).
Proof.
  intros St init chisq mvn g acc cov df n k s rows [HC HM] Hdf Hn Hcov Ha E. destruct n as [|n]; [lia|].
  destruct (HC df n (init k) ltac:(lra) Ha) as (P1 & rest & Ec). destruct (HM cov n (init k) Hcov) as (more & rws & Em).
  unfold mvt_rvs in E. rewrite (proj2 (Rleb_false df 0)) in E by lra. unfold t_limit in E. rewrite (proj2 (Rltb_false 10000 df)) in E by lra. unfold mvn_rvs in E.
  destruct (chisq df (S n) (init k)) as [w s1]. cbn [fst] in Ec. subst w. rewrite Em in E. cbn [fst shift_rows divide_rows map combine snd] in E. injection E as <-.
  eexists _, _, _. split; [reflexivity|]. set (x := g (init k)) in *. unfold marsaglia_tsang. set (b := df / 2 - 1 / 3) in *. assert (B0 : 0 < b) by (unfold b; lra).
  assert (SB : 0 < sqrt b) by (apply sqrt_lt_R0, B0). assert (SQ : sqrt b * sqrt b = b) by (apply sqrt_sqrt; lra). set (y := / (3 * sqrt b) * x) in *.
  assert (X : x = 3 * sqrt b * y) by (unfold y; field; lra). assert (Y3 : 0 < (1 + y) ^ 3) by (apply pow_lt, P1).
  set (v := 2 * (b * (1 + y) ^ 3) / df). assert (V0 : 0 < v) by (unfold v; apply Rdiv_lt_0_compat; [apply Rmult_lt_0_compat; [lra|apply Rmult_lt_0_compat; assumption]|lra]).
  assert (SV : 0 < sqrt v) by (apply sqrt_lt_R0, V0). destruct (Rle_or_lt x 0) as [Hx|Hx].
  - apply Rle_trans with 0; [|apply sqrt_pos]. unfold Rdiv. apply Rmult_le_reg_r with (sqrt v); [exact SV|]. rewrite Rmult_assoc, Rinv_l by lra. lra.
  - rewrite <- (sqrt_Rsqr (x / sqrt v)) by (apply Rlt_le, Rdiv_lt_0_compat; assumption). apply sqrt_le_1_alt. unfold Rsqr.
    replace (x / sqrt v * (x / sqrt v)) with (x * x / v) by (rewrite <- (sqrt_sqrt v) at 1 by lra; field; lra).
    apply Rmult_le_reg_r with v; [exact V0|]. unfold Rdiv at 1. rewrite Rmult_assoc, Rinv_l by lra. replace (2 * df / 3 * v) with (b * (4 * (1 + y) ^ 3) / 3) by (unfold v; field; lra).
    rewrite X. replace (3 * sqrt b * y * (3 * sqrt b * y) * 1) with (b * (9 * (y * y))) by (rewrite <- SQ at 1; ring).
    assert (K : 0 <= (y - 2) * (y - 2) * (4 * y + 1)). { apply Rmult_le_pos; [apply Rle_0_sqr|]. unfold y. assert (0 < / (3 * sqrt b)) by (apply Rinv_0_lt_compat; lra). pose proof (Rmult_lt_0_compat _ _ H Hx). lra. }
    assert (K2 : b * (27 * (y * y)) <= b * (4 * (1 + y) ^ 3)) by (apply Rmult_le_compat_l; nra). lra.
Qed.
Print Assumptions C105_seed_refuted.

(** Cases: the hypotheses can be met *)
Example C105_mixture_case : exists gamma, euler_gamma gamma /\ 0 < gamma (4 / 2) /\ 0 <= student_quad 2 (get mvt_case_inv) (fun _ => 1) (fun _ => 0).
Proof. destruct euler_gamma_exists as (gamma & H & P). exists gamma. split; [exact H|]. split; [apply P; lra|]. unfold student_quad, quad, mvt_case_inv. cbn. lra. Qed.
Example C105_density_case : exists gamma, euler_gamma gamma /\ gamma_beta gamma (fun a b => gamma a * gamma b / gamma (a + b)).
Proof. destruct euler_gamma_exists as (gamma & H & P). exists gamma. split; [exact H|]. split; [exact P|]. intros. reflexivity. Qed.
Definition case_chisq (df : R) (n : nat) (s : R) : list R * R := (repeat (marsaglia_tsang df s) n, s + 1).
Definition case_mvn (mean : list R) (cov : mat R) (n : nat) (s : R) : list (list R) * R := (repeat (s :: repeat 0 (nr cov - 1)) n, s + 2).
Example C105_rows_case : forall n s, length (fst (case_chisq 4 n s)) = n /\ length (fst (case_mvn (repeat 0 2) (rows_mat 2 [[1; 0]; [0; 1]]) n (s + 1))) = n.
Proof. intros. unfold case_chisq, case_mvn. cbn [fst]. rewrite !repeat_length. auto. Qed.
Example C105_seed_case : shares_normals (fun s : R => s) (fun df s => 0 < 1 + / (3 * sqrt (df / 2 - 1 / 3)) * s) case_chisq case_mvn /\
  forall s, exists x more rest, fst (mvt_rvs R IZR case_chisq case_mvn None (mkMat 2 2 (fun i j => if Nat.eqb i j then 1 else 0)) (Some 4) 3 Shifted (Some 7%Z) s) = Ok ((x :: more) :: rest).
Proof.
  split.
  - split.
    + intros df n s _ H. split; [exact H|]. eexists. reflexivity.
    + intros cov n s _. eexists _, _. reflexivity.
  - intros s. unfold mvt_rvs. rewrite (proj2 (Rleb_false 4 0)) by lra. unfold t_limit. rewrite (proj2 (Rltb_false 10000 4)) by lra. eexists _, _, _. reflexivity.
Qed.
Definition logit_cdf (x df : R) : R := / (1 + exp (- x)).
Example C105_copula_case : (forall x y, x < y -> logit_cdf x 4 < logit_cdf y 4) /\ forall u, 0 < u < 1 -> logit_cdf (ln (u / (1 - u))) 4 = u.
Proof.
  unfold logit_cdf. split.
  - intros x y H. pose proof (exp_increasing _ _ (Ropp_lt_contravar _ _ H)). pose proof (exp_pos (- x)). pose proof (exp_pos (- y)). apply Rinv_lt_contravar; [apply Rmult_lt_0_compat; lra|lra].
  - intros u H. rewrite <- ln_Rinv by (apply Rdiv_lt_0_compat; lra). rewrite exp_ln by (apply Rinv_0_lt_compat, Rdiv_lt_0_compat; lra). field. lra.
Qed.
Print Assumptions C105_rows.
Print Assumptions C105_reproducible.
Print Assumptions C105_central.
Print Assumptions C105_normal_limit.
Print Assumptions C105_invalid.
Print Assumptions C105_copula.
