(** The root searches and the sum of the integrals in aux_f1. *)
From Coquelicot Require Import Coquelicot.
From Coq Require Import Classical.
From Verif Require Import Base RSumLib Ext S_StablePdf P_StableInt M_Archimedean M_Special M_Specfunc M_Stable M_StablePdf P_StablePdf P_StablePdf2.
Open Scope R_scope.

Lemma opposite_product a b : opposite_signs a b -> emul a b = Ninf \/ exists p, emul a b = Fin p /\ p < 0.
Proof.
  destruct a as [x| | |], b as [y| | |]; cbn; intros H; try contradiction; auto.
  - right. exists (x * y). split; [reflexivity|exact H].
  - left. rewrite (proj2 (Rltb_false 0 x)), (proj2 (Rltb_true x 0)) by lra. reflexivity.
  - left. rewrite (proj2 (Rltb_true 0 x)) by lra. reflexivity.
  - left. rewrite (proj2 (Rltb_false 0 y)), (proj2 (Rltb_true y 0)) by lra. reflexivity.
  - left. rewrite (proj2 (Rltb_true 0 y)) by lra. reflexivity.
Qed.
Lemma find_ok brentq f a b : a < b -> opposite_signs (f a) (f b) -> find_root_x brentq f a b = Ok (brentq f a b).
Proof.
  intros ab H. unfold find_root_x. rewrite (proj2 (Rltb_false b a)) by lra.
  assert (E : forall n, expand_x f n a b = (a, b)). { intros [|n]; [reflexivity|]. cbn [expand_x]. unfold eprod. destruct (opposite_product _ _ H) as [->|(p & -> & D)]; [reflexivity|]. rewrite (proj2 (Rleb_false 0 p)) by lra. reflexivity. }
  rewrite E. unfold eprod. destruct (opposite_product _ _ H) as [->|(p & -> & D)]; cbn [eltb]; [reflexivity|]. rewrite (proj2 (Rltb_true p 0)) by lra. reflexivity.
Qed.

Section Code.
  Variables (al t0 xm t : R) (brentq : (R -> ext) -> R -> R -> R) (quad : (R -> ext) -> R -> R -> ext).
  Hypotheses (HB : exact_brentq brentq) (HQ : exact_quad quad) (O : ok al t0 xm) (I : inside t0 t) (Wt : W al t0 xm t = 0)
    (Hh : 1 < al -> t < PI / 2 - cut) (Hl : al < 1 -> cut < PI / 2 - t0).
  Let g := g1 al t0 xm.
  Let h := fun th => xexp (g th).

  Lemma g_t : g t = Fin 1.
  Proof.
    unfold g. rewrite g1_inside; [rewrite Wt, exp_0; reflexivity|exact O|exact I|]. assert (N : al <> 1) by apply O. pose proof cut_small as CS. pose proof I as I'; unfold PI2, inside in I' |- *; fold cut. destruct (Rlt_le_dec 1 al) as [A|A].
    - rewrite sgn_pos by lra. pose proof (Hh A) as Hh'. rewrite Rabs_pos_eq; lra.
    - rewrite sgn_neg by lra. pose proof (Hl ltac:(lra)) as Hl'. rewrite Rabs_pos_eq; lra.
  Qed.
  (** where the exponent is 1 *)
  Lemma g_one th : inside t0 th -> g th = Fin 1 -> th = t.
  Proof.
    intros J E. unfold g in E. destruct (Rlt_le_dec (14 / 10 ^ 15) (Rabs (PI2 - sgn (al - 1) * th))) as [Q|Q].
    - rewrite g1_inside in E by assumption. injection E as E. assert (Z : W al t0 xm th = 0) by (apply exp_inv; rewrite E, exp_0; reflexivity).
      assert (N : al <> 1) by apply O. destruct (Rtotal_order th t) as [D|[D|D]]; [|exact D|].
      + destruct (W_order al t0 xm th t O J I D) as (A & B). destruct (Rlt_le_dec 1 al) as [C|C]; [specialize (A C)|specialize (B ltac:(lra))]; lra.
      + destruct (W_order al t0 xm t th O I J D) as (A & B). destruct (Rlt_le_dec 1 al) as [C|C]; [specialize (A C)|specialize (B ltac:(lra))]; lra.
    - unfold g1 in E. rewrite (proj2 (Rleb_true _ _) Q) in E. injection E as E. lra.
  Qed.
  Lemma h_ends : h (- t0) = Fin 0 /\ h (PI / 2) = Fin 0.
  Proof.
    assert (N : al <> 1) by apply O. assert (Z : xexp (Fin 0) = Fin 0). { cbn. rewrite (proj2 (Rltb_false _ _)) by (unfold LARGE_EXP_POW; lra). f_equal. ring. }
    unfold h, g. pose proof I as I'; unfold inside in I'. pose proof cut_small as CS. destruct (Rlt_le_dec 1 al) as [A|A].
    - pose proof (Hh A) as Hh'. rewrite g1_t0_high by (try assumption; lra). rewrite g1_pi_high by (try assumption; lra). split; [reflexivity|exact Z].
    - assert (A1 : al < 1) by lra. pose proof (Hl A1) as Hl'. rewrite g1_t0_low by assumption. rewrite g1_pi_low by assumption. split; [exact Z|reflexivity].
  Qed.
  Lemma h_t : h t = Fin (exp (- (1))).
  Proof. unfold h. rewrite g_t. cbn. rewrite (proj2 (Rltb_false _ _)) by (unfold LARGE_EXP_POW; lra). f_equal. ring. Qed.
  Lemma exp_m1 : / 10 ^ 4 < exp (- (1)).
  Proof. rewrite exp_Ropp. apply Rinv_lt_contravar; [|pose proof exp_le_3; lra]. apply Rmult_lt_0_compat; [apply exp_pos|lra]. Qed.

  Lemma pieces_sum f' P' mid : (forall th, inside t0 th -> h th = Fin (f' th)) -> primitive_on (- t0) (PI / 2) 1 f' P' ->
    pieces brentq quad g t0 t mid = Ok (Fin (P' (PI / 2) - P' (- t0))).
  Proof.
    intros V PP. pose proof I as I'; unfold inside in I'.
    assert (Q : forall u w, - t0 <= u <= w -> w <= PI / 2 -> quad h u w = Fin (P' w - P' u)).
    { intros u w U X. destruct (Req_dec u w) as [->|NE]; [rewrite (proj1 HQ); f_equal; ring|].
      apply (proj2 HQ h f'); [lra|intros x D; apply V; unfold inside; lra|]. apply (integral_of_primitive u w 1); [lra|]. apply (primitive_sub (- t0) (PI / 2)); [lra|lra|exact PP]. }
    destruct h_ends as (E1 & E2). pose proof h_t as E3. pose proof exp_m1 as E4.
    unfold pieces. change (fun th => xexp (g th)) with h. cbv zeta. change PI2 with (PI / 2). change (xexp (g (- t0))) with (h (- t0)). change (xexp (g (PI / 2))) with (h (PI / 2)).
    change (fun th => esub (xexp (g th)) (Fin (/ 10 ^ 4))) with (fun th => esub (h th) (Fin (/ 10 ^ 4))).
    assert (L : eltb (Fin 0) (Fin (/ 10 ^ 4)) = true) by (cbn; apply Rltb_true; lra).
    rewrite E1, E2, L, !Bool.andb_true_r.
    assert (F1 : find_root_x brentq (fun th => esub (h th) (Fin (/ 10 ^ 4))) (- t0) t = Ok (brentq (fun th => esub (h th) (Fin (/ 10 ^ 4))) (- t0) t) /\ - t0 <= brentq (fun th => esub (h th) (Fin (/ 10 ^ 4))) (- t0) t <= t).
    { assert (S : opposite_signs (esub (h (- t0)) (Fin (/ 10 ^ 4))) (esub (h t) (Fin (/ 10 ^ 4)))) by (rewrite E1, E3; cbn; nra).
      split; [apply find_ok; [lra|exact S]|apply (HB (fun th => esub (h th) (Fin (/ 10 ^ 4)))); [lra|exact S]]. }
    assert (F2 : find_root_x brentq (fun th => esub (h th) (Fin (/ 10 ^ 4))) t (PI / 2) = Ok (brentq (fun th => esub (h th) (Fin (/ 10 ^ 4))) t (PI / 2)) /\ t <= brentq (fun th => esub (h th) (Fin (/ 10 ^ 4))) t (PI / 2) <= PI / 2).
    { assert (S : opposite_signs (esub (h t) (Fin (/ 10 ^ 4))) (esub (h (PI / 2)) (Fin (/ 10 ^ 4)))) by (rewrite E2, E3; cbn; nra).
      split; [apply find_ok; [lra|exact S]|apply (HB (fun th => esub (h th) (Fin (/ 10 ^ 4)))); [lra|exact S]]. }
    destruct F1 as (F1 & B1), F2 as (F2 & B2). rewrite F1, F2. destruct (eltb (Fin (/ 10 ^ 4)) mid); cbn [bind fst snd]; rewrite !Q by lra; cbn [eadd]; f_equal; f_equal; ring.
  Qed.
  Lemma elog_one a : elog a = Fin 0 -> a = Fin 1.
  Proof.
    destruct a as [x| | |]; cbn; try discriminate. destruct (Rltb 0 x) eqn:E; [|destruct (Reqb x 0); discriminate]. intros H. injection H as H. apply Rltb_true in E. f_equal. apply ln_inv; [exact E|lra|]. rewrite ln_1. exact H.
  Qed.
  (** the searches on a bracket around t *)
  Lemma by_roots_ok ll uu : - t0 <= ll < t -> t < uu <= PI / 2 ->
    opposite_signs (esub (g ll) (Fin 1)) (esub (g uu) (Fin 1)) -> opposite_signs (elog (g ll)) (elog (g uu)) ->
    exists mid, by_roots brentq g ll uu = Ok (Split t mid).
  Proof.
    intros L U S1 S2. pose proof I as I'; unfold inside in I'. unfold by_roots.
    rewrite (find_ok brentq (fun th => esub (g th) (Fin 1)) ll uu) by (try lra; exact S1). rewrite (find_ok brentq (fun th => elog (g th)) ll uu) by (try lra; exact S2).
    destruct (HB (fun th => esub (g th) (Fin 1)) ll uu ltac:(lra) S1) as (_ & R1). destruct R1 as (B1 & Z1). { exists t. split; [lra|]. rewrite g_t. cbn. f_equal. ring. }
    destruct (HB (fun th => elog (g th)) ll uu ltac:(lra) S2) as (_ & R2). destruct R2 as (B2 & Z2). { exists t. split; [lra|]. rewrite g_t. cbn. rewrite (proj2 (Rltb_true 0 1)) by lra. rewrite ln_1. reflexivity. }
    assert (Q1 : brentq (fun th => esub (g th) (Fin 1)) ll uu = t). { apply g_one; [unfold inside; lra|]. cbv beta in Z1. destruct (g (brentq (fun th => esub (g th) (Fin 1)) ll uu)); try discriminate Z1. injection Z1 as Z1. f_equal. lra. }
    assert (Q2 : brentq (fun th => elog (g th)) ll uu = t). { apply g_one; [unfold inside; lra|]. apply elog_one, Z2. }
    rewrite Q1, Q2. destruct (eltb _ _); eexists; reflexivity.
  Qed.

  Lemma locate_high fuel : 1 < al -> exists mid, locate brentq fuel al t0 g = Some (Ok (Split t mid)).
  Proof.
    intros A. pose proof (Hh A) as Hh'. pose proof I as I'; unfold inside in I'. pose proof cut_small as CS.
    assert (G1 : g (- t0) = Pinf) by (apply g1_t0_high; try assumption; lra). assert (G2 : g PI2 = Fin 0) by (apply g1_pi_high; [exact A|unfold PI2; lra]).
    unfold locate. rewrite G1, G2. rewrite (proj2 (Rleb_true 1 al)), (proj2 (Rltb_false al 1)) by lra. cbn [eltb andb orb]. rewrite (proj2 (Rltb_false 1 0)) by lra. cbn [orb].
    destruct (by_roots_ok (- t0) PI2) as (mid & ->); [lra|unfold PI2; lra| | |exists mid; reflexivity].
    - rewrite G1, G2. cbn. lra.
    - rewrite G1, G2. rewrite elog_0. cbn. exact Logic.I.
  Qed.
  (** the midpoints visited by the first loop *)
  Definition mids (n : nat) : R := PI / 2 - (PI / 2 + t0) / 2 ^ n.
  Lemma mids_0 : mids 0 = - t0. Proof. unfold mids. cbn. field. Qed.
  Lemma mids_S n : (mids n + PI2) / 2 = mids (S n).
  Proof. unfold mids, PI2. cbn [pow]. field. apply pow_nonzero. lra. Qed.
  Lemma mids_in n : inside t0 (mids (S n)).
  Proof.
    pose proof I as I'; unfold inside, mids in I' |- *. assert (P : 0 < 2 ^ n) by (apply pow_lt; lra). assert (P1 : 1 <= 2 ^ n) by (apply pow_R1_Rle; lra).
    assert (D : 0 < (PI / 2 + t0) / 2 ^ S n) by (apply Rdiv_lt_0_compat; [lra|apply pow_lt; lra]).
    assert (E : (PI / 2 + t0) / 2 ^ S n < PI / 2 + t0). { cbn [pow]. apply (Rmult_lt_reg_r (2 * 2 ^ n)); [lra|]. unfold Rdiv. rewrite Rmult_assoc, Rinv_l by lra. nra. }
    lra.
  Qed.
  Lemma g_low th : al < 1 -> inside t0 th -> g th = Fin (exp (W al t0 xm th)).
  Proof. intros A J. apply g1_inside; [exact O|exact J|]. pose proof cut_small. pose proof (Hl A) as Hl'. rewrite sgn_neg by lra. pose proof I as I'; unfold PI2, inside in I', J |- *; fold cut. rewrite Rabs_pos_eq; lra. Qed.
  Lemma close0 v : 0 < v -> (isclose (Fin v) 0 = true <-> v <= / 10 ^ 8).
  Proof. intros V. unfold isclose. rewrite Rleb_true. rewrite Rminus_0_r, Rabs_pos_eq, Rabs_R0, Rmult_0_r, Rplus_0_r by lra. tauto. Qed.
  Lemma below_t th : al < 1 -> inside t0 th -> exp (W al t0 xm th) < 1 -> th < t.
  Proof.
    intros A J E. destruct (Rlt_le_dec th t) as [|G0]; [assumption|exfalso]. destruct (Req_dec t th) as [<-|NE]; [rewrite Wt, exp_0 in E; lra|].
    pose proof (proj2 (W_order al t0 xm t th O I J ltac:(lra)) A) as D. rewrite Wt in D. apply exp_increasing in D. rewrite exp_0 in D. lra.
  Qed.
  Lemma pow2_big (y : R) : exists n, y < 2 ^ n.
  Proof. destruct (Pow_x_infinity 2 ltac:(rewrite Rabs_pos_eq; lra) (y + 1)) as (n & H). exists n. specialize (H n (le_n n)). rewrite Rabs_pos_eq in H by (apply pow_le; lra). lra. Qed.
  Lemma mids_past : exists N, forall n, (N <= n)%nat -> t < mids n.
  Proof.
    pose proof I as I'; unfold inside in I'. destruct (pow2_big ((PI / 2 + t0) / (PI / 2 - t))) as (N & H). exists N. intros n Hn. unfold mids.
    assert (P : 2 ^ N <= 2 ^ n) by (apply Rle_pow; [lra|exact Hn]). assert (PN : 0 < 2 ^ N) by (apply pow_lt; lra).
    apply (Rmult_lt_compat_r (PI / 2 - t)) in H; [|lra]. unfold Rdiv in H at 1. rewrite Rmult_assoc, Rinv_l, Rmult_1_r in H by lra.
    assert (D : (PI / 2 + t0) / 2 ^ n < PI / 2 - t). { apply (Rmult_lt_reg_r (2 ^ n)); [lra|]. unfold Rdiv. rewrite Rmult_assoc, Rinv_l by lra. nra. }
    lra.
  Qed.
  Lemma raise_ok : al < 1 -> exists N, forall fuel, (N <= fuel)%nat -> exists k, raise_ll fuel g (- t0) = Some (mids k) /\ (mids k < t) /\ (k = 0%nat \/ g (mids k) = Fin (exp (W al t0 xm (mids k)))).
  Proof.
    intros A. destruct mids_past as (N & HN). exists (S N). rewrite <- mids_0.
    assert (G : forall j fuel n, (N <= n + j)%nat -> (j < fuel)%nat -> mids n < t -> exists k, (n <= k)%nat /\ raise_ll fuel g (mids n) = Some (mids k) /\ mids k < t).
    { induction j as [|j IH]; intros fuel n Hj Hf Hn.
      - specialize (HN n ltac:(lia)). lra.
      - destruct fuel as [|fuel]; [lia|]. cbn [raise_ll]. rewrite mids_S. pose proof (mids_in n) as J. rewrite (g_low _ A J).
        destruct (isclose (Fin (exp (W al t0 xm (mids (S n))))) 0) eqn:E.
        + apply close0 in E; [|apply exp_pos]. assert (D : mids (S n) < t) by (apply below_t; [exact A|exact J|lra]).
          destruct (IH fuel (S n)) as (k & K & R & T); [lia|lia|exact D|]. exists k. split; [lia|]. split; assumption.
        + exists n. split; [lia|]. split; [reflexivity|exact Hn]. }
    intros fuel Hf. destruct (G N fuel 0%nat) as (k & _ & R & T); [lia|lia|rewrite mids_0; pose proof I as I'; unfold inside in I'; lra|]. exists k. split; [exact R|]. split; [exact T|].
    destruct k as [|k]; [left; reflexivity|right]. apply g_low; [exact A|apply mids_in].
  Qed.
  Lemma locate_low : al < 1 -> / 10 ^ 8 < PI / 2 - t0 ->
    (forall n, / 10 ^ 8 + / 10 ^ 5 < Rabs (exp (W al t0 xm (mids (S n))) - 1)) ->
    exists N, forall fuel, (N <= fuel)%nat -> exists mid, locate brentq fuel al t0 g = Some (Ok (Split t mid)).
  Proof.
    intros A E8 NC. destruct (raise_ok A) as (N & HN). exists N. intros fuel Hf. destruct (HN fuel Hf) as (k & R & T & K).
    pose proof I as I'; unfold inside in I'. assert (G1 : g (- t0) = Fin 0) by (apply g1_t0_low; auto). assert (G2 : g PI2 = Pinf) by (apply g1_pi_low; assumption).
    unfold locate. rewrite G1, G2. rewrite (proj2 (Rleb_false 1 al)), (proj2 (Rltb_true al 1)) by lra. cbn [eltb andb orb]. rewrite (proj2 (Rltb_false 1 0)) by lra. rewrite R.
    rewrite mids_S, (g_low _ A (mids_in k)). unfold isclose at 1. rewrite Rabs_R1, Rmult_1_r. rewrite (proj2 (Rleb_false _ _) (NC k)).
    assert (M : - t0 <= mids k). { destruct k as [|k]; [rewrite mids_0; lra|]. pose proof (mids_in k) as J. unfold inside in J. lra. }
    rewrite (proj2 (Rleb_false _ _)). 2:{ unfold PI2. rewrite Rabs_pos_eq; lra. }
    assert (GV : g (mids k) = Fin 0 \/ exists v, g (mids k) = Fin v /\ 0 < v < 1). { destruct k as [|k]; [left; rewrite mids_0; exact G1|]. destruct K as [K|K]; [discriminate|]. right. eexists. split; [exact K|]. split; [apply exp_pos|].
      pose proof (proj2 (W_order al t0 xm (mids (S k)) t O (mids_in k) ltac:(unfold inside; lra) T) A) as D. rewrite Wt in D. apply exp_increasing in D. rewrite exp_0 in D. exact D. }
    destruct (by_roots_ok (mids k) PI2) as (mid & ->); [lra|unfold PI2; lra| | |exists mid; reflexivity].
    - rewrite G2. destruct GV as [->|(v & -> & V)]; cbn; lra.
    - rewrite G2. destruct GV as [->|(v & -> & V)]; [rewrite elog_0; cbn; exact Logic.I|]. rewrite elog_pos by lra. cbn. rewrite <- ln_1. apply ln_increasing; lra.
  Qed.
End Code.
