(** The integrals of the code against Nolan's integral. *)
From Coquelicot Require Import Coquelicot.
From Coq Require Import Classical Ranalysis5.
From Verif Require Import Base RSumLib Ext S_StablePdf P_StableInt M_Archimedean M_Special M_Specfunc M_Stable M_StablePdf P_StablePdf.
Open Scope R_scope.

Lemma W_level al t0 xm u v y : ok al t0 xm -> inside t0 u -> inside t0 v -> u < v -> (W al t0 xm u - y) * (W al t0 xm v - y) < 0 ->
  exists s, u < s < v /\ W al t0 xm s = y.
Proof.
  intros O U V UV D.
  assert (C : forall x, u <= x <= v -> continuity_pt (W al t0 xm) x). { intros x X. apply continuity_pt_filterlim. apply (ex_derive_continuous (W al t0 xm)). eexists. apply W_derive; [exact O|]. unfold inside in *. lra. }
  destruct (Rlt_le_dec (W al t0 xm u) y) as [H|H].
  - destruct (IVT_interv (fun x => W al t0 xm x - y) u v) as (z & Z & E); try lra.
    { intros x X. apply continuity_pt_minus; [apply C, X|apply continuity_pt_const; intros ? ?; reflexivity]. } { nra. }
    exists z. split; [|lra]. destruct (Req_dec z u) as [->|]; [lra|]. destruct (Req_dec z v) as [->|]; [nra|]. lra.
  - assert (y < W al t0 xm u) by (destruct (Req_dec (W al t0 xm u) y) as [E|]; [rewrite E in D; nra|lra]).
    destruct (IVT_interv (fun x => y - W al t0 xm x) u v) as (z & Z & E); try lra.
    { intros x X. apply continuity_pt_minus; [apply continuity_pt_const; intros ? ?; reflexivity|apply C, X]. } { nra. }
    exists z. split; [|lra]. destruct (Req_dec z u) as [->|]; [lra|]. destruct (Req_dec z v) as [->|]; [nra|]. lra.
Qed.
Lemma V_large al t0 xm th : LARGE_EXP_POW < exp (W al t0 xm th) <-> ln LARGE_EXP_POW < W al t0 xm th.
Proof.
  assert (L : 0 < LARGE_EXP_POW) by (unfold LARGE_EXP_POW; lra). split; intros H.
  - rewrite <- (ln_exp (W al t0 xm th)). apply ln_increasing; assumption.
  - rewrite <- (exp_ln LARGE_EXP_POW) by exact L. apply exp_increasing, H.
Qed.
Lemma lnL_pos : 0 < ln LARGE_EXP_POW.
Proof. rewrite <- ln_1. apply ln_increasing; unfold LARGE_EXP_POW; lra. Qed.

(** where the code keeps the integrand: everywhere except close to the ends *)
Lemma kept al t0 xm t : ok al t0 xm -> inside t0 t -> W al t0 xm t = 0 -> (1 < al -> t < PI / 2 - cut) -> (al < 1 -> cut < PI / 2 - t0) ->
  exists s e, - t0 <= s < t /\ t < e <= PI / 2 /\
    (forall th, inside t0 th -> s < th < e -> xexp (g1 al t0 xm th) = Fin (fN al t0 xm th)) /\
    (forall th, inside t0 th -> th < s \/ e < th -> xexp (g1 al t0 xm th) = Fin 0) /\
    (forall th, inside t0 th -> th < s -> fN al t0 xm th <= / 10 ^ 20) /\
    (forall th, inside t0 th -> e < th -> fN al t0 xm th <= / 10 ^ 20 \/ PI / 2 - cut <= e) /\
    (s = - t0 \/ inside t0 s) /\ (e = PI / 2 \/ inside t0 e).
Proof.
  intros O I Wt Hh Hl. assert (LP := lnL_pos). assert (N : al <> 1) by apply O. pose proof cut_small as CS. assert (T := O). destruct T as (_ & _ & T & _).
  destruct (Rlt_le_dec 1 al) as [A|A].
  - specialize (Hh A). clear Hl.
    assert (G : forall th, inside t0 th -> th < PI / 2 - cut -> g1 al t0 xm th = Fin (exp (W al t0 xm th))).
    { intros th J D. apply g1_inside; [exact O|exact J|]. rewrite sgn_pos by lra. unfold PI2. fold cut. rewrite Rmult_1_l, Rabs_pos_eq; lra. }
    assert (Z : forall th, inside t0 th -> PI / 2 - cut < th -> xexp (g1 al t0 xm th) = Fin 0).
    { intros th J D. rewrite g1_pi_high; [|exact A|unfold inside in J; lra]. cbn. rewrite (proj2 (Rltb_false _ _)) by (unfold LARGE_EXP_POW; lra). f_equal. ring. }
    assert (S : exists s, - t0 <= s < t /\ (forall th, inside t0 th -> th < s -> LARGE_EXP_POW < exp (W al t0 xm th)) /\ (forall th, inside t0 th -> s < th -> exp (W al t0 xm th) <= LARGE_EXP_POW) /\ (s = - t0 \/ inside t0 s)).
    { destruct (classic (exists u, inside t0 u /\ ln LARGE_EXP_POW < W al t0 xm u)) as [(u & U & D)|Nx].
      - assert (UT : u < t). { destruct (Rlt_le_dec u t) as [|G0]; [assumption|]. destruct (Req_dec t u) as [->|NE]; [lra|]. pose proof (proj1 (W_order al t0 xm t u O I U ltac:(lra)) A). lra. }
        destruct (W_level al t0 xm u t (ln LARGE_EXP_POW) O U I UT) as (s & S1 & S2); [nra|]. assert (SI : inside t0 s) by (unfold inside in *; lra).
        exists s. split; [unfold inside in SI; lra|]. split; [|split; [|right; exact SI]].
        + intros th J D2. apply V_large. rewrite <- S2. apply (W_order al t0 xm th s O J SI D2), A.
        + intros th J D2. apply Rnot_lt_le. intros K. apply V_large in K. pose proof (proj1 (W_order al t0 xm s th O SI J D2) A). lra.
      - exists (- t0). split; [unfold inside in I; lra|]. split; [|split; [|left; reflexivity]].
        + intros th J D. unfold inside in J. lra.
        + intros th J D. apply Rnot_lt_le. intros K. apply V_large in K. apply Nx. exists th. split; assumption. }
    destruct S as (s & S1 & S2 & S3 & S4). exists s, (PI / 2 - cut). split; [exact S1|]. split; [lra|].
    split. { intros th J D. rewrite G by (try exact J; lra). cbn. rewrite (proj2 (Rltb_false _ _)) by (apply S3; [exact J|lra]). reflexivity. }
    split. { intros th J [D|D]; [|apply Z; [exact J|lra]]. rewrite G by (try exact J; lra). cbn. rewrite (proj2 (Rltb_true _ _)) by (apply S2; assumption). reflexivity. }
    split. { intros th J D. apply fN_far, S2; assumption. } split; [intros; right; lra|]. split; [exact S4|]. right. unfold inside in *. lra.
  - assert (A1 : al < 1) by lra. specialize (Hl A1). clear Hh.
    assert (G : forall th, inside t0 th -> g1 al t0 xm th = Fin (exp (W al t0 xm th))).
    { intros th J. apply g1_inside; [exact O|exact J|]. rewrite sgn_neg by lra. unfold PI2, inside in *. fold cut. rewrite Rabs_pos_eq; lra. }
    assert (S : exists e, t < e <= PI / 2 /\ (forall th, inside t0 th -> e < th -> LARGE_EXP_POW < exp (W al t0 xm th)) /\ (forall th, inside t0 th -> th < e -> exp (W al t0 xm th) <= LARGE_EXP_POW) /\ (e = PI / 2 \/ inside t0 e)).
    { destruct (classic (exists u, inside t0 u /\ ln LARGE_EXP_POW < W al t0 xm u)) as [(u & U & D)|Nx].
      - assert (UT : t < u). { destruct (Rlt_le_dec t u) as [|G0]; [assumption|]. destruct (Req_dec t u) as [->|NE]; [lra|]. pose proof (proj2 (W_order al t0 xm u t O U I ltac:(lra)) A1). lra. }
        destruct (W_level al t0 xm t u (ln LARGE_EXP_POW) O I U UT) as (s & S1 & S2); [nra|]. assert (SI : inside t0 s) by (unfold inside in *; lra).
        exists s. split; [unfold inside in SI; lra|]. split; [|split; [|right; exact SI]].
        + intros th J D2. apply V_large. rewrite <- S2. apply (W_order al t0 xm s th O SI J D2), A1.
        + intros th J D2. apply Rnot_lt_le. intros K. apply V_large in K. pose proof (proj2 (W_order al t0 xm th s O J SI D2) A1). lra.
      - exists (PI / 2). split; [unfold inside in I; lra|]. split; [|split; [|left; reflexivity]].
        + intros th J D. unfold inside in J. lra.
        + intros th J D. apply Rnot_lt_le. intros K. apply V_large in K. apply Nx. exists th. split; assumption. }
    destruct S as (e & S1 & S2 & S3 & S4). exists (- t0), e. split; [unfold inside in I; lra|]. split; [exact S1|].
    split. { intros th J D. rewrite G by exact J. cbn. rewrite (proj2 (Rltb_false _ _)) by (apply S3; [exact J|lra]). reflexivity. }
    split. { intros th J [D|D]; [unfold inside in J; lra|]. rewrite G by exact J. cbn. rewrite (proj2 (Rltb_true _ _)) by (apply S2; assumption). reflexivity. }
    split. { intros th J D. unfold inside in J; lra. } split; [intros th J D; left; apply fN_far, S2; assumption|]. split; [left; reflexivity|exact S4].
Qed.
(** the function the code integrates, its primitive, and the truncation error *)
Lemma code_integrand al t0 xm t P : ok al t0 xm -> inside t0 t -> W al t0 xm t = 0 -> (1 < al -> t < PI / 2 - cut) -> (al < 1 -> cut < PI / 2 - t0) ->
  primitive_on (- t0) (PI / 2) 1 (fN al t0 xm) P ->
  exists f' P', (forall th, inside t0 th -> xexp (g1 al t0 xm th) = Fin (f' th)) /\ primitive_on (- t0) (PI / 2) 1 f' P' /\
    0 <= (P (PI / 2) - P (- t0)) - (P' (PI / 2) - P' (- t0)) <= 15 / 10 ^ 15 /\ 0 < P' (PI / 2) - P' (- t0).
Proof.
  intros O I Wt Hh Hl PP. destruct (kept al t0 xm t O I Wt Hh Hl) as (s & e & S & E & K1 & K2 & F1 & F2 & Sb & Eb).
  set (f' := fun th => match xexp (g1 al t0 xm th) with Fin r => r | _ => 0 end).
  assert (V : forall th, inside t0 th -> xexp (g1 al t0 xm th) = Fin (f' th)).
  { intros th J. unfold f'. assert (D : s < th < e \/ (th < s \/ e < th) \/ th = s \/ th = e) by lra. destruct D as [D|[D|D]].
    - rewrite (K1 th J D). reflexivity.
    - rewrite (K2 th J D). reflexivity.
    - assert (X : exists v, g1 al t0 xm th = Fin v). { destruct (Rlt_le_dec (14 / 10 ^ 15) (Rabs (PI2 - sgn (al - 1) * th))) as [Q|Q].
        - rewrite g1_inside by assumption. eexists. reflexivity.
        - unfold g1. rewrite (proj2 (Rleb_true _ _) Q). eexists; reflexivity. }
      destruct X as (v & ->). cbn. destruct (Rltb LARGE_EXP_POW v); reflexivity. }
  assert (A0 : - t0 < PI / 2) by (unfold inside in I; lra). pose proof cut_small as CS.
  exists f', (fun x => P (clamp_to s e x)). split; [exact V|]. split.
  { apply (primitive_clamp (- t0) (PI / 2) 1 (fN al t0 xm)); try lra; [exact PP| |].
    - intros x X D. unfold f'. rewrite (K1 x X D). reflexivity.
    - intros x X D. unfold f'. rewrite (K2 x X D). reflexivity. }
  assert (C1 : clamp_to s e (PI / 2) = e) by (unfold clamp_to, Rmin, Rmax; repeat destruct (Rle_dec _ _); lra).
  assert (C2 : clamp_to s e (- t0) = s) by (unfold clamp_to, Rmin, Rmax; repeat destruct (Rle_dec _ _); lra).
  rewrite C1, C2.
  pose proof (primitive_bound _ _ _ _ P (- t0) s (/ 10 ^ 20) A0 ltac:(lra) ltac:(lra) PP ltac:(lra)) as B1.
  assert (B1' : 0 <= P s - P (- t0) <= / 10 ^ 20 * (s - - t0)). { apply B1. intros x X. split; [pose proof (fN_bound al t0 xm x); lra|]. apply F1; unfold inside; lra. }
  assert (B2 : 0 <= P (PI / 2) - P e <= / 10 ^ 20 * (PI / 2 - e) \/ 0 <= P (PI / 2) - P e <= 1 * (PI / 2 - e) /\ PI / 2 - cut <= e).
  { destruct (Rle_lt_dec (PI / 2 - cut) e) as [D|D].
    - right. split; [|exact D]. apply (primitive_bound (- t0) (PI / 2) 1 (fN al t0 xm)); try lra; [exact PP|]. intros x X. pose proof (fN_bound al t0 xm x). lra.
    - left. apply (primitive_bound (- t0) (PI / 2) 1 (fN al t0 xm)); try lra; [exact PP|]. intros x X. pose proof (fN_bound al t0 xm x). split; [lra|]. destruct (F2 x ltac:(unfold inside; lra) ltac:(lra)); lra. }
  assert (PB := PI_4). assert (T := O). destruct T as (_ & _ & T & _). split.
  { unfold cut in *. split; [destruct B2 as [B2|(B2 & _)]; lra|]. assert (s - - t0 <= 4) by lra. assert (PI / 2 - e <= 4) by lra. destruct B2 as [B2|(B2 & D)]; nra. }
  (* positive *)
  set (u := (s + t) / 2). set (w := (t + e) / 2). assert (U : s < u < t) by (unfold u; lra). assert (Ww : t < w < e) by (unfold w; lra).
  assert (M : 0 < P w - P u). { pose proof (proj2 PP u w ltac:(lra) ltac:(lra)) as Iw. rewrite <- (is_RInt_unique _ _ _ _ Iw). apply RInt_gt_0; [lra|intros x X; apply fN_bound|].
    intros x X. apply fN_cont; [exact O|unfold inside; lra]. }
  assert (L1 : 0 <= P u - P s). { apply (primitive_bound (- t0) (PI / 2) 1 (fN al t0 xm) P s u 1); try lra; [exact PP|]. intros x X. pose proof (fN_bound al t0 xm x). lra. }
  assert (L2 : 0 <= P e - P w). { apply (primitive_bound (- t0) (PI / 2) 1 (fN al t0 xm) P w e 1); try lra; [exact PP|]. intros x X. pose proof (fN_bound al t0 xm x). lra. }
  lra.
Qed.
