(** Property C45, continued: which number the search for a start value returns (/repo/copulae/copula/estimator/estimator.py:105-142). *)
From Verif Require Import Base RSumLib Ext M_Matrix S_Matrix P_Matrix M_Linalg S_Linalg P_Linalg M_Elliptical S_Elliptical P_Elliptical
  M_Dict M_Fit S_Fit P_Fit T_Fit.
Open Scope R_scope.

(** the data give a finite log-likelihood at theta; minus or plus infinity *)
Definition likely (F : family) (d : data) (th : R) : Prop := exists l, f_log_lik F (PArch (Some th)) d true = Ok (Fin l).
Definition unlikely (F : family) (d : data) (th : R) : Prop :=
  f_log_lik F (PArch (Some th)) d true = Ok Ninf \/ f_log_lik F (PArch (Some th)) d true = Ok Pinf.
(** x is the average inversion of the Kendall correlations of all pairs of columns *)
Definition inversion (F : family) (d : data) (x : R) : Prop :=
  exists T l, f_ktau F d = Ok T /\ square (f_dim F) T /\ f_itau F (below_diag T) = Ok (map Some l) /\ average l x.

Lemma loop_start F d : forall k fuel y s, (k <= fuel)%nat -> (forall j, (j < k)%nat -> y + INR j / 5 < 0) ->
  (forall j, (1 <= j <= k)%nat -> f_theta_ok F (y + INR j / 5) = true) -> (forall j, (1 <= j < k)%nat -> unlikely F d (y + INR j / 5)) ->
  (0 < k)%nat -> likely F d (y + INR k / 5) \/ (unlikely F d (y + INR k / 5) /\ 0 <= y + INR k / 5) ->
  clayton_loop F fuel d (Some y) (PArch s) = Some (Ok (Some (y + INR k / 5)), PArch (Some (y + INR k / 5))).
Proof.
  induction k as [|k IH]; intros fuel y s Hf Hneg Hok Hun Hk He; [lia|]. destruct fuel as [|fuel]; [lia|].
  assert (Y0 : y < 0) by (specialize (Hneg 0%nat ltac:(lia)); cbn in Hneg; lra).
  assert (E1 : y + INR 1 / 5 = y + / 5) by (cbn; field). cbn [clayton_loop]. rewrite (proj2 (Rltb_true y 0) Y0).
  pose proof (Hok 1%nat ltac:(lia)) as Ok1. rewrite E1 in Ok1. cbn [set_params sarr_list]. rewrite Ok1.
  destruct k as [|k].
  - rewrite E1 in *. destruct He as [[l ->]|[[-> | ->] Hp]]; cbn [finite]; [reflexivity| |];
      (assert (Eb : Rltb (y + / 5) 0 = false) by (apply Rltb_false; lra); destruct fuel; cbn [clayton_loop]; rewrite Eb; reflexivity).
  - assert (Es : forall j, y + / 5 + INR j / 5 = y + INR (S j) / 5) by (intros j; rewrite S_INR; field).
    assert (IH' : clayton_loop F fuel d (Some (y + / 5)) (PArch (Some (y + / 5))) =
                  Some (Ok (Some (y + INR (S (S k)) / 5)), PArch (Some (y + INR (S (S k)) / 5)))).
    { rewrite <- Es. apply IH; [lia| | | |lia|]; rewrite ?Es; [| | |exact He].
      - intros j Hj. rewrite Es. apply Hneg. lia.
      - intros j Hj. rewrite Es. apply Hok. lia.
      - intros j Hj. rewrite Es. apply Hun. lia. }
    pose proof (Hun 1%nat ltac:(lia)) as U1. rewrite E1 in U1. destruct U1 as [-> | ->]; cbn [finite]; exact IH'.
Qed.

(** with a finite likelihood there, the start is the average inversion; so is the copula's new parameter *)
Theorem C45_inversion_start : forall F fuel d x th, is_archimedean (f_name F) = true -> (2 <= f_dim F)%nat -> inversion F d x ->
  f_theta_ok F x = true -> likely F d x ->
  exists start s', initial_params F fuel d None (PArch th) = Some (Ok start, s') /\ numbers start = [Some x] /\ parameters s' = [Some x].
Proof.
  intros F fuel d x th Ha Hd [T [l [ET [ST [El Av]]]]] Hx [ll Hl]. unfold initial_params. rewrite (archimedean_not_elliptical _ Ha).
  rewrite (inverse_arch F d T (map Some l) th Ha Hd ET ST El), (proj2 (fl_mean_spec l x (proj1 Av)) Av). cbn [set_params sarr_list]. rewrite Hx, Hl.
  rewrite Hl. cbn [finite fs_params]. eexists; eexists; split; [reflexivity|]. split; reflexivity.
Qed.
Print Assumptions C45_inversion_start.
(** perfectly dependent data: with an infinite likelihood the start is still the average inversion, except for Clayton below 0 *)
Theorem C45_infinite_start : forall F fuel d x th, is_archimedean (f_name F) = true -> (2 <= f_dim F)%nat -> inversion F d x ->
  f_theta_ok F x = true -> unlikely F d x -> lower (f_name F) <> "clayton"%string \/ f_dim F <> 2%nat \/ 0 <= x ->
  exists start s', initial_params F fuel d None (PArch th) = Some (Ok start, s') /\ numbers start = [Some x] /\ parameters s' = [Some x].
Proof.
  intros F fuel d x th Ha Hd [T [l [ET [ST [El Av]]]]] Hx Hl Hc. unfold initial_params. rewrite (archimedean_not_elliptical _ Ha).
  rewrite (inverse_arch F d T (map Some l) th Ha Hd ET ST El), (proj2 (fl_mean_spec l x (proj1 Av)) Av). cbn [set_params sarr_list]. rewrite Hx.
  assert (Hc' : String.eqb (lower (f_name F)) "clayton" && Nat.eqb (f_dim F) 2 = true -> Rltb x 0 = false).
  { intros E. apply andb_true_iff in E. destruct E as [E1 E2]. apply String.eqb_eq in E1. apply Nat.eqb_eq in E2.
    destruct Hc as [C|[C|C]]; [contradiction|contradiction|]. apply Rltb_false. lra. }
  destruct Hl as [Hl|Hl]; rewrite !Hl; cbn [finite fs_params infinite]; cbv zeta;
    (destruct (String.eqb (lower (f_name F)) "clayton" && Nat.eqb (f_dim F) 2);
      [destruct fuel; cbn [clayton_loop]; rewrite (Hc' eq_refl)|]; rewrite ?Hl; eexists; eexists; (split; [reflexivity|]; split; reflexivity)).
Qed.
Print Assumptions C45_infinite_start.
(** the bivariate Clayton copula below 0: the start is the first of x + 0.2, x + 0.4, ... that has a finite likelihood or is not negative *)
Theorem C45_clayton_start : forall F fuel d x th k, lower (f_name F) = "clayton"%string -> f_dim F = 2%nat -> inversion F d x ->
  (forall j, (j <= k)%nat -> f_theta_ok F (x + INR j / 5) = true) -> (0 < k <= fuel)%nat ->
  (forall j, (j < k)%nat -> x + INR j / 5 < 0 /\ unlikely F d (x + INR j / 5)) ->
  likely F d (x + INR k / 5) \/ (unlikely F d (x + INR k / 5) /\ 0 <= x + INR k / 5) ->
  exists start s', initial_params F fuel d None (PArch th) = Some (Ok start, s') /\
    numbers start = [Some (x + INR k / 5)] /\ parameters s' = [Some (x + INR k / 5)].
Proof.
  intros F fuel d x th k Hn Hd [T [l [ET [ST [El Av]]]]] Hok [Hk Hf] Hun He.
  assert (Ha : is_archimedean (f_name F) = true) by (unfold is_archimedean; rewrite Hn; reflexivity).
  assert (E0 : x + INR 0 / 5 = x) by (cbn; field). pose proof (Hok 0%nat ltac:(lia)) as Hx. rewrite E0 in Hx.
  destruct (Hun 0%nat Hk) as [X0 U0]. rewrite E0 in X0, U0.
  unfold initial_params. rewrite (archimedean_not_elliptical _ Ha).
  rewrite (inverse_arch F d T (map Some l) th Ha ltac:(lia) ET ST El), (proj2 (fl_mean_spec l x (proj1 Av)) Av). cbn [set_params sarr_list]. rewrite Hx.
  assert (L : clayton_loop F fuel d (Some x) (PArch (Some x)) = Some (Ok (Some (x + INR k / 5)), PArch (Some (x + INR k / 5)))).
  { apply loop_start; auto; intros j Hj; [apply Hun|apply Hok|apply Hun]; lia. }
  rewrite Hn, Hd.
  destruct U0 as [U0|U0]; rewrite !U0; cbn [finite fs_params infinite]; cbv zeta; rewrite ?U0; cbn [String.eqb Ascii.eqb Bool.eqb Nat.eqb andb]; rewrite L;
    eexists; eexists; (split; [reflexivity|]; split; reflexivity).
Qed.
Print Assumptions C45_clayton_start.

(** tau = -1/3 gives theta = -1/2; data that lie outside the support below -1/4 move the start to -1/10, in two steps *)
Definition narrow_clayton : family := mkFamily "Clayton" 2 (fun x => Rleb (-1) x)
  (fun l => Ok (map (option_map (fun t => 2 * t / (1 - t))) l)) (fun _ => Err NotImplementedError)
  (fun s d _ => match s with PArch (Some x) => if Rltb x (-1/4) then Ok Ninf else Ok (Fin 1) | _ => Ok Nan end)
  (fun _ => Ok (enfl (tau3 2 (-1/3)))) (fun _ => Ok (enfl (tau3 2 (-1/3)))) (fun _ => Ok (enfl (tau3 2 (-1/3)))) some_eig (fun m => m).
Lemma narrow_inversion : inversion narrow_clayton (sample 2) (-1/2).
Proof.
  exists (enfl (tau3 2 (-1/3))), [-1/2]. split; [reflexivity|]. split; [apply tau3_square|]. split.
  - cbn. replace (2 * (-1 / 3) / (1 - -1 / 3)) with (-1/2) by field. reflexivity.
  - split; [discriminate|]. cbn. lra.
Qed.
Example C45_start_case : exists start s', initial_params narrow_clayton 5 (sample 2) None (PArch (Some 3)) = Some (Ok start, s') /\
  numbers start = [Some (-1/2 + INR 2 / 5)] /\ parameters s' = [Some (-1/2 + INR 2 / 5)].
Proof.
  apply C45_clayton_start.
  - reflexivity.
  - reflexivity.
  - exact narrow_inversion.
  - intros j _. cbn. apply Rleb_true. pose proof (pos_INR j). lra.
  - lia.
  - intros j Hj. assert (INR j <= 1) by (replace 1 with (INR 1) by reflexivity; apply le_INR; lia). split; [lra|]. left. cbn.
    rewrite (proj2 (Rltb_true _ _)); [reflexivity|lra].
  - left. exists 1. cbn. rewrite (proj2 (Rltb_false _ _)); [reflexivity|lra].
Qed.
Example C45_inversion_case : inversion (clayton 3 (1/3) 5) (sample 3) 1 /\ likely (clayton 3 (1/3) 5) (sample 3) 1 /\ f_theta_ok (clayton 3 (1/3) 5) 1 = true.
Proof.
  split; [|split; [exists 5; reflexivity|cbn; apply Rleb_true; lra]].
  exists (enfl (tau3 3 (1/3))), [1; 1; 1]. split; [reflexivity|]. split; [apply tau3_square|]. split.
  - cbn. replace (2 * (1 / 3) / (1 - 1 / 3)) with 1 by field. reflexivity.
  - split; [discriminate|]. cbn. lra.
Qed.
