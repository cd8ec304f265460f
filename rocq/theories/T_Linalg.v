(** Properties C09-C10 (/repo/copulae/core/linalg.py). *)
From Verif Require Import Base RSumLib M_Matrix S_Matrix M_Linalg S_Linalg P_Linalg.
Open Scope R_scope.

(** C09: correlation -> covariance -> correlation gives back the correlation matrix and the standard
    deviations; covariance -> (correlation, std) -> covariance gives back the covariance. *)
Theorem C09_corr_cov_corr :
  forall (corr : mat R) (std : nat -> R),
  nr corr = nc corr -> unit_diagonal 1 corr -> (forall i, (i < nr corr)%nat -> 0 < std i) ->
  mat_eq (fst (cov2corr (corr2cov corr std))) corr /\
  (forall i, (i < nr corr)%nat -> snd (cov2corr (corr2cov corr std)) i = std i).
Proof. exact cov2corr_corr2cov. Qed.
Print Assumptions C09_corr_cov_corr.

Theorem C09_cov_corr_cov :
  forall cov : mat R, nr cov = nc cov -> (forall i, (i < nr cov)%nat -> 0 < get cov i i) ->
  mat_eq (corr2cov (fst (cov2corr cov)) (snd (cov2corr cov))) cov.
Proof. exact corr2cov_cov2corr. Qed.
Print Assumptions C09_cov_corr_cov.

(** cov2corr yields a symmetric unit-diagonal matrix with entries in [-1,1] for a psd covariance *)
Theorem C09_cov2corr_is_correlation :
  forall (d : nat) (cov : mat R),
  square d cov -> symmetric cov -> (forall i, (i < d)%nat -> 0 < get cov i i) ->
  corr_shape 1 d (fst (cov2corr cov)) /\
  (pos_semidef d (get cov) ->
     forall i j, (i < d)%nat -> (j < d)%nat -> -1 <= get (fst (cov2corr cov)) i j <= 1).
Proof.
  intros d cov Sq Sy Hd. split; [exact (cov2corr_corr_shape cov d Sq Sy Hd)|].
  intros Hp. exact (cov2corr_range cov d Sq Sy Hd Hp).
Qed.
Print Assumptions C09_cov2corr_is_correlation.

Example C09_case : unit_diagonal 1 (corr2 (1/2)) /\ symmetric (corr2 (1/2)) /\ forall i, (i < 2)%nat -> 0 < get (corr2 (1/2)) i i.
Proof.
  repeat split.
  - intros i Hi. cbn. rewrite Nat.eqb_refl. reflexivity.
  - intros i j _ _. cbn. rewrite Nat.eqb_sym. reflexivity.
  - intros i Hi. cbn. rewrite Nat.eqb_refl. lra.
Qed.

(** C10: a non-strict acceptance means symmetric up to tolerance and x'Mx >= -tol |x|^2; every exactly
    symmetric psd (resp. positive definite) matrix is accepted. *)
Theorem C10_is_psd_nonstrict :
  forall (eigvalsh : mat R -> list R) (tol : R) (m : mat R),
  rayleigh (eigvalsh m) m ->
  (is_psd eigvalsh false tol (AMat m) = true ->
     is_symmetric tol (AMat m) = true /\
     forall x, - tol * norm2 (nr m) x <= quad (nr m) (lower_sym m) x) /\
  (0 <= tol -> nr m = nc m -> symmetric m -> pos_semidef (nr m) (get m) ->
     is_psd eigvalsh false tol (AMat m) = true) /\
  (0 <= tol -> nr m = nc m -> symmetric m -> pos_def (nr m) (get m) ->
     is_psd eigvalsh true tol (AMat m) = true).
Proof.
  intros eig tol m Hr. split; [exact (is_psd_sound eig tol m Hr)|].
  split; [exact (is_psd_complete eig tol m Hr)|exact (is_psd_strict_complete eig tol m Hr)].
Qed.
Print Assumptions C10_is_psd_nonstrict.

Example C10_case : rayleigh [1 - 1/2; 1 + 1/2] (corr2 (1/2)).
Proof. exact (rayleigh_corr2 (1/2)). Qed.

(** strict=True is documented to test positive definiteness; with the (correct) eigenvalues of the zero
    matrix it answers True: line 95 compares with -tol. *)
Theorem C10_is_psd_strict_refuted :
  exists (m : mat R) (eigs : list R), rayleigh eigs m /\
    is_psd (fun _ => eigs) true psd_tol (AMat m) = true /\ ~ pos_def (nr m) (get m).
Proof.
  exists (mkMat 1 1 (fun _ _ => 0)), [0].
  assert (Hr : rayleigh [0] (mkMat 1 1 (fun _ _ => 0))) by exact rayleigh_zero1.
  split; [exact Hr|]. split.
  - apply is_psd_strict_accepts_singular; [exact Hr|unfold psd_tol; lra].
  - intros H. specialize (H (fun _ => 1)). unfold quad in H. cbn in H.
    assert (0 < 0 + (0 + 1 * 0 * 1)) by (apply H; exists 0%nat; split; [lia|lra]). lra.
Qed.
Print Assumptions C10_is_psd_strict_refuted.

(** python scalars (lines 87-88) have the same defect *)
Theorem C10_is_psd_strict_scalar_refuted :
  forall eigvalsh, is_psd eigvalsh true psd_tol (AScalar 0) = true.
Proof. intros eig. unfold is_psd. apply Rltb_true. unfold psd_tol. lra. Qed.
Print Assumptions C10_is_psd_strict_scalar_refuted.

(** symmetry test: exact characterisation (so transposition-invariant, exact symmetry accepted) *)
Theorem C10_is_symmetric_meaning :
  forall (tol : R) (m : mat R),
  (is_symmetric tol (AMat m) = true <->
     nr m = nc m /\ forall i j, (i < nr m)%nat -> (j < nr m)%nat ->
       Rabs (get m i j - get m j i) <= tol + / 100000 * Rabs (get m j i)) /\
  is_symmetric tol (AMat (mkMat (nc m) (nr m) (fun i j => get m j i))) = is_symmetric tol (AMat m) /\
  (0 <= tol -> nr m = nc m -> symmetric m -> is_symmetric tol (AMat m) = true).
Proof.
  intros tol m. split; [exact (is_symmetric_spec tol m)|].
  split; [exact (is_symmetric_transpose tol m)|exact (is_symmetric_exact tol m)].
Qed.
Print Assumptions C10_is_symmetric_meaning.

(** ... but [tol] is not the tolerance: numpy's relative tolerance 1e-5 is added on top, so a matrix whose
    two triangles differ by 1 is accepted as symmetric at tol = 0. *)
Theorem C10_is_symmetric_tolerance_refuted :
  exists m : mat R, is_symmetric 0 (AMat m) = true /\
    exists i j, (i < nr m)%nat /\ (j < nr m)%nat /\ 1 <= Rabs (get m i j - get m j i).
Proof.
  exists (mkMat 2 2 (fun i j => if (i <? j)%nat then 1000000 else 1000001)). split.
  - apply is_symmetric_spec. split; [reflexivity|]. cbn [nr get]. intros i j Hi Hj.
    destruct (i <? j)%nat, (j <? i)%nat; split_Rabs; lra.
  - exists 0%nat, 1%nat. cbn. split; [lia|]. split; [lia|]. split_Rabs; lra.
Qed.
Print Assumptions C10_is_symmetric_tolerance_refuted.

(** near_psd: unchanged on psd input, rejects clearly asymmetric input and non-matrices *)
Theorem C10_near_psd :
  forall (eigvalsh : mat R -> list R) (cov_nearest : mat R -> mat R) (m : mat R),
  (rayleigh (eigvalsh m) m -> nr m = nc m -> symmetric m -> pos_semidef (nr m) (get m) ->
     near_psd eigvalsh cov_nearest (AMat m) = Ok m) /\
  (forall i j, (i < nr m)%nat -> (j < nr m)%nat ->
     / 100000000 + / 100000 * Rabs (get m j i) < Rabs (get m i j - get m j i) ->
     near_psd eigvalsh cov_nearest (AMat m) = Err NonSymmetricMatrixError) /\
  (nr m <> nc m -> near_psd eigvalsh cov_nearest (AMat m) = Err NonSymmetricMatrixError) /\
  (forall x, near_psd eigvalsh cov_nearest (AScalar x) = Err NonSymmetricMatrixError).
Proof.
  intros eig nearest m. split; [exact (near_psd_identity eig nearest m)|].
  split; [exact (near_psd_rejects eig nearest m)|]. split; [|reflexivity].
  intros H. unfold near_psd, is_symmetric. apply Nat.eqb_neq in H. rewrite H. reflexivity.
Qed.
Print Assumptions C10_near_psd.
