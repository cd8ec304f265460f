(** Properties C07-C08: triangular indices and correlation matrices
    (/repo/copulae/core/misc.py:15-36,148-206). *)
From Verif Require Import Base M_Matrix S_Matrix P_Matrix.

(** C07: 'lower' lists exactly the pairs (row, col) with row >= col + m, once each. *)
Theorem C07_tri_indices_lower :
  forall (n m : nat) (side : string), lower side = "lower"%string ->
  exists rows cols, tri_indices n m side = Ok (rows, cols) /\
    length rows = length cols /\
    NoDup (combine rows cols) /\
    (forall r c, In (r, c) (combine rows cols) <-> (c + m <= r /\ r < n)).
Proof.
  intros n m side Hs. rewrite (tri_lower n m side Hs). do 2 eexists. split; [reflexivity|].
  rewrite !map_length, combine_map_snd_fst. split; [reflexivity|]. split.
  - apply FinFun.Injective_map_NoDup; [intros [] [] E; unfold swap in E; cbn in E; congruence|apply tri_loop_NoDup].
  - intros r c. rewrite in_map_iff. split.
    + intros [[a b] [E H]]. unfold swap in E; cbn in E; injection E as -> ->. apply tri_loop_in in H; lia.
    + intros H. exists (c, r). split; [reflexivity|]. apply tri_loop_in; lia.
Qed.
Print Assumptions C07_tri_indices_lower.

(** 'upper' is the transposed list in the same order; 'both' is upper followed by lower;
    the number of pairs; any other side is refused. *)
Theorem C07_tri_indices_sides :
  forall (n m : nat),
  exists rows cols,
    (forall side, lower side = "lower"%string -> tri_indices n m side = Ok (rows, cols)) /\
    (forall side, lower side = "upper"%string -> tri_indices n m side = Ok (cols, rows)) /\
    (forall side, lower side = "both"%string -> tri_indices n m side = Ok (cols ++ rows, rows ++ cols)) /\
    2 * length rows = (n - m) * (n - m + 1) /\
    (forall side, lower side <> "lower"%string -> lower side <> "upper"%string -> lower side <> "both"%string ->
       tri_indices n m side = Err ValueError).
Proof.
  intros n m. exists (map snd (tri_loop n m)), (map fst (tri_loop n m)). repeat split.
  - exact (tri_lower n m).
  - exact (tri_upper n m).
  - exact (tri_both n m).
  - rewrite map_length. exact (tri_loop_length n m).
  - exact (tri_err n m).
Qed.
Print Assumptions C07_tri_indices_sides.

Example C07_case : tri_indices 3 1 "lower" = Ok ([1; 2; 2], [0; 0; 1])
  /\ tri_indices 3 1 "both" = Ok ([0; 0; 1; 1; 2; 2], [1; 2; 2; 0; 0; 1]).
Proof. split; reflexivity. Qed.

(** C08: a vector of length d(d-1)/2 gives the d x d symmetric unit-diagonal matrix whose entries below
    the diagonal, column by column, are the vector. *)
Theorem C08_params_to_matrix :
  forall (A : Type) (zero one : A) (d : nat) (params : list A),
  2 <= d -> 2 * length params = d * (d - 1) ->
  exists sigma, create_cov_matrix zero one params = Ok sigma /\
    corr_shape one d sigma /\ below_diag sigma = params.
Proof.
  intros A zero one d params H E. eexists. split; [exact (create_cov_ok zero one params d H E)|].
  split; [exact (create_cov_symmetric zero one params d _ H E (create_cov_ok zero one params d H E))
         |exact (create_cov_below zero one params d _ H E (create_cov_ok zero one params d H E))].
Qed.
Print Assumptions C08_params_to_matrix.

(** reading a matrix back through tri_indices gives its sub-diagonal entries, and rebuilding gives the matrix *)
Theorem C08_matrix_to_params_to_matrix :
  forall (A : Type) (zero one : A) (d : nat) (sigma : mat A),
  2 <= d -> corr_shape one d sigma ->
  exists params sigma',
    bind (tri_indices d 1 "lower") (take sigma) = Ok params /\ params = below_diag sigma /\
    create_cov_matrix zero one params = Ok sigma' /\ mat_eq sigma' sigma.
Proof.
  intros A zero one d m H Hm. destruct (create_cov_of_below zero one m d H Hm) as [m' [H1 H2]].
  exists (below_diag m), m'. split; [exact (take_lower m d "lower" eq_refl H (proj1 Hm))|].
  split; [reflexivity|]. split; [exact H1|exact H2].
Qed.
Print Assumptions C08_matrix_to_params_to_matrix.

(** lengths not of the form d(d-1)/2 with d >= 2 are rejected *)
Theorem C08_bad_length_rejected :
  forall (A : Type) (zero one : A) (params : list A),
  (forall d, 2 <= d -> 2 * length params <> d * (d - 1)) ->
  exists e, create_cov_matrix zero one params = Err e.
Proof. intros A zero one params H. eexists. exact (create_cov_err zero one params H). Qed.
Print Assumptions C08_bad_length_rejected.

Example C08_case : exists s, create_cov_matrix 0 1 [2; 3; 5; 7; 11; 13] = Ok s /\ nr s = 4 /\ get s 3 1 = 11 /\ get s 1 3 = 11
  /\ create_cov_matrix 0 1 [2; 3; 5; 7] = Err ValueError.
Proof. eexists. split; [reflexivity|]. vm_compute. auto. Qed.
