(** Specification vocabulary: mixtures and data on other scales of the coordinates. *)
From Coq Require Import Reals.
From Verif Require Import Base RSumLib Ext S_Matrix S_Linalg M_Gmc S_Gmc S_GmcAscent.
Local Close Scope Z_scope. Open Scope R_scope. Open Scope list_scope.

(** p' is the mixture p with coordinate j measured as [a j * x + b j] *)
Definition rescaled (a b : nat -> R) (p p' : gmc) : Prop :=
  n_clusters p' = n_clusters p /\ n_dim p' = n_dim p
  /\ forall k, (k < n_clusters p)%nat -> weight p' k = weight p k
       /\ (forall j, (j < n_dim p)%nat -> centre p' k j = a j * centre p k j + b j)
       /\ square (n_dim p) (spread_of p' k)
       /\ (forall i j, (i < n_dim p)%nat -> (j < n_dim p)%nat -> get (spread_of p' k) i j = a i * a j * get (spread_of p k) i j).
(** the rows of q on the other scale *)
Definition rescaled_rows (a b : nat -> R) (q q' : mat R) : Prop :=
  nr q' = nr q /\ nc q' = nc q /\ forall i j, (i < nr q)%nat -> (j < nc q)%nat -> get q' i j = a j * get q i j + b j.
Definition positive_scale (d : nat) (a : nat -> R) : Prop := forall j, (j < d)%nat -> 0 < a j.
(** scipy's univariate normal density with mean m and variance v *)
Definition documented_univariate (norm_pdf : R -> R -> R -> R) : Prop :=
  forall x m v, 0 < v -> norm_pdf x m v = exp (- ((x - m) * (x - m)) / (2 * v)) / sqrt (2 * PI * v).
(** such a mixture and such rows *)
Definition rescale (a b : nat -> R) (p : gmc) : gmc :=
  mkGmc (n_clusters p) (n_dim p) (prob p) (mkMat (n_clusters p) (n_dim p) (fun k j => a j * get (means p) k j + b j))
    (map (fun c => mkMat (n_dim p) (n_dim p) (fun i j => a i * a j * get c i j)) (covs p)).
Definition rescale_rows (a b : nat -> R) (q : mat R) : mat R := mkMat (nr q) (nc q) (fun i j => a j * get q i j + b j).
(** all covariances are positive definite *)
Definition regular (p : gmc) : Prop := forall k, (k < n_clusters p)%nat -> S_GmcAscent.positive_definite (n_dim p) (spread_of p k).
(** what C131_marginals and C131_likelihood say of quantiles and log-likelihoods, for functions in their place; [K] is the constant by which the
    mixture's log-likelihood moves *)
Definition quantiles_follow (a b : nat -> R) (u : mat R) (ppf : mat R -> gmc -> result (mat R)) : Prop :=
  forall p p', valid p -> valid p' -> n_dim p = nc u -> regular p -> rescaled a b p p' ->
    match ppf u p with Ok q => exists q', ppf u p' = Ok q' /\ rescaled_rows a b q q' | Err e => ppf u p' = Err e end.
Definition mixture_ll_moves (a b : nat -> R) (u : mat R) (K : R) (gmm_ll : mat R -> gmc -> R) : Prop :=
  forall q q' p p', valid p -> valid p' -> n_dim p = nc u -> nr q = nr u -> nc q = nc u -> regular p -> rescaled a b p p' -> rescaled_rows a b q q' -> gmm_ll q' p' = gmm_ll q p - K.
Definition copula_ll_stays (a b : nat -> R) (u : mat R) (gmcm_ll : mat R -> gmc -> R) : Prop :=
  forall p p', valid p -> valid p' -> n_dim p = nc u -> regular p -> rescaled a b p p' -> gmcm_ll u p' = gmcm_ll u p.
