(** Specification vocabulary for Gaussian mixture copulas. *)
From Verif Require Import Base RSumLib Ext S_Matrix S_Linalg M_Gmc.
Open Scope R_scope.

(** a covariance matrix up to the tolerances of near_psd: almost symmetric, eigenvalues at least -1e-12 *)
Definition almost_psd (d : nat) (c : mat R) : Prop :=
  square d c
  /\ (forall i j, (i < d)%nat -> (j < d)%nat -> Rabs (get c i j - get c j i) <= / 1000000000000 + / 100000 * Rabs (get c j i))
  /\ (forall x, - / 1000000000000 * norm2 d x <= quad d (lower_sym c) x).
(** an exact covariance matrix *)
Definition covariance (d : nat) (c : mat R) : Prop := square d c /\ symmetric c /\ pos_semidef d (get c).
(** weights: numbers in [0, 1] whose sum is 1 up to 1e-5 + 1e-8 *)
Definition weights (l : list R) : Prop := Forall (fun x => 0 <= x <= 1) l /\ Rabs (lsum l - 1) <= / 100000000 + / 100000.
(** consistent shapes, weights and covariances *)
Definition valid (p : gmc) : Prop :=
  length (prob p) = n_clusters p /\ weights (prob p)
  /\ nr (means p) = n_clusters p /\ nc (means p) = n_dim p
  /\ length (covs p) = n_clusters p /\ Forall (almost_psd (n_dim p)) (covs p).
(** the part of a parameter that can be observed *)
Definition same_gmc (p p' : gmc) : Prop :=
  n_clusters p = n_clusters p' /\ n_dim p = n_dim p' /\ prob p = prob p' /\ mat_eq (means p) (means p') /\ Forall2 mat_eq (covs p) (covs p').
(** what is assumed of the libraries behind near_psd *)
Definition libraries (eig : mat R -> list R) (cov_nearest : mat R -> mat R) : Prop :=
  (forall d c, square d c -> rayleigh (eig c) c) /\ (forall d c, square d c -> covariance d (cov_nearest c)).

(** ** Assignments *)
Inductive assignment := AProb (v : list ext) | AMeans (v : mat R) | ACovs (v : list (mat R)) | AToVector.
Definition perform eig cn (p : gmc) (a : assignment) : gmc * result unit :=
  match a with
  | AProb v => set_prob p v
  | AMeans v => set_means p v
  | ACovs v => set_covs eig cn p v
  | AToVector => (snd (to_vector p), Ok tt)
  end.
Fixpoint history eig cn (p : gmc) (l : list assignment) : gmc := match l with [] => p | a :: r => history eig cn (fst (perform eig cn p a)) r end.

(** ** Mixtures.  The k-th weight, mean and covariance *)
Definition weight (p : gmc) (k : nat) : R := nth k (prob p) 0.
Definition centre (p : gmc) (k : nat) : nat -> R := get (means p) k.
Definition spread_of (p : gmc) (k : nat) : mat R := nth k (covs p) (mkMat 0 0 (fun _ _ => 0)).
(** the standard deviation of coordinate j in component k *)
Definition deviation (p : gmc) (k j : nat) : R := sqrt (get (spread_of p k) j j).
Definition mixed (p : gmc) (f : (nat -> R) -> mat R -> R) : R := rsum (n_clusters p) (fun k => weight p k * f (centre p k) (spread_of p k)).

(** ** One step of the expectation maximisation at the quantiles q *)
Section Em.
  Variable pdf : (nat -> R) -> mat R -> (nat -> R) -> R.
  (** the posterior probability of component k given row i; 0 when no component is possible *)
  Definition posterior (q : mat R) (p : gmc) (i k : nat) : R :=
    let f k := weight p k * pdf (centre p k) (spread_of p k) (get q i) in
    if Reqb (rsum (n_clusters p) f) 0 then 0 else f k / rsum (n_clusters p) f.
  (** the next parameter: average posterior, posterior means and covariances *)
  Definition em_update (q : mat R) (p p' : gmc) : Prop :=
    let k_ i k := posterior q p i k in
    let n k := rsum (nr q) (fun i => k_ i k) in
    n_clusters p' = n_clusters p /\ n_dim p' = nc q /\ length (prob p') = n_clusters p /\ length (covs p') = n_clusters p
    /\ forall k, (k < n_clusters p)%nat ->
       n k <> 0
       /\ weight p' k = n k / rsum (n_clusters p) n
       /\ (forall j, (j < nc q)%nat -> centre p' k j = rsum (nr q) (fun i => k_ i k * get q i j) / n k)
       /\ (forall a b, (a < nc q)%nat -> (b < nc q)%nat ->
             get (spread_of p' k) a b = rsum (nr q) (fun i => k_ i k * (get q i a - centre p' k a) * (get q i b - centre p' k b)) / n k).
  (** a run: each parameter is the update of the one before at its own quantiles *)
  Fixpoint trajectory (ppf : mat R -> gmc -> result (mat R)) (u : mat R) (p : gmc) (l : list gmc) : Prop :=
    match l with [] => True | p' :: r => (exists q, ppf u p = Ok q /\ em_update q p p') /\ trajectory ppf u p' r end.
End Em.
