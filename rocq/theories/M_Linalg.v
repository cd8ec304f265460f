(** Model of /repo/copulae/core/linalg.py over exact reals. *)
From Verif Require Import Base RSumLib M_Matrix.
Open Scope R_scope.

(** linalg.py:12-32 *)
Definition corr2cov (corr : mat R) (std : nat -> R) : mat R :=
  mkMat (nr corr) (nc corr) (fun i j => get corr i j * (std i * std j)).

(** linalg.py:58-64.  Returns (corr, std).  A non-positive diagonal entry makes numpy produce nan/inf;
    the theorems only speak about positive diagonals. *)
Definition cov2corr (cov : mat R) : mat R * (nat -> R) :=
  let std := fun i => sqrt (get cov i i) in
  (mkMat (nr cov) (nc cov) (fun i j => get cov i j / (std i * std j)), std).

(** A numpy argument: python scalar, vector, or matrix. *)
Inductive arr := AScalar (x : R) | AVec (l : list R) | AMat (m : mat R).

(** numpy.allclose(a, b, atol): |a-b| <= atol + 1e-5 |b| (rtol keeps its default 1e-5) *)
Definition close (atol a b : R) : bool := Rleb (Rabs (a - b)) (atol + / 100000 * Rabs b).

(** linalg.py:117-124; [M.ndim != 2] is False for anything but a matrix *)
Definition is_symmetric (tol : R) (a : arr) : bool :=
  match a with
  | AMat m => Nat.eqb (nr m) (nc m) &&
      forallb (fun i => forallb (fun j => close tol (get m i j) (get m j i)) (seq 0 (nr m))) (seq 0 (nr m))
  | _ => false
  end.
Definition symmetric_tol : R := / 100000000.      (* default tol=1e-8, line 100 *)
Definition psd_tol : R := / 1000000000000.        (* default tol=1e-12, line 67 *)

Section Oracles.
  (** numpy.linalg.eigvalsh: the eigenvalues of the symmetric matrix given by the lower triangle *)
  Variable eigvalsh : mat R -> list R.
  (** statsmodels' cov_nearest(cov, 'clipped', 1e-15, 100, False) *)
  Variable cov_nearest : mat R -> mat R.

  (** linalg.py:87-97 *)
  Definition is_psd (strict : bool) (tol : R) (a : arr) : bool :=
    match a with
    | AScalar x => if strict then Rltb (- tol) x else Rleb (- tol) x        (* 87-88 *)
    | _ =>
      if negb (is_symmetric tol a) then false                               (* 91-92 *)
      else match a with
           | AMat m => if strict then forallb (fun e => Rltb (- tol) e) (eigvalsh m)   (* 94-95 *)
                       else forallb (fun e => Rleb (- tol) e) (eigvalsh m)             (* 96-97 *)
           | _ => false
           end
    end.

  (** linalg.py:165-173 with default method, threshold and n_fact.  A scalar argument becomes a 0-d array,
      which is not symmetric. *)
  Definition near_psd (a : arr) : result (mat R) :=
    match a with
    | AMat m =>
      if negb (is_symmetric symmetric_tol a) then Err NonSymmetricMatrixError
      else if is_psd false psd_tol a then Ok m
      else Ok (cov_nearest m)
    | _ => Err NonSymmetricMatrixError
    end.
End Oracles.
