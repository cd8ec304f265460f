(** Model of the density, the distribution function and the tail coefficients of the elliptical copulas:
    /repo/copulae/elliptical/gaussian.py:47-53,60-62,75-82, /repo/copulae/elliptical/student.py:57-64,120-130,169-177 and
    /repo/copulae/stats/_multivariate_t.py:17-54 (cdf, logcdf).
    [u], [x]: the n x dim array the annotations hand over (C46), a list of rows; only points inside the cube, so that the
    quantiles are finite.  scipy's univariate and multivariate functions are arguments. *)
From Verif Require Import Base RSumLib Ext M_Matrix M_Linalg M_Elliptical M_Stats.
Open Scope R_scope.

(** [self.sigma] as scipy takes it.  Simplification: a matrix with a nan raises ValueError (scipy's eigenvalue routine and
    is_psd both refuse it). *)
Definition real_sigma (e : ell) : result (mat R) := bind (sigma e) (fun s => if has_nan s then Err ValueError else Ok (unfl s)).
(** the nested list of an array *)
Definition rows_of (m : mat R) : list (list R) := map (fun i => map (get m i) (seq 0 (nc m))) (seq 0 (nr m)).
(** [mv.logpdf(q) - logpdf(q).sum(1)], row by row *)
Definition minus_margins (logpdf : R -> R) (joint : list ext) (q : list (list R)) : list ext :=
  map (fun p => esub (fst p) (esum (map (fun x => Fin (logpdf x)) (snd p)))) (combine joint q).

Section Gaussian.
  Variables norm_ppf norm_logpdf : R -> R.                                            (* scipy.stats.norm.ppf, .logpdf *)
  Variables mvn_logpdf mvn_cdf mvn_logcdf : mat R -> list (list R) -> result (list ext).   (* scipy.stats.multivariate_normal *)
  (** gaussian.py:78-82 *)
  Definition gaussian_pdf (e : ell) (log : bool) (u : list (list R)) : result (list ext) :=
    bind (real_sigma e) (fun s =>
    let q := map (map norm_ppf) u in                                                  (* 80 *)
    bind (mvn_logpdf s q) (fun joint =>
    let d := minus_margins norm_logpdf joint q in                                     (* 81 *)
    Ok (if log then d else map eexp d))).                                             (* 82 *)
  (** gaussian.py:51-53 *)
  Definition gaussian_cdf (e : ell) (log : bool) (x : list (list R)) : result (list ext) :=
    let q := map (map norm_ppf) x in
    bind (real_sigma e) (fun s => if log then mvn_logcdf s q else mvn_cdf s q).
End Gaussian.
(** gaussian.py:60-62: (rhos == 1).astype(float), twice; nan == 1 is False *)
Definition is_one (v : fl) : R := match v with Some r => if Reqb r 1 then 1 else 0 | None => 0 end.
Definition gaussian_lambda (e : ell) : list R * list R := let res := map is_one (e_rhos e) in (res, res).

Section Student.
  Variables t_ppf t_logpdf t_cdf : R -> R -> R.                                       (* scipy.stats.t: (argument, df) *)
  Variable eigvalsh : mat R -> list R.
  Variable det : mat R -> R.
  Variable inv : mat R -> result (mat R).
  Variable gamma : R -> R.
  Variable beta : R -> R -> R.
  Variable mvn_pdf : xin -> list R -> mat R -> result (list ext).
  (** student.py:172-177 with multivariate_t.logpdf of M_Stats *)
  Definition student_pdf (e : ell) (df : R) (log : bool) (u : list (list R)) : result (list ext) :=
    bind (real_sigma e) (fun s =>
    let q := map (map (fun p => t_ppf p df)) u in                                     (* 175 *)
    bind (mvt_logpdf eigvalsh det inv gamma beta mvn_pdf (XMat (e_dim e) q) MNone (CRows (nc s) (rows_of s)) (Some df)) (fun joint =>
    let d := minus_margins (fun x => t_logpdf x df) joint q in                        (* 176 *)
    Ok (if log then d else map eexp d))).                                             (* 177 *)
  (** _multivariate_t.py:17-50 and 52-54 *)
  Definition mvt_cdf (x : list (list R)) (cov : mat R) (df : R) : result (list ext) := Err NotImplementedError.
  Definition mvt_logcdf (x : list (list R)) (cov : mat R) (df : R) : result (list ext) := rmap (map elog) (mvt_cdf x cov df).
  (** student.py:60-64 *)
  Definition student_cdf (e : ell) (df : R) (log : bool) (x : list (list R)) : result (list ext) :=
    bind (real_sigma e) (fun s => let q := map (map (fun p => t_ppf p df)) x in if log then mvt_logcdf q s df else mvt_cdf q s df).
  (** student.py:120-130; an infinite df is [Pinf]; np.sqrt of a negative number is nan *)
  Definition student_tail (df : R) (rho : fl) : fl :=
    match rho with
    | None => None
    | Some r => if Rleb 0 ((df + 1) * (1 - r)) then Some (2 * t_cdf (- sqrt ((df + 1) * (1 - r))) (df + 1)) else None     (* 128 *)
    end.
  Definition student_lambda (e : ell) (df : ext) : list fl * list fl :=
    let res := match df with Fin n => map (student_tail n) (e_rhos e) | _ => map (fun r => Some (is_one r)) (e_rhos e) end in
    (res, res).
End Student.
