(** Model of /repo/copulae/stats/log.py and /repo/copulae/stats/_multivariate_t.py.
    Floats are exact reals with nan and infinities. *)
From Verif Require Import Base RSumLib Ext M_Linalg.
Open Scope R_scope.

(** np.floor *)
Definition rfloor (x : R) : R := IZR (Int_part x).
Definition efloor (a : ext) : ext := match a with Fin x => Fin (rfloor x) | _ => a end.
(** finite number divided by a float *)
Definition edivide (a : R) (d : ext) : ext :=
  match d with
  | Fin y => if Reqb y 0 then (if Rltb 0 a then Pinf else if Rltb a 0 then Ninf else Nan) else Fin (a / y)
  | Pinf | Ninf => Fin 0
  | Nan => Nan
  end.
Definition ezero (a : ext) : bool := match a with Fin x => Reqb x 0 | _ => false end.

(** log.py:23-45, one entry: [u1] and [u2] are the two uniform draws.  expm1 and log1p are exp(x)-1 and log(1+x). *)
Definition log_series_small (alpha u1 u2 : R) : ext :=
  let e := - (exp alpha - 1) in                                             (* 25 *)
  let h := u2 * alpha in                                                    (* 29 *)
  let q := - (exp h - 1) in                                                 (* 30 *)
  let log_q := if Rltb (- (69314718055994530942 / 100000000000000000000)) h then elog (Fin (- (exp h - 1)))
               else elog (Fin (1 + - exp h)) in                             (* 31 *)
  let mask1 := Rltb e u1 in                                                 (* 33-38 *)
  let mask2 := Rltb u1 (q * q) in
  let mask3 := mask2 && ezero log_q in
  let mask4 := mask2 && negb (ezero log_q) in
  let mask5 := negb mask2 && Rltb q u1 in
  let mask6 := negb mask2 && Rleb u1 q in
  let v := Fin u1 in
  let v := if mask6 then Fin 2 else v in                                    (* 40 *)
  let v := if mask4 then eadd (Fin 1) (efloor (elog (edivide u1 log_q))) else v in   (* 42; u1 is unchanged under mask4 *)
  let v := if mask3 then Pinf else v in                                     (* 43 *)
  if mask1 || mask5 then Fin 1 else v.                                      (* 44 *)

(** log.py:13-20: the loop of the first branch; [fuel] bounds the number of tests of the loop condition *)
Fixpoint log_series_loop (fuel : nat) (alpha : R) (x : nat) (p : R) (u : list R) : option (list R) :=
  match fuel with
  | O => None
  | S k => if existsb (fun v => Rltb p v) u
           then let u := map (fun v => if Rltb p v then v - p else v) u in
                let x := S x in
                log_series_loop k alpha x (p * (alpha * (INR x - 1) / INR x)) u
           else Some u
  end.
(** log.py:6-45; [u1], [u2]: the uniform draws (the first branch uses only [u1]) *)
Definition random_log_series (fuel : nat) (alpha : R) (u1 u2 : list R) : option (list ext) :=
  if Rltb alpha (-3)
  then option_map (map Fin) (log_series_loop fuel alpha 1 (- alpha / ln (1 - (exp alpha - 1))) u1)       (* 8-21 *)
  else Some (map (fun p => log_series_small alpha (fst p) (snd p)) (combine u1 u2)).

(** * multivariate t *)
Inductive xin := XScalar (r : R) | XVec (l : list R) | XMat (w : nat) (rows : list (list R)).
Inductive meanin := MNone | MScalar (r : R) | MVec (l : list R) | MMat (n : nat).
(** covariance argument: None, python number, or a nested list / array ([w]: its width) *)
Inductive covin := CNone | CScalar (r : R) | CRows (w : nat) (rows : list (list R)).

Section MVT.
  Variable eigvalsh : mat R -> list R.                     (* np.linalg.eigvalsh *)
  Variable det : mat R -> R.                               (* np.linalg.det *)
  Variable inv : mat R -> result (mat R).                  (* np.linalg.inv *)
  Variable gamma : R -> R.                                 (* scipy.special.gamma *)
  Variable beta : R -> R -> R.                             (* scipy.special.beta *)
  Variable mvn_pdf : xin -> list R -> mat R -> result (list ext).   (* scipy.stats.multivariate_normal.pdf *)

  Definition rows_mat (n : nat) (rows : list (list R)) : mat R := mkMat n n (fun i j => nth j (nth i rows []) 0).
  (** lines 215-248, with dim = None; [reshape(dim, dim)] of the array of the given rows *)
  Definition process_parameters (mean : meanin) (cov : covin) (df : option R) : result (nat * list R * mat R * R) :=
    bind (match cov with
          | CNone => Ok (rows_mat 1 [[1]])                                            (* 218-220 *)
          | CScalar r => Ok (rows_mat 1 [[r]])                                        (* 222-223 *)
          | CRows w rows => if Nat.eqb w (length rows) then Ok (rows_mat (length rows) rows) else Err ValueError   (* 225-226 *)
          end) (fun c =>
    let dim := nr c in
    bind (match mean with
          | MNone => Ok (repeat 0 dim)
          | MScalar r => Ok (repeat r dim)
          | MVec l => if Nat.eqb (length l) dim then Ok l else Err ValueError         (* 239-240 *)
          | MMat _ => Err ValueError
          end) (fun m =>
    if negb (is_psd eigvalsh false psd_tol (AMat c)) then Err ValueError              (* 242-243 *)
    else match df with
         | None => Ok (dim, m, c, 46692 / 10000)                                      (* 245-246 *)
         | Some d => if Rleb d 0 then Err ValueError else Ok (dim, m, c, d)           (* 247-248 *)
         end)).

  (** lines 205-212: None stands for the 1-dimensional array made of a scalar *)
  Definition process_input (x : xin) (dim : nat) : option (nat * list (list R)) :=
    match x with
    | XScalar _ => None
    | XVec l => if Nat.eqb dim 1 then Some (1%nat, map (fun r => [r]) l) else Some (length l, [l])
    | XMat w rows => Some (w, rows)
    end.
  (** numpy's broadcasting of [x - mean] (n x w minus dim) and the matrix product with a dim x dim matrix *)
  Definition centre (dim w : nat) (mean : list R) (row : list R) : list R :=
    if Nat.eqb w dim then map (fun p => fst p - snd p) (combine row mean)
    else map (fun m => nth 0 row 0 - m) mean.
  Definition quadratic (n : nat) (m : mat R) (v : list R) : R :=
    rsum n (fun i => rsum n (fun j => nth i v 0 * get m i j * nth j v 0)).

  Definition t_limit : R := 10000.                                                    (* line 13 *)
  (** lines 79-118 *)
  Definition mvt_pdf (x : xin) (mean : meanin) (cov : covin) (df : option R) : result (list ext) :=
    bind (process_parameters mean cov df) (fun '(dim, mean, cov, df) =>
    if Rltb t_limit df then mvn_pdf x mean cov                                        (* 103-104 *)
    else
      let a := gamma (INR dim / 2) in                                                 (* 108 *)
      let b := escal (beta (df / 2) (INR dim / 2) * Rpower (df * PI) (INR dim / 2)) (epow (Fin (det cov)) (1 / 2)) in    (* 109 *)
      match process_input x dim with
      | None => bind (inv cov) (fun _ => Err ValueError)                              (* np.diag of a 0-d array *)
      | Some (w, rows) =>
        if Nat.eqb w dim || Nat.eqb w 1 then
          bind (inv cov) (fun ic =>
          Ok (map (fun row =>
                let q := quadratic dim ic (centre dim w mean row) in
                let c := epow (Fin (1 + q / df)) ((INR dim + df) / 2) in              (* 112 *)
                match b with Fin b => edivide a (escal b c) | _ => Nan end) rows))    (* 114 *)
        else Err ValueError
      end).
  (** lines 57-76 *)
  Definition mvt_logpdf (x : xin) (mean : meanin) (cov : covin) (df : option R) : result (list ext) :=
    rmap (map elog) (mvt_pdf x mean cov df).
End MVT.

(** * shapes in multivariate_t.rvs (lines 117-202) for an integer size, df below the limit and a k x k covariance array.
    mvn.rvs squeezes its result: a k-vector for size 1, a size-vector for k = 1. *)
Definition normal_shape (k size : nat) : list nat :=
  match k, size with
  | 1%nat, 1%nat => []
  | 1%nat, _ => [size]
  | _, 1%nat => [k]
  | _, _ => [size; k]
  end.
Definition chi_shape (size : nat) : list nat := if (1 <? size)%nat then [size; 1%nat] else [size].     (* 162, 167-169 *)
(** shape of a broadcast operation on shapes given from the last axis *)
Fixpoint bcast (a b : list nat) : option (list nat) :=
  match a, b with
  | [], l | l, [] => Some l
  | x :: a, y :: b =>
    match bcast a b with
    | None => None
    | Some r => if Nat.eqb x y then Some (x :: r) else if Nat.eqb x 1 then Some (y :: r) else if Nat.eqb y 1 then Some (x :: r) else None
    end
  end.
(** [r /= d]: the in-place result must have the shape of [r]; a 0-d result of mvn.rvs is a numpy scalar, rebound to a new array *)
Definition idiv_shape (r d : list nat) : result (list nat) :=
  match bcast (rev r) (rev d) with
  | None => Err ValueError
  | Some s => match r with
              | [] => Ok (rev s)
              | _ => if list_eq_dec Nat.eq_dec (rev s) r then Ok r else Err ValueError
              end
  end.
Definition rvs_shape (k size : nat) : result (list nat) :=
  bind (idiv_shape (normal_shape k size) (chi_shape size)) (fun s =>
  Ok (if Nat.eqb (fold_right Nat.mul 1%nat s) 1 then [] else s)).             (* 202: a single number becomes a python float *)
