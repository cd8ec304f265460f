(** Model of the real dilogarithm, /repo/copulae/special/_specfunc.pyx:339-440.  Doubles are exact reals, so the constant PI is
    the number PI and a sum differs from the series only by the terms left out.  None is nan. *)
From Verif Require Import Base RSumLib.
Open Scope R_scope.

(** line 15: 2.220446049250313e-16, the double 2^-52 *)
Definition DBL_EPSILON : R := / 4503599627370496.

(** lines 406-416: [n] is the number of values of k left; None after the last one *)
Fixpoint series_1_loop (n k : nat) (x term total : R) : option R :=
  match n with
  | O => None
  | S n =>
    let rk2 := ((INR k - 1) / INR k) ^ 2 in
    let term := term * (x * rk2) in
    let total := total + term in
    if Rltb (Rabs (term / total)) DBL_EPSILON then Some total else series_1_loop n (S k) x term total
  end.
(** lines 401-416: k in range(2, 1000) *)
Definition dilog_series_1 (x : R) : option R := series_1_loop 998 2 x x x.

(** lines 425-430 *)
Fixpoint series_2_loop (n k : nat) (x y total : R) : R :=
  match n with
  | O => total
  | S n =>
    let y := y * x in
    let ds := y / (INR k * INR k * (INR k + 1)) in
    let total := total + ds in
    if (10 <=? k)%nat && Rltb (Rabs (ds / total)) (1 / 2 * DBL_EPSILON) then total else series_2_loop n (S k) x y total
  end.
(** lines 437-438: k in range(8, 1, -1) *)
Definition small_z (x : R) : R := fold_left (fun z k => x * (1 / INR k + z)) [8; 7; 6; 5; 4; 3; 2]%nat 0.
(** lines 418-442: k in range(2, 100) *)
Definition dilog_series_2 (x : R) : R :=
  let res := series_2_loop 98 2 x x (1 / 2 * x) in
  let z := if Rltb (1 / 100) x then (1 - x) * ln (1 - x) / x else (x - 1) * (1 + small_z x) in
  res + z + 1.

(** lines 372-376: i in range(8, 0, -1) *)
Definition near_one (x : R) : R :=
  let t2 := ln (x - 1) in
  fold_left (fun t3 i => (x - 1) * (t3 + (- (1)) ^ (i + 1) * (1 - INR i * t2) / (INR i * INR i))) [8; 7; 6; 5; 4; 3; 2; 1]%nat 0.

(** lines 350-399.  The logarithm of line 355 is only used for x > 1/2. *)
Definition dilog_xge0 (x : R) : option R :=
  let log_x := ln x in
  if Rltb 2 x then Some (PI * PI / 3 - dilog_series_2 (1 / x) - 1 / 2 * log_x ^ 2)
  else if Rltb (101 / 100) x then Some (PI ^ 2 / 6 + dilog_series_2 (1 - 1 / x) - log_x * (ln (1 - 1 / x) + 1 / 2 * log_x))
  else if Rltb 1 x then Some (near_one x + PI * PI / 6)
  else if Rleb (Rabs (x - 1)) (DBL_EPSILON * 10) then Some (PI ^ 2 / 6)
  else if Rltb (1 / 2) x then Some (PI ^ 2 / 6 - dilog_series_2 (1 - x) - log_x * ln (1 - x))
  else if Rltb (1 / 4) x then Some (dilog_series_2 x)
  else if Rltb 0 x then dilog_series_1 x
  else Some 0.

(** lines 339-348 *)
Definition dilog (x : R) : option R :=
  if Rleb 0 x then dilog_xge0 x
  else match dilog_xge0 (- x), dilog_xge0 (x * x) with Some d1, Some d2 => Some (1 / 2 * d2 - d1) | _, _ => None end.
