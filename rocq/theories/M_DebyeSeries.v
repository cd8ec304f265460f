(** Model of the Debye functions, /repo/copulae/special/_specfunc.pyx:262-337, and of their constants, lines 41-79.  Doubles are exact
    reals: decimal literals stand for the decimal number, not for the nearest double. *)
From Verif Require Import Base RSumLib M_Specfunc.
Open Scope R_scope.

(** a decimal literal: mantissa and number of decimals *)
Definition decimal (p : Z * Z) : R := IZR (fst p) / 10 ^ Z.to_nat (snd p).
(** lines 41-59 *)
Definition debye1_decimals : list (Z * Z) :=
  [(24006597190381410194, 19); (1937213042189360089, 19); (-62329124554895770, 19); (3511174770206480, 19); (-228222466701231, 19); (15805467875030, 19); (-1135378197072, 19); (83583361188, 19); (-6264424787, 19); (476033489, 19); (-36574154, 19); (2835431, 19); (-221473, 19); (17409, 19); (-1376, 19); (109, 19); (-9, 19)]%Z.
Definition debye1_constant : list R := map decimal debye1_decimals.
(** lines 61-80 *)
Definition debye2_decimals : list (Z * Z) :=
  [(25943810232570770282, 19); (2863357204530719834, 19); (-102062656158046713, 19); (6049109775346844, 19); (-405257658950210, 19); (28633826328811, 19); (-2086394303065, 19); (155237875826, 19); (-11731280087, 19); (897358589, 19); (-69317614, 19); (5398057, 19); (-423241, 19); (33378, 19); (-2645, 19); (211, 19); (-17, 19); (1, 19)]%Z.
Definition debye2_constant : list R := map decimal debye2_decimals.
(** lines 16-20 *)
Definition SQRT_DBL_EPSILON : R := decimal (14901161193847656, 24)%Z.
Definition LOG_DBL_EPSILON : R := decimal (-3604365338911715, 14)%Z.
Definition LOG_DBL_MIN : R := decimal (-7083964185322641, 13)%Z.
Definition M_LN2 : R := decimal (69314718055994530941723212146, 29)%Z.
Definition M_SQRT2 : R := decimal (141421356237309504880168872421, 29)%Z.
Definition X_CUT : R := - LOG_DBL_MIN.

(** lines 284-286 and 318-321: i runs from nexp down to 1 *)
Definition debye_loop (c : R -> R) (ex : R) (nexp : nat) : R := fold_left (fun total i => total * ex + c (INR i)) (rev (seq 1 nexp)) 0.

(** lines 262-296 *)
Definition debye_1 (x : R) : option R :=
  let val_infinity := decimal (164493406684822644, 17)%Z in
  if Rltb x 0 then None
  else Some (
    if Rltb x (2 * SQRT_DBL_EPSILON) then 1 - 1 / 4 * x + x ^ 2 / 36
    else if Rleb x 4 then cheb_eval debye1_constant (x * x / 8 - 1) (-1) 1 - 1 / 4 * x
    else if Rleb x (- (M_LN2 + LOG_DBL_EPSILON)) then
      let nexp := Z.to_nat (Int_part (X_CUT / x)) in
      let ex := exp (- x) in
      let total := debye_loop (fun i => (1 + 1 / (x * i)) / i) ex nexp in
      val_infinity / x - total * ex
    else if Rltb x X_CUT then (val_infinity - exp (- x) * (x + 1)) / x
    else val_infinity / x).

(** lines 299-337 *)
Definition debye_2 (x : R) : option R :=
  let val_infinity := decimal (480822761263837714, 17)%Z in
  let x2 := x ^ 2 in
  if Rltb x 0 then None
  else Some (
    if Rltb x (2 * M_SQRT2 * SQRT_DBL_EPSILON) then 1 - x / 3 + x2 / 24
    else if Rleb x 4 then cheb_eval debye2_constant (x * x / 8 - 1) (-1) 1 - x / 3
    else if Rltb x (- (M_LN2 + LOG_DBL_EPSILON)) then
      let nexp := Z.to_nat (Int_part (X_CUT / x)) in
      let ex := exp (- x) in
      let total := debye_loop (fun i => let xi := x * i in (1 + 2 / xi + 2 / xi ^ 2) / i) ex nexp in
      val_infinity / x ^ 2 - 2 * total * ex
    else if Rltb x X_CUT then (val_infinity - 2 * (2 + 2 * x + x2) * exp (- x)) / x2
    else val_infinity / x2).
