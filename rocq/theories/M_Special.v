(** Model of /repo/copulae/special/special_func.py and combinatorics.py: Stirling and Eulerian numbers, Horner evaluation,
    logarithm helpers, polylogarithms.  Python integers are Z, floats are exact (extended) reals. *)
From Verif Require Import Base RSumLib Ext.
From Coq Require Import ZArith.

(** a list comprehension whose element expression may raise *)
Fixpoint mapM {A B} (f : A -> result B) (l : list A) : result (list B) :=
  match l with
  | [] => Ok []
  | x :: r => bind (f x) (fun y => bind (mapM f r) (fun ys => Ok (y :: ys)))
  end.
(** [range(n)] of a possibly negative python integer *)
Definition range (n : Z) : list Z := map Z.of_nat (seq 0 (Z.to_nat n)).

(** ** Stirling numbers *)
Open Scope Z_scope.
(** special_func.py:347-351, body of the loop for a given i: [s] is rebuilt from its copy [last_row] *)
Definition stirling_first_step (k : nat) (i : Z) (last : list Z) : list Z :=
  map (fun j => match j with O => - i * nth 0 last 0 | S p => nth p last 0 - i * nth j last 0 end) (seq 0 k).
(** special_func.py:336-353; [int()] conversion of non-integers is not modelled *)
Definition stirling_first (n k : Z) : result Z :=
  if negb ((0 <=? k) && (k <=? n)) then Err AssertionError
  else if (n =? 0) || (n =? k) then Ok 1
  else if k =? 0 then Ok 0
  else
    let kk := Z.to_nat k in
    let s := fold_left (fun s i => stirling_first_step kk (Z.of_nat i) s) (seq 1 (Z.to_nat n - 1)) (1 :: repeat 0 (kk - 1)) in
    Ok (last s 0).
(** special_func.py:371 *)
Definition stirling_first_all (n : Z) : result (list Z) := mapM (fun k => stirling_first n (k + 1)) (range n).

(** special_func.py:402-406; s[0] is never written *)
Definition stirling_second_step (k : nat) (last : list Z) : list Z :=
  map (fun i => match i with O => nth 0 last 0 | S p => (Z.of_nat i + 1) * nth i last 0 + nth p last 0 end) (seq 0 k).
(** special_func.py:391-408 *)
Definition stirling_second (n k : Z) : result Z :=
  if negb ((0 <=? k) && (k <=? n)) then Err AssertionError
  else if (n =? 0) || (n =? k) then Ok 1
  else if k =? 0 then Ok 0
  else
    let kk := Z.to_nat k in
    let s := fold_left (fun s _ => stirling_second_step kk s) (seq 1 (Z.to_nat n - 1)) (1 :: repeat 0 (kk - 1)) in
    Ok (last s 0).
(** special_func.py:425 *)
Definition stirling_second_all (n : Z) : result (list Z) := mapM (fun k => stirling_second n (k + 1)) (range n).

(** ** Combinations through the gamma function *)
Open Scope R_scope.
(** combinatorics.py:31-33, log=False; [gamma] is scipy.special.gamma, its poles are treated by the callers *)
Definition comb (gamma : R -> R) (n r : R) : R := gamma (n + 1) / (gamma (n + 1 - r) * gamma (r + 1)).
(** combinatorics.py:58-60, log=False *)
Definition perm (gamma : R -> R) (n r : R) : R := gamma (n + 1) / gamma (n + 1 - r).
(** combinatorics.py:32, 59, log=True; [gammaln] is scipy.special.gammaln *)
Definition comb_log (gammaln : R -> R) (n r : R) : R := gammaln (n + 1) - gammaln (n + 1 - r) - gammaln (r + 1).
Definition perm_log (gammaln : R -> R) (n r : R) : R := gammaln (n + 1) - gammaln (n + 1 - r).

(** ** Eulerian numbers *)
(** python's round of a float: half to even *)
Definition py_round (x : R) : Z :=
  let f := x - IZR (Int_part x) in
  if Rltb f (1 / 2) then Int_part x
  else if Rltb (1 / 2) f then (Int_part x + 1)%Z
  else if Z.even (Int_part x) then Int_part x else (Int_part x + 1)%Z.
(** special_func.py:37-55.  sig, comb(n+1, arange(k+1)) and arange(k1, 0, -1)**n multiplied elementwise and summed. *)
Definition eulerian (gamma : R -> R) (n k : Z) : result Z :=
  if negb ((0 <=? k) && (k <=? n))%Z then Err AssertionError
  else if (k =? n)%Z then Ok 0%Z
  else if (k =? 0)%Z then Ok 1%Z
  else
    let k := if ((n + 1) / 2 <=? k)%Z then (n - k - 1)%Z else k in
    let k1 := (k + 1)%Z in
    Ok (py_round (rsum (Z.to_nat k1) (fun j =>
          (if Nat.even j then 1 else -1) * comb gamma (IZR (n + 1)) (INR j) * IZR (k1 - Z.of_nat j) ^ Z.to_nat n))).
(** special_func.py:70-74; the answer for n = 0 is the integer 1, not a list *)
Inductive scalar_or_list := Scalar (z : Z) | Lst (l : list Z).
Definition eulerian_all (gamma : R -> R) (n : Z) : result scalar_or_list :=
  if (n <? 0)%Z then Err AssertionError
  else if (n =? 0)%Z then Ok (Scalar 1)
  else rmap Lst (mapM (eulerian gamma n) (range n)).

(** ** Horner evaluation *)
(** special_func.py:255-259 for one point; [coef[:-1][::-1]] runs from the last but one coefficient down *)
Definition horner (coef : list R) (x : R) : result R :=
  match coef with
  | [] => Err IndexError                                    (* coef[-1] *)
  | [c] => Ok c
  | _ => Ok (fold_left (fun r j => j + r * x) (tl (rev coef)) (hd 0 (rev coef)))
  end.
(** special_func.py:245-263 with lists; a scalar [coef] or [x] is a one-element list, and a one-element answer is
    unwrapped by the code *)
Definition polyn_eval (coef xs : list R) : result (list R) := mapM (horner coef) xs.

(** ** Logarithm helpers *)
(** special_func.py:72-108 are [log1mexp] and [log1pexp] in M_Archimedean. *)
Definition emaximum (l : list ext) : ext := fold_left emax (tl l) (hd Nan l).
(** special_func.py:139-152 for one column; an empty column has no maximum *)
Definition log_sum_col (offset : option ext) (col : list ext) : result ext :=
  match offset, col with
  | None, [] => Err ValueError
  | None, _ => let o := emaximum col in Ok (eadd o (elog (esum (map (fun x => eexp (esub x o)) col))))
  | Some o, _ => Ok (eadd o (elog (esum (map (fun x => eexp (esub x o)) col))))
  end.
(** special_func.py:138-152 for a matrix given by its columns.  [offset] is None, a scalar or a vector. *)
Inductive offset_arg := NoOffset | ScalarOffset (o : ext) | VectorOffset (l : list ext).
Definition log_sum (offset : offset_arg) (cols : list (list ext)) : result (list ext) :=
  bind (match offset with
        | NoOffset => mapM (log_sum_col None) cols
        | ScalarOffset o => mapM (log_sum_col (Some o)) cols
        | VectorOffset l => if Nat.eqb (length l) (length cols)
                            then mapM (fun '(o, c) => log_sum_col (Some o) c) (combine l cols)
                            else Err AssertionError
        end)
    (fun res => match res with [] => Err IndexError | _ => Ok res end).

(** ** Polylogarithm *)
(** numpy int64 arithmetic wraps around (Linux; on Windows numpy 1.x it is int32) *)
Definition wrap64 (z : Z) : Z := ((z + 2 ^ 63) mod 2 ^ 64 - 2 ^ 63)%Z.
Definition fits64 (z : Z) : bool := ((- 2 ^ 63 <=? z) && (z <? 2 ^ 63))%Z.
(** np.cumprod of an int64 array *)
Fixpoint cumprod64 (acc : Z) (l : list Z) : list Z :=
  match l with [] => [] | x :: r => let a := wrap64 (acc * x) in a :: cumprod64 a r end.
(** [np.cumprod([1, *range(1, n + 1)])] *)
Definition fact_list (n : nat) : list Z := cumprod64 1 (1%Z :: map (fun i => Z.of_nat i) (seq 1 n)).
(** scipy.stats.logistic.ppf *)
Definition logistic_ppf (z : R) : R := ln (z / (1 - z)).
Inductive polylog_method := NegStirling | NegEulerian.
Definition parse_polylog_method (method : string) : result (option polylog_method) :=
  let m := lower method in
  if String.eqb m "default" then Ok None
  else if String.eqb m "neg-stirling" then Ok (Some NegStirling)
  else if String.eqb m "neg-eulerian" then Ok (Some NegEulerian)
  else Err AssertionError.
(** special_func.py:186-218 for one real z with 0 < z < 1 (logarithms of other arguments are not modelled) and an integer
    order [s]; a non-integer order fails the same assertion as s > 1.  [dilog] is the dilogarithm of dilog.py. *)
Definition poly_log (gamma dilog : R -> R) (z : R) (s : Z) (method : string) (log : bool) : result R :=
  bind (parse_polylog_method method) (fun m =>
  if (s =? 2)%Z && match m with None => true | _ => false end then Ok (dilog z)
  else if negb (s <=? 1)%Z then Err AssertionError
  else if (s =? 1)%Z then let r := - ln (1 + - z) in Ok (if log then ln r else r)
  else
    let iz := 1 - z in
    let n := Z.to_nat (Z.abs s) in
    match m with
    | Some NegEulerian =>
        bind (eulerian_all gamma (Z.of_nat n)) (fun e =>
        let coef := match e with Scalar c => [IZR c] | Lst l => map IZR l end in
        bind (horner coef z) (fun p =>
        Ok (if log then ln p + ln z - (INR n + 1) * ln (1 + - z) else z * p / iz ^ (n + 1))))
    | _ =>
        let r := z / iz in
        bind (stirling_second_all (Z.of_nat n + 1)) (fun s2 =>
        (* 208: an int64 product unless an entry of s2 does not fit *)
        let mul a b := if forallb fits64 s2 then wrap64 (a * b) else (a * b)%Z in
        bind (horner (map (fun '(a, b) => IZR (mul a b)) (combine (fact_list n) s2)) r) (fun p =>
        Ok (if log then ln p + logistic_ppf z else r * p)))
    end).

(** ** sign_ff *)
(** special_func.py:284-313 for [alpha] in (0,1) or 1, and integer vectors [j], [d] of the same length (a scalar next to a
    vector is repeated, 295-298; two scalars end in the TypeError of indexing a scalar unless alpha = 1).
    None is nan.  [np.ceil] on reals is [ceil]. *)
Definition ceil (x : R) : Z := (- Int_part (- x))%Z.
Definition sign_pow (z : Z) : R := if Z.even z then 1 else -1.
Definition sign_ff1 (alpha : R) (j d : Z) : ext :=
  if Reqb alpha 1 then Fin ((if (d <? j)%Z then sign_pow (d - j) else 0) + (if (j =? d)%Z then 1 else 0))
  else
    let x := alpha * IZR j in
    if Reqb x (IZR (Int_part x)) then (if (d <? j)%Z then Nan else Fin 0)
    else Fin (sign_pow (j - ceil x)).
Definition sign_ff (alpha : R) (js ds : list Z) : result (list ext) :=
  if negb (Rltb 0 alpha && Rleb alpha 1) then Err AssertionError
  else if existsb (fun d => (d <? 0)%Z) ds || existsb (fun j => (j <? 0)%Z) js then Err AssertionError
  else if Reqb alpha 1 && existsb (fun '(j, d) => (d <? j)%Z) (combine js ds) then Err ValueError  (* negative integer power *)
  else Ok (map (fun '(j, d) => sign_ff1 alpha j d) (combine js ds)).
