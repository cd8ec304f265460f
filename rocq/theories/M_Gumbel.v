(** Model of the Gumbel polynomial: /repo/copulae/archimedean/gumbel.py (gumbel_coef, gumbel_poly) and auxiliary.py
    (dsum_sibuya).  Python integers are Z; a numpy int64 array wraps around (Linux; on Windows numpy 1.x it is int32). *)
From Verif Require Import Base RSumLib Ext M_Special.
From Coq Require Import ZArith.
Open Scope R_scope.

(** product of two floats *)
Definition emul (a b : ext) : ext :=
  match a, b with
  | Nan, _ | _, Nan => Nan
  | Fin x, _ => escal x b
  | _, Fin y => escal y a
  | Pinf, Pinf | Ninf, Ninf => Pinf
  | _, _ => Ninf
  end.
(** l[::2] and l[1::2] *)
Fixpoint evens {A} (l : list A) : list A := match l with [] => [] | x :: r => x :: match r with [] => [] | _ :: r' => evens r' end end.
Definition odds {A} (l : list A) : list A := evens (tl l).

(** ** Combinations of a real upper argument *)
(** combinatorics.py:31-33.  [gamma] may answer inf at a pole, and a finite number over inf is 0. *)
Definition ecomb (gamma : R -> ext) (n r : R) : ext :=
  match gamma (n + 1), gamma (n + 1 - r), gamma (r + 1) with
  | Fin a, Fin b, Fin c => Fin (a / (b * c))
  | Fin _, Pinf, Fin c => if Reqb c 0 then Nan else Fin 0
  | _, _, _ => Nan
  end.
Definition ecomb_log (gammaln : R -> ext) (n r : R) : ext := esub (esub (gammaln (n + 1)) (gammaln (n + 1 - r))) (gammaln (r + 1)).

(** ** dsum_sibuya *)
(** np.diff applied n times *)
Fixpoint diff1 (l : list ext) : list ext :=
  match l with x :: r => match r with y :: _ => esub y x :: diff1 r | [] => [] end | [] => [] end.
Definition np_diff (n : nat) (l : list ext) : list ext := Nat.iter n diff1 l.
Inductive sib_method := SibLog | SibDirect | SibDiff.
(** auxiliary.py:70-79, one element.  [signs] is the list of line 68. *)
Definition sib_log1 (gammaln : R -> ext) (alpha : R) (signs : list ext) (xx nn : nat) : result ext :=
  if Nat.ltb xx nn then Ok Ninf
  else match nn with
       | O => Err ValueError                                            (* np.max of an empty array *)
       | _ =>
         let js := seq 0 nn in
         let lxabs := map (fun j => eadd (ecomb_log gammaln (INR nn) (INR (j + 1))) (ecomb_log gammaln (alpha * INR (j + 1)) (INR xx))) js in
         let offset := emaximum lxabs in
         let sum := esum (map (fun j => emul (nth j signs Nan) (eexp (esub (nth j lxabs Nan) offset))) js) in
         Ok (eadd (elog sum) offset)
       end.
(** auxiliary.py:83-87, one element *)
Definition sib_direct1 (gamma : R -> ext) (alpha : R) (xx nn : nat) : ext :=
  if Nat.ltb xx nn then Fin 0
  else esum (map (fun j => emul (emul (ecomb gamma (INR nn) (INR j)) (ecomb gamma (alpha * INR j) (INR xx))) (Fin ((-1) ^ (xx - j)))) (seq 1 nn)).
(** auxiliary.py:92-94, one element: the only element of the nn-th difference *)
Definition sib_diff1 (gamma : R -> ext) (alpha : R) (xx nn : nat) : ext :=
  let dd := map (fun j => ecomb gamma (INR j * alpha) (INR xx)) (rev (seq 0 (S nn))) in
  emul (hd Nan (np_diff nn dd)) (Fin ((-1) ^ xx)).
(** auxiliary.py:48-96 for non-negative integers; vectors of the same length, or one of them of length 1 *)
Definition dsum_sibuya (gamma gammaln : R -> ext) (x n : list nat) (alpha : R) (m : sib_method) (log : bool) : result (list ext) :=
  if negb (Rltb 0 alpha && Rleb alpha 1) then Err AssertionError
  else
    let len := Nat.max (length x) (length n) in
    let rep l := flat_map (fun a : nat => repeat a len) l in
    let '(x, n) := if Nat.eqb (length x) (length n) then (x, n) else if Nat.ltb (length x) len then (rep x, n) else (x, rep n) in
    if Reqb alpha 1 then Ok (map (fun '(a, b) => Fin (if Nat.eqb a b then 1 else 0)) (combine x n))   (* 60-61: not logged *)
    else
    let fin l := Ok (if log then map elog l else l) in
    match m with
    | SibLog =>
        let top := fold_left Nat.max n 0%nat in
        let js := map Z.of_nat (seq 1 top) in
        (* 68: the vectors are recycled to the longer length *)
        let longer := Nat.max top (length x) in
        if Nat.eqb top 0 then Err ZeroDivisionError                      (* i % len(j) with an empty j *)
        else
        bind (sign_ff alpha (map (fun i => nth (i mod top) js 0%Z) (seq 0 longer)) (map (fun i => Z.of_nat (nth (i mod (length x)) x 0%nat)) (seq 0 longer)))
          (fun signs =>
           match signs with
           | [_] => Err TypeError                                        (* sign_ff returned a scalar: signs[js] *)
           | _ => bind (mapM (fun '(a, b) => sib_log1 gammaln alpha signs a b) (combine x n)) (fun s => Ok (if log then s else map eexp s))
           end)
    | SibDirect => fin (map (fun '(a, b) => sib_direct1 gamma alpha a b) (combine x n))
    | SibDiff => fin (map (fun '(a, b) => sib_diff1 gamma alpha a b) (combine x n))
    end.

(** ** gumbel_coef *)
(** gumbel.py:300-312.  An entry of 2^64 or more makes np.abs(..) an object array, which np.log rejects. *)
Definition gumbel_coef_sort (d : nat) (alpha : R) (log : bool) : result (list ext) :=
  bind (stirling_first_all (Z.of_nat d)) (fun s =>
  bind (mapM (fun i => stirling_second_all (Z.of_nat (i + 1))) (seq 0 d)) (fun S2 =>
  if existsb (fun z => (2 ^ 64 <=? Z.abs z)%Z) s || existsb (existsb (fun z => (2 ^ 64 <=? z)%Z)) S2 then Err TypeError
  else
  let ls := map (fun z => elog (Fin (IZR (Z.abs z)))) s in
  let lS := map (map (fun z => elog (Fin (IZR z)))) S2 in
  Ok (map (fun i =>
    let b := map (fun x => eadd (eadd (Fin (INR (x + 1) * ln alpha)) (nth x ls Nan)) (nth i (nth x lS []) Nan)) (seq i (d - i)) in
    let m := emaximum b in
    let ex := map (fun y => eexp (esub y m)) b in
    let sum := esub (esum (evens ex)) (esum (odds ex)) in
    if log then eadd (elog sum) m else emul (eexp m) sum) (seq 0 d)))).
(** gumbel.py:315-325.  The product of line 322 is an int64 product when all of [s] fits in int64; otherwise numpy falls back
    to floats or python integers. *)
Definition gumbel_coef_horner (d : nat) (alpha : R) (log : bool) : result (list ext) :=
  bind (stirling_first_all (Z.of_nat d)) (fun s =>
  bind (mapM (fun i => stirling_second_all (Z.of_nat (i + 1))) (seq 0 d)) (fun S2 =>
  let mul a b := if forallb fits64 s then wrap64 (a * b) else (a * b)%Z in
  bind (mapM (fun i => horner (map (fun j => IZR (mul (Z.abs (nth j s 0%Z)) (nth i (nth j S2 []) 0%Z))) (seq i (d - i))) (- alpha)) (seq 0 d)) (fun pol =>
  Ok (map (fun '(i, p) => if log then eadd (Fin (INR (i + 1) * ln alpha)) (elog (Fin p)) else Fin (p * alpha ^ (i + 1))) (combine (seq 0 d) pol))))).
(** gumbel.py:327-338: the products are float products *)
Definition gumbel_coef_direct (d : nat) (alpha : R) (log : bool) : result (list ext) :=
  bind (stirling_first_all (Z.of_nat d)) (fun s =>
  bind (mapM (fun i => stirling_second_all (Z.of_nat (i + 1))) (seq 0 d)) (fun S2 =>
  Ok (map (fun i =>
    let sum := lsum (map (fun j => alpha ^ (j + 1) * IZR (nth j s 0%Z) * IZR (nth i (nth j S2 []) 0%Z)) (seq i (d - i))) in
    if log then elog (Fin (Rabs sum)) else Fin ((-1) ^ (d - i + 1) * sum)) (seq 0 d)))).
(** gumbel.py:342: [1, d, d (d-1), .., d!] reversed *)
Definition gumbel_ck (d : nat) : list Z := rev (1%Z :: cumprod64 1 (map (fun i => Z.of_nat (d - i)) (seq 0 (d - 1)))).
(** gumbel.py:340-347 *)
Definition gumbel_coef_sibuya (gamma gammaln : R -> ext) (d : nat) (alpha : R) (m : sib_method) (log : bool) : result (list ext) :=
  bind (dsum_sibuya gamma gammaln [d] (seq 1 d) alpha m log) (fun p =>
  Ok (map (fun '(p, c) => if log then eadd p (elog (Fin (IZR c))) else emul p (Fin (IZR c))) (combine p (gumbel_ck d)))).
(** gumbel.py:292-347 *)
Definition gumbel_coef (gamma gammaln : R -> ext) (d : Z) (alpha : R) (method : string) (log : bool) : result (list ext) :=
  if negb (Rltb 0 alpha && Rleb alpha 1) then Err AssertionError
  else if negb (1 <=? d)%Z then Err AssertionError
  else
    let n := Z.to_nat d in
    let m := lower method in
    if String.eqb m "sort" then gumbel_coef_sort n alpha log
    else if String.eqb m "horner" then gumbel_coef_horner n alpha log
    else if String.eqb m "direct" then gumbel_coef_direct n alpha log
    else if String.eqb m "log" then gumbel_coef_sibuya gamma gammaln n alpha SibLog log
    else if String.eqb m "ds.direct" then gumbel_coef_sibuya gamma gammaln n alpha SibDirect log
    else if String.eqb m "diff" then gumbel_coef_sibuya gamma gammaln n alpha SibDiff log
    else Err AssertionError.

(** ** gumbel_poly *)
(** scipy.stats.poisson.logcdf(m, x) for x > 0 *)
Definition pois_logcdf (m : nat) (x : R) : ext := elog (Fin (exp (- x) * rsum (S m) (fun i => x ^ i / INR (fact i)))).
(** gumbel.py:407-423 for one value lx *)
Definition gumbel_poly_pois (gammaln : R -> ext) (lx alpha : R) (d : nat) (log : bool) : result ext :=
  let x := exp lx in
  let ks := seq 1 d in
  let lxabs := map (fun k =>
      let labs_poch := esum (map (fun i => elog (Fin (Rabs (alpha * INR k - (INR i - 1))))) ks) in
      let lfac := gammaln (INR k + 1) in
      eadd (eadd (eadd (Fin (INR k * lx)) (pois_logcdf (d - k) x)) (esub labs_poch lfac)) (Fin x)) ks in
  bind (sign_ff alpha (map Z.of_nat ks) (map (fun _ => Z.of_nat d) ks)) (fun signs =>
  match signs with
  | [_] => Err TypeError                                                  (* sign_ff returned a scalar: signs[:, None] *)
  | _ =>
    let offset := emaximum lxabs in
    let sum := esum (map (fun '(s, y) => emul s (eexp (esub y offset))) (combine signs lxabs)) in
    let res := eadd (elog sum) offset in
    Ok (if log then res else eexp res)
  end).
(** gumbel.py:400-429 for one value lx (the columns do not interact) *)
Definition calculate_gumbel_poly (gamma gammaln : R -> ext) (lx alpha : R) (d : nat) (method : string) (log : bool) : result ext :=
  let m := lower method in
  if String.eqb m "pois" then gumbel_poly_pois gammaln lx alpha d log
  else if String.eqb m "direct" || String.eqb m "log" || String.eqb m "sort" then
    bind (gumbel_coef gamma gammaln (Z.of_nat d) alpha m true) (fun la =>
    let x := esum (map (fun '(k, a) => eexp (eadd a (Fin (INR k * lx)))) (combine (seq 1 d) la)) in
    Ok (if log then elog x else x))
  else Err AssertionError.
(** gumbel.py:432-468; line 442 compares d, not alpha, and never holds *)
Definition get_poly_method (lx alpha : R) (d : nat) : string :=
  if Nat.leb d 30 then "direct"
  else if Nat.leb d 50 then (if Rleb alpha (8 / 10) then "direct" else "log")
  else if Nat.leb d 70 then (if Rleb alpha (7 / 10) then "direct" else "log")
  else if Nat.leb d 90 then (if Rleb (INR d) (1 / 2) then "direct" else if Rleb lx (408 / 100) then "pois" else "log")
  else if Nat.leb d 120 then
    (if Rltb alpha (3 / 1000) then "sort" else if Rleb alpha (4 / 10) then "direct"
     else if Rleb lx (355 / 100) then "pois" else if Rleb (592 / 100) lx then "direct" else "log")
  else if Nat.leb d 170 then
    (if Rltb alpha (1 / 100) then "sort" else if Rleb alpha (3 / 10) then "direct" else if Rleb lx (355 / 100) then "pois" else "log")
  else if Nat.leb d 200 then (if Rleb lx (256 / 100) then "pois" else "log")
  else "log".
(** gumbel.py:377-397; the values are grouped by method and written back to their positions *)
Definition gumbel_poly (gamma gammaln : R -> ext) (log_x : list R) (alpha : R) (d : Z) (method : string) (log : bool) : result (list ext) :=
  if negb (Rltb 0 alpha && Rleb alpha 1) then Err AssertionError
  else if negb (1 <=? d)%Z then Err AssertionError
  else
    let n := Z.to_nat d in
    let m := lower method in
    mapM (fun lx => calculate_gumbel_poly gamma gammaln lx alpha n (if String.eqb m "default" then get_poly_method lx alpha n else m) log) log_x.
