(** Model of the Archimedean copulas: /repo/copulae/archimedean/abstract.py, clayton.py, gumbel.py, frank.py
    (generators, cdf, dipsi, tau, tail dependence, parameters, bivariate sampling). *)
From Verif Require Import Base RSumLib Ext.
Open Scope R_scope.

(** abstract.py:17-22, one row: psi of the sum of ipsi; log=True takes the logarithm *)
Definition arch_cdf (psi : ext -> result ext) (ipsi : ext -> ext) (row : list ext) : result ext :=
  psi (esum (map ipsi row)).
Definition arch_cdf_log psi ipsi row : result ext := rmap elog (arch_cdf psi ipsi row).

(** ** Clayton *)
(** clayton.py:80-81 *)
Definition clayton_ipsi (th : R) (u : ext) : ext := escal (sgn th) (esub (epow u (- th)) (Fin 1)).
(** clayton.py:142; [-1 / self._theta] raises for the python float 0.0 *)
Definition clayton_psi (th : R) (s : ext) : result ext :=
  if Reqb th 0 then Err ZeroDivisionError
  else Ok (epow (emax (eadd (Fin 1) (escal (sgn th) s)) (Fin 0)) (-1 / th)).
Definition clayton_cdf (th : R) : list ext -> result ext := arch_cdf (clayton_psi th) (clayton_ipsi th).

(** clayton.py:45-55.  np.log of a python float <= 0 is -inf / nan. *)
Definition clayton_dipsi (th : R) (degree : Z) (log : bool) (u : ext) : result ext :=
  if negb ((degree =? 1)%Z || (degree =? 2)%Z) then Err AssertionError
  else
    let s := if log || (degree mod 2 =? 0)%Z then 1 else -1 in
    let a := if (degree =? 1)%Z
             then esub (elog (Fin th)) (escal (1 + th) (elog u))
             else esub (eadd (elog (Fin th)) (elog (Fin (1 + th)))) (escal (th + 2) (elog u)) in
    Ok (escal s (if log then a else eexp a)).

(** clayton.py:72-74, 85-87, 180-181 *)
Definition clayton_tau (th : R) : R := th / (th + 2).
Definition clayton_itau (tau : R) : R := 2 * tau / (1 - tau).
Definition clayton_dtau (th : R) : R := 2 / (th + 2) ^ 2.
(** clayton.py:90-94: (lower, upper) *)
Definition clayton_lambda (th : R) : R * R := ((if Rltb 0 th then Rpower 2 (-1 / th) else 0), 0).
(** clayton.py:155: second coordinate of a bivariate draw from the uniforms (u, t).
    [-theta / (theta + 1)] raises for theta = -1. *)
Definition clayton_draw2 (th u t : R) : result ext :=
  if Reqb (th + 1) 0 then Err ZeroDivisionError
  else if Reqb th 0 then Err ZeroDivisionError
  else match epow (Fin u) (- th), esub (epow (Fin t) (- th / (th + 1))) (Fin 1) with
       | Fin a, Fin b => Ok (epow (Fin (a * b + 1)) (-1 / th))
       | _, _ => Ok Nan
       end.
(** clayton.py:145-157 for dim = 2 and a non-nan theta; small |theta| returns the uniforms *)
Definition clayton_random2 (th u t : R) : result (ext * ext) :=
  if Rltb (Rabs th) (/ 10000000) then Ok (Fin u, Fin t)
  else rmap (fun v => (Fin u, v)) (clayton_draw2 th u t).

(** ** Gumbel *)
(** gumbel.py:151-152, 224 *)
Definition gumbel_ipsi (th : R) (u : ext) : ext := epow (eopp (elog u)) th.
Definition gumbel_psi (th : R) (s : ext) : result ext := Ok (eexp (eopp (epow s (1 / th)))).
Definition gumbel_cdf (th : R) : list ext -> result ext := arch_cdf (gumbel_psi th) (gumbel_ipsi th).
(** gumbel.py:124-134 on finite u in (0,1) *)
Definition gumbel_dipsi (th : R) (degree : Z) (log : bool) (u : R) : result ext :=
  if negb ((degree =? 1)%Z || (degree =? 2)%Z) then Err AssertionError
  else
    let s := if log || (degree mod 2 =? 0)%Z then 1 else -1 in
    let lu := ln u in
    let v := if (degree =? 1)%Z
             then escal (/ u) (escal th (epow (Fin (- lu)) (th - 1)))
             else escal (/ (u ^ 2)) (escal (th * (th - 1 - lu)) (epow (Fin (- lu)) (th - 2))) in
    Ok (escal s (if log then elog v else v)).
(** gumbel.py:145, 157-167 (scalar tau: negative values give 1), 258-259 *)
Definition gumbel_tau (th : R) : R := 1 - 1 / th.
Definition gumbel_itau (tau : R) : R := if Rltb tau 0 then 1 else 1 / (1 - tau).
Definition gumbel_dtau (x : R) : R := Rpower x (-2).
(** gumbel.py:169-170; a plain method, not a property *)
Definition gumbel_lambda (th : R) : R * R := (0, 2 * Rpower 2 (1 / th)).
(** gumbel.py:71-74: Pickands function *)
Definition gumbel_A (th w : R) : ext :=
  if Reqb w 0 || Reqb w 1 then Fin 1
  else epow (eadd (epow (Fin w) th) (epow (Fin (1 - w)) th)) (1 / th).

(** ** Frank *)
Definition eltb (a b : ext) : bool :=
  match a, b with
  | Fin x, Fin y => Rltb x y
  | Ninf, Fin _ | Ninf, Pinf | Fin _, Pinf => true
  | _, _ => false
  end.
(** special_func.py:72-108 *)
Definition log1mexp (x : ext) : ext := elog (esub (Fin 1) (eexp (eopp x))).
Definition log1pexp (x : ext) : ext := elog (eadd (Fin 1) (eexp x)).

(** frank.py:79-98.  The small-input branch (86-88) writes its result into [res], which is never returned, so small
    inputs keep r = u * theta.  [e > 0] is always true in exact arithmetic.  Infinite u is not modelled (nan). *)
Definition frank_ipsi (th : R) (u : ext) : ext :=
  match u with
  | Fin u =>
    let r := u * th in
    let em := exp (- th) - 1 in
    let e := exp (- th) in
    if Rleb (Rabs r) (1 / 100 * Rabs th) then Fin r                                        (* 86-88 *)
    else if Rltb (Rabs (th - r)) (1 / 2)                                                    (* 92 *)
         then eopp (elog (Fin (1 + e * (exp (th - r) - 1) / em)))                           (* 96 *)
         else eopp (elog (Fin (1 + (exp (- r) - e) / em)))                                  (* 97 *)
  | _ => Nan
  end.
(** frank.py:156-171 *)
Definition frank_psi (th : R) (s : ext) : result ext :=
  if Rleb th (-36) then Ok (ediv (eopp (log1pexp (esub (eopp s) (Fin th)))) th)
  else if Rltb th 0 then Ok (ediv (eopp (elog (eadd (Fin 1) (escal (exp (- th) - 1) (eexp (eopp s)))))) th)
  else if Reqb th 0 then Ok (eexp (eopp s))
  else
    let const := log1mexp (Fin th) in
    if eltb s const then Ok Nan
    else Ok (ediv (eopp (log1mexp (esub s const))) th).
Definition frank_cdf (th : R) : list ext -> result ext := arch_cdf (frank_psi th) (frank_ipsi th).
(** frank.py:50-60 on finite u *)
Definition frank_dipsi (th : R) (degree : Z) (log : bool) (u : R) : result ext :=
  if negb ((degree =? 1)%Z || (degree =? 2)%Z) then Err AssertionError
  else
    let s := if log || (degree mod 2 =? 0)%Z then 1 else -1 in
    let ut := u * th in
    let v := if (degree =? 1)%Z then th / (exp ut - 1) else th ^ 2 * exp ut / (exp ut - 1) ^ 2 in
    Ok (escal s (if log then elog (Fin v) else Fin v)).
(** frank.py:116 *)
Definition frank_lambda (th : R) : R * R := (0, 0).
(** frank.py:180-183: second coordinate of a bivariate draw from the uniforms (u, t), theta <> 0 *)
Definition frank_draw2 (th u t : R) : ext :=
  let a := - Rabs th in
  let v := escal (-1 / a) (elog (Fin (1 + - t * (exp (- a) - 1) / (exp (- a * u) * (t - 1) - t)))) in
  if Rltb 0 th then esub (Fin 1) v else v.
Definition frank_random2 (th u t : R) : ext * ext :=
  if Rltb (Rabs th) (/ 10000000) then (Fin u, Fin t) else (Fin u, frank_draw2 th u t).
(** frank.py:62-74, 203-219 with the Debye functions as arguments.  np.isclose(t, 0) is |t| <= 1e-8. *)
Definition frank_tau_ (debye1 : R -> R) (th : R) : R := 1 + 4 * (debye1 th - 1) / th.
Definition frank_tau (debye1 : R -> R) (th : R) : R :=
  if Rleb (Rabs th) (/ 100000000) then th / 9 else frank_tau_ debye1 th.
Definition frank_dtau (debye1 : R -> R) (x : R) : R := (x / (exp x - 1) + 1 - debye1 x / x) * (2 / x) ^ 2.
Definition frank_rho (debye1 debye2 : R -> R) (th : R) : R :=
  if Rleb (Rabs th) (/ 100000000) then th / 6 else 1 + 12 / th * (debye2 th - debye1 th).
Definition frank_drho (debye1 : R -> R) (x : R) : R := 12 * (x / (exp x - 1) - 3 * debye1 x + 2 * debye1 x) / x ^ 2.

(** ** Parameters *)
Inductive family := Clayton | Frank | Gumbel.
(** dimension as given by the caller; copula/base.py asserts that it is an integer >= 2 *)
Record arch := mkArch { a_fam : family; a_dim : nat; a_theta : ext }.
(** clayton.py:37-38, frank.py:41-44, gumbel.py:40-42 *)
Definition arch_new (f : family) (dim : nat) (th : ext) : result arch :=
  match f with
  | Clayton => if negb (1 <? dim)%nat then Err AssertionError
               else if negb (Nat.eqb dim 2) && eltb th (Fin 0) then Err AssertionError
               else Ok (mkArch f dim th)
  | Frank => if (2 <? dim)%nat && eltb th (Fin 0) then Err ValueError
             else if negb (1 <? dim)%nat then Err AssertionError
             else Ok (mkArch f dim th)
  | Gumbel => if negb (negb (eltb th (Fin 1)) || match th with Nan => true | _ => false end) then Err AssertionError
              else if negb (1 <? dim)%nat then Err AssertionError
              else Ok (mkArch f dim th)
  end.
(** clayton.py:100-108, frank.py:123-126, gumbel.py:177-183 *)
Definition arch_set (a : arch) (th : ext) : arch * result unit :=
  let ok := (mkArch (a_fam a) (a_dim a) th, Ok tt) in
  match a_fam a with
  | Clayton => if Nat.eqb (a_dim a) 2 && eltb th (Fin (-1)) then (a, Err ValueError)
               else if (2 <? a_dim a)%nat && eltb th (Fin 0) then (a, Err ValueError)
               else ok
  | Frank => if (2 <? a_dim a)%nat && eltb th (Fin 0) then (a, Err ValueError) else ok
  | Gumbel => if eltb th (Fin 1) then (a, Err ValueError) else ok
  end.
Definition arch_run (a : arch) (ths : list ext) : arch := fold_left (fun a th => fst (arch_set a th)) ths a.
