(** Model of /repo/copulae/stats/stable/common.py and of aux_f1 in /repo/copulae/stats/stable/pdf.py (the density for alpha <> 1),
    and of skew_stable.pdf (stable.py:43-113) around it.  scipy's quad and brentq and the gamma function are arguments.
    Simplifications: exact reals, so np.cos(np.pi / 2) is 0 and not 6e-17; the loops of pdf.py:97-102 are given [fuel]
    (None: still running); arguments x are finite; gamma > 0 (x / 0 is not modelled). *)
From Verif Require Import Base RSumLib Ext M_Archimedean M_Special M_Specfunc M_Stable.
Local Close Scope Z_scope. Open Scope R_scope.

(** common.py:7-18 *)
Definition LARGE_EXP_POW : R := 7083964 / 10000.
Definition PI2 : R := PI / 2.
Definition PI2E : R := PI2 * (1 - 10 ^ 6).
Definition eplus (x : R) : R := x + / 10 ^ 6 * Rabs x.
(** common.py:36-37 *)
Definition xexp (x : ext) : ext :=
  match x with
  | Fin r => if Rltb LARGE_EXP_POW r then Fin 0 else Fin (r * exp (- r))
  | Pinf => Fin 0
  | Ninf => Ninf
  | Nan => Nan
  end.
(** common.py:26-33 *)
Definition stable_tail (gamma : R -> R) (alpha : R) : R :=
  if Reqb alpha 0 then 1 / 2 else if Reqb alpha 2 then 0 else gamma alpha / PI * sin (alpha * PI2).

(** a * b on floats *)
Definition emul (a b : ext) : ext :=
  match a with
  | Fin x => escal x b
  | Nan => Nan
  | Pinf => match b with Fin y => escal y Pinf | Pinf => Pinf | Ninf => Ninf | Nan => Nan end
  | Ninf => match b with Fin y => escal y Ninf | Pinf => Ninf | Ninf => Pinf | Nan => Nan end
  end.
(** np.isclose(a, b) with the default rtol and atol, b finite *)
Definition isclose (a : ext) (b : R) : bool :=
  match a with Fin r => Rleb (Rabs (r - b)) (/ 10 ^ 8 + / 10 ^ 5 * Rabs b) | _ => false end.
Definition is_nan (a : ext) : bool := match a with Nan => true | _ => false end.
(** [a ** y] with numpy's rules also for negative bases *)
Definition is_int (y : R) : bool := Reqb (IZR (Int_part y)) y.
Definition npow (a : ext) (y : R) : ext :=
  match a with
  | Fin x => if Rltb x 0 then (if is_int y then Fin ((if Z.even (Int_part y) then 1 else -1) * Rpower (- x) y) else Nan) else epow a y
  | Ninf => if Rltb 0 y then (if is_int y && Z.odd (Int_part y) then Ninf else Pinf) else Fin 0
  | _ => epow a y
  end.
(** x / y for x > 0; the sign of a zero is not modelled *)
Definition over (x y : R) : ext := if Reqb y 0 then Pinf else Fin (x / y).

(** optimize.py:48-68 for a function that may be infinite (M_Specfunc.find_root has the finite case); delta = 1e-6, max_iter = 1000 *)
Definition eprod (f : R -> ext) (a b : R) : ext := emul (f a) (f b).
Fixpoint expand_x (f : R -> ext) (max_iter : nat) (a b : R) : R * R :=
  match max_iter with
  | O => (a, b)
  | S m => match eprod f a b with
           | Fin p => if Rleb 0 p then expand_x f m (a - step_of (/ 10 ^ 6) a) (b + step_of (/ 10 ^ 6) b) else (a, b)
           | Pinf => expand_x f m (a - step_of (/ 10 ^ 6) a) (b + step_of (/ 10 ^ 6) b)
           | _ => (a, b)
           end
  end.
Definition find_root_x (brentq : (R -> ext) -> R -> R -> R) (f : R -> ext) (a b : R) : result R :=
  let '(a, b) := if Rltb b a then (b, a) else (a, b) in
  let '(a, b) := expand_x f 1000 a b in
  if eltb (eprod f a b) (Fin 0) then Ok (brentq f a b) else Err AssertionError.

(** pdf.py:65-73; [theta0] and [xm] are the values in force there *)
Definition g1 (alpha theta0 xm th : R) : ext :=
  let a_1 := alpha - 1 in
  let at_ := alpha * theta0 in
  if Rleb (Rabs (PI2 - sgn a_1 * th)) (14 / 10 ^ 15) then Fin 0                                              (* 69-70 *)
  else let att := (th + theta0) * alpha in                                                                   (* 72 *)
       escal (cos (att - th)) (npow (escal (cos at_ * cos th) (npow (over xm (sin att)) alpha)) (1 / a_1)).  (* 73 *)
(** pdf.py:75-76 *)
Definition g2 (alpha theta0 xm th : R) : ext := xexp (g1 alpha theta0 xm th).

(** pdf.py:97-102 *)
Fixpoint raise_ll (fuel : nat) (g : R -> ext) (ll : R) : option R :=
  match fuel with
  | O => None
  | S k => if isclose (g ((ll + PI2) / 2)) 0 then raise_ll k g ((ll + PI2) / 2) else Some ll
  end.
Fixpoint lower_uu (fuel : nat) (g : R -> ext) (ll uu : R) : option R :=
  match fuel with
  | O => None
  | S k => if isclose (g ((ll + uu) / 2)) 1 then lower_uu k g ll ((ll + uu) / 2) else Some uu
  end.
Inductive located := Vanishes | Split (theta2 : R) (mid : ext).
(** pdf.py:107-116 *)
Definition by_roots (brentq : (R -> ext) -> R -> R -> R) (g : R -> ext) (ll uu : R) : result located :=
  match find_root_x brentq (fun t => esub (g t) (Fin 1)) ll uu with
  | Err e => Err e
  | Ok r1 =>
      let gr1 := xexp (Fin (r1 + 1)) in
      Ok match find_root_x brentq (fun t => elog (g t)) ll uu with
         | Ok r2 => let gr2 := xexp (Fin (exp r2)) in if eltb gr1 gr2 then Split r2 gr2 else Split r1 gr1
         | Err _ => Split r1 gr1
         end
  end.
(** pdf.py:89-116 *)
Definition locate (brentq : (R -> ext) -> R -> R -> R) (fuel : nat) (alpha theta0 : R) (g : R -> ext) : option (result located) :=
  let g_pi := g PI2 in
  let g_t0 := g (- theta0) in
  if (Rleb 1 alpha && eltb (Fin 1) g_pi) || (Rltb alpha 1 && eltb g_pi (Fin 1)) then Some (Ok (Split PI2E (xexp (g PI2E))))
  else if (Rleb 1 alpha && eltb g_t0 (Fin 1)) || (Rltb alpha 1 && eltb (Fin 1) g_t0)
       then Some (Ok (Split (eplus (- theta0)) (xexp (g (eplus (- theta0))))))
  else if Rltb alpha 1 then
    match raise_ll fuel g (- theta0) with
    | None => None
    | Some ll =>
        match (if isclose (g ((ll + PI2) / 2)) 1 then lower_uu fuel g ll PI2 else Some PI2) with
        | None => None
        | Some uu => if Rleb (Rabs (uu + ll)) (/ 10 ^ 8) then Some (Ok Vanishes)                               (* 104-105 *)
                     else Some (by_roots brentq g ll uu)
        end
    end
  else Some (by_roots brentq g (- theta0) PI2).

(** pdf.py:118-135: the sum of the integrals *)
Definition pieces (brentq : (R -> ext) -> R -> R -> R) (quad : (R -> ext) -> R -> R -> ext) (g : R -> ext) (theta0 theta2 : R) (mid : ext) : result ext :=
  let h := fun th => xexp (g th) in
  let eps := Fin (/ 10 ^ 4) in
  bind (if eltb eps mid && eltb (h (- theta0)) eps
        then bind (find_root_x brentq (fun th => esub (h th) eps) (- theta0) theta2) (fun theta1 => Ok (quad h (- theta0) theta1, quad h theta1 theta2))
        else Ok (Fin 0, quad h (- theta0) theta2)) (fun r12 =>
  bind (if eltb eps mid && eltb (h PI2) eps
        then bind (find_root_x brentq (fun th => esub (h th) eps) theta2 PI2) (fun theta3 => Ok (quad h theta2 theta3, quad h theta3 PI2))
        else Ok (quad h theta2 PI2, Fin 0)) (fun r34 =>
  Ok (eadd (eadd (eadd (fst r12) (snd r12)) (fst r34)) (snd r34)))).

(** pdf.py:11-140 *)
Definition aux_f1 (gamma gammaln : R -> R) (brentq : (R -> ext) -> R -> R -> R) (quad : (R -> ext) -> R -> R -> ext) (fuel : nat)
    (x alpha beta : R) (log : bool) : option (result ext) :=
  let bt := beta * tanpi2 alpha in                                                                           (* 34 *)
  let zeta := - bt in
  let theta0 := Rmin (Rmax (- PI2) (atan bt / alpha)) PI2 in
  let zeta_tol := if Reqb bt 0 then 4 / 10 ^ 16                                                              (* 38-43 *)
                  else if Rltb (1 - Rabs beta) (1 / 100) || Rltb alpha (1 / 100) then 2 / 10 ^ 15 else 5 / 10 ^ 5 in
  let xm := Rabs (x - zeta) in
  let f_zeta := if log then esub (eadd (Fin (gammaln (1 + 1 / alpha))) (elog (Fin (cos theta0)))) (Fin (ln PI + ln (1 + zeta ^ 2) / (2 * alpha)))
                else Fin (gamma (1 + 1 / alpha) * cos theta0 / (PI * Rpower (1 + zeta ^ 2) (1 / (2 * alpha)))) in
  if Rleb xm (zeta_tol * (zeta_tol + Rmax (Rabs x) (Rabs zeta))) then Some (Ok f_zeta)                       (* 52-53 *)
  else
  let theta0 := if Rltb x zeta then - theta0 else theta0 in                                                  (* 55-56 *)
  if Rltb alpha (/ 10 ^ 17) then                                                                             (* 57-63 *)
    let beta := if Rltb x zeta then - beta else beta in
    let x := if Rltb x zeta then - x else x in
    let r := esub (eadd (Fin (ln alpha)) (elog (Fin (1 + beta)))) (eadd (Fin 1) (elog (Fin (2 * x + PI * alpha * beta)))) in
    Some (Ok (if log then r else eexp r))
  else
  let g := g1 alpha theta0 xm in
  let g_pi := g PI2 in
  let g_t0 := g (- theta0) in
  let zero := if log then Ninf else Fin 0 in
  if (Rleb 1 alpha && (eltb (Fin LARGE_EXP_POW) g_pi || isclose g_t0 0))                                     (* 81-83 *)
     || (Rltb alpha 1 && (eltb (Fin LARGE_EXP_POW) g_t0 || isclose g_pi 0)) then Some (Ok zero)
  else
  let g_ := if Rleb 1 alpha then g (eplus (- theta0)) else g PI2E in                                         (* 85 *)
  if is_nan g_ && negb (Reqb x 0) && Rltb (Rmax xm (xm / Rabs x)) (1 / 100) then Some (Ok f_zeta)            (* 86-87 *)
  else
  match locate brentq fuel alpha theta0 g with
  | None => None
  | Some (Err e) => Some (Err e)
  | Some (Ok Vanishes) => Some (Ok zero)
  | Some (Ok (Split theta2 mid)) =>
      Some (bind (pieces brentq quad g theta0 theta2 mid) (fun r =>
            let c := alpha / (PI * Rabs (alpha - 1) * xm) in                                                 (* 137 *)
            Ok (if log then eadd (Fin (ln c)) (elog r) else escal c r)))
  end.

(** pdf.py:188-203 with log, one entry *)
Definition pareto_log (gamma : R -> R) (alpha beta x : R) : ext :=
  let beta := if Rltb x 0 then - beta else beta in
  let x := if Rltb x 0 then - x else x in
  esub (eadd (eadd (Fin (ln alpha)) (elog (Fin (1 + beta)))) (elog (Fin (stable_tail gamma alpha)))) (escal (1 + alpha) (elog (Fin x))).
(** all answers of a loop over the entries, or the first exception *)
Fixpoint collect {A} (l : list (option (result A))) : option (result (list A)) :=
  match l with
  | [] => Some (Ok [])
  | None :: _ => None
  | Some (Err e) :: _ => Some (Err e)
  | Some (Ok a) :: l => match collect l with Some (Ok r) => Some (Ok (a :: r)) | o => o end
  end.
(** stable.py:76-113 for the entries [xs] of the argument; [normal], [cauchy]: scipy's densities (or log densities), [aux_f2]: the
    density for alpha = 1 and beta <> 0, [aux]: aux_f1 *)
Definition stable_pdf (gamma : R -> R) (normal cauchy : bool -> R -> ext) (aux_f2 : R -> R -> bool -> option (result ext))
    (aux : R -> R -> R -> bool -> option (result ext)) (argmax : R -> R -> R)
    (alpha beta gam delta : R) (pm : nat) (log : bool) (xs : list R) : option (result (list ext)) :=
  match stable_check alpha beta gam pm with
  | Err e => Some (Err e)
  | Ok _ =>
      let '(delta, gam) := parameterize argmax alpha delta gam beta pm in
      let ys := map (fun x => (x - delta) / gam) xs in                                                       (* 82 *)
      let raw := map (fun y => if Reqb alpha 2 then Some (Ok (normal log y))
                               else if Reqb alpha 1 && Reqb beta 0 then Some (Ok (cauchy log y))
                               else if Reqb alpha 1 then aux_f2 y beta log
                               else aux y alpha beta log) ys in
      match collect raw with
      | None => None
      | Some (Err e) => Some (Err e)
      | Some (Ok raw) =>
          let tails := map (fun y => if log then pareto_log gamma alpha beta y else pareto (stable_tail gamma alpha) alpha beta y) ys in
          Some (Ok (stable_post log gam raw tails))
      end
  end.
