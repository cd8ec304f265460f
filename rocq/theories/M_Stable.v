(** Model of /repo/copulae/stats/stable/stable.py (sampling, parametrisation, post-processing of the density), of pareto in
    /repo/copulae/stats/stable/pdf.py and of Gumbel sampling (/repo/copulae/archimedean/gumbel.py:228-242).
    The numerical integrals aux_f1 and aux_f2 of pdf.py are not modelled: the densities they give are an argument. *)
From Verif Require Import Base RSumLib Ext M_Archimedean M_Special.
Local Close Scope Z_scope. Open Scope R_scope.

(** stable.py:171-176 *)
Definition stable_check (alpha beta gamma : R) (pm : nat) : result unit :=
  if (pm <=? 2)%nat && Rleb (Rabs beta) 1 && (Rltb 0 alpha && Rleb alpha 2) && Rleb 0 gamma then Ok tt else Err AssertionError.

(** special/trig.py:105-131 and 31-51: cosine and tangent of x pi/2 *)
Definition tanpi2 (x : R) : R := tan (x * PI / 2).
Definition cospi2 (x : R) : R := cos (x * PI / 2).
(** stable.py:201-207; [alpha] is an integer in (0,2] iff it is 1 or 2 *)
Definition omega (gamma alpha : R) : R :=
  if negb (Reqb alpha 1 || Reqb alpha 2) then tanpi2 alpha
  else if Reqb alpha 1 then 2 / PI * ln gamma else 0.
(** stable.py:188-198; [argmax alpha beta]: the minimiser of -pdf found by scipy *)
Definition beta_max : R := 1 - / 100000000000.
Definition stable_mode (argmax : R -> R -> R) (alpha beta : R) : R :=
  if Reqb (alpha * beta) 0 then 0 else argmax alpha (Rmax beta beta_max).
(** stable.py:178-186; returns (delta, gamma) *)
Definition parameterize (argmax : R -> R -> R) (alpha delta gamma beta : R) (pm : nat) : R * R :=
  match pm with
  | 1%nat => (delta + beta * gamma * omega gamma alpha, gamma)
  | 2%nat => let gamma := gamma * Rpower alpha (-1 / alpha) in (delta - gamma * stable_mode argmax alpha beta, gamma)
  | _ => (delta, gamma)
  end.

(** stable.py:147-169, one entry, in the branch for alpha or beta away from the Cauchy case (lines 152-153);
    [u]: uniform draw, [w]: exponential draw *)
Definition stable_z (alpha beta u w : R) : ext :=
  let theta := PI * (u - 1 / 2) in                                              (* 155 *)
  let bt := beta * tanpi2 alpha in                                              (* 158 *)
  let t0 := Rmin (Rmax (- (PI / 2)) (atan bt / alpha)) (PI / 2) in              (* 159 *)
  let at_ := alpha * (theta + t0) in                                            (* 160 *)
  let c := Rpower (1 + bt ^ 2) (1 / (2 * alpha)) in                             (* 162 *)
  match epow (Fin (cos theta)) (-1 / alpha), epow (Fin (cos (theta - at_) / w)) ((1 - alpha) / alpha) with
  | Fin a, Fin b => Fin (c * sin at_ * a * b - bt)                              (* 164-167 *)
  | _, _ => Nan
  end.
(** the defaults of the parametrisation in the signatures of pdf and rvs: stable.py:44, 148 *)
Definition pdf_pm : nat := 0.
Definition rvs_pm : nat := 1.
Definition stable_rvs (argmax : R -> R -> R) (cauchy : R) (alpha beta gamma delta : R) (pm : nat) (u w : R) : result ext :=
  bind (stable_check alpha beta gamma pm) (fun _ =>
  let '(delta, gamma) := parameterize argmax alpha delta gamma beta pm in
  let close a b := Rleb (Rabs (a - b)) (/ 100000000 + / 100000 * Rabs b) in     (* np.isclose *)
  let z := if close alpha 1 && close beta 0 then Fin cauchy else stable_z alpha beta u w in
  Ok (eadd (escal gamma z) (Fin delta))).

(** gumbel.py:228-242 for one row, theta - 1 >= 1e-7 and theta not close to 1: [us] are the uniform draws of the row *)
Definition gumbel_frailty (argmax : R -> R -> R) (cauchy theta u w : R) : result ext :=
  stable_rvs argmax cauchy (1 / theta) 1 (Rpower (cospi2 (1 / theta)) theta) 0 1 u w.
Definition gumbel_random_row (argmax : R -> R -> R) (cauchy theta u w : R) (us : list R) : result (list ext) :=
  bind (gumbel_frailty argmax cauchy theta u w) (fun fr =>
  match fr with
  | Fin f => mapM (fun v => gumbel_psi theta (Fin (- ln v / f))) us
  | _ => Ok (map (fun _ => Nan) us)
  end).

(** pdf.py:185-203 for one entry; [tail]: stable_tail(alpha) *)
Definition pareto (tail alpha beta x : R) : ext :=
  let beta := if Rltb x 0 then - beta else beta in
  let x := if Rltb x 0 then - x else x in
  escal (alpha * (1 + beta) * tail) (epow (Fin x) (- (1 + alpha))).
(** stable.py:101-113: [raw]: the values computed in lines 84-99, [tails]: the Pareto approximation at the same points *)
Definition is_zero (a : ext) : bool := match a with Fin x => Reqb x 0 | _ => false end.
Definition rescale (log : bool) (gamma : R) (d : ext) : ext := if log then esub d (elog (Fin gamma)) else ediv d gamma.
Definition stable_post (log : bool) (gamma : R) (raw tails : list ext) : list ext :=
  let any := existsb (fun a => negb (is_zero a)) raw in                          (* 96: np.any(ans) *)
  map (fun p => if is_zero (fst p) then (if any then rescale log gamma (snd p) else fst p) else rescale log gamma (fst p)) (combine raw tails).
