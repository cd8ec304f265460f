(** Model of /repo/copulae/special/optimize.py (find_root) and of parts of _specfunc.pyx (element maps, Chebyshev evaluation,
    Clausen function). *)
From Verif Require Import Base RSumLib Ext.
Open Scope R_scope.

(** ** find_root *)
(** A float function of a finite argument; None is nan.  [f(a) * f(b)] is nan as soon as one factor is. *)
Definition prod_of (f : R -> option R) (a b : R) : option R :=
  match f a, f b with Some x, Some y => Some (x * y) | _, _ => None end.
Definition step_of (delta x : R) : R := Rmax (1 / 100 * Rabs x) delta.
(** optimize.py:54-64.  In exact arithmetic the end points stay finite, so the assertion of line 55 never fires. *)
Fixpoint expand (f : R -> option R) (delta : R) (max_iter : nat) (a b : R) : R * R :=
  match max_iter with
  | O => (a, b)
  | S m => match prod_of f a b with
           | Some p => if Rleb 0 p then expand f delta m (a - step_of delta a) (b + step_of delta b) else (a, b)
           | None => (a, b)                                                   (* nan >= 0 is False *)
           end
  end.
(** optimize.py:48-68; [brentq] is scipy's solver called with the bracket (a, b).  [a > b] is False when one is nan. *)
Definition find_root (brentq : (R -> option R) -> R -> R -> R) (f : R -> option R) (a b : ext) (delta : R) (max_iter : nat) : result R :=
  match a, b with
  | Fin a, Fin b =>
      let '(a, b) := if Rltb b a then (b, a) else (a, b) in
      let '(a, b) := expand f delta max_iter a b in
      match prod_of f a b with
      | Some p => if Rltb p 0 then Ok (brentq f a b) else Err AssertionError
      | None => Err AssertionError
      end
  | _, _ => Err AssertionError
  end.

(** ** Element maps *)
(** _specfunc.pyx:194-206.  One iteration of the loop body [x[i] = f(x[i])] is a read of cell i followed by a write of
    cell i; [reg i] is the value read by iteration i (private to it). *)
Inductive event := Read (i : nat) | Write (i : nat).
Definition set_nth {A} (i : nat) (v : A) (l : list A) : list A := firstn i l ++ match skipn i l with [] => [] | _ :: r => v :: r end.
Definition run_event {A} (f : A -> A) (d : A) (st : list A * (nat -> A)) (e : event) : list A * (nat -> A) :=
  match e with
  | Read i => (fst st, fun j => if Nat.eqb j i then nth i (fst st) d else snd st j)
  | Write i => (set_nth i (f (snd st i)) (fst st), snd st)
  end.
Definition run_schedule {A} (f : A -> A) (d : A) (sched : list event) (x : list A) : list A :=
  fst (fold_left (run_event f d) sched (x, fun _ => d)).
(** map_dbl_s: the iterations in order *)
Definition map_dbl_s {A} (f : A -> A) (d : A) (x : list A) : list A :=
  run_schedule f d (flat_map (fun i => [Read i; Write i]) (seq 0 (length x))) x.
(** map_dbl_p: prange distributes the iterations; [sched] is the interleaving that happened *)
Definition map_dbl_p {A} (f : A -> A) (d : A) (sched : list event) (x : list A) : list A := run_schedule f d sched x.

(** _specfunc.pyx:82-146, the common shape of clausen, debye_1, debye_2 and dilog.  [alias] says whether np.asarray(x, float)
    and ravel() returned the caller's own buffer (float64 and contiguous input) or a copy.  The answer is a scalar for one
    element.  The second component is what the caller's array holds afterwards. *)
Inductive value (A : Type) := VScalar (a : A) | VArray (l : list A).
Arguments VScalar {A} _.
Arguments VArray {A} _.
Definition vectorised {A} (f : A -> A) (d : A) (threaded alias : bool) (sched : list event) (x : list A) : value A * list A :=
  match x with
  | [a] => (VScalar (f a), x)
  | _ => let out := if threaded then map_dbl_p f d sched x else map_dbl_s f d x in
         (VArray out, if alias then out else x)
  end.

(** ** Chebyshev evaluation *)
(** _specfunc.pyx:185-191: (d, dd) updated from the last coefficient down to index 1.  The array is never empty. *)
Definition cheb_eval (c : list R) (x a b : R) : R :=
  let y := (2 * x - a - b) / (b - a) in
  let y2 := 2 * y in
  let '(d, dd) := fold_left (fun '(d, dd) ci => (y2 * d - dd + ci, d)) (rev (tl c)) (0, 0) in
  y * d - dd + 1 / 2 * hd 0 c.

(** ** Clausen function *)
(** _specfunc.pyx:170-183.  Simplification: the double PI is the real number PI.  None is nan. *)
Definition big_angle : R := 1 / 16 * 2 ^ 52.
Definition angle_restrict_pos_err (theta : R) : option R :=
  let two_pi := 2 * PI in
  let y := 2 * IZR (Int_part (theta / two_pi)) in
  let r := theta - y * 2 * two_pi in
  if Rltb big_angle (Rabs theta) then None
  else Some (if Rltb two_pi r then r - two_pi else if Rltb r 0 then r + two_pi else r).
Definition log_nan (x : R) : option R := if Rltb 0 x then Some (ln x) else None.  (* x = 0 is excluded before *)
(** _specfunc.pyx:236-259.  6.28125 + 1.9353071795864769253e-03 is 2 PI split into two doubles: modelled as 2 * PI.
    [coef] are the Chebyshev coefficients. *)
Definition clausen (coef : list R) (x : R) : option R :=
  let x_cut := PI * / 2 ^ 52 in
  let '(x, sgn) := if Rltb x 0 then (- x, -1) else (x, 1) in
  match angle_restrict_pos_err x with
  | None => None                          (* every comparison with nan is False, the last branch returns nan *)
  | Some x =>
    let '(x, sgn) := if Rltb PI x then (2 * PI - x, - sgn) else (x, sgn) in
    if Reqb x 0 then Some 0
    else match log_nan x with
         | None => None
         | Some lx => if Rltb x x_cut then Some (x * (1 - lx) * sgn)
                      else Some (x * (cheb_eval coef (2 * (x * x / PI ^ 2 - 1 / 2)) (-1) 1 - lx) * sgn)
         end
  end.

(** ** Debye functions *)
(** _specfunc.pyx:262-296 and 299-332, the first test: a negative argument gives nan; [rest] is the remaining computation *)
Definition debye_guard (rest : R -> R) (x : R) : option R := if Rltb x 0 then None else Some (rest x).
