(** Model of the module-level functions debye1 and debye2 of /repo/copulae/archimedean/frank.py (lines 220-293) for one finite entry, and
    of Frank's tau and rho built on them. *)
From Verif Require Import Base RSumLib Ext M_Specfunc M_Archimedean.
Open Scope R_scope.

(** lines 237-257: [raw] is special.debye.debye_1, which answers nan (None) for negative numbers *)
Definition frank_debye1 (raw : R -> option R) (x : R) : option R :=
  match raw (Rabs x) with
  | None => None
  | Some d => Some (if Rltb x 0 then d - x / 2 else d)
  end.
(** lines 276-294 *)
Definition frank_debye2 (raw : R -> option R) (x : R) : option R :=
  match raw (Rabs x) with
  | None => None
  | Some d => Some (if Rltb x 0 then d - 2 / 3 * x else d)
  end.
(** frank.py:201-206 (tau) and 208-212 (_rho): nan propagates *)
Definition frank_tau_code (raw1 : R -> option R) (th : R) : option R :=
  if Rleb (Rabs th) (/ 100000000) then Some (th / 9)
  else option_map (fun d => frank_tau_ (fun _ => d) th) (frank_debye1 raw1 th).
Definition frank_rho_code (raw1 raw2 : R -> option R) (th : R) : option R :=
  if Rleb (Rabs th) (/ 100000000) then Some (th / 6)
  else match frank_debye1 raw1 th, frank_debye2 raw2 th with
       | Some d1, Some d2 => Some (frank_rho (fun _ => d1) (fun _ => d2) th)
       | _, _ => None
       end.
(** frank.py:66-68 (drho), with the debye1 above *)
Definition frank_drho_code (raw1 : R -> option R) (x : R) : option R :=
  option_map (fun d => frank_drho (fun _ => d) x) (frank_debye1 raw1 x).
(** frank.py:214-219 (_tau), the function inverted below.  At 0 Python's float division raises; modelled as nan. *)
Definition frank_tau_static (raw1 : R -> option R) (x : R) : option R :=
  if Reqb x 0 then None else option_map (fun d => frank_tau_ (fun _ => d) x) (frank_debye1 raw1 x).
(** frank.py:104-112 (itau) for the entries of the array [taus]: find_root with its default delta and max_iter; one entry without a
    root raises for the whole array; afterwards the entries with tau == 0 are set to 0 *)
Definition frank_itau1 (brentq : (R -> option R) -> R -> R -> R) (raw1 : R -> option R) (t : R) : result R :=
  let f x := option_map (fun y => y - t) (frank_tau_static raw1 x) in
  let eps := 22 / 10 ^ 17 in
  let far := 10 ^ 20 in
  match find_root brentq f (Fin (if Rltb 0 t then eps else - far)) (Fin (if Rltb 0 t then far else - eps)) (/ 10 ^ 6) 1000 with
  | Err e => Err e
  | Ok x => Ok (if Reqb t 0 then 0 else x)
  end.
Fixpoint frank_itau (brentq : (R -> option R) -> R -> R -> R) (raw1 : R -> option R) (taus : list R) : result (list R) :=
  match taus with
  | [] => Ok []
  | t :: ts => match frank_itau1 brentq raw1 t, frank_itau brentq raw1 ts with
               | Err e, _ => Err e
               | _, Err e => Err e
               | Ok x, Ok xs => Ok (x :: xs)
               end
  end.
