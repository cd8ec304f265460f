(** Model of the way arguments reach the methods of the copulas and of what the methods write into them:
    /repo/copulae/utility/annotations/reshape.py:14-47 (cast_input), 100-104 (squeeze_output), /repo/copulae/archimedean/clayton.py:139-142,
    frank.py:76-98, 153-171, gumbel.py:154-168, 222-225 and the other methods decorated with cast_input.
    Exact reals with infinities and nan; one-dimensional arrays and arrays of dimension 0; pandas objects are not modelled. *)
From Verif Require Import Base RSumLib Ext M_Special M_Archimedean.
Open Scope R_scope.

(** ** Arrays in memory *)
(** contents of an array: floats or integers *)
Inductive dt := DFlt (xs : list ext) | DInt (zs : list Z).
Definition numbers (d : dt) : list ext := match d with DFlt xs => xs | DInt zs => map (fun z => Fin (IZR z)) zs end.
(** the arrays that exist, by address *)
Definition heap := list dt.
(** what the caller passes by position: a float, a list of floats, a list of integers, or an existing array.
    A float becomes an array of dimension 0, modelled as an array with one element; a single integer is not modelled here. *)
Inductive arg := ANum (x : ext) | AFlts (xs : list ext) | AInts (zs : list Z) | AArr (l : nat).
(** reshape.py:47: arrays are passed on as they are, anything else is copied into a new array *)
Definition cast (a : arg) (h : heap) : nat * heap :=
  match a with
  | ANum x => (length h, h ++ [DFlt [x]])
  | AFlts xs => (length h, h ++ [DFlt xs])
  | AInts zs => (length h, h ++ [DInt zs])
  | AArr l => (l, h)
  end.
Definition load (h : heap) (l : nat) : dt := nth l h (DFlt []).
Fixpoint store (h : heap) (l : nat) (d : dt) : heap :=
  match h, l with
  | [], _ => []
  | _ :: r, O => d :: r
  | c :: r, S l => c :: store r l d
  end.
Definition fresh (h : heap) (d : dt) : nat * heap := (length h, h ++ [d]).
(** reshape.py:100-104: one element is returned as a float, anything else as the array *)
Inductive ret := RNum (x : ext) | RArr (l : nat).
Definition squeeze (r : nat * heap) : ret * heap :=
  match numbers (load (snd r) (fst r)) with
  | [x] => (RNum x, snd r)
  | _ => (RArr (fst r), snd r)
  end.

(** frank.py:166-170, theta > 0: [np.less(s, const, where=~isnan(s))] leaves arbitrary values [junk] where s is nan *)
Definition is_nan (x : ext) : bool := match x with Nan => true | _ => false end.
Definition frank_mask (th : R) (junk : nat -> bool) (i : nat) (s : ext) : bool :=
  if is_nan s then junk i else eltb s (log1mexp (Fin th)).
Fixpoint mapi {A B} (f : nat -> A -> B) (i : nat) (l : list A) : list B :=
  match l with [] => [] | x :: r => f i x :: mapi f (S i) r end.
Definition frank_write (th : R) (junk : nat -> bool) (xs : list ext) : list ext :=
  let s := mapi (fun i x => if frank_mask th junk i x then Nan else x) 0 xs in                                        (* 169 *)
  mapi (fun i xy => if frank_mask th junk i (fst xy) then snd xy
                    else ediv (eopp (log1mexp (esub (snd xy) (log1mexp (Fin th))))) th) 0 (combine xs s).             (* 170 *)
(** clayton.py:142, gumbel.py:225 and frank.py:159-164 build new arrays; frank.py:166-171 writes into s and returns it.
    Writing nan into an array of integers raises (frank.py:169). *)
Definition psi_of (f : family) (th : R) : ext -> result ext :=
  match f with Clayton => clayton_psi th | Frank => frank_psi th | Gumbel => gumbel_psi th end.
Definition psi_body (f : family) (th : R) (junk : nat -> bool) (l : nat) (h : heap) : result (nat * heap) :=
  let new := rmap (fun ys => fresh h (DFlt ys)) (mapM (psi_of f th) (numbers (load h l))) in
  match f with
  | Frank => if Rltb 0 th
             then match load h l with
                  | DInt _ => Err ValueError
                  | DFlt xs => Ok (l, store h l (DFlt (frank_write th junk xs)))
                  end
             else new
  | _ => new
  end.
Definition psi_call (f : family) (th : R) (junk : nat -> bool) (a : arg) (h : heap) : result (ret * heap) :=
  let '(l, h') := cast a h in rmap squeeze (psi_body f th junk l h').

(** gumbel.py:154-168.  One element goes through [float]: Python's division raises for tau = 1, numpy's gives inf. *)
Definition inv1m (t : R) : ext := if Reqb t 1 then Pinf else Fin (1 / (1 - t)).
Definition neg (t : ext) : bool := eltb t (Fin 0).
Definition einv1m (t : ext) : ext := match t with Fin t => inv1m t | Pinf | Ninf => Fin 0 | Nan => Nan end.
Definition clip (d : dt) : dt :=
  match d with
  | DFlt xs => DFlt (map (fun x => if neg x then Fin 0 else x) xs)
  | DInt zs => DInt (map (fun z => if (z <? 0)%Z then 0%Z else z) zs)
  end.
Definition gumbel_itau_call (a : arg) (h : heap) : result (ret * heap) :=
  let '(l, h1) := cast a h in
  match numbers (load h1 l) with
  | [t] => if neg t then Ok (RNum (Fin 1), h1)                                                       (* 159-162 *)
           else match einv1m t with
                | Pinf => Err ZeroDivisionError                                                       (* 168 *)
                | y => Ok (RNum y, h1)
                end
  | ts => let h2 := if existsb neg ts then store h1 l (clip (load h1 l)) else h1 in                   (* 164-166 *)
          Ok (squeeze (fresh h2 (DFlt (map einv1m (numbers (load h2 l))))))                           (* 168 *)
  end.

(** ** Forms of an argument *)
(** Python values: a number, a list, an array of dimension 0, an array of dimension 1, each of floats or of integers *)
Inductive num := NF (x : R) | NZ (z : Z).
Inductive nums := Fs (xs : list R) | Zs (zs : list Z).
Inductive pv := PNum (n : num) | PList (l : nums) | PArr0 (n : num) | PArr (l : nums).
Definition real (n : num) : R := match n with NF x => x | NZ z => IZR z end.
Definition reals (l : nums) : list R := match l with Fs xs => xs | Zs zs => map IZR zs end.
(** reshape.py:41-47 *)
Definition np_cast (v : pv) : pv := match v with PNum n => PArr0 n | PList l => PArr l | v => v end.
(** reshape.py:100-104 *)
Inductive out := OFloat (x : ext) | OArr (xs : list ext).
Definition sq (xs : list ext) : out := match xs with [x] => OFloat x | _ => OArr xs end.
(** the first operation is a numpy function: any form becomes an array (or a numpy scalar) *)
Definition by_numpy (el : R -> ext) (v : pv) : result out :=
  match v with
  | PNum n | PArr0 n => Ok (OFloat (el (real n)))
  | PList l | PArr l => Ok (sq (map el (reals l)))
  end.
(** some operation is an arithmetic operator of Python applied to the argument itself: lists do not have it, and numbers divide by
    zero where arrays give inf.  (Negative bases of powers are not modelled.) *)
Definition by_python (el : R -> ext) (v : pv) : result out :=
  match v with
  | PNum n => match el (real n) with Fin y => Ok (OFloat (Fin y)) | _ => Err ZeroDivisionError end
  | PList _ => Err TypeError
  | PArr0 n => Ok (OFloat (el (real n)))
  | PArr l => Ok (sq (map el (reals l)))
  end.
(** the same, where the number has become a numpy scalar before the division *)
Definition by_operator (el : R -> ext) (v : pv) : result out :=
  match v with PList _ => Err TypeError | v => by_numpy el v end.
(** the methods decorated with cast_input that take numbers, with the operation that decides what happens to the form of the argument *)
Inductive meth :=
| ClaytonDipsi      (* clayton.py:51-53: np.log(u) *)
| ClaytonIpsi       (* clayton.py:78: u ** -theta *)
| ClaytonItau       (* clayton.py:84: 1 - tau *)
| ClaytonDtau       (* clayton.py:73: theta + 2 *)
| GumbelIpsi        (* gumbel.py:151: np.log(u) *)
| GumbelPsi         (* gumbel.py:225: s ** (1 / theta) *)
| GumbelDtau        (* gumbel.py:146: x ** -2 *)
| GumbelItau        (* gumbel.py:158-168 *)
| FrankDipsi        (* frank.py:54: u * theta *)
| FrankDtau         (* frank.py:74: 2 / x *)
| FrankIpsi         (* frank.py:79-98 *)
| FrankItau         (* frank.py:107-112 *)
| FrankPsi          (* frank.py:156-171 for theta > 0 *)
| EllipticalDrho    (* elliptical/abstract.py:25: x ** 2 *)
| EllipticalDtau    (* elliptical/abstract.py:32: x ** 2 *)
| EllipticalItau    (* elliptical/abstract.py:37: np.asarray(tau) *)
| GaussianIrho.     (* elliptical/gaussian.py:58: np.array(rho) *)
(** integer arrays have no negative integer powers *)
Definition int_power (el : R -> ext) (v : pv) : result out :=
  match v with
  | PArr0 (NZ _) | PArr (Zs _) => Err ValueError
  | v => by_python el v
  end.
(** the body of the method after the decorators; [el] is its value at one number *)
Definition body (m : meth) (el : R -> ext) (v : pv) : result out :=
  match m with
  | ClaytonDipsi | GumbelIpsi | EllipticalItau | GaussianIrho => by_numpy el v
  | GumbelPsi | FrankDipsi | EllipticalDrho | EllipticalDtau => by_operator el v
  | ClaytonIpsi | ClaytonItau | ClaytonDtau | FrankDtau => by_python el v
  | GumbelDtau => int_power el v
  | GumbelItau =>
    (* np.size(tau) == 1: float(tau) (gumbel.py:158-159), where a list fails; else tau < 0, where a list fails *)
    match v with
    | PList _ => Err TypeError
    | PNum n | PArr0 n => match el (real n) with Fin y => Ok (OFloat (Fin y)) | _ => Err ZeroDivisionError end
    | PArr l => match reals l with
                | [x] => match el x with Fin y => Ok (OFloat (Fin y)) | _ => Err ZeroDivisionError end
                | xs => Ok (sq (map el xs))
                end
    end
  | FrankIpsi =>
    (* frank.py:79: np.asarray(u) * theta is a numpy scalar for a number, which takes no assignment (frank.py:95) *)
    match v with
    | PNum _ | PArr0 _ => Err TypeError
    | PList l | PArr l => Ok (sq (map el (reals l)))
    end
  | FrankItau =>
    (* frank.py:109: tau.ravel() *)
    match v with
    | PNum _ | PList _ => Err AttributeError
    | PArr0 n => Ok (OFloat (el (real n)))
    | PArr l => Ok (sq (map el (reals l)))
    end
  | FrankPsi =>
    (* frank.py:158: np.asarray; frank.py:169 writes nan, which integer arrays do not hold *)
    match v with
    | PNum (NZ _) | PArr0 (NZ _) | PList (Zs _) | PArr (Zs _) => Err ValueError
    | v => by_numpy el v
    end
  end.
(** reshape.py:22-37: positional arguments are cast; keyword arguments are compared with the set of names by [is], never equal,
    and reach the method as they are *)
Definition by_position (m : meth) (el : R -> ext) (v : pv) : result out := body m el (np_cast v).
Definition by_keyword (m : meth) (el : R -> ext) (v : pv) : result out := body m el v.
