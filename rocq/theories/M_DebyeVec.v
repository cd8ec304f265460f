(** Model of debye1 and debye2 of /repo/copulae/archimedean/frank.py:222-295 on arrays, with nan and infinities, and of Frank's tau and rho
    (lines 194-219) at infinite parameters.  [raw] is special.debye.debye_1 or debye_2 for one finite number (None: nan); on arrays these work
    entry by entry (C37).  Arrays of more dimensions are flattened by the code (ravel), so lists are all there is. *)
From Verif Require Import Base RSumLib Ext M_Archimedean M_Debye.
Open Scope R_scope.

Definition is_fin (v : ext) : bool := match v with Fin _ => true | _ => false end.
Definition eabs (v : ext) : ext := match v with Fin r => Fin (Rabs r) | Nan => Nan | _ => Pinf end.
Definition of_raw (o : option R) : ext := match o with Some r => Fin r | None => Nan end.
(** a[mask] *)
Fixpoint gather {A} (mask : list bool) (l : list A) : list A :=
  match mask, l with b :: m, x :: r => if b then x :: gather m r else gather m r | _, _ => [] end.
(** a[mask] = v *)
Fixpoint scatter {A} (mask : list bool) (l v : list A) : list A :=
  match mask, l with
  | b :: m, x :: r => if b then match v with y :: v => y :: scatter m r v | [] => x :: r end else x :: scatter m r v
  | _, _ => l
  end.
Definition zip_with {A B C} (f : A -> B -> C) (a : list A) (b : list B) : list C := map (fun p => f (fst p) (snd p)) (combine a b).
Section Debye.
  Variable raw : R -> option R.
  Variable share : R.                                                          (* 1/2 in debye1, 2/3 in debye2 *)
  Definition raw_array (l : list ext) : list ext := map (fun v => match v with Fin r => of_raw (raw r) | _ => Nan end) l.
  (** lines 237-257, 276-294: the flat array; a single number comes back as a number *)
  Definition debye_array (x : list ext) : list ext :=
    let fin := map is_fin x in
    let d := map eabs x in
    let d := if forallb (fun b => b) fin then raw_array d
             else
               let d := scatter fin d (raw_array (gather fin d)) in
               let pinf := map (fun v => match v with Pinf => true | _ => false end) x in
               if existsb (fun b => b) pinf then scatter pinf d (map (fun _ => Fin 0) (gather pinf d)) else d in
    let neg := map (fun v => match v with Fin r => Rltb r 0 | Ninf => true | _ => false end) x in
    scatter neg d (zip_with esub (gather neg d) (map (escal share) (gather neg x))).
End Debye.
Definition first (l : list ext) : ext := nth 0 l Nan.
(** Python's division and product of floats, with a divisor other than 0 *)
Definition over (a b : ext) : ext :=
  match a, b with
  | Nan, _ | _, Nan => Nan
  | Fin x, Fin y => Fin (x / y)
  | Fin _, _ => Fin 0
  | a, Fin y => ediv a y
  | _, _ => Nan
  end.
Definition times (a b : ext) : ext :=
  match a, b with
  | Nan, _ | _, Nan => Nan
  | Fin x, b => escal x b
  | a, Fin y => escal y a
  | Pinf, Pinf | Ninf, Ninf => Pinf
  | _, _ => Ninf
  end.
(** np.isclose(theta, 0) is False for infinite theta *)
Definition near_zero (th : ext) : bool := match th with Fin t => Rleb (Rabs t) (/ 100000000) | _ => false end.
(** lines 201-206, 214-219 *)
Definition tau_ext (raw1 : R -> option R) (th : ext) : ext :=
  if near_zero th then over th (Fin 9) else eadd (Fin 1) (over (escal 4 (esub (first (debye_array raw1 (/ 2) [th])) (Fin 1))) th).
(** lines 194-195, 208-212 *)
Definition rho_ext (raw1 raw2 : R -> option R) (th : ext) : ext :=
  if near_zero th then over th (Fin 6)
  else eadd (Fin 1) (times (over (Fin 12) th) (esub (first (debye_array raw2 (2 / 3) [th])) (first (debye_array raw1 (/ 2) [th])))).
