(** Model of /repo/copulae/utility/dict.py (merge_dict, merge_dicts) on a heap of mutable dictionaries, and of
    /repo/copulae/copula/estimator/estimator.py:145-210 (form_options). *)
From Verif Require Import Base RSumLib Ext.
Open Scope nat_scope.

Section Dict.
  Context {A : Type}.                                                  (* values that are not dictionaries *)
  (** a value stored in a dictionary: a plain value or a reference to a dictionary *)
  Inductive hval := HLeaf (x : A) | HRef (l : nat).
  (** a dictionary: entries in insertion order; [upsert] is [d[k] = v] *)
  Definition cell := list (string * hval).
  Definition heap := nat -> cell.
  Fixpoint assoc {V} (k : string) (l : list (string * V)) : option V :=
    match l with [] => None | (k', v) :: r => if String.eqb k k' then Some v else assoc k r end.
  Fixpoint upsert {V} (k : string) (v : V) (l : list (string * V)) : list (string * V) :=
    match l with [] => [(k, v)] | (k', v') :: r => if String.eqb k k' then (k', v) :: r else (k', v') :: upsert k v r end.
  Definition hset (h : heap) (l : nat) (c : cell) : heap := fun i => if Nat.eqb i l then c else h i.

  (** dict.py:4-32; the result is the object [a] itself.  None: the recursion limit ([fuel]) is exceeded, or [b] loses a key
      during the loop. *)
  Fixpoint merge_dict (fuel : nat) (h : heap) (a b : nat) {struct fuel} : option heap :=
    match fuel with
    | O => None
    | S fuel =>
      (fix loop (h : heap) (keys : list string) : option heap :=
         match keys with
         | [] => Some h
         | k :: r =>
           match assoc k (h b) with
           | None => None
           | Some vb =>
             match assoc k (h a), vb with
             | Some (HRef x), HRef y =>                                  (* 26-27 *)
               match merge_dict fuel h x y with
               | None => None
               | Some h' => loop (hset h' a (upsert k (HRef x) (h' a))) r
               end
             | _, _ => loop (hset h a (upsert k vb (h a))) r             (* 28-31 *)
             end
           end
         end) h (map fst (h b))
    end.
  (** dict.py:63-69 *)
  Definition merge_dicts (fuel : nat) (h : heap) (ds : list nat) : result (option heap * nat) :=
    match ds with
    | [] => Err IndexError
    | a :: r => if Nat.eqb (length ds) 1 then Ok (Some h, a)
                else Ok (fold_left (fun s b => match s with Some h => merge_dict fuel h a b | None => None end) ds (Some h), a)
    end.
End Dict.
Arguments hval : clear implicits.
Arguments cell : clear implicits.
Arguments heap : clear implicits.

(** ** Options of the optimiser *)
(** plain option values: strings, numbers, booleans, the bounds list built by the code, anything else (arrays, functions) *)
Inductive ovalue := OStr (s : string) | ONum (r : R) | OBool (b : bool) | OBounds (l : list (ext * ext)) | OOther (id : nat).
(** a heap with an allocation counter *)
Definition oheap := (nat * heap ovalue)%type.
Definition alloc (s : oheap) (c : cell ovalue) : oheap * nat := ((S (fst s), hset (snd s) (fst s) c), fst s).
(** misc.py:9-10 *)
Definition is_archimedean (name : string) : bool := existsb (String.eqb (lower name)) ["clayton"; "gumbel"; "frank"; "joe"; "amh"]%string.
(** estimator.py:157-163; a scalar pair or two vectors *)
Inductive bound_value := BScalar (x : ext) | BVector (l : list ext).
Definition form_bounds (lb ub : bound_value) : result (list (ext * ext)) :=
  match lb, ub with
  | BScalar l, BScalar u => Ok [(l, u)]
  | BVector l, BVector u => Ok (combine l u)
  | _, _ => Err AssertionError
  end.
(** the defaults of one method: (top level entries, entries of the nested 'options' dictionary if there is one) *)
Definition method_defaults (m : string) (max_iter : R) (disp : bool) (bounds : list (ext * ext))
  : option (list (string * hval ovalue) * option (list (string * hval ovalue))) :=
  let num (x : R) := HLeaf (ONum x) in
  let mi := ("maxiter"%string, num max_iter) in
  let di := ("disp"%string, HLeaf (OBool disp)) in
  let bo := ("bounds"%string, HLeaf (OBounds bounds)) in
  if String.eqb m "nelder-mead" then Some ([], Some [mi; di; ("xatol"%string, num (1 / 10000)%R); ("fatol"%string, num (1 / 10000)%R)])
  else if String.eqb m "bfgs" then Some ([], Some [mi; di; ("gtol"%string, num (1 / 10000)%R)])
  else if String.eqb m "slsqp" then Some ([bo], Some [mi; ("ftol"%string, num (1 / 1000000)%R); ("iprint"%string, num 1%R); di; ("eps"%string, num (15 / 1000000000)%R)])
  else if String.eqb m "cobyla" then Some ([bo], Some [mi; ("rhobeg"%string, num 1%R); di; ("catol"%string, num (2 / 10000)%R)])
  else if String.eqb m "trust-constr" then Some ([mi; di; bo], None)
  else None.
(** estimator.py:145-210 on the dictionary at location [opts]; [nrows] is len(data).  The answer is the location of the options
    handed to the optimiser.  Simplification: [casefold] is [lower] (the same on ASCII method names). *)
Definition form_options (fuel : nat) (s : oheap) (opts : nat) (verbose : Z) (nrows : nat) (name : string) (lb ub : bound_value)
  : result (option oheap * nat) :=
  let max_iter := IZR (Z.min (Z.of_nat nrows * 250) 20000) in
  let disp := (2 <=? verbose)%Z in
  let default := if is_archimedean name then "Nelder-Mead"%string else "SLSQP"%string in
  let '(n, h) := s in
  (* 152-155: setdefault *)
  let h := match assoc "method" (h opts) with Some _ => h | None => hset h opts (upsert "method"%string (HLeaf (OStr default)) (h opts)) end in
  bind (form_bounds lb ub) (fun bounds =>
  match assoc "method" (h opts) with
  | Some (HLeaf (OStr m)) =>
    match method_defaults (lower m) max_iter disp bounds with
    | None => Ok (Some (n, h), opts)                                          (* 210: the caller's own dictionary *)
    | Some (top, nested) =>
      let '(s, top) := match nested with
                       | None => ((n, h), top)
                       | Some c => let '(s, l) := alloc (n, h) c in (s, (top ++ [("options"%string, HRef l)]))
                       end in
      let '(s, d) := alloc s top in
      Ok (match merge_dict fuel (snd s) d opts with Some h => Some (fst s, h) | None => None end, d)
    end
  | _ => Err AttributeError                                                   (* 147: no casefold *)
  end).
(** estimator.py:86: [optim_options or {}] *)
Definition user_options (s : oheap) (user : option nat) : oheap * nat :=
  match user with
  | Some u => match snd s u with [] => alloc s [] | _ => (s, u) end
  | None => alloc s []
  end.
