(** Specification vocabulary for nested dictionaries: plain trees. *)
From Verif Require Import Base RSumLib Ext M_Dict.
Open Scope nat_scope.

Inductive tree (A : Type) := Leaf (x : A) | Node (l : list (string * tree A)).
Arguments Leaf {A} _.
Arguments Node {A} _.
(** what is found under a path of keys: nothing, a plain value, or a dictionary *)
Inductive found (A : Type) := Nothing | Plain (x : A) | ADict.
Arguments Nothing {A}.
Arguments Plain {A} _.
Arguments ADict {A}.
Fixpoint entry {V} (k : string) (l : list (string * V)) : option V :=
  match l with [] => None | (k', v) :: r => if String.eqb k k' then Some v else entry k r end.
Fixpoint at_path {A} (p : list string) (t : tree A) : found A :=
  match p, t with
  | [], Leaf x => Plain x
  | [], Node _ => ADict
  | _ :: _, Leaf _ => Nothing
  | k :: p', Node l => match entry k l with Some t' => at_path p' t' | None => Nothing end
  end.
(** python's == on dictionaries: the same things under the same paths, in any order *)
Definition same {A} (s t : tree A) : Prop := forall p, at_path p s = at_path p t.
(** the tree stored at a value of the heap, and the dictionaries it consists of *)
Inductive stores {A} (h : heap A) : hval A -> tree A -> list nat -> Prop :=
| st_leaf x : stores h (HLeaf x) (Leaf x) []
| st_node l kts N : stores_all h (h l) kts N -> stores h (HRef l) (Node kts) (l :: N)
with stores_all {A} (h : heap A) : cell A -> list (string * tree A) -> list nat -> Prop :=
| st_nil : stores_all h [] [] []
| st_cons k v t N kvs kts Ns : stores h v t N -> stores_all h kvs kts Ns -> stores_all h ((k, v) :: kvs) ((k, t) :: kts) (N ++ Ns).
(** a dictionary has each key once *)
Inductive keys_once {A} : tree A -> Prop :=
| ko_leaf x : keys_once (Leaf x)
| ko_node l : NoDup (map fst l) -> (forall k t, In (k, t) l -> keys_once t) -> keys_once (Node l).
Fixpoint height {A} (t : tree A) : nat :=
  match t with Leaf _ => 0 | Node l => S ((fix go l := match l with [] => 0 | (_, t) :: r => Nat.max (height t) (go r) end) l) end.
(** [t] is the right-biased recursive merge of [a] and [b] (both dictionaries): what [b] has wins; what only [a] has survives,
    unless a plain value of [b] replaced the dictionary it was in *)
Definition replaced_above {A} (b : tree A) (p : list string) : Prop :=
  exists q r x, p = q ++ r /\ r <> [] /\ at_path q b = Plain x.
Definition right_biased {A} (a b t : tree A) : Prop := forall p,
  (forall x, at_path p b = Plain x -> at_path p t = Plain x) /\
  (at_path p b = ADict -> at_path p t = ADict) /\
  (at_path p b = Nothing -> ~ replaced_above b p -> at_path p t = at_path p a) /\
  (at_path p b = Nothing -> replaced_above b p -> at_path p t = Nothing).
(** several dictionaries merged from left to right *)
Inductive merged_all {A} : tree A -> list (tree A) -> tree A -> Prop :=
| ma_nil t : merged_all t [] t
| ma_cons t u s us r : right_biased t u s -> merged_all s us r -> merged_all t (u :: us) r.
(** dictionaries that exist side by side in the heap, none inside another *)
Inductive stored_apart {A} (h : heap A) : list nat -> list (tree A) -> list nat -> Prop :=
| sa_nil : stored_apart h [] [] []
| sa_cons l t N ls ts Ns : stores h (HRef l) t N -> keys_once t -> stored_apart h ls ts Ns -> NoDup (N ++ Ns) ->
    stored_apart h (l :: ls) (t :: ts) (N ++ Ns).

(** the documented defaults of the optimiser options: path and value, for the lower-case name of the method *)
Definition default_table (m : string) (rows : nat) (verbose : Z) (bounds : list (ext * ext)) : list (list string * ovalue) :=
  let iters := ONum (IZR (Z.min (250 * Z.of_nat rows) 20000)) in
  let disp := OBool (2 <=? verbose)%Z in
  let o k v := (["options"; k]%string, v) in
  if String.eqb m "nelder-mead" then [o "maxiter" iters; o "disp" disp; o "xatol" (ONum (1 / 10000)%R); o "fatol" (ONum (1 / 10000)%R)]%string
  else if String.eqb m "bfgs" then [o "maxiter" iters; o "disp" disp; o "gtol" (ONum (1 / 10000)%R)]%string
  else if String.eqb m "slsqp" then [(["bounds"], OBounds bounds); o "maxiter" iters; o "ftol" (ONum (1 / 1000000)%R); o "iprint" (ONum 1%R);
                                     o "disp" disp; o "eps" (ONum (15 / 1000000000)%R)]%string
  else if String.eqb m "cobyla" then [(["bounds"], OBounds bounds); o "maxiter" iters; o "rhobeg" (ONum 1%R); o "disp" disp; o "catol" (ONum (2 / 10000)%R)]%string
  else if String.eqb m "trust-constr" then [(["maxiter"], iters); (["disp"], disp); (["bounds"], OBounds bounds)]%string
  else [].
Definition plain_at (t : tree ovalue) (p : list string) (x : ovalue) : Prop := at_path p t = Plain x.
(** the user says nothing about the option at path [p] *)
Definition silent (t : tree ovalue) (p : list string) : Prop := at_path p t = Nothing /\ ~ replaced_above t p.
(** the method in force: the user's, or the default for the kind of copula *)
Definition archimedean_name (name : string) : Prop := In (lower name) ["clayton"; "gumbel"; "frank"; "joe"; "amh"]%string.
Definition method_in_force (t : tree ovalue) (name m : string) : Prop :=
  at_path ["method"%string] t = Plain (OStr m) \/
  (at_path ["method"%string] t = Nothing /\
   ((archimedean_name name /\ m = "Nelder-Mead"%string) \/ (~ archimedean_name name /\ m = "SLSQP"%string))).
Definition known_method (m : string) : Prop := In (lower m) ["nelder-mead"; "bfgs"; "slsqp"; "cobyla"; "trust-constr"]%string.
(** the bounds of a copula: both scalar or both vectors *)
Definition bounds_pairs (lb ub : bound_value) (l : list (ext * ext)) : Prop :=
  (exists a b, lb = BScalar a /\ ub = BScalar b /\ l = [(a, b)]) \/ (exists a b, lb = BVector a /\ ub = BVector b /\ l = combine a b).
