(** Model of /repo/copulae/stats/correlation.py (corr and its helpers; the wrappers pearson_rho, kendall_tau, spearman_rho (145-232) only fix the method name).
    Entries are floats with nan and infinities.  scipy's pearsonr/kendalltau/spearmanr are one external function per method, on
    vectors of finite numbers; its result may be nan, and it may raise. *)
From Verif Require Import Base RSumLib Ext.
Open Scope nat_scope.

Inductive cmethod := CPearson | CKendall | CSpearman.
(** lines 235-256 *)
Definition corr_method (m : string) : result cmethod :=
  let m := lower m in
  if existsb (String.eqb m) ["kendall"; "tau"]%string then Ok CKendall
  else if existsb (String.eqb m) ["spearman"; "rho"]%string then Ok CSpearman
  else if String.eqb m "pearson" then Ok CPearson
  else Err ValueError.
Inductive cuse := UEverything | UPairwise | UComplete.
(** lines 264-272 *)
Definition validate_use (u : string) : result cuse :=
  let u := lower u in
  if String.eqb u "everything" then Ok UEverything
  else if String.eqb u "pairwise.complete" then Ok UPairwise
  else if String.eqb u "complete" then Ok UComplete
  else Err ValueError.

Definition isnan (v : ext) : bool := match v with Nan => true | _ => false end.
Definition finite_value (v : ext) : option R := match v with Fin r => Some r | _ => None end.
(** the finite vector behind a vector of floats, if it is one *)
Fixpoint all_finite (l : list ext) : option (list R) :=
  match l with
  | [] => Some []
  | v :: r => match finite_value v, all_finite r with Some x, Some xs => Some (x :: xs) | _, _ => None end
  end.

Section Corr.
  (** scipy's correlation functions *)
  Variable scipy : cmethod -> list R -> list R -> result ext.

  (** lines 258-259; scipy returns a pair, of which the first component is used *)
  Definition compute_corr (m : cmethod) (u v : list ext) : result ext :=
    match all_finite u, all_finite v with
    | Some a, Some b => scipy m a b
    | _, _ => Ok Nan
    end.

  Definition column (rows : list (list ext)) (j : nat) : list ext := map (fun r => nth j r Nan) rows.
  (** lines 286-288: rows without nan *)
  Definition drop_rows (rows : list (list ext)) : list (list ext) := filter (fun r => forallb (fun v => negb (isnan v)) r) rows.
  (** lines 293-295: rows where both entries are there *)
  Definition drop_pair (rows : list (list ext)) (i j : nat) : list (list ext) :=
    filter (fun r => negb (isnan (nth i r Nan)) && negb (isnan (nth j r Nan))) rows.
  (** lines 275-297: the two vectors used for columns i < j *)
  Definition pair_vectors (rows : list (list ext)) (u : cuse) (i j : nat) : list ext * list ext :=
    match u with
    | UEverything => (column rows i, column rows j)
    | UComplete => (column (drop_rows rows) i, column (drop_rows rows) j)
    | UPairwise => (column (drop_pair rows i j) i, column (drop_pair rows i j) j)
    end.

  (** the index pairs in the order of the two loops *)
  Definition pairs (cols : nat) : list (nat * nat) :=
    flat_map (fun i => map (fun j => (i, j)) (seq (i + 1) (cols - (i + 1)))) (seq 0 cols).
  Definition set2 (c : mat ext) (i j : nat) (v : ext) : mat ext :=
    mkMat (nr c) (nc c) (fun a b => if (Nat.eqb a i && Nat.eqb b j) || (Nat.eqb a j && Nat.eqb b i) then v else get c a b).
  Definition identity (n : nat) : mat ext := mkMat n n (fun i j => if Nat.eqb i j then Fin 1 else Fin 0).
  (** lines 139-140 *)
  Fixpoint fill (m : cmethod) (u : cuse) (rows : list (list ext)) (l : list (nat * nat)) (c : mat ext) : result (mat ext) :=
    match l with
    | [] => Ok c
    | (i, j) :: r => let '(a, b) := pair_vectors rows u i j in
                     bind (compute_corr m a b) (fun v => fill m u rows r (set2 c i j v))
    end.
  (** lines 125-142 for a matrix with [cols] columns *)
  Definition corr (cols : nat) (rows : list (list ext)) (method use : string) : result (mat ext) :=
    bind (validate_use use) (fun u => bind (corr_method method) (fun m => fill m u rows (pairs cols) (identity cols))).

  (** lines 300-332 for two 1-dimensional vectors *)
  Definition form_xy (u : cuse) (x y : list ext) : result (list ext * list ext) :=
    if negb (Nat.eqb (length x) (length y)) then Err ValueError
    else match u with
         | UEverything => Ok (x, y)
         | _ => let l := filter (fun p => negb (isnan (fst p) || isnan (snd p))) (combine x y) in Ok (map fst l, map snd l)
         end.
  (** lines 130-133: two vectors *)
  Definition corr2 (x y : list ext) (method use : string) : result (mat ext) :=
    bind (validate_use use) (fun u => bind (corr_method method) (fun m =>
    bind (form_xy u x y) (fun p => bind (compute_corr m (fst p) (snd p)) (fun v => Ok (set2 (identity 2) 0 1 v))))).
End Corr.
