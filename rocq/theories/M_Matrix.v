(** Model of tri_indices and create_cov_matrix (/repo/copulae/core/misc.py:15-36,148-206)
    and of _get_rho_index (/repo/copulae/elliptical/abstract.py:140-153). *)
From Verif Require Import Base.

(** The double loop of misc.py:189-192 and 199-202: [for i in range(n-m): for j in range(i+m, n)].
    Offsets m >= 0 only (the code base only uses m = 0 and m = 1). *)
Definition tri_loop (n m : nat) : list (nat * nat) :=
  flat_map (fun i => map (fun j => (i, j)) (seq (i + m) (n - (i + m)))) (seq 0 (n - m)).

(** misc.py:182-206.  Returns the pair (row indices, column indices). *)
Definition tri_indices (n m : nat) (side : string) : result (list nat * list nat) :=
  let side := lower side in
  if negb (String.eqb side "lower" || String.eqb side "upper" || String.eqb side "both")
  then Err ValueError
  else
    let l := tri_loop n m in
    let l_i := (map snd l, map fst l) in               (* 187-192: rows get j, columns get i *)
    if String.eqb side "lower" then Ok l_i             (* 194-195 *)
    else
      let u_i := (map fst l, map snd l) in             (* 197-202 *)
      if String.eqb side "upper" then Ok u_i           (* 203-204 *)
      else Ok (fst u_i ++ fst l_i, snd u_i ++ snd l_i). (* 206 *)

Section Cov.
  Context {A : Type} (zero one : A).

  (** np.identity(d) *)
  Definition identity (d : nat) : mat A := mkMat d d (fun i j => if Nat.eqb i j then one else zero).

  (** one numpy element store *)
  Definition set_entry (m : mat A) (ij : nat * nat) (v : A) : mat A :=
    mkMat (nr m) (nc m) (fun i j => if Nat.eqb i (fst ij) && Nat.eqb j (snd ij) then v else get m i j).

  (** numpy's [m[rows, cols] = vals] with index arrays: stores one after the other.  An empty index list
      is a float64 array, which numpy rejects as an index (IndexError); a value vector of another length
      cannot be broadcast (ValueError; a length-1 vector would be broadcast). *)
  Definition assign (m : mat A) (idx : list nat * list nat) (vals : list A) : result (mat A) :=
    let ij := combine (fst idx) (snd idx) in
    match ij with
    | [] => Err IndexError
    | _ =>
      if Nat.eqb (length vals) (length ij)
      then Ok (fold_left (fun m p => set_entry m (fst p) (snd p)) (combine ij vals) m)
      else match vals with
           | [v] => Ok (fold_left (fun m p => set_entry m p v) ij m)
           | _ => Err ValueError
           end
    end.

  (** misc.py:31-36.  [(1 + 8c) ** 0.5] truncated is the integer square root. *)
  Definition create_cov_matrix (params : list A) : result (mat A) :=
    let c := length params in
    let d := (1 + Nat.sqrt (1 + 4 * 2 * c)) / 2 in
    bind (tri_indices d 1 "both") (fun idx => assign (identity d) idx (params ++ params)).

  (** numpy's [m[rows, cols]] read with index arrays (used as [cov[tri_indices(d, 1, 'lower')]]);
      empty index arrays raise as above, out-of-range ones raise IndexError. *)
  Definition take (m : mat A) (idx : list nat * list nat) : result (list A) :=
    let ij := combine (fst idx) (snd idx) in
    match ij with
    | [] => Err IndexError
    | _ => if forallb (fun p => (fst p <? nr m) && (snd p <? nc m)) ij
           then Ok (map (fun p => get m (fst p) (snd p)) ij)
           else Err IndexError
    end.
End Cov.

(** position of the first pair equal to (x, y): the loop of abstract.py:149-151 *)
Fixpoint find_index (xy : nat * nat) (l : list (nat * nat)) : option nat :=
  match l with
  | [] => None
  | v :: r => if Nat.eqb (fst xy) (fst v) && Nat.eqb (snd xy) (snd v) then Some 0
              else option_map S (find_index xy r)
  end.

(** abstract.py:140-153; the integer arguments may be negative *)
Definition get_rho_index (dim : nat) (x y : Z) : result nat :=
  if (x <? 0)%Z || (y <? 0)%Z then Err IndexError
  else if (Z.of_nat dim <=? x)%Z || (Z.of_nat dim <=? y)%Z then Err IndexError
  else if (x =? y)%Z then Err IndexError
  else
    let x := Z.to_nat x in let y := Z.to_nat y in
    bind (tri_indices dim 1 (if x <? y then "upper" else "lower")) (fun idx =>
    match find_index (x, y) (combine (fst idx) (snd idx)) with
    | Some j => Ok j
    | None => Err IndexError
    end).
