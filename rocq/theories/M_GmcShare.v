(** Gaussian mixture parameters in memory: /repo/copulae/mixtures/gmc/parameter.py:17-123, gmc.py:68-88, 190-242 and estimators/sgd.py:31.
    The values are those of M_Gmc; here weights and means sit in numpy arrays that can have several names.  Arrays are contiguous and hold
    finite floats, as np.ravel and np.asarray then give views.  Covariances are copied by the setter (line 123) and are kept as values:
    writing into the array param.covs is not modelled. *)
From Verif Require Import Base RSumLib Ext M_Linalg M_Elliptical M_Gmc.
Local Close Scope Z_scope. Open Scope R_scope.

(** a GMCParam object: the arrays behind prob and means *)
Record pobj := mkPobj { q_clusters : nat; q_dim : nat; q_prob : nat; q_means : nat; q_covs : list (mat R) }.
(** a GaussianMixtureCopula: sizes and the parameter object *)
Record cobj := mkCobj { k_clusters : nat; k_dim : nat; k_param : option nat }.
(** names below the counters are in use *)
Record store := mkStore { vecs : nat -> list R; tabs : nat -> mat R; objs : nat -> pobj; cops : nat -> cobj; next_array : nat; next_obj : nat }.
Definition upd {A} (f : nat -> A) (i : nat) (v : A) : nat -> A := fun j => if Nat.eqb j i then v else f j.

(** what reading the attributes shows *)
Definition shown (s : store) (o : nat) : gmc :=
  let p := objs s o in mkGmc (q_clusters p) (q_dim p) (vecs s (q_prob p)) (tabs s (q_means p)) (q_covs p).
Definition shown_copula (s : store) (c : nat) : option gmc := option_map (shown s) (k_param (cops s c)).

Definition set_vec (s : store) (a : nat) (l : list R) : store := mkStore (upd (vecs s) a l) (tabs s) (objs s) (cops s) (next_array s) (next_obj s).
Definition set_tab (s : store) (a : nat) (m : mat R) : store := mkStore (vecs s) (upd (tabs s) a m) (objs s) (cops s) (next_array s) (next_obj s).
Definition set_obj (s : store) (o : nat) (p : pobj) : store := mkStore (vecs s) (tabs s) (upd (objs s) o p) (cops s) (next_array s) (next_obj s).
Definition set_cop (s : store) (c : nat) (o : option nat) : store :=
  mkStore (vecs s) (tabs s) (objs s) (upd (cops s) c (mkCobj (k_clusters (cops s c)) (k_dim (cops s c)) o)) (next_array s) (next_obj s).
(** a new object around existing arrays *)
Definition new_obj (s : store) (p : pobj) : store := mkStore (vecs s) (tabs s) (upd (objs s) (next_obj s) p) (cops s) (next_array s) (S (next_obj s)).
(** a new object with arrays of its own *)
Definition fresh_obj (s : store) (p : gmc) : store :=
  mkStore (upd (vecs s) (next_array s) (prob p)) (upd (tabs s) (next_array s) (means p))
    (upd (objs s) (next_obj s) (mkPobj (n_clusters p) (n_dim p) (next_array s) (next_array s) (covs p))) (cops s) (S (next_array s)) (S (next_obj s)).

Inductive op :=
| WriteVec (a k : nat) (v : R)                        (* a[k] = v *)
| WriteTab (a i j : nat) (v : R)                      (* a[i, j] = v *)
| SetProb (o a : nat)                                 (* o.prob = a *)
| SetMeans (o a : nat)                                (* o.means = a *)
| SetCovs (o : nat) (v : list (mat R))                (* o.covs = v *)
| ToVector (o : nat)                                  (* o.to_vector() *)
| SetParam (c o : nat)                                (* c.params = o *)
| SetDict (c a b : nat) (v : list (mat R))            (* c.params = {'prob': a, 'means': b, 'covs': v} *)
| SetVector (c : nat) (v : list ext)                  (* c.params = a vector, a list or an array *)
| SetBest (c : nat) (p : gmc).                        (* c.params = the parameters made by an estimator, gmc.py:212 *)

Section Steps.
  Variables (eig : mat R -> list R) (cn : mat R -> mat R).
  Definition refuse (s : store) (e : exn) : store * result unit := (s, Err e).
  Definition mismatch (s : store) (c : nat) (p : gmc) : bool := negb (Nat.eqb (n_dim p) (k_dim (cops s c)) && Nat.eqb (n_clusters p) (k_clusters (cops s c))).
  Definition step (s : store) (x : op) : store * result unit :=
    match x with
    | WriteVec a k v => if Nat.ltb k (length (vecs s a)) then (set_vec s a (set_nth (vecs s a) k v), Ok tt) else refuse s IndexError
    | WriteTab a i j v =>
      let m := tabs s a in
      if Nat.ltb i (nr m) && Nat.ltb j (nc m) then (set_tab s a (mkMat (nr m) (nc m) (fun i' j' => if Nat.eqb i' i && Nat.eqb j' j then v else get m i' j')), Ok tt)
      else refuse s IndexError
    | SetProb o a => let p := objs s o in                                                          (* parameter.py:86-95 *)
      match check_prob (q_clusters p) (map Fin (vecs s a)) with
      | Err e => refuse s e
      | Ok _ => (set_obj s o (mkPobj (q_clusters p) (q_dim p) a (q_means p) (q_covs p)), Ok tt)
      end
    | SetMeans o a => let p := objs s o in                                                         (* 101-109 *)
      match check_means (q_clusters p) (q_dim p) (tabs s a) with
      | Err e => refuse s e
      | Ok _ => (set_obj s o (mkPobj (q_clusters p) (q_dim p) (q_prob p) a (q_covs p)), Ok tt)
      end
    | SetCovs o v => let p := objs s o in                                                          (* 115-123 *)
      match check_covs eig cn (q_clusters p) (q_dim p) v with
      | Err e => refuse s e
      | Ok v => (set_obj s o (mkPobj (q_clusters p) (q_dim p) (q_prob p) (q_means p) v), Ok tt)
      end
    | ToVector o => let p := objs s o in                            (* 36-43: element stores, an in-place division and the setter *)
      let s := set_vec s (q_prob p) (clip_prob (vecs s (q_prob p))) in
      match check_prob (q_clusters p) (map Fin (vecs s (q_prob p))) with Err e => (s, Err e) | Ok _ => (s, Ok tt) end
    | SetParam c o =>                                                                              (* gmc.py:234-238 *)
      if mismatch s c (shown s o) then refuse s GMCParamMismatchError else (set_cop s c (Some o), Ok tt)
    | SetDict c a b v =>                                                                           (* gmc.py:232-233, parameter.py:30-34 *)
      let m := nr (tabs s b) in let d := nc (tabs s b) in
      match new_gmc eig cn m d (map Fin (vecs s a)) (tabs s b) v with
      | Err e => refuse s e
      | Ok p => (set_cop (new_obj s (mkPobj m d a b (covs p))) c (Some (next_obj s)), Ok tt)
      end
    | SetVector c v =>                                                                             (* gmc.py:239-240 *)
      match from_vector eig cn v (k_clusters (cops s c)) (k_dim (cops s c)) with
      | Err e => refuse s e
      | Ok p => (set_cop (fresh_obj s p) c (Some (next_obj s)), Ok tt)
      end
    | SetBest c p => if mismatch s c p then refuse s GMCParamMismatchError else (set_cop (fresh_obj s p) c (Some (next_obj s)), Ok tt)
    end.
  (** a history; failing statements are caught by the caller *)
  Definition steps (s : store) (l : list op) : store := fold_left (fun s x => fst (step s x)) l s.
  (** c.fit(data, x0=o, method='sgd') up to the search, and its end: gmc.py:195, 205, 212 and sgd.py:31.  [best] is what the search finds *)
  Definition fit_from (c o : nat) (best : gmc) : list op := [SetParam c o; ToVector o; SetBest c best].
End Steps.
