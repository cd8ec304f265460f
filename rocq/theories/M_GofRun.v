(** Model of the options, the replications and the random numbers of the tests: /repo/copulae/gof/goodness_of_fit/goodness_of_fit.py:18-142,
    gof/goodness_of_fit/utils.py:11-50, copula/base.py:75-121, gof/exchangeability.py:86-118 with _exchangeability.pyx:113-161 and 246,
    gof/radial_symmetry.py:63-86 with _radial_symmetry.pyx:48.  Tables of exact reals, as in M_Gof. *)
From Coq Require Import QArith.
From Verif Require Import Base RSumLib Ext M_Rank M_Special M_Stats M_Empirical M_Gof.
Local Close Scope Q_scope. Local Close Scope Z_scope. Open Scope R_scope.

(** ** Options of the fit *)
(** the keyword arguments [fit_options] as far as they decide what is fitted; None: not given *)
Record fit_options := mkOptions { o_verbose : option Z; o_to_pobs : option bool; o_ties : option string }.
Definition get_or {A} (o : option A) (d : A) : A := match o with Some a => a | None => d end.
(** base.py:75-77, 118-121: the data is ranked once more unless to_pobs is False; [fit0]: the rest of fit *)
Definition base_fit (fit0 : mat R -> result (mat R -> nat -> R)) (o : fit_options) (d : mat R) : result (mat R -> nat -> R) :=
  if get_or (o_to_pobs o) true then bind (pseudo_obs Rleb d (get_or (o_ties o) "average"%string)) (fun q => fit0 (real_mat q)) else fit0 d.
(** goodness_of_fit.py:78-79: GofData ranks the data first; then verbose=0 stands beside the options of the caller *)
Definition gof_call (fit0 : mat R -> result (mat R -> nat -> R)) (sample : nat -> mat R) (data : mat R) (reps : nat) (ties fit_ties : string) (o : fit_options) : result (R * R) :=
  bind (gof_pobs data ties fit_ties) (fun _ =>
  match o_verbose o with
  | Some _ => Err TypeError
  | None => gof_copula (base_fit fit0 o) sample data reps ties fit_ties
  end).

(** ** Replications *)
Section Replications.
  Context {St : Type}.
  (** one call of _process_result (114-122): the statistic and the state of numpy's generator afterwards.  Failing fits are not modelled. *)
  Variable replicate : St -> R * St.
  (** line 107: the replications one after another in the process of the caller *)
  Fixpoint in_process (reps : nat) (s : St) : list R * St :=
    match reps with
    | O => ([], s)
    | S k => let '(t, s) := replicate s in let '(ts, s) := in_process k s in (t :: ts, s)
    end.
  (** lines 103-105: each worker is a copy of the process of the caller (made by fork, with the generator in the state s) and keeps its own state;
      task k runs in the worker [who k].  The list of the results, in the order of the tasks. *)
  Fixpoint pool_from (who : nat -> nat) (k reps : nat) (w : nat -> St) : list R :=
    match reps with
    | O => []
    | S r => let '(t, s) := replicate (w (who k)) in t :: pool_from who (S k) r (fun i => if Nat.eqb i (who k) then s else w i)
    end.
  Definition in_pool (who : nat -> nat) (reps : nat) (s : St) : list R * St := (pool_from who 0 reps (fun _ => s), s).
  (** lines 101-112 for the statistic t: the p-value, and the generator of the caller afterwards *)
  Definition gof_pvalue (multiprocess : bool) (who : nat -> nat) (reps : nat) (t : R) (s : St) : R * St :=
    let '(ts, s) := if multiprocess then in_pool who reps s else in_process reps s in (p_value (map Rabs ts) (Rabs t), s).
End Replications.
(** line 105: the list comprehension asks the generator expression for the next future, which submits a task, and waits for its result before it asks again *)
Inductive event := Submitted (k : nat) | Finished (k : nat).
Fixpoint pool_events (k reps : nat) : list event :=
  match reps with O => [] | S r => Submitted k :: Finished k :: pool_events (S k) r end.

(** ** Random numbers of the tests *)
Section Tests.
  Context {Np C : Type}.
  Variable seed : Z -> Np.                                                  (* np.random.seed *)
  Variable normals : nat -> nat -> Np -> (nat -> nat -> R) * Np.            (* N times np.random.normal(size=n) *)
  Variable coins : nat -> nat -> C -> (nat -> nat -> bool) * C.             (* N * n calls of rand() of the C library, compared with one half *)
  Variable argsort : list R -> list Z.
  (** exchangeability.py:104: neither column of pseudo-observations has ties *)
  Definition exch_untied (n : nat) (x y : nat -> R) (ties : string) : bool :=
    match pseudo_obs1 Rleb n x ties, pseudo_obs1 Rleb n y ties with
    | Ok a, Ok b => let u := mkMat n 2 (fun i c => Q2R (if Nat.eqb c 0 then a i else b i)) in distinct (column u 0) && distinct (column u 1)
    | _, _ => false
    end.
  (** the test with the states of both generators; without ties _exchangeability.pyx:158 seeds the global generator of numpy, with ties line 246 calls rand().
      Errors come before the first number is drawn. *)
  Definition exch_run (n : nat) (x y : nat -> R) (N m : nat) (ties : string) (s : Np) (c : C) : result (R * R) * (Np * C) :=
    let '(g, s') := normals N n (seed 8888%Z) in
    let '(b, c') := coins N n c in
    let r := exch_test argsort n n x y N m ties g b in
    (r, match r with
        | Ok _ => if exch_untied n x y ties then (s', c) else (s, c')
        | Err _ => (s, c)
        end).
  (** _radial_symmetry.pyx:48: rand() in both cases *)
  Definition rad_sym_run (x : mat R) (N : nat) (ties : string) (s : Np) (c : C) : result (R * R) * (Np * C) :=
    let '(b, c') := coins N (nr x) c in
    let r := rad_sym_test argsort x N ties b in
    (r, match r with Ok _ => (s, c') | Err _ => (s, c) end).
End Tests.
