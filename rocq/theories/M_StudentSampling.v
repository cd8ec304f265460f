(** Model of multivariate_t.rvs (/repo/copulae/stats/_multivariate_t.py:120-202) and StudentCopula.random
    (/repo/copulae/elliptical/student.py:180-182) for an integer size of at least 2 and a covariance matrix with at least two rows
    (other sizes: rvs_shape in M_Stats).  numpy's global generator is a state of type [St]; its draws and scipy's mvn.rvs are functions
    of the state.  Draws are finite numbers. *)
From Verif Require Import Base RSumLib Ext M_Linalg M_Stats.
Open Scope R_scope.

Inductive centrality := Kshirsagar | Shifted | OtherType.                                    (* type_.casefold() *)
Section Rvs.
  Variable St : Type.
  Variable init : Z -> St.                                                                   (* np.random.seed, and RandomState(seed) *)
  Variable chisq : R -> nat -> St -> list R * St.                                            (* np.random.chisquare *)
  Variable mvn : list R -> mat R -> nat -> St -> list (list R) * St.                         (* scipy's multivariate_normal.rvs *)

  (** mvn.rvs with random_state: None draws from the global generator; an integer makes a new generator and leaves the global one alone *)
  Definition mvn_rvs (mean : list R) (cov : mat R) (n : nat) (seed : option Z) (s : St) : list (list R) * St :=
    match seed with
    | None => mvn mean cov n s
    | Some k => (fst (mvn mean cov n (init k)), s)
    end.
  Definition mean_or_zero (mean : option (list R)) (cov : mat R) : list R := match mean with Some m => m | None => repeat 0 (nr cov) end.
  (** r /= d, with one entry of d for each row *)
  Definition divide_rows (r : list (list R)) (d : list R) : list (list R) := map (fun p => map (fun x => x / snd p) (fst p)) (combine r d).
  Definition shift_rows (mean : option (list R)) (r : list (list R)) : list (list R) :=
    match mean with Some m => map (fun row => map (fun p => fst p + snd p) (combine row m)) r | None => r end.
  Definition mvt_rvs (mean : option (list R)) (cov : mat R) (df : option R) (n : nat) (type_ : centrality) (seed : option Z) (s : St)
    : result (list (list R)) * St :=
    match df with
    | None => (Err ValueError, s)                                                            (* 163-164 *)
    | Some df =>
      if Rleb df 0 then (Err ValueError, s)                                                  (* 165-166 *)
      else if Rltb t_limit df then                                                           (* 167-168 *)
        let '(r, s) := mvn_rvs (mean_or_zero mean cov) cov n seed s in (Ok r, s)
      else
        let s := match seed with Some k => init k | None => s end in                         (* 170-171 *)
        let '(w, s) := chisq df n s in
        let d := map (fun w => sqrt (w / df)) w in                                           (* 172 *)
        match type_ with
        | Kshirsagar => let '(r, s) := mvn_rvs (mean_or_zero mean cov) cov n seed s in (Ok (divide_rows r d), s)          (* 185-189 *)
        | Shifted => let '(r, s) := mvn_rvs (repeat 0 (nr cov)) cov n seed s in (Ok (shift_rows mean (divide_rows r d)), s)    (* 191-198 *)
        | OtherType => (Err ValueError, s)                                                   (* 199-200 *)
        end
    end.
  (** student.py:180-182 *)
  Definition student_random (t_cdf : R -> R -> R) (sigma : mat R) (df : R) (n : nat) (seed : option Z) (s : St) : result (list (list R)) * St :=
    let '(r, s) := mvt_rvs None sigma (Some df) n Shifted seed s in
    (rmap (map (map (fun x => t_cdf x df))) r, s).
End Rvs.
