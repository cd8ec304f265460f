(** Specification vocabulary for fits with constraints. *)
From Verif Require Import Base RSumLib Ext M_Elliptical M_Fit S_Fit M_StudentFit.
Open Scope R_scope.

(** the degrees of freedom a copula shows *)
Definition degrees (s : pstate) : fl := match s with PStudent t => s_df t | _ => None end.
(** What a constrained minimiser promises: if it claims success, then at a point whose objective it has asked for and at which each of the
    n constraints was answered with 0. *)
Inductive feasible (n : nat) : list event -> coptimiser -> Prop :=
| fe_ask seen p k : (forall v, feasible n (Asked p v :: seen) (k v)) -> feasible n seen (CAsk p k)
| fe_check seen i p k : (i < n)%nat -> (forall v, feasible n (Checked i p v :: seen) (k v)) -> feasible n seen (CCheck i p k)
| fe_report seen x f : In (Asked (SVec x) f) seen -> (forall i, (i < n)%nat -> In (Checked i x (Some 0)) seen) -> feasible n seen (CReport true (SVec x) f)
| fe_fail seen x f : feasible n seen (CReport false x f)
| fe_crash seen e : feasible n seen (CCrash e).
(** a vector of parameters that the setter of a Student copula of dimension d takes: numbers, one more than correlations, df positive *)
Definition student_vector (d : nat) (p : list fl) : Prop :=
  length p = S (n_rhos d) /\ (forall v, In v p -> v <> None) /\ exists x r, p = Some x :: r /\ 0 < x.
(** the minimiser evaluates the objective at such vectors only, and looks at the constraints at the point whose objective it asked for last *)
Inductive checks_after (d : nat) : option (list fl) -> coptimiser -> Prop :=
| ca_ask last p k : student_vector d p -> (forall v, checks_after d (Some p) (k v)) -> checks_after d last (CAsk (SVec p) k)
| ca_check p i k : (forall v, checks_after d (Some p) (k v)) -> checks_after d (Some p) (CCheck i p k)
| ca_report last b x f : checks_after d last (CReport b x f)
| ca_crash last e : checks_after d last (CCrash e).
(** every point the minimiser tries or reports has x as its first coordinate *)
Inductive keeps_first (x : fl) : coptimiser -> Prop :=
| kf_ask r k : (forall v, keeps_first x (k v)) -> keeps_first x (CAsk (SVec (x :: r)) k)
| kf_check i p k : (forall v, keeps_first x (k v)) -> keeps_first x (CCheck i p k)
| kf_report b r f : keeps_first x (CReport b (SVec (x :: r)) f)
| kf_crash e : keeps_first x (CCrash e).
