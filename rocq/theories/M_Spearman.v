(** Model of Spearman's rho, its derivative and its inverse in the classes that do not implement them:
    /repo/copulae/archimedean/clayton.py:57-66, 162-164, 174-177, frank.py:100-102, gumbel.py:137-139, 244-246, 256-259,
    archimedean/abstract.py:70-79, elliptical/student.py:117-121. *)
From Verif Require Import Base RSumLib Ext M_Matrix M_Linalg M_Elliptical M_Fit.
Open Scope R_scope.

(** a number, or the Python object NotImplemented that the methods return *)
Inductive value := Number (x : R) | NotImpl.
(** [value - x]: NotImplemented supports no arithmetic *)
Definition minus (v : value) (x : R) : result R := match v with Number y => Ok (y - x) | NotImpl => Err TypeError end.
Inductive class := Clayton | Gumbel | Frank | Student.
(** _rho (clayton.py:177, gumbel.py:259); [frank_rho]: frank.py:203-211 (M_Archimedean, M_Debye), [student_rho]: elliptical/abstract.py:50 at one correlation *)
Definition rho_ (frank_rho student_rho : R -> R) (c : class) (th : R) : value :=
  match c with Clayton | Gumbel => NotImpl | Frank => Number (frank_rho th) | Student => Number (student_rho th) end.
(** abstract.py:78-79 with special/optimize.py: find_root evaluates the function at the lower bound first; whatever comes later ([root]) needs that value.
    Frank overrides irho and returns NotImplemented (frank.py:102); Student calls it (student.py:121), which raises. *)
Definition irho (frank_rho student_rho : R -> R) (root : (R -> result R) -> result R) (lower : R) (c : class) (rho : R) : result value :=
  match c with
  | Clayton | Gumbel => bind (minus (rho_ frank_rho student_rho c lower) rho)
                             (fun _ => rmap Number (root (fun th => minus (rho_ frank_rho student_rho c th) rho)))
  | Frank => Ok NotImpl
  | Student => Err TypeError
  end.
(** drho: clayton.py:66 below squeeze_output, which asks NotImplemented for its size; gumbel.py:139; [d]: the derivatives of the other classes *)
Definition drho (d : class -> R -> R) (c : class) (x : R) : result value :=
  match c with
  | Clayton => Err AttributeError
  | Gumbel => Ok NotImpl
  | c => Ok (Number (d c x))
  end.
(** what fit_cor and np.mean make of irho (corr_inversion.py:75, 43): the mean of NotImplemented raises.  The pairs of correlations are passed as one
    array; the first one is enough to raise.  No step lies between the call and the mean for Frank. *)
Definition irho_in_fit (frank_rho student_rho : R -> R) (root : (R -> result R) -> result R) (lower : R) (c : class) (rhos : list fl) : result (list fl) :=
  match irho frank_rho student_rho root lower c (match rhos with Some r :: _ => r | _ => 0 end) with
  | Err e => Err e
  | Ok NotImpl => Err TypeError
  | Ok (Number x) => Ok [Some x]
  end.
