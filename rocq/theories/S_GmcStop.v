(** What the three stopping criteria of the pseudo expectation maximisation compare (mixtures/gmc/estimators/em.py:16-152). *)
From Coq Require Import Reals.
From Verif Require Import Base S_Matrix M_Gmc.
Local Close Scope Z_scope. Open Scope R_scope. Open Scope list_scope.

Section Stop.
  Variables (ppf : mat R -> gmc -> result (mat R)) (gmm_ll gmcm_ll : mat R -> gmc -> R) (u : mat R).
  (** the observations taken to the scale of the mixture [p] *)
  Definition quantiles (p : gmc) : mat R := match ppf u p with Ok q => q | Err _ => mkMat 0 0 (fun _ _ => 0) end.
  (** [ps]: the start and then the parameter after each step.  The mixture's log-likelihood of step [i] is that of the data from which
      the parameter was made: the quantiles under the parameter before (the start has its own). *)
  Definition mixture_ll (ps : list gmc) (p0 : gmc) (i : nat) : R := gmm_ll (quantiles (nth (i - 1) ps p0)) (nth i ps p0).
  Definition copula_ll (ps : list gmc) (p0 : gmc) (i : nat) : R := gmcm_ll u (nth i ps p0).
  (** the number compared with eps after step [i + 1] *)
  Definition gap (criterion : string) (ps : list gmc) (p0 : gmc) (i : nat) : R :=
    if String.eqb criterion "gmcm" then Rabs (copula_ll ps p0 (S i) - copula_ll ps p0 i)
    else if String.eqb criterion "gmm" then Rabs (mixture_ll ps p0 (S i) - mixture_ll ps p0 i)
    else Rabs (mixture_ll ps p0 (S i) - copula_ll ps p0 i).
End Stop.
