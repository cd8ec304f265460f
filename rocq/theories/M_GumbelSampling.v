(** A row of GumbelCopula.random, all branches. *)
From Verif Require Import Base RSumLib Ext M_Archimedean M_Stable.
Open Scope R_scope.
(** gumbel.py:228-243 for one row, params not nan: [ws] the uniform draws of the row (line 232 or 234, the same random_uniform call),
    [u] and [w] the uniform and the exponential draw of skew_stable.rvs, [cauchy] and [argmax] as in M_Stable *)
Definition gumbel_row (argmax : R -> R -> R) (cauchy theta u w : R) (ws : list R) : result (list ext) :=
  if Rltb (theta - 1) (/ 10000000) then Ok (map Fin ws)                                                     (* 233-234 *)
  else if Rleb (Rabs (theta - 1)) (/ 100000000 + / 100000 * Rabs 1) then Ok (map Fin ws)                    (* 236-237: np.isclose *)
  else gumbel_random_row argmax cauchy theta u w ws.
