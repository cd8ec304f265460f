(** Model of sampling in three or more dimensions: /repo/copulae/archimedean/clayton.py:145-160 and frank.py:174-191, one row.  The draws
    are arguments: [ws] the uniforms of the row (stats/uniform.py), [v] the gamma variate, [u1] and [u2] the uniforms of the logarithmic
    series.  Simplification: a row is computed on its own (numpy broadcasts the frailty of the row over its entries). *)
From Verif Require Import Base RSumLib Ext M_Archimedean M_Special M_Stats.
Local Close Scope Z_scope. Open Scope R_scope.

(** clayton.py:150-160; [v] is rng.standard_gamma(1 / theta) *)
Definition clayton_random_row (th v : R) (ws : list R) : result (list ext) :=
  if Rltb (Rabs th) (/ 10000000) then Ok (map Fin ws)
  else mapM (fun w => clayton_psi th (ediv (eopp (elog (Fin w))) v)) ws.
(** frank.py:176-191; a frailty that is nan or infinite is divided by as floats do: - log(u) / nan is nan, - log(u) / -inf is -0, psi(-0) = 1 *)
Definition frank_random_row (fuel : nat) (th u1 u2 : R) (ws : list R) : option (result (list ext)) :=
  if Rltb (Rabs th) (/ 10000000) then Some (Ok (map Fin ws))
  else if Reqb (ln (1 - exp (- th))) 0 then Some (Ok (map (fun _ => Fin 1) ws))
  else option_map (fun fr => match fr with
                             | [Fin f] => mapM (fun w => frank_psi th (ediv (eopp (elog (Fin w))) f)) ws
                             | [Nan] => Ok (map (fun _ => Nan) ws)
                             | _ => mapM (fun _ => frank_psi th (Fin 0)) ws
                             end) (random_log_series fuel (- th) [u1] [u2]).
