(** The Chebyshev coefficients of the Clausen function, /repo/copulae/special/_specfunc.pyx:22-38.  Decimal literals stand for the decimal
    numbers, not for the nearest doubles. *)
From Verif Require Import Base RSumLib M_Specfunc M_DebyeSeries.
Open Scope R_scope.

(** lines 22-38 *)
Definition clausen_decimals : list (Z * Z) :=
  [(2142694363766688447, 18); (723324281221257925, 19); (101642475021151164, 20); (3245250328531645, 20); (133315187571472, 20); (6213240591653, 20); (313004135337, 20); (16635723056, 20); (919659293, 20); (52400462, 20); (3058040, 20); (18197, 19); (1100, 19); (68, 19); (4, 19)]%Z.
Definition clausen_constants : list R := map decimal clausen_decimals.
(** lines 236-260 with this table *)
Definition clausen_fn : R -> option R := clausen clausen_constants.
