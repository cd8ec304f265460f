(** The methods A and dAdu of the Gumbel copula as they are called: /repo/copulae/archimedean/gumbel.py:46-121 with the decorator
    cast_input, utility/annotations/reshape.py:40-47.  The formula of A is [gumbel_A] of M_Archimedean. *)
From Verif Require Import Base RSumLib Ext M_Archimedean.
Open Scope R_scope.

(** after cast_input, w is an array: of dimension 0 (a number was passed) or 1 *)
Inductive numeric := Number (w : R) | Vector (l : list R).
Definition entries (w : numeric) : list R := match w with Number w => [w] | Vector l => l end.
(** gumbel.py:71-74.  Arithmetic on arrays of dimension 0 gives numpy scalars; [r[bnd] = 1] (line 73) is not possible for a scalar.
    squeeze_output makes a number of an array of length 1; here the entries of the result. *)
Definition gumbel_A_call (th : R) (w : numeric) : result (list ext) :=
  match w with
  | Number _ => Err TypeError
  | Vector l => Ok (map (gumbel_A th) l)
  end.
(** the operator ^ (bitwise exclusive or), not defined for floats *)
Definition xor_float (a b : list ext) : result (list ext) := Err TypeError.
(** product; infinite factors, which do not occur for w inside the unit interval, give Nan here *)
Definition emul (a b : ext) : ext := match a, b with Fin x, Fin y => Fin (x * y) | _, _ => Nan end.
(** gumbel.py:96-115.  In line 104 ^ binds weaker than - and *: (alpha * w ** expr6 - alpha * expr1) ^ expr6. *)
Definition gumbel_dAdu (th : R) (w : numeric) : result (list (ext * ext)) :=
  let expr3 := 1 / th in
  let expr4 := expr3 - 1 in
  let expr6 := th - 1 in
  let expr9 := expr6 - 1 in
  let expr2 w := eadd (epow (Fin w) th) (epow (Fin (1 - w)) th) in
  let l := entries w in
  bind (xor_float (map (fun w => esub (escal th (epow (Fin w) expr6)) (Fin (th * (1 - w)))) l) (map (fun _ => Fin expr6) l)) (fun expr7 =>
  Ok (map (fun we => let '(w, e7) := we in
        let expr5 := epow (expr2 w) expr4 in
        let expr8 := escal expr3 e7 in
        (emul expr5 expr8,
         eadd (emul (emul (escal expr4 e7) expr8) (epow (expr2 w) (expr4 - 1)))
              (escal (th * expr3 * expr6) (emul expr5 (eadd (epow (Fin w) expr9) (epow (Fin (1 - w)) expr9)))))) (combine l expr7))).
