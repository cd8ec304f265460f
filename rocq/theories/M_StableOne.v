(** Model of aux_f2 in /repo/copulae/stats/stable/pdf.py (the stable density for alpha = 1, beta <> 0).  scipy's quad and brentq are
    arguments.  Simplifications: exact reals; x is finite, so line 164 never fires.  Where the exact cosine is 0 (u = 1) the code has
    6e-17 and a tangent of 1.6e16, which makes the exponential inf or 0 according to the sign of h: so does the model. *)
From Verif Require Import Base RSumLib Ext M_Archimedean M_Special M_Specfunc M_Stable M_StablePdf.
Local Close Scope Z_scope. Open Scope R_scope.

(** pdf.py:167-172; np.size(beta) is 1 for a float; np.isclose(_, 0, atol=1e-10) *)
Definition one_g1 (beta x u : R) : ext :=
  let i2b := 1 / (2 * beta) in                                                   (* 160 *)
  let p2b := PI * i2b in
  let ea := - p2b * x in
  if Rleb (Rabs (Rabs (u + 1))) (/ 10 ^ 10) then Fin 0
  else let h := p2b + u * PI2 in
       if Reqb (cospi2 u) 0 then (if Rltb 0 h then Pinf else Fin 0)
       else Fin (h / p2b * exp (ea + h * tanpi2 u) / cospi2 u).
(** pdf.py:142-185 *)
Definition aux_f2 (brentq : (R -> ext) -> R -> R -> R) (quad : (R -> ext) -> R -> R -> ext) (x beta : R) (log : bool) : result ext :=
  let i2b := 1 / (2 * beta) in
  let g2 := fun u => xexp (one_g1 beta x u) in                                    (* 174-175 *)
  bind (find_root_x brentq (fun u => esub (one_g1 beta x u) (Fin 1)) (-1) 1) (fun root =>
  let r1 := quad g2 (-1) root in
  let r2 := quad g2 root 1 in
  Ok (if log then eadd (eadd (Fin (ln PI2)) (Fin (ln (Rabs i2b)))) (elog (eadd r1 r2))
      else escal (PI2 * Rabs i2b) (eadd r1 r2))).
