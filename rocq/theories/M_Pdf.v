(** Model of the Archimedean densities: /repo/copulae/archimedean/clayton.py:108-137, frank.py:128-151, gumbel.py:185-220,
    _shared.py:6-17.  A row of the data matrix is a [list ext]; theta is a real (a nan theta fails the first assertion).
    Shaping and squeezing by the decorators is modelled separately. *)
From Verif Require Import Base RSumLib Ext M_Archimedean M_Special M_Gumbel.
Open Scope R_scope.

(** _shared.py:17, one row *)
Definition valid_row (row : list ext) : bool :=
  forallb (fun x => match x with Fin u => Rleb 0 u && Rleb u 1 | _ => false end) row.
Definition out (log : bool) (x : ext) : ext := if log then x else eexp x.

(** clayton.py:123-135, one row, theta <> 0 *)
Definition clayton_log_pdf (th : R) (row : list ext) : ext :=
  let d := length row in
  let lu := esum (map elog row) in
  let t := esum (map (clayton_ipsi th) row) in
  if Rltb th 0 then
    let v := esub (esub (elog (Fin (1 + th))) (escal (1 + th) lu)) (escal (INR d + 1 / th) (elog (esub (Fin 1) t))) in
    if negb (valid_row row) then Nan else if eltb t (Fin 1) then v else Ninf
  else
    let p := esum (map (fun k => elog (Fin (1 + th * INR k))) (seq 1 (d - 1))) in
    esub (esub p (escal (1 + th) lu)) (escal (INR d + 1 / th) (elog (eadd (Fin 1) t))).
(** clayton.py:108-137 *)
Definition clayton_pdf (th : R) (log : bool) (rows : list (list ext)) : result (list ext) :=
  if negb (existsb valid_row rows) then Ok (map (fun _ => Nan) rows)
  else if Reqb th 0 then Ok (map (fun r => if valid_row r then Fin 0 else Nan) rows)
  else Ok (map (fun r => out log (clayton_log_pdf th r)) rows).

(** frank.py:139-149, one valid row.  [li_arg] is the argument of the polylogarithm of order 1 - d.  It lies strictly between
    0 and 1 when theta > 0 and no u is 0; otherwise lp or one of lpu is -inf or nan and line 149 gives nan. *)
Definition frank_log_pdf (gamma dilog : R -> R) (th : R) (row : list ext) : result ext :=
  let d := length row in
  let lp := log1mexp (Fin th) in
  let lpu := map (fun u => log1mexp (escal th u)) row in
  let li_arg := eexp (eadd lp (esum (map (fun x => esub x lp) lpu))) in
  match li_arg with
  | Fin z =>
    if Rltb 0 z && Rltb z 1 then
      rmap (fun li => esub (esub (eadd (escal (INR d - 1) (elog (Fin th))) (Fin li)) (escal th (esum row))) (esum lpu))
           (poly_log gamma dilog z (1 - Z.of_nat d) "default" true)
    else Ok Nan
  | _ => Ok Nan
  end.
(** frank.py:128-151: invalid rows keep nan *)
Definition frank_pdf (gamma dilog : R -> R) (th : R) (log : bool) (rows : list (list ext)) : result (list ext) :=
  rmap (map (out log)) (mapM (fun r => if valid_row r then frank_log_pdf gamma dilog th r else Ok Nan) rows).

(** maximum of a row *)
Definition row_max (row : list ext) : ext := match row with [] => Nan | x :: r => fold_left emax r x end.
(** gumbel.py:200-218, one row, theta <> 1.  A non-finite lx (all u = 1, some u = 0, some u outside [0,1]) ends in nan because
    line 216 subtracts equal infinities or propagates nan.  The rows do not interact in gumbel_poly. *)
Definition gumbel_log_pdf (gamma gammaln : R -> ext) (th : R) (row : list ext) : result ext :=
  let d := length row in
  let nlu := map (fun u => eopp (elog u)) row in
  let lip := map (fun u => elog (gumbel_ipsi th u)) row in
  let offset := row_max row in
  let ln_ := eadd offset (elog (esum (map (fun l => eexp (esub l offset)) lip))) in
  let alpha := 1 / th in
  match escal alpha ln_ with
  | Fin lx =>
    bind (gumbel_poly gamma gammaln [lx] alpha (Z.of_nat d) "default" true) (fun g =>
    let ls := esub (hd Nan g) (Fin (INR d * lx / alpha)) in
    let lnc := Fin (- exp lx) in
    Ok (eadd (eadd (eadd lnc (escal (INR d) (elog (Fin th)))) (esum (map (fun n => eadd (escal (th - 1) (elog n)) n) nlu))) ls))
  | _ => Ok Nan
  end.
(** gumbel.py:185-220; only the theta = 1 branch looks at the validity of the rows *)
Definition gumbel_pdf (gamma gammaln : R -> ext) (th : R) (log : bool) (rows : list (list ext)) : result (list ext) :=
  if Reqb th 1 then Ok (map (fun r => if valid_row r then Fin (if log then 0 else 1) else Nan) rows)
  else rmap (map (out log)) (mapM (gumbel_log_pdf gamma gammaln th) rows).
