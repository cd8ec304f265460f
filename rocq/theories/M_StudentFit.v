(** Model of StudentCopula.fit and its option fix_df: /repo/copulae/elliptical/student.py:66-115, on top of the fitting code of M_Fit. *)
From Verif Require Import Base RSumLib Ext M_Matrix M_Linalg M_Elliptical M_Dict M_Fit.
Open Scope R_scope.

(** An equality constraint handed to the minimiser: one of the user's, or the one of student.py:113, [lambda x: x[0] - self._df].  The
    lambda reads the attribute when it is called. *)
Inductive con := User (g : list fl -> fl) | Df.
Definition fl_minus (a b : fl) : fl := match a, b with Some x, Some y => Some (x - y) | _, _ => None end.
Definition eval_con (c : con) (p : list fl) (s : pstate) : result fl :=
  match c, p, s with
  | User g, _, _ => Ok (g p)
  | Df, x :: _, PStudent t => Ok (fl_minus x (s_df t))
  | Df, _, _ => Err IndexError
  end.
(** student.py:110-113: the dictionary of options is absent, has no key 'constraints', or has a list there.  The result is the
    dictionary afterwards: the user's list is extended in place. *)
Inductive optdict := NoDict | NoKey | Cons (l : list con).
Definition add_constraint (fix_df : bool) (o : optdict) : result optdict :=
  if fix_df then match o with NoDict => Ok (Cons [Df]) | NoKey => Err KeyError | Cons l => Ok (Cons (l ++ [Df])) end else Ok o.
Definition constraints (o : optdict) : list con := match o with Cons l => l | _ => [] end.

(** A minimiser with constraints: it asks for values of the objective and of the constraints, one after the other. *)
Inductive coptimiser :=
| CAsk (p : sarr) (continue : ext -> coptimiser)
| CCheck (i : nat) (p : list fl) (continue : fl -> coptimiser)
| CReport (success : bool) (x : sarr) (f : ext)
| CCrash (e : exn).
Inductive event := Asked (p : sarr) (v : ext) | Checked (i : nat) (p : list fl) (v : fl).
Fixpoint crun (F : family) (cs : list con) (d : data) (scale : R) (o : coptimiser) (s : pstate) (tr : list event)
  : result (bool * sarr * ext) * pstate * list event :=
  match o with
  | CAsk p k => match calc_log_lik F d scale p s with
                | (Ok v, s') => crun F cs d scale (k v) s' (tr ++ [Asked p v])
                | (Err e, s') => (Err e, s', tr)
                end
  | CCheck i p k => match nth_error cs i with
                    | None => (Err IndexError, s, tr)
                    | Some c => match eval_con c p s with
                                | Ok v => crun F cs d scale (k v) s (tr ++ [Checked i p v])
                                | Err e => (Err e, s, tr)
                                end
                    end
  | CReport b x f => (Ok (b, x, f), s, tr)
  | CCrash e => (Err e, s, tr)
  end.

Section StudentFit.
  Variable F : family.
  Variable opt : sarr -> coptimiser.
  (** max_likelihood.py:59-68, as estimate_ml *)
  Definition estimate_ml_c (cs : list con) (d : data) (x0 : sarr) (scale : R) (s : pstate) : result fit_summary * pstate :=
    match crun F cs d scale (opt x0) s [] with
    | (Err e, s', _) => (Err e, s')
    | (Ok (success, x, f), s', _) =>
      let smry est := mkSummary est "Maximum likelihood" (eopp f) (d_rows d) in
      if success then
        match set_params F s' x with
        | (s'', Ok _) => (Ok (smry x), s'')
        | (s'', Err e) => (Err e, s'')
        end
      else (Ok (smry (match x0 with SScalar _ => SScalar None | SVec l => SVec (map (fun _ => None) l) end)), s')
    end.
  (** student.py:110-115 with base.py:120-140 and estimator.py:86-102 for method 'ml' (the checks of [fit] and [fit_copula]); for the
      other methods the minimiser is not used and [fit] of M_Fit is the model.  The options other than the constraints are [options]. *)
  Definition student_fit (fuel : nat) (pobs : data -> result data) (options : result unit) (o : optdict) (d : data) (x0 : option sarr)
    (method : string) (to_pobs : bool) (scale : R) (fix_df : bool) (c : copula) : option (result unit * copula * optdict) :=
    match add_constraint fix_df o with
    | Err e => Some (Err e, c, o)
    | Ok o' =>
      if negb (String.eqb (lower method) "ml")
      then option_map (fun r => (r, o')) (fit F (fun _ => Crash ValueError) fuel pobs options d x0 method to_pobs scale c)
      else
      match (if to_pobs then pobs d else Ok d) with
      | Err e => Some (Err e, c, o')
      | Ok d =>
        if negb (Nat.eqb (d_ndim d) 2) then Some (Err InputDataError, c, o')
        else if negb (Nat.eqb (f_dim F) (d_cols d)) then Some (Err InputDataError, c, o')
        else if existsb (fun v => match v with Some r => Rltb r 0 || Rltb 1 r | None => false end) (d_vals d) then Some (Err InputDataError, c, o')
        else match options with
             | Err e => Some (Err e, c, o')
             | Ok _ =>
               if (d_rows d <? f_dim F)%nat then Some (Err ValueError, c, o')
               else match initial_params F fuel d x0 (c_params c) with
                    | None => None
                    | Some (Err e, s) => Some (Err e, mkCop s (c_smry c) (c_columns c), o')
                    | Some (Ok x0, s) =>
                      match estimate_ml_c (constraints o') d x0 scale s with
                      | (Err e, s') => Some (Err e, mkCop s' (c_smry c) (c_columns c), o')
                      | (Ok smry, s') => Some (Ok tt, mkCop s' (Some smry) (match d_labels d with Some l => Some l | None => c_columns c end), o')
                      end
                    end
             end
      end
    end.
End StudentFit.
