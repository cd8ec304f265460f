(** Model of the fitting code: /repo/copulae/copula/base.py:75-166 (fit, log_lik), copula/estimator/estimator.py:86-142
    (fit_copula, initial_params), copula/estimator/max_likelihood.py and copula/estimator/corr_inversion.py. *)
From Verif Require Import Base RSumLib Ext M_Matrix M_Linalg M_Elliptical M_Dict.
Open Scope R_scope.

(** a numpy vector, or the python float that squeeze_output makes of a vector of size 1 (reshape.py:90-94) *)
Inductive sarr := SScalar (v : fl) | SVec (l : list fl).
Definition squeeze (l : list fl) : sarr := match l with [v] => SScalar v | _ => SVec l end.
Definition sarr_list (a : sarr) : list fl := match a with SScalar v => [v] | SVec l => l end.

(** The parameter state of the copula objects.  Infinite parameters are not modelled. *)
Inductive pstate :=
| PGauss (e : ell)
| PStudent (s : student)
| PArch (theta : fl)
| POther (v : list fl).

(** A data set: number of axes, shape, entries, DataFrame labels. *)
Record data := mkData { d_ndim : nat; d_rows : nat; d_cols : nat; d_vals : list fl; d_labels : option (list string) }.

(** What the fit summary records (estimator/summary.py:34-41). *)
Record fit_summary := mkSummary { fs_params : sarr; fs_method : string; fs_log_lik : ext; fs_nsample : nat }.
(** The copula object: parameters, stored summary (_fit_smry) and labels (_columns). *)
Record copula := mkCop { c_params : pstate; c_smry : option fit_summary; c_columns : option (list string) }.

(** Everything about the copula that does not change and the external routines it calls. *)
Record family := mkFamily {
  f_name : string;                                   (* the name attribute *)
  f_dim : nat;
  f_theta_ok : R -> bool;                            (* the range check of an Archimedean params setter *)
  f_itau : list fl -> result (list fl);              (* itau / irho before squeeze_output *)
  f_irho : list fl -> result (list fl);
  f_log_lik : pstate -> data -> bool -> result ext;  (* log_lik(data, to_pobs=..) *)
  f_ktau : data -> result (mat fl);                  (* stats.kendall_tau, spearman_rho, pearson_rho *)
  f_srho : data -> result (mat fl);
  f_prho : data -> result (mat fl);
  f_eig : mat R -> list R;                           (* numpy eigvalsh, statsmodels cov_nearest *)
  f_nearest : mat R -> mat R }.

(** misc.py:5-6 *)
Definition is_elliptical (name : string) : bool := String.eqb (lower name) "gaussian" || String.eqb (lower name) "student".

(** [copula.params = param] with a vector (or float): gaussian.py:70-73, student.py:153-167, clayton.py:97-106,
    gumbel.py:177-183, frank.py:122-126.  [float(array)] wants exactly one element; a nan theta passes every range check. *)
Definition set_params (F : family) (s : pstate) (p : sarr) : pstate * result unit :=
  match s with
  | PGauss e => let '(e', r) := gauss_set_params e (match p with SScalar v => GScalar false v | SVec l => GArr (mkParr false l) end) in (PGauss e', r)
  | PStudent t => match p with
                  | SScalar _ => (s, Err TypeError)                          (* len() of a scalar *)
                  | SVec l => let '(t', r) := student_set_params t (SArr (mkParr false l)) in (PStudent t', r)
                  end
  | PArch _ => match sarr_list p with
               | [Some x] => if f_theta_ok F x then (PArch (Some x), Ok tt) else (s, Err ValueError)
               | [None] => (PArch None, Ok tt)
               | _ => (s, Err TypeError)
               end
  | POther _ => (POther (sarr_list p), Ok tt)
  end.

(** max_likelihood.py:35-57 *)
Definition calc_log_lik (F : family) (d : data) (scale : R) (p : sarr) (s : pstate) : result ext * pstate :=
  if existsb is_nan (sarr_list p) then (Ok Pinf, s)                          (* 51-52 *)
  else match set_params F s p with
       | (s', Err ValueError) => (Ok Pinf, s')                               (* 56-57 *)
       | (s', Err e) => (Err e, s')
       | (s', Ok _) =>
         match f_log_lik F s' d false with
         | Ok v => (Ok (escal scale (eopp v)), s')                           (* 55 *)
         | Err ValueError => (Ok Pinf, s')
         | Err e => (Err e, s')
         end
       end.

(** scipy.optimize.minimize as a strategy: it asks for function values one after the other and finally reports
    (success, x, fun), or raises.  Only terminating optimisers are modelled. *)
Inductive optimiser :=
| Ask (p : sarr) (continue : ext -> optimiser)
| Report (success : bool) (x : sarr) (f : ext)
| Crash (e : exn).
(** the run of an optimiser on the objective; the trace lists the points asked and the answers *)
Fixpoint run (F : family) (d : data) (scale : R) (o : optimiser) (s : pstate) (tr : list (sarr * ext))
  : result (bool * sarr * ext) * pstate * list (sarr * ext) :=
  match o with
  | Ask p k => match calc_log_lik F d scale p s with
               | (Ok v, s') => run F d scale (k v) s' (tr ++ [(p, v)])
               | (Err e, s') => (Err e, s', tr)
               end
  | Report b x f => (Ok (b, x, f), s, tr)
  | Crash e => (Err e, s, tr)
  end.

Section Estimators.
  Variable F : family.
  (** the optimiser chosen by the options, started at x0 *)
  Variable opt : sarr -> optimiser.

  (** max_likelihood.py:59-68 *)
  Definition estimate_ml (d : data) (x0 : sarr) (scale : R) (s : pstate) : result fit_summary * pstate :=
    match run F d scale (opt x0) s [] with
    | (Err e, s', _) => (Err e, s')
    | (Ok (success, x, f), s', _) =>
      let smry est := mkSummary est "Maximum likelihood" (eopp f) (d_rows d) in
      if success then
        match set_params F s' x with                                         (* 65-66 *)
        | (s'', Ok _) => (Ok (smry x), s'')
        | (s'', Err e) => (Err e, s'')
        end
      else (Ok (smry (match x0 with SScalar _ => SScalar None | SVec l => SVec (map (fun _ => None) l) end)), s')    (* 60-63 *)
    end.

  (** corr_inversion.py:51-84 (fit_cor), called with 'itau' or 'irho' *)
  Definition fit_cor (d : data) (typ : string) : result sarr :=
    bind (tri_indices (f_dim F) 1 "lower") (fun idx =>
    bind (if String.eqb typ "itau"
          then bind (bind (f_ktau F d) (fun m => take m idx)) (f_itau F)
          else bind (bind (f_srho F d) (fun m => take m idx)) (f_irho F)) (fun theta =>
    let theta := squeeze theta in
    if is_elliptical (f_name F) then                                          (* 81-82 *)
      match theta with
      | SScalar _ => Err TypeError                                            (* create_cov_matrix takes len() *)
      | SVec l => bind (create_cov_matrix (Some 0) (Some 1) l) (fun c =>
                  bind (near_psd_fl (f_eig F) (f_nearest F) (VMat c)) (fun n => rmap SVec (take n idx)))
      end
    else Ok theta)).

  (** np.mean of the inversions (nan if one of them is nan, or if there are none) *)
  Definition fl_mean (l : list fl) : fl :=
    match l with
    | [] => None
    | _ => if existsb is_nan l then None else Some (fold_right Rplus 0 (map val l) / INR (length l))
    end.

  (** [copula.params[:] = estimate] on the array of a Gaussian copula: element stores into the existing array, which keeps its dtype *)
  Fixpoint store_all (e : ell) (k : nat) (l : list fl) : ell * result unit :=
    match l with
    | [] => (e, Ok tt)
    | v :: r => match store e k v with (e', Ok _) => store_all e' (S k) r | (e', Err x) => (e', Err x) end
    end.

  (** corr_inversion.py:27-48; [typ] already lower-case.  A Gaussian copula whose _rhos has another length than the estimate
      cannot be broadcast (ValueError). *)
  Definition estimate_inverse (d : data) (typ : string) (s : pstate) : result fit_summary * pstate :=
    let typ := lower typ in
    if negb (String.eqb typ "itau" || String.eqb typ "irho") then (Err ValueError, s)
    else match fit_cor d typ with
    | Err e => (Err e, s)
    | Ok icor =>
      let step : result sarr * pstate :=
        if is_elliptical (f_name F) then
          match s with
          | PStudent t => (Ok icor, PStudent (fst (student_set_params t (SParams (s_df t) (mkParr false (sarr_list icor))))))      (* 36-38 *)
          | PGauss e => if Nat.eqb (length (sarr_list icor)) (length (e_rhos e))
                        then match store_all e 0 (sarr_list icor) with (e', Ok _) => (Ok icor, PGauss e') | (e', Err x) => (Err x, PGauss e') end  (* 40 *)
                        else (Err ValueError, s)
          | _ => (Err TypeError, s)
          end
        else if is_archimedean (f_name F) then
          let m := fl_mean (sarr_list icor) in
          match set_params F s (SScalar m) with (s', Ok _) => (Ok (SScalar m), s') | (s', Err e) => (Err e, s') end              (* 42-43 *)
        else (Err NotImplementedError, s) in                                                                                       (* 44-45 *)
      match step with
      | (Err e, s') => (Err e, s')
      | (Ok est, s') =>
        match f_log_lik F s' d true with                                                                                           (* 48 *)
        | Err e => (Err e, s')
        | Ok v => (Ok (mkSummary est (if String.eqb typ "irho" then "Inversion of Spearman Rho Correlation"
                                      else "Inversion of Kendall Tau Correlation") v (d_rows d)), s')
        end
      end
    end.

  Definition finite (v : ext) : bool := match v with Fin _ => true | _ => false end.
  Definition infinite (v : ext) : bool := match v with Pinf | Ninf => true | _ => false end.

  (** the loop of estimator.py:131-135; None: [fuel] iterations do not suffice *)
  Fixpoint clayton_loop (fuel : nat) (d : data) (start : fl) (s : pstate) : option (result fl * pstate) :=
    match start with
    | None => Some (Ok start, s)                                              (* nan < 0 is False *)
    | Some x =>
      if Rltb x 0 then
        match fuel with
        | O => None
        | S fuel =>
          let start := Some (x + / 5) in
          match set_params F s (SScalar start) with
          | (s', Err e) => Some (Err e, s')
          | (s', Ok _) => match f_log_lik F s' d true with
                          | Err e => Some (Err e, s')
                          | Ok v => if finite v then Some (Ok start, s') else clayton_loop fuel d start s'
                          end
          end
        end
      else Some (Ok start, s)
    end.

  (** [copula.params] read back: a float for Archimedean copulas *)
  Definition get_params (s : pstate) : sarr :=
    match s with
    | PGauss e => SVec (e_rhos e)
    | PStudent t => SVec (s_df t :: e_rhos (s_ell t))                         (* a StudentParams object *)
    | PArch t => SScalar t
    | POther l => SVec l
    end.

  (** estimator.py:105-142 *)
  Definition initial_params (fuel : nat) (d : data) (x0 : option sarr) (s : pstate) : option (result sarr * pstate) :=
    match (match x0 with Some x => if forallb (fun v => negb (is_nan v)) (sarr_list x) then Some x else None | None => None end) with
    | Some x => Some (Ok x, s)                                                (* 108-109 *)
    | None =>
      if is_elliptical (f_name F) then                                        (* 111-119 *)
        Some (rmap (fun rhos => SVec (if String.eqb (lower (f_name F)) "student" then Some (4669 / 1000) :: rhos else rhos))
                   (bind (tri_indices (f_dim F) 1 "lower") (fun idx => bind (f_prho F d) (fun m => take m idx))), s)
      else
        match estimate_inverse d "itau" s with
        | (Err NotImplementedError, s') => Some (Ok (get_params s'), s')      (* 141-142 *)
        | (Err e, s') => Some (Err e, s')
        | (Ok smry, s') =>
          match f_log_lik F s' d true with                                    (* 123 *)
          | Err NotImplementedError => Some (Ok (get_params s'), s')
          | Err e => Some (Err e, s')
          | Ok ll =>
            if finite ll then Some (Ok (fs_params smry), s')                  (* 125-126 *)
            else
              let after (start : sarr) (s' : pstate) : option (result sarr * pstate) :=
                if infinite ll then Some (Ok start, s')                       (* 137-139 *)
                else Some (Ok (get_params s'), s') in                         (* 140 *)
              if String.eqb (lower (f_name F)) "clayton" && Nat.eqb (f_dim F) 2 then
                match fs_params smry with
                | SVec _ => Some (Err ValueError, s')                         (* truth value of an array *)
                | SScalar t =>
                  match clayton_loop fuel d t s' with
                  | None => None
                  | Some (Err NotImplementedError, s'') => Some (Ok (get_params s''), s'')
                  | Some (Err e, s'') => Some (Err e, s'')
                  | Some (Ok start, s'') => after (SScalar start) s''
                  end
                end
              else after (fs_params smry) s'
          end
        end
    end.

  (** estimator.py:86-102.  [options]: outcome of form_options (M_Dict.v).  np.any(data) is a boolean, compared with 0 and 1. *)
  Definition fit_copula (fuel : nat) (options : result unit) (d : data) (x0 : option sarr) (method : string) (scale : R) (s : pstate)
    : option (result fit_summary * pstate) :=
    match options with
    | Err e => Some (Err e, s)
    | Ok _ =>
      let any := Z.b2z (existsb (fun v => match v with Some r => negb (Reqb r 0) | None => true end) (d_vals d)) in
      if ((any <? 0)%Z || (1 <? any)%Z)%bool then Some (Err ValueError, s)    (* 90-91 *)
      else if (d_rows d <? f_dim F)%nat then Some (Err ValueError, s)         (* 92-93 *)
      else
        let m := lower method in
        if String.eqb m "ml" then
          match initial_params fuel d x0 s with
          | None => None
          | Some (Err e, s') => Some (Err e, s')
          | Some (Ok x0, s') => Some (estimate_ml d x0 scale s')
          end
        else if String.eqb m "itau" || String.eqb m "irho" then Some (estimate_inverse d m s)
        else Some (Err NotImplementedError, s)
    end.

  (** base.py:120-140.  None: the start value search does not end within [fuel] rounds. *)
  Definition fit (fuel : nat) (pobs : data -> result data) (options : result unit) (d : data) (x0 : option sarr) (method : string)
    (to_pobs : bool) (scale : R) (c : copula) : option (result unit * copula) :=
    match (if to_pobs then pobs d else Ok d) with
    | Err e => Some (Err e, c)
    | Ok d =>
      if negb (Nat.eqb (d_ndim d) 2) then Some (Err InputDataError, c)
      else if negb (Nat.eqb (f_dim F) (d_cols d)) then Some (Err InputDataError, c)
      else if existsb (fun v => match v with Some r => Rltb r 0 || Rltb 1 r | None => false end) (d_vals d) then Some (Err InputDataError, c)
      else match fit_copula fuel options d x0 method scale (c_params c) with
           | None => None
           | Some (Err e, s) => Some (Err e, mkCop s (c_smry c) (c_columns c))
           | Some (Ok smry, s) => Some (Ok tt, mkCop s (Some smry) (match d_labels d with Some l => Some l | None => c_columns c end))
           end
    end.
End Estimators.
