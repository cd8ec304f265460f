(** Model of /repo/copulae/indep/indep.py, marginal/marginal.py and marginal/univariate.py.  Floats are exact reals; results may be
    infinite or nan.  The decorators of cdf, pdf and random are modelled in M_Annot.v: here [x] is already a matrix of the right
    width.  Summaries and html are not modelled. *)
From Verif Require Import Base RSumLib Ext M_Annot M_Special.
Open Scope R_scope.

(** ** indep.py *)
(** The state of an IndepCopula: dimension and column names. *)
Record indep := mkIndep { in_dim : nat; in_columns : option (list string) }.
(** indep.py:15-35 *)
Definition new_indep (dim : nat) (fields : option (list string)) : result indep :=
  match fields with
  | Some c => if Nat.eqb (length c) dim then Ok (mkIndep dim fields) else Err AssertionError
  | None => Ok (mkIndep dim None)
  end.
(** indep.py:37-41: [np.log(x).sum(1) if log else x.prod(1)] *)
Definition indep_cdf (x : mat R) (log : bool) : list ext :=
  map (fun i => if log then esum (map (fun j => elog (Fin (get x i j))) (seq 0 (nc x)))
                else Fin (fold_left (fun p j => p * get x i j) (seq 0 (nc x)) 1)) (seq 0 (nr x)).
(** indep.py:43-48: the state after fit, whatever the arguments *)
Definition indep_fit {A} (c : indep) (args : A) : indep := c.
(** indep.py:54-58 *)
Definition indep_pdf (x : mat R) (log : bool) : list ext := repeat (Fin (if log then 0 else 1)) (nr x).
(** indep.py:60-62 with stats/uniform.py: [draws] are the numbers of np.random.uniform, row after row; cast_output adds the names *)
Definition indep_random (c : indep) (n : nat) (draws : nat -> R) : result input :=
  cast_output (in_columns c) (mkTab (in_dim c) (map (fun i => map (fun j => Some (draws (i * in_dim c + j)%nat)) (seq 0 (in_dim c))) (seq 0 n))).

(** ** univariate.py *)
Local Open Scope string_scope. Local Open Scope list_scope. Local Open Scope R_scope.
(** A continuous distribution of scipy.stats (an instance of rv_continuous): the name of its class, the names of its shape
    parameters, and its functions for given parameters (shapes, loc, scale in this order). *)
Record dist := mkDist {
  dd_class : string;
  dd_shapes : list string;
  dd_cdf : list R -> R -> R;
  dd_pdf : list R -> R -> R;
  dd_logpdf : list R -> R -> ext;
  dd_ppf : list R -> R -> ext;
  dd_fit : list R -> list R }.                     (* maximum likelihood fit to a sample: parameters in the same order *)
(** The parameters of [dist._parse_args]: the shapes have no default, loc and scale have. *)
Definition signature (d : dist) : list (string * option R) := map (fun s => (s, None)) (dd_shapes d) ++ [("loc", Some 0); ("scale", Some 1)].
(** A dictionary of parameters *)
Definition dict := list (string * R).
Definition has (p : dict) (k : string) : bool := existsb (fun e => String.eqb (fst e) k) p.
Definition lookup (p : dict) (k : string) : option R := option_map snd (find (fun e => String.eqb (fst e) k) p).
(** A frozen distribution: the distribution with positional and keyword arguments. *)
Record frozen := mkFrozen { fz_dist : dist; fz_args : list R; fz_kwds : dict }.
(** python's binding of arguments to [_parse_args]: TypeError for too many positional arguments, an argument given twice, an
    unknown name, or a missing shape *)
Definition bind_arguments (d : dist) (args : list R) (kwds : dict) : result (list R) :=
  let sig := signature d in
  let later := skipn (length args) sig in
  if (length sig <? length args)%nat then Err TypeError
  else if negb (forallb (fun e => existsb (fun s => String.eqb (fst s) (fst e)) later) kwds) then Err TypeError
  else rmap (fun l => args ++ l)
    (M_Special.mapM (fun s => match lookup kwds (fst s) with
                              | Some v => Ok v
                              | None => match snd s with Some v => Ok v | None => Err TypeError end
                              end) later).
(** Calling the distribution with these arguments: scipy binds the arguments when the distribution is frozen *)
Definition freeze (d : dist) (args : list R) (kwds : dict) : result frozen :=
  rmap (fun _ => mkFrozen d args kwds) (bind_arguments d args kwds).
(** all parameters of a frozen distribution *)
Definition frozen_params (f : frozen) : list R :=
  match bind_arguments (fz_dist f) (fz_args f) (fz_kwds f) with Ok l => l | Err _ => [] end.

(** The value under the key 'type' of a description. *)
Inductive type_value := TStr (s : string) | TDist (d : dist) | TFrozen | TOther.
(** The memory: the parameter dictionaries of the user, named by their index. *)
Definition heap := list dict.
(** A description: the value of 'type' if present, the dictionary under 'parameters' if present. *)
Record details := mkDetails { dt_type : option type_value; dt_params : option nat }.
(** The attributes of the module scipy.stats. *)
Inductive attribute := AContinuous (d : dist) | AOther.

(** str.strip() on ASCII strings *)
Definition is_space (c : ascii) : bool :=
  let n := nat_of_ascii c in ((9 <=? n)%nat && (n <=? 13)%nat) || ((28 <=? n)%nat && (n <=? 32)%nat).
Fixpoint trim (l : list ascii) : list ascii := match l with c :: r => if is_space c then trim r else l | [] => [] end.
Definition strip (s : string) : string := string_of_list_ascii (rev (trim (rev (trim (list_ascii_of_string s))))).

Section Univariate.
  Variable stats : string -> option attribute.      (* getattr(scipy.stats, name) *)
  (** univariate.py:33-60 *)
  Definition get_marginal_class (t : option type_value) : result dist :=
    match t with
    | None => Err AssertionError                                              (* 34 *)
    | Some TFrozen => Err TypeError                                           (* 37-39 *)
    | Some (TDist d) => Ok d                                                  (* 41-42 *)
    | Some TOther => Err TypeError
    | Some (TStr s) =>                                                        (* 44-57 *)
      let dist := strip (lower s) in
      let dist := if existsb (String.eqb dist) ["normal"; "gaussian"] then "norm"
                  else if String.eqb dist "student" then "t"
                  else if String.eqb dist "exp" then "expon" else dist in
      match stats dist with Some (AContinuous d) => Ok d | _ => Err TypeError end
    end.

  Definition set_dict (h : heap) (r : nat) (p : dict) : heap := firstn r h ++ p :: skipn (S r) h.
  (** univariate.py:22-30.  [details.get('parameters', {})] is the user's own dictionary, and line 27 writes into it.  The first
      component is the memory afterwards. *)
  Definition create_univariate (h : heap) (dt : details) : heap * result frozen :=
    match get_marginal_class (dt_type dt) with
    | Err e => (h, Err e)
    | Ok d =>
      let parameters := match dt_params dt with Some r => nth r h [] | None => [] end in
      let parameters := fold_left (fun ps s => match snd s with
                                               | None => if has ps (fst s) then ps else ps ++ [(fst s, / 2)]
                                               | Some _ => ps
                                               end) (signature d) parameters in
      (match dt_params dt with Some r => set_dict h r parameters | None => h end, freeze d [] parameters)
    end.

  (** univariate.py:63-83; zip_longest of the arguments with the signature *)
  Definition marginal_parameters (f : frozen) : list (string * R) :=
    let sig := signature (fz_dist f) in
    map (fun i =>
      let s := nth i sig ("", None) in
      (fst s, match nth_error (fz_args f) i with
              | Some v => v
              | None => match lookup (fz_kwds f) (fst s) with
                        | Some v => v
                        | None => match snd s with Some v => v | None => 0 end      (* Parameter.empty: not a number; unreachable *)
                        end
              end)) (seq 0 (length sig)).

  (** ** marginal.py *)
  Inductive item := ItStr (s : string) | ItDict (dt : details) | ItOther.
  Inductive margins_input := MStr (s : string) | MDict (dt : details) | MColl (l : list item) | MOther.
  (** a python loop that stops at the first exception, threading the memory *)
  Fixpoint collect {A B} (f : heap -> A -> heap * result B) (h : heap) (l : list A) : heap * result (list B) :=
    match l with
    | [] => (h, Ok [])
    | a :: r => match f h a with
                | (h, Err e) => (h, Err e)
                | (h, Ok b) => match collect f h r with (h, Err e) => (h, Err e) | (h, Ok bs) => (h, Ok (b :: bs)) end
                end
    end.
  Definition create_item (h : heap) (m : item) : heap * result frozen :=
    match m with
    | ItStr s => create_univariate h (mkDetails (Some (TStr s)) None)
    | ItDict dt => create_univariate h dt
    | ItOther => (h, Err TypeError)
    end.
  (** marginal.py:170-190 *)
  Definition process_margins_input (h : heap) (m : margins_input) (dim : nat) : heap * result (list frozen) :=
    match m with
    | MStr s => collect create_univariate h (repeat (mkDetails (Some (TStr s)) None) dim)
    | MDict dt => collect create_univariate h (repeat dt dim)
    | MColl l => if Nat.eqb (length l) dim then collect create_item h l else (h, Err AssertionError)
    | MOther => (h, Err TypeError)
    end.
End Univariate.

(** The numpy type of an array: [np.empty_like] keeps it, and storing a float into integers drops the fraction. *)
Inductive dtype := DFloat | DInt.
Definition store (t : dtype) (v : R) : R :=
  match t with DFloat => v | DInt => if Rleb 0 v then IZR (Int_part v) else - IZR (Int_part (- v)) end.
(** [u[:, i] = column] *)
Definition set_col (t : dtype) (u : mat R) (i : nat) (column : nat -> R) : mat R :=
  mkMat (nr u) (nc u) (fun r c => if Nat.eqb c i then store t (column r) else get u r c).

(** The joint copula inside: dimension, cdf and pdf (without squeeze_output: a matrix gives one value per row), random and the
    column names it was fitted with. *)
Record joint := mkJoint {
  j_dim : nat;
  j_cdf : mat R -> bool -> list ext;
  j_pdf : mat R -> bool -> list ext;
  j_columns : option (list string) }.
Record mcopula := mkMarginal { mc_joint : joint; mc_margins : list frozen; mc_columns : option (list string) }.
(** marginal.py:69-85 *)
Definition new_marginal (stats : string -> option attribute) (h : heap) (j : joint) (m : margins_input) : heap * result mcopula :=
  match process_margins_input stats h m (j_dim j) with
  | (h, Ok l) => (h, Ok (mkMarginal j l None))
  | (h, Err e) => (h, Err e)
  end.

Definition m_cdf (f : frozen) : R -> R := dd_cdf (fz_dist f) (frozen_params f).
Definition m_pdf (f : frozen) : R -> R := dd_pdf (fz_dist f) (frozen_params f).
Definition m_logpdf (f : frozen) : R -> ext := dd_logpdf (fz_dist f) (frozen_params f).
Definition m_ppf (f : frozen) : R -> ext := dd_ppf (fz_dist f) (frozen_params f).
Definition enumerate {A} (l : list A) : list (nat * A) := combine (seq 0 (length l)) l.

(** marginal.py:92-101; [junk] is the memory np.empty_like finds *)
Definition marg_cdf (c : mcopula) (t : dtype) (junk : nat -> nat -> R) (x : mat R) (log : bool) : list ext :=
  let u := mkMat (nr x) (nc x) junk in
  let u := fold_left (fun u im => set_col t u (fst im) (fun r => m_cdf (snd im) (get x r (fst im)))) (enumerate (mc_margins c)) u in
  j_cdf (mc_joint c) u log.
(** marginal.py:129-147 *)
Definition marg_pdf (c : mcopula) (t : dtype) (junk : nat -> nat -> R) (x : mat R) (log : bool) : list ext :=
  let u := mkMat (nr x) (nc x) junk in
  let '(u, sum, prod) := fold_left (fun acc im =>
    let '(u, sum, prod) := acc in
    let i := fst im in let m := snd im in
    (set_col t u i (fun r => m_cdf m (get x r i)),
     (fun r => eadd (sum r) (m_logpdf m (get x r i))),
     (fun r => prod r * m_pdf m (get x r i))))
    (enumerate (mc_margins c)) (u, (fun _ => Fin 0), (fun _ => 1)) in
  let d := j_pdf (mc_joint c) u log in
  map (fun rd => if log then eadd (snd rd) (sum (fst rd)) else escal (prod (fst rd)) (snd rd)) (enumerate d).

(** marginal.py:103-121.  [fit_joint] is the fit of the joint copula to the same data (which returns the fitted copula or raises).
    The copula afterwards comes first: an exception leaves the changes made before it. *)
Definition marg_fit (c : mcopula) (labels : option (list string)) (ndim : nat) (x : mat R) (fit_joint : joint -> mat R -> result joint)
  : mcopula * result unit :=
  let c := match labels with Some _ => mkMarginal (mc_joint c) (mc_margins c) labels | None => c end in
  if negb (Nat.eqb ndim 2) then (c, Err InputDataError)
  else if negb (Nat.eqb (j_dim (mc_joint c)) (nc x)) then (c, Err InputDataError)
  else
    let fitted := map (fun im => let '(i, m) := im in
                         mkFrozen (fz_dist m) (dd_fit (fz_dist m) (map (fun r => get x r i) (seq 0 (nr x)))) [])
                      (enumerate (mc_margins c)) in
    let c := mkMarginal (mc_joint c) fitted (mc_columns c) in
    match fit_joint (mc_joint c) x with
    | Ok j => (mkMarginal j (mc_margins c) (mc_columns c), Ok tt)
    | Err e => (c, Err e)
    end.

(** marginal.py:149-156.  [u]: what the joint copula's own method random returns before its cast_output.  If the joint copula has
    column names, u is a DataFrame and [u[:, i]] raises (pandas: InvalidIndexError, a subclass of Exception, here KeyError). *)
Definition marg_random (c : mcopula) (u : mat R) : result (list (list ext)) :=
  match j_columns (mc_joint c), mc_margins c with
  | Some _, _ :: _ => Err KeyError
  | _, _ => Ok (map (fun r => map (fun im => m_ppf (snd im) (get u r (fst im))) (enumerate (mc_margins c))) (seq 0 (nr u)))
  end.
