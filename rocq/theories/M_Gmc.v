(** Model of /repo/copulae/mixtures/gmc: parameter.py, gmc.py, loglik.py, marginals.py, random.py, estimators/em.py, kmeans.py and
    sgd.py.  Floats are exact reals, with nan and infinities where the code can produce them.  scipy's multivariate normal functions,
    the eigenvalues and statsmodels' cov_nearest behind near_psd, scikit-learn's KMeans, the optimiser and the random
    numbers are arguments.  numpy arrays are values: that prob is the caller's own array, changed in place by to_vector, shows in the
    parameter to_vector returns.  DataFrames, printing and summaries are not modelled. *)
From Verif Require Import Base RSumLib Ext M_Special M_Stats M_Linalg.
Local Close Scope Z_scope. Open Scope R_scope.

Definition number_of (e : ext) : R := match e with Fin x => x | _ => 0 end.

(** parameter.py:17-28 *)
Record gmc := mkGmc { n_clusters : nat; n_dim : nat; prob : list R; means : mat R; covs : list (mat R) }.
(** __iter__, lines 125-127 *)
Definition component (p : gmc) (k : nat) : R * (nat -> R) * mat R := (nth k (prob p) 0, get (means p) k, nth k (covs p) (mkMat 0 0 (fun _ _ => 0))).

(** comparisons with nan are False *)
Definition eltb (a : ext) (x : R) : bool := match a with Fin a => Rltb a x | Ninf => true | _ => false end.
Definition egtb (a : ext) (x : R) : bool := match a with Fin a => Rltb x a | Pinf => true | _ => false end.
Definition isclose1 (a : ext) : bool := match a with Fin a => close (/ 100000000) a 1 | _ => false end.
(** the checks of the three setters *)
Definition check_prob (m : nat) (v : list ext) : result (list R) :=                                (* 86-95 *)
  if negb (Nat.eqb (length v) m) then Err GMCParamError
  else if existsb (fun x => eltb x 0) v || existsb (fun x => egtb x 1) v || negb (isclose1 (esum v)) then Err GMCParamError
  else Ok (map number_of v).
Definition check_means (m d : nat) (v : mat R) : result (mat R) :=                                 (* 101-109 *)
  if Nat.eqb (nr v) m && Nat.eqb (nc v) d then Ok v else Err GMCParamError.

Section Gmc.
  Variable eigvalsh : mat R -> list R. Variable cov_nearest : mat R -> mat R.

  (** an array of shape (k, d, d) as a list of k matrices *)
  Definition check_covs (m d : nat) (v : list (mat R)) : result (list (mat R)) :=                  (* 115-123 *)
    if Nat.eqb (length v) m && forallb (fun c => Nat.eqb (nr c) d && Nat.eqb (nc c) d) v
    then mapM (fun c => near_psd eigvalsh cov_nearest (AMat c)) v
    else Err GMCParamError.
  (** the setters as statements: the object afterwards and the outcome *)
  Definition assign {A} (p : gmc) (checked : result A) (store : A -> gmc) : gmc * result unit :=
    match checked with Ok v => (store v, Ok tt) | Err e => (p, Err e) end.
  Definition set_prob (p : gmc) (v : list ext) : gmc * result unit :=
    assign p (check_prob (n_clusters p) v) (fun v => mkGmc (n_clusters p) (n_dim p) v (means p) (covs p)).
  Definition set_means (p : gmc) (v : mat R) : gmc * result unit :=
    assign p (check_means (n_clusters p) (n_dim p) v) (fun v => mkGmc (n_clusters p) (n_dim p) (prob p) v (covs p)).
  Definition set_covs (p : gmc) (v : list (mat R)) : gmc * result unit :=
    assign p (check_covs (n_clusters p) (n_dim p) v) (fun v => mkGmc (n_clusters p) (n_dim p) (prob p) (means p) v).
  (** n_clusters and n_dim are plain attributes *)
  Definition set_sizes (p : gmc) (m d : nat) : gmc * result unit := (mkGmc m d (prob p) (means p) (covs p), Ok tt).
  (** lines 18-28: prob, means, covs in this order *)
  Definition new_gmc (m d : nat) (pr : list ext) (mu : mat R) (cv : list (mat R)) : result gmc :=
    bind (check_prob m pr) (fun pr => bind (check_means m d mu) (fun mu => bind (check_covs m d cv) (fun cv => Ok (mkGmc m d pr mu cv)))).
  (** lines 30-34: the sizes are those of the means *)
  Definition from_dict (pr : list ext) (mu : mat R) (cv : list (mat R)) : result gmc := new_gmc (nr mu) (nc mu) pr mu cv.

  (** np.triu_indices(d) *)
  Definition triu (d : nat) : list (nat * nat) := flat_map (fun i => map (pair i) (seq i (d - i))) (seq 0 d).
  (** lines 36-49: the vector and the parameter with its changed probabilities.  log(p / (1 - p)) is inf for p = 1. *)
  Definition clip_prob (pr : list R) : list R :=
    let pr := map (fun x => if Reqb x 0 then x + / 100000 else x) pr in
    let pr := map (fun x => if Reqb x 1 then x - / 100000 else x) pr in
    let s := lsum pr in map (fun x => x / s) pr.
  Definition to_vector (p : gmc) : list ext * gmc :=
    let pr := clip_prob (prob p) in
    (map (fun x => elog (edivide x (Fin (1 - x)))) pr
     ++ map Fin (flat_map (fun i => map (fun j => get (means p) i j) (seq 0 (n_dim p))) (seq 0 (n_clusters p)))
     ++ map Fin (flat_map (fun c => map (fun ij => get c (fst ij) (snd ij)) (triu (n_dim p))) (covs p)),
     mkGmc (n_clusters p) (n_dim p) pr (means p) (covs p)).

  (** v[i:j] *)
  Definition slice (i j : nat) (v : list ext) : list ext := firstn (j - i) (skipn i v).
  (** exp(v) / (1 + exp(v)): inf / inf is nan *)
  Definition sigmoid (v : ext) : ext := match eexp v with Fin e => Fin (e / (1 + e)) | _ => Nan end.
  Fixpoint lookup (k : nat * nat) (l : list ((nat * nat) * R)) : R :=
    match l with [] => 0 | (k', x) :: r => if Nat.eqb (fst k) (fst k') && Nat.eqb (snd k) (snd k') then x else lookup k r end.
  (** lines 75-78.  A slice of another length cannot be assigned, except that a single number is spread. *)
  Definition unpack (d : nat) (v : list ext) : result (mat R) :=
    let step := length (triu d) in
    let v := map number_of v in
    let v := if Nat.eqb (length v) 1 then repeat (nth 0 v 0) step else v in
    if negb (Nat.eqb (length v) step) then Err ValueError
    else
      let cov i j := lookup (i, j) (combine (triu d) v) in
      Ok (mkMat d d (fun i j => (if Nat.ltb i j then cov i j else 0) + cov j i)).
  (** range(start, stop, step) *)
  Definition steps (start stop step : nat) : list nat := map (fun k => (start + k * step)%nat) (seq 0 ((stop - start + step - 1) / step)).
  (** lines 51-80.  Means and covariances that are not finite are read as 0: not modelled. *)
  Definition from_vector (v : list ext) (m d : nat) : result gmc :=
    let pr := map sigmoid (slice 0 m v) in
    let s := esum pr in
    let pr := map (fun x => match x, s with Fin x, s => edivide x s | _, _ => Nan end) pr in
    let mu := slice m (m + m * d) v in
    if negb (Nat.eqb (length mu) (m * d)) then Err ValueError                                     (* reshape *)
    else
      let mu := mkMat m d (fun i j => number_of (nth (i * d + j)%nat mu (Fin 0))) in
      let step := (d * (d + 1) / 2)%nat in
      bind (mapM (fun i => unpack d (slice i (i + step) v)) (steps (m * (d + 1)) (length v) step)) (fun cv =>
      new_gmc m d pr mu cv).

  (** ** loglik.py and gmc.py: densities.  [f mean cov x]: a component's value at a point *)
  Definition mixture (f : (nat -> R) -> mat R -> (nat -> R) -> ext) (p : gmc) (x : nat -> R) : ext :=
    fold_left (fun out k => let '(w, mu, c) := component p k in eadd out (escal w (f mu c x))) (seq 0 (n_clusters p)) (Fin 0).

  Variables (mvn_pdf mvn_cdf : (nat -> R) -> mat R -> (nat -> R) -> R).
  Definition logged (f : (nat -> R) -> mat R -> (nat -> R) -> R) mu c x : ext := elog (Fin (f mu c x)).
  Definition plain (f : (nat -> R) -> mat R -> (nat -> R) -> R) mu c x : ext := Fin (f mu c x).
  (** gmc.py:98-126 and 247-274; rows of x.  Shaping and squeezing are modelled in M_Annot.v. *)
  Definition gmc_cdf (p : option gmc) (x : mat R) (log : bool) : result (list ext) :=
    match p with
    | None => Err GMCNotFittedError
    | Some p => Ok (map (fun i => mixture (if log then logged mvn_cdf else plain mvn_cdf) p (get x i)) (seq 0 (nr x)))
    end.
  Definition gmc_pdf (p : option gmc) (x : mat R) (log : bool) : result (list ext) :=
    match p with
    | None => Err GMCNotFittedError
    | Some p => Ok (map (fun i => mixture (if log then logged mvn_pdf else plain mvn_pdf) p (get x i)) (seq 0 (nr x)))
    end.

  (** loglik.py:12-33 *)
  Definition gmm_log_likelihood (x : mat R) (p : gmc) : ext := esum (map (fun i => elog (mixture (plain mvn_pdf) p (get x i))) (seq 0 (nr x))).
  (** loglik.py:36-60: one number per column; [norm_pdf x m v]: the normal density with mean m and variance v *)
  Variable norm_pdf : R -> R -> R -> R.
  Definition gmm_log_likelihood_marginals (x : mat R) (p : gmc) : list ext :=
    map (fun j => esum (map (fun i =>
      elog (fold_left (fun out k => let '(w, mu, c) := component p k in eadd out (escal w (Fin (norm_pdf (get x i j) (mu j) (get c j j))))) (seq 0 (n_clusters p)) (Fin 0)))
      (seq 0 (nr x)))) (seq 0 (nc x)).

  (** loglik.py:63-81, with q the quantiles gmm_marginal_ppf(x) *)
  Definition gmcm_log_likelihood (q : mat R) (p : gmc) : ext := esub (gmm_log_likelihood q p) (esum (gmm_log_likelihood_marginals q p)).

  (** ** marginals.py *)
  (** lines 89-98: Abramowitz and Stegun 7.1.25 for one component *)
  Definition sqrt2 : R := 14142136 / 10000000.
  Definition phi_approx (x mu sigma : R) : R :=
    let zi := (x - mu) / (sigma * sqrt2) in
    let za := Rabs zi in
    let t := 1 / (1 + 47047 / 100000 * za) in
    let erf := / 2 * (3480242 / 10000000 * t + (- 958798 / 10000000) * t ^ 2 + 7478556 / 10000000 * t ^ 3) * exp (- (za ^ 2)) in
    if Rltb zi 0 then erf else 1 - erf.
  (** lines 64-99: column j at x; the standard deviations are assumed positive *)
  Definition marginal_cdf (p : gmc) (j : nat) (x : R) : R :=
    lsum (map (fun k => let '(w, mu, c) := component p k in phi_approx x (mu j) (sqrt (get c j j)) * w) (seq 0 (n_clusters p))).
  (** np.round (to even) of a number, at least 2: line 39 *)
  Variable round : R -> Z.
  Definition n_samples (resolution w : R) : nat := Z.to_nat (Z.max (round (w * resolution)) 2).
  (** np.linspace(a, b, n) *)
  Definition linspace (a b : R) (n : nat) : list R := map (fun k => if Nat.eqb (S k) n then b else a + INR k * ((b - a) / (INR n - 1))) (seq 0 n).
  (** lines 41-47, column j of the grid *)
  Definition ppf_grid (p : gmc) (resolution spread : R) (j : nat) : list R :=
    flat_map (fun k => let '(w, mu, c) := component p k in let sigma := sqrt (get c j j) in
                       linspace (mu j - spread * sigma) (mu j + spread * sigma) (n_samples resolution w)) (seq 0 (n_clusters p)).
  (** scipy's interp1d with its defaults: a stable sort by the first component, an error outside, numpy.interp inside.  The code asks
      for fill_value='interpolate', which scipy takes for a value and not for the wish to extrapolate. *)
  Fixpoint insert_pair (a : R * R) (l : list (R * R)) : list (R * R) :=
    match l with [] => [a] | b :: r => if Rleb (fst a) (fst b) then a :: l else b :: insert_pair a r end.
  Definition sort_pairs (l : list (R * R)) : list (R * R) := fold_right insert_pair [] l.
  Fixpoint interp (x0 y0 : R) (l : list (R * R)) (q : R) : R :=
    match l with
    | [] => y0
    | (x1, y1) :: r => if Rltb q x1 then (y1 - y0) / (x1 - x0) * (q - x0) + y0 else interp x1 y1 r q
    end.
  Definition interp1d (xs ys : list R) (q : R) : result R :=
    match sort_pairs (combine xs ys) with
    | [] => Err ValueError
    | (x0, y0) :: r => if Rltb q x0 || Rltb (fst (last r (x0, y0))) q then Err ValueError else Ok (interp x0 y0 r q)
    end.
  (** lines 11-61, column j.  No nan can come from numpy.interp, so lines 56-59 change nothing. *)
  Definition marginal_ppf (p : gmc) (resolution spread : R) (j : nat) (q : R) : result R :=
    let grid := ppf_grid p resolution spread j in interp1d (map (marginal_cdf p j) grid) grid q.

  (** ** random.py:11-40.  [labels]: the components drawn; [draw k i]: row i of mvn.rvs for component k.  numpy.random.choice refuses
      weights whose sum is off by more than the square root of the machine precision.  With one dimension mvn.rvs returns a vector for
      every number of rows but 1, which does not broadcast to the one column of [output[order == i]] (line 38). *)
  Definition random_gmcm (n : nat) (p : gmc) (labels : nat -> nat) (draw : nat -> nat -> nat -> R) : result (mat R) :=
    if existsb (fun w => Rltb w 0) (prob p) || Rltb (/ 67108864) (Rabs (lsum (prob p) - 1)) then Err ValueError
    else if Nat.eqb (n_dim p) 1 && existsb (fun k => negb (Nat.eqb (count (fun i => Nat.eqb (labels i) k) (seq 0 n)) 1)) (seq 0 (n_clusters p)) then Err ValueError
    else Ok (mkMat n (n_dim p) (fun i j => marginal_cdf p j (draw (labels i) (count (fun i' => Nat.eqb (labels i') (labels i)) (seq 0 i)) j))).

  (** ** estimators/em.py *)
  (** lines 74-83 for one row: nan (0 / 0) becomes 0 *)
  Definition e_step (q : mat R) (p : gmc) : mat R :=
    let w i k := let '(w, mu, c) := component p k in w * mvn_pdf mu c (get q i) in
    let m := n_clusters p in
    mkMat (nr q) m (fun i k => match edivide (w i k) (Fin (lsum (map (w i) (seq 0 m)))) with Fin x => x | _ => 0 end).
  Definition col_sum (a : mat R) (k : nat) : R := rsum (nr a) (fun i => get a i k).
  (** lines 86-98; only reached when no column sum is 0 *)
  Definition m_step (q kappa : mat R) : result gmc :=
    let d := nc q in let m := nc kappa in let n := nr q in
    let total := rsum m (col_sum kappa) in
    let pr := map (fun k => Fin (col_sum kappa k / total)) (seq 0 m) in
    let mu := mkMat m d (fun k j => rsum n (fun i => get q i j * get kappa i k) / col_sum kappa k) in
    let wt i k := get kappa i k / col_sum kappa k in
    let center k j := rsum n (fun i => get q i j * wt i k) in
    let wx k i j := sqrt (wt i k) * (get q i j - center k j) in
    let cv := map (fun k => mkMat d d (fun a b => rsum n (fun i => wx k i a * wx k i b))) (seq 0 m) in
    new_gmc m d pr mu cv.

  Record log_lik := mkLog { l_gmm : list R; l_gmcm : list R; l_params : list gmc }.       (* newest last *)
  (** lines 101-125: criteria.upper(), here compared after lower *)
  Definition check_criteria (c : string) : result string :=
    let c := lower c in if existsb (String.eqb c) ["gmcm"; "gmm"; "li"] then Ok c else Err InvalidStoppingCriteria.
  (** l[-1], l[-2] *)
  Definition from_end {A} (l : list A) (k : nat) : result A :=
    match nth_error (rev l) (k - 1) with Some x => Ok x | None => Err IndexError end.
  (** lines 145-152; [c] is in lower case *)
  Definition has_converged (c : string) (eps : R) (l : log_lik) : result bool :=
    let a := if String.eqb c "gmcm" then l_gmcm l else l_gmm l in
    let b := if String.eqb c "gmm" then l_gmm l else l_gmcm l in
    bind (from_end a 1) (fun x => bind (from_end b 2) (fun y => Ok (Rltb (Rabs (x - y)) eps))).
  (** np.argmax: the first place of the largest number *)
  Fixpoint argmax_from (best : R) (at_ k : nat) (l : list R) : nat :=
    match l with [] => at_ | x :: r => if Rltb best x then argmax_from x k (S k) r else argmax_from best at_ (S k) r end.
  Definition argmax (l : list R) : nat := match l with [] => 0%nat | x :: r => argmax_from x 0 1 r end.
  (** lines 127-132 and 154-156 *)
  Definition best_param (c : string) (l : log_lik) : result gmc :=
    if String.eqb c "gmm" then from_end (l_params l) 1
    else match nth_error (l_params l) (argmax (l_gmcm l)) with Some p => Ok p | None => Err IndexError end.
  Definition best_log_lik (l : log_lik) : result R := from_end (l_gmcm l) 1.

  (** lines 16-71.  [ppf]: gmm_marginal_ppf, taken to give finite numbers when it does not raise; [gmm_ll], [gmcm_ll]: the two
      log-likelihoods, taken to be finite *)
  Variables (ppf : mat R -> gmc -> result (mat R)) (gmm_ll gmcm_ll : mat R -> gmc -> R).
  Definition log_set (l : log_lik) (q u : mat R) (p : gmc) : log_lik :=
    mkLog (l_gmm l ++ [gmm_ll q p]) (l_gmcm l ++ [gmcm_ll u p]) (l_params l ++ [p]).
  Fixpoint em_loop (fuel : nat) (c : string) (eps : R) (u q : mat R) (p : gmc) (l : log_lik) : result log_lik :=
    match fuel with
    | O => Ok l
    | S k =>
      let kappa := e_step q p in
      if existsb (fun i => Reqb (col_sum kappa i) 0) (seq 0 (nc kappa)) then Err FitException
      else
        bind (m_step q kappa) (fun p =>
        let l := log_set l q u p in
        bind (ppf u p) (fun q =>
        bind (has_converged c eps l) (fun stop =>
        if stop then Ok l else em_loop k c eps u q p l)))
    end.
  (** the best parameter, whether it has converged, the reported log-likelihood *)
  Definition expectation_maximization (u : mat R) (p : gmc) (max_iter : nat) (criteria : string) (eps : R) : result (gmc * bool * R) :=
    bind (ppf u p) (fun q =>
    bind (check_criteria criteria) (fun c =>
    bind (em_loop max_iter c eps u q p (log_set (mkLog [] [] []) q u p)) (fun l =>
    bind (best_param c l) (fun best => bind (has_converged c eps l) (fun conv => bind (best_log_lik l) (fun ll => Ok (best, conv, ll))))))).

  (** ** estimators/kmeans.py:20-50.  [labels]: KMeans' labels, one per row of the data, below n_clusters.  np.unique gives the labels
      that occur, increasing.  np.cov of a single row is nan, which near_psd refuses; of a single column a number, which has not the
      shape of a matrix. *)
  Definition k_means (data : mat R) (m d : nat) (labels : nat -> nat) : result gmc :=
    let n := nr data in
    let rows g := filter (fun i => Nat.eqb (labels i) g) (seq 0 n) in
    let groups := filter (fun g => existsb (fun i => Nat.eqb (labels i) g) (seq 0 n)) (seq 0 m) in
    let size g := INR (length (rows g)) in
    let pr := map (fun g => Fin (size g / INR n)) groups in
    let mean g j := lsum (map (fun i => get data i j) (rows g)) / size g in
    let mu := mkMat (length groups) (nc data) (fun k j => mean (nth k groups 0%nat) j) in
    let cov g := mkMat (nc data) (nc data) (fun a b =>
                   lsum (map (fun i => (get data i a - mean g a) * (get data i b - mean g b)) (rows g)) / (size g - 1)) in
    bind (check_prob m pr) (fun pr => bind (check_means m d mu) (fun mu =>
    if Nat.eqb (nc data) 1 then Err GMCParamError
    else if existsb (fun g => Nat.eqb (length (rows g)) 1) groups then Err NonSymmetricMatrixError
    else bind (check_covs m d (map cov groups)) (fun cv => Ok (mkGmc m d pr mu cv)))).

  (** ** gmc.py: the copula object *)
  Record copula := mkCop { c_clusters : nat; c_dim : nat; c_param : option gmc; c_method : option string }.
  Inductive params_in := PNone | PDict (pr : list ext) (mu : mat R) (cv : list (mat R)) | PParam (p : gmc) | PVector (v : list ext) | POther.
  Definition with_param (c : copula) (p : option gmc) : copula := mkCop (c_clusters c) (c_dim c) p (c_method c).
  (** lines 228-242 *)
  Definition set_params (c : copula) (v : params_in) : result copula :=
    match v with
    | PNone => Ok (with_param c None)
    | PDict pr mu cv => rmap (fun p => with_param c (Some p)) (from_dict pr mu cv)
    | PParam p => if Nat.eqb (n_dim p) (c_dim c) && Nat.eqb (n_clusters p) (c_clusters c) then Ok (with_param c (Some p)) else Err GMCParamMismatchError
    | PVector v => rmap (fun p => with_param c (Some p)) (from_vector v (c_clusters c) (c_dim c))
    | POther => Err GMCParamMismatchError
    end.
  (** lines 138-214: the copula afterwards and the outcome.  [k_means] the fit of kmeans.py to the data; [pem], [sgd]: the fits that
      start from a parameter. *)
  Definition fit (c : copula) (x0 : params_in) (method : string) (k_means : result gmc) (pem sgd : gmc -> result gmc) : copula * result unit :=
    let method := lower method in
    let start := match x0 with
                 | PNone => bind k_means (fun p => set_params c (PParam p))
                 | PParam p => set_params c (PParam p)
                 | PVector v => bind (from_vector v (c_clusters c) (c_dim c)) (fun p => set_params c (PParam p))
                 | _ => Err IndexError                                         (* np.array of a dict is 0-dimensional: it has no slice *)
                 end in
    match start with
    | Err e => (c, Err e)
    | Ok c =>
      match c_param c with
      | None => (c, Err AttributeError)
      | Some p =>
        let best := if String.eqb method "pem" then pem p
                    else if String.eqb method "sgd" then sgd p
                    else if String.eqb method "kmeans" then match x0 with PNone => Ok p | _ => k_means end
                    else Err GMCFitMethodError in
        match bind best (fun p => set_params c (PParam p)) with
        | Err e => (c, Err e)
        | Ok c => (mkCop (c_clusters c) (c_dim c) (c_param c) (Some method), Ok tt)
        end
      end
    end.
End Gmc.
