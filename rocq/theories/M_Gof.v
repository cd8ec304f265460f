(** Model of /repo/copulae/gof: exchangeability.py, _exchangeability.pyx, radial_symmetry.py, _radial_symmetry.pyx and
    goodness_of_fit/.  Floats are exact reals.  N, m and reps are natural numbers.  Random numbers, numpy's argsort and the fitting
    of the copula are arguments.  The pandas and multiprocessing paths are not modelled (they compute the same numbers). *)
From Coq Require Import QArith Qreals Qround.
From Verif Require Import Base RSumLib Ext M_Rank M_Special M_Stats M_Empirical.
Local Close Scope Q_scope. Local Close Scope Z_scope. Open Scope R_scope.

Definition ind (b : bool) : R := if b then 1 else 0.
Definition real_mat (m : mat Q) : mat R := mkMat (nr m) (nc m) (fun i j => Q2R (get m i j)).

(** the p-value of all three tests: exchangeability.py:116, radial_symmetry.py:84, goodness_of_fit.py:112 *)
Definition p_value (s0 : list R) (s : R) : R := (INR (count (fun a => Rleb s a) s0) + / 2) / (INR (length s0) + 1).

(** ** _exchangeability.pyx *)
(** lines 10-38 *)
Definition cn (u v : nat -> R) (x y : R) (n : nat) : R := rsum n (fun i => ind (Rleb (u i) x) * ind (Rleb (v i) y)) / INR n.
Definition clamp (x inv : R) : R := if Rltb x inv then inv else if Rltb (1 - inv) x then 1 - inv else x.
(** lines 41-74 and 77-110 *)
Definition der_cn_1 (u v : nat -> R) (x y : R) (n : nat) : R :=
  let inv := 1 / sqrt (INR n) in let x := clamp x inv in
  (cn u v (x + inv) y n - cn u v (x - inv) y n) / (2 * inv).
Definition der_cn_2 (u v : nat -> R) (x y : R) (n : nat) : R :=
  let inv := 1 / sqrt (INR n) in let y := clamp y inv in
  (cn u v x (y + inv) n - cn u v x (y - inv) n) / (2 * inv).
(** lines 145-156: influ[i * n + j] *)
Definition influence (U V : nat -> R) (n : nat) (x y : R) (j : nat) : R :=
  (ind (Rleb (U j) x) * ind (Rleb (V j) y)
   - der_cn_1 U V x y n * ind (Rleb (U j) x) - der_cn_2 U V x y n * ind (Rleb (V j) y)
   - ind (Rleb (U j) y) * ind (Rleb (V j) x)
   + der_cn_1 U V y x n * ind (Rleb (U j) y) + der_cn_2 U V y x n * ind (Rleb (V j) x)) / sqrt (INR n).
(** lines 158-173: one entry of s0; [random]: the normal draws *)
Definition multiplier (U V : nat -> R) (g : mat R) (n m : nat) (random : nat -> R) : R :=
  let mean := rsum n (fun j => random j / INR n) in
  rsum m (fun j => let process := rsum n (fun k => (random k - mean) * influence U V n (get g j 0) (get g j 1) k) in process * process) / INR m.
Definition exch_test_cn (u g : mat R) (n m N : nat) (normals : nat -> nat -> R) : list R :=
  map (fun i => multiplier (fun k => get u k 0) (fun k => get u k 1) g n m (normals i)) (seq 0 N).
(** lines 176-209 *)
Definition exch_test_stat (u g : mat R) (n m : nat) : R :=
  let a k := get u k 0%nat in let b k := get u k 1%nat in
  rsum m (fun i => let x := get g i 0 in let y := get g i 1 in
                   let diff := cn a b x y n - cn a b y x n in diff * diff) * INR n / INR m.

(** Reading row z of an array with n rows.  Bounds checks and wrap-around are off (setup.py): an index outside 0..n-1 is undefined
    behaviour, here an error. *)
Definition read (n : nat) (z : Z) : result nat := if (0 <=? z)%Z && (z <? Z.of_nat n)%Z then Ok (Z.to_nat z) else Err IndexError.
(** np.sort(u, 0) *)
Definition column (u : mat R) (j : nat) : list R := map (fun i => get u i j) (seq 0 (nr u)).
Definition sort_columns (u : mat R) : mat R := mkMat (nr u) (nc u) (fun i j => nth i (sort (column u j)) 0).
(** exchangeability.py:108, radial_symmetry.py:79: [np.floor(rank_data(np.sort(u, 0), axis=1)).astype(int) - 1] *)
Definition tie_indices (u : mat R) : result (mat Z) :=
  rmap (fun r => mkMat (nr r) (nc r) (fun i j => (Qfloor (get r i j) - 1)%Z)) (rank_data2 Rleb (sort_columns u) 1 "average").

Section Resample.
  Variable argsort : list R -> list Z.                          (* np.argsort of one column *)
  (** _exchangeability.pyx:251-255, _radial_symmetry.pyx:54-58: the rows in the order of column i *)
  Definition permute (ub : mat R) (i : nat) : result (mat R) :=
    let order := argsort (column ub i) in
    rmap (fun idx => mkMat (nr ub) (nc ub) (fun j c => get ub (nth j idx 0%nat) c)) (mapM (fun j => read (nr ub) (nth j order (-1)%Z)) (seq 0 (nr ub))).
  (** _exchangeability.pyx:257-259, _radial_symmetry.pyx:60-62 *)
  Definition impose (ir : mat Z) (ub : mat R) (i : nat) : result (mat R) :=
    rmap (fun idx => mkMat (nr ub) (nc ub) (fun j c => if Nat.eqb c i then get ub (nth j idx 0%nat) i else get ub j c))
         (mapM (fun j => read (nr ub) (get ir j i)) (seq 0 (nr ub))).
  Definition retie (ir : mat Z) (cols : nat) (ub : mat R) : result (mat R) :=
    fold_left (fun r i => bind r (fun ub => bind (permute ub i) (fun ub => impose ir ub i))) (seq 0 cols) (Ok ub).

  (** _exchangeability.pyx:212-266; [bits]: rand() / RAND_MAX > 0.5 for each row *)
  Definition exch_replication (ir : mat Z) (u g : mat R) (n m ng : nat) (bits : nat -> bool) : result R :=
    let ub := mkMat (nr u) (nc u) (fun i c => if bits i then get u i c else get u i (1 - c)%nat) in          (* 245-248 *)
    bind (retie ir 2 ub) (fun ub =>
    bind (pseudo_obs Rleb ub "average") (fun ub =>                                                            (* 261 *)
    let ub := real_mat ub in
    Ok (exch_test_stat ub (if Nat.eqb m 0 then ub else g) n ng))).

  Definition distinct (l : list R) : bool :=                      (* len(np.unique(l)) == len(l) *)
    forallb (fun i => forallb (fun j => Nat.eqb i j || negb (Reqb (nth i l 0) (nth j l 0))) (seq 0 (length l))) (seq 0 (length l)).
  (** np.linspace(1 / m, 1 - 1 / m, m): one point for m = 1, the first *)
  Definition linspace (m k : nat) : R := if Nat.eqb m 1 then 1 / INR m else 1 / INR m + INR k * ((1 - 1 / INR m - 1 / INR m) / (INR m - 1)).
  (** exchangeability.py:96-98: np.tile and np.repeat *)
  Definition exch_grid (m : nat) : mat R :=
    mkMat (m * m) 2 (fun k c => if Nat.eqb c 0 then linspace m (k mod m) else linspace m (k / m)).
  (** exchangeability.py:86-118 for vectors of lengths n and n'; [normals]: the draws after seeding with 8888 *)
  Definition exch_test (n n' : nat) (x y : nat -> R) (N m : nat) (ties : string) (normals : nat -> nat -> R) (bits : nat -> nat -> bool)
    : result (R * R) :=
    bind (pseudo_obs1 Rleb n x ties) (fun x => bind (pseudo_obs1 Rleb n' y ties) (fun y =>
    if negb (Nat.eqb n n') then Err ValueError                                                                (* np.vstack *)
    else if Nat.eqb N 0 then Err AssertionError
    else
      let u := mkMat n 2 (fun i c => Q2R (if Nat.eqb c 0 then x i else y i)) in
      let g := if Nat.eqb m 0 then u else exch_grid m in
      let ng := if Nat.eqb m 0 then n else (m * m)%nat in
      let s := exch_test_stat u g n ng in
      bind (if distinct (column u 0) && distinct (column u 1) then Ok (exch_test_cn u g n ng N normals)
            else bind (tie_indices u) (fun ir => mapM (fun k => exch_replication ir u g n m ng (bits k)) (seq 0 N))) (fun s0 =>
      Ok (s, p_value s0 s)))).

  (** ** _radial_symmetry.pyx *)
  (** lines 68-106 on the flat array of n * p numbers *)
  Definition diff_cn (u : nat -> R) (n p k : nat) : R :=
    rsum n (fun i =>
      let ind1 := fold_left (fun a j => a * ind (Rleb (u (i + n * j)%nat) (u (k + n * j)%nat))) (seq 0 p) 1 in
      let ind2 := fold_left (fun a j => a * ind (Rleb (1 - u (i + n * j)%nat) (u (k + n * j)%nat))) (seq 0 p) 1 in
      ind1 - ind2) / INR n.
  (** lines 9-37 *)
  Definition rad_sym_test_stat (u : nat -> R) (n p : nat) : R := rsum n (fun i => diff_cn u n p i * diff_cn u n p i).
  (** lines 40-65; [bits]: rand() / RAND_MAX < 0.5 *)
  Definition rad_sym_replicate (u : mat R) (ir : mat Z) (n p : nat) (has_ties : bool) (bits : nat -> bool) : result R :=
    let ub := mkMat (nr u) (nc u) (fun i j => if bits i then 1 - get u i j else get u i j) in
    bind (if has_ties then retie ir p ub else Ok ub) (fun ub =>
    bind (pseudo_obs Rleb ub "average") (fun ub => Ok (rad_sym_test_stat (ravelF (real_mat ub)) n p))).
  Definition has_ties (x : mat R) : bool := negb (forallb (fun j => distinct (column x j)) (seq 0 (nc x))).
  (** radial_symmetry.py:63-86 *)
  Definition rad_sym_test (x : mat R) (N : nat) (ties : string) (bits : nat -> nat -> bool) : result (R * R) :=
    if Nat.eqb N 0 then Err AssertionError
    else
      bind (pseudo_obs Rleb x ties) (fun u =>
      let u := real_mat u in
      let s := rad_sym_test_stat (ravelF u) (nr x) (nc x) in
      bind (tie_indices u) (fun ir =>
      bind (mapM (fun k => rad_sym_replicate u ir (nr x) (nc x) (has_ties x) (bits k)) (seq 0 N)) (fun s0 => Ok (s, p_value s0 s)))).
End Resample.

(** ** goodness_of_fit *)
(** utils.py:30: [np.sort(rank_data(self.data, 1), 0).astype(int) - 1]; astype truncates, as floor for positive numbers *)
Definition duplicated_ranks (data : mat R) : result (mat Z) :=
  rmap (fun r => let s := sort_columns (real_mat r) in mkMat (nr r) (nc r) (fun i j => (Int_part (get s i j) - 1)%Z)) (rank_data2 Rleb data 1 "average").
(** goodness_of_fit.py:132-142; [i] runs over the columns *)
Definition sort_data_by_column (dup : mat Z) (u : mat R) : result (mat R) :=
  if negb (Nat.eqb (nr dup) (nr u) && Nat.eqb (nc dup) (nc u)) then Err AssertionError
  else fold_left (fun r i => bind r (fun u => impose dup u i)) (seq 0 (nc u)) (Ok (sort_columns u)).
(** goodness_of_fit.py:145-149: [cdf] is the fitted copula's, one value per row *)
Definition gof_t_stat (cdf : mat R -> nat -> R) (data : mat R) : result R :=
  bind (emp_dist_func (fun _ _ _ => 0) data data (Some "none"%string) 0) (fun emp =>
  Ok (fold_left (fun s k => s + (match nth k emp Nan with Fin e => e | _ => 0 end - cdf data k) ^ 2) (seq 0 (nr data)) 0)).
(** utils.py:18-29: pseudo-observations for the statistic and for the fit *)
Definition gof_pobs (data : mat R) (ties fit_ties : string) : result (mat R * mat R) :=
  bind (pseudo_obs Rleb data ties) (fun p =>
  if has_ties data && negb (String.eqb ties fit_ties) then rmap (fun q => (real_mat p, real_mat q)) (pseudo_obs Rleb data fit_ties)
  else Ok (real_mat p, real_mat p)).
(** goodness_of_fit.py:86-127; [fit]: the copula fitted to data, its cdf; [sample k]: the rows drawn from the fitted copula in
    replication k *)
Definition gof_copula (fit : mat R -> result (mat R -> nat -> R)) (sample : nat -> mat R) (data : mat R) (reps : nat) (ties fit_ties : string)
  : result (R * R) :=
  let t_stat d := bind (gof_pobs d ties fit_ties) (fun p => bind (fit (snd p)) (fun cdf => gof_t_stat cdf (fst p))) in
  bind (duplicated_ranks data) (fun dup =>
  bind (t_stat data) (fun t =>
  bind (mapM (fun k => bind (if has_ties data then sort_data_by_column dup (sample k) else Ok (sample k)) t_stat) (seq 0 reps)) (fun ts =>
  Ok (t, p_value (map Rabs ts) (Rabs t))))).
