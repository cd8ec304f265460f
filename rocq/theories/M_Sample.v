(** Model of the method random of every copula class, with its decorator cast_output and the state of numpy's global generator:
    /repo/copulae/indep/indep.py:61-63, archimedean/clayton.py:144-160, frank.py:173-191, gumbel.py:227-243, elliptical/gaussian.py:84-87,
    student.py:179-182, empirical/empirical.py:176-182, mixtures/gmc/gmc.py:276-297, marginal/marginal.py:148-155.
    Parameters are not nan.  The draws of numpy are functions of the state of the generator. *)
From Verif Require Import Base RSumLib Ext M_Linalg M_Archimedean M_Special M_Stats M_Stable M_Sampling M_GumbelSampling M_StudentSampling M_Gmc.
Local Close Scope Z_scope. Open Scope R_scope.

Record generator (St : Type) := mkGen {
  g_seed : Z -> St;                                                                       (* np.random.seed, RandomState(seed) *)
  g_uniform : nat -> St -> list R * St;                                                   (* np.random.uniform, k numbers *)
  g_gamma : R -> nat -> St -> list R * St;                                                (* np.random.standard_gamma *)
  g_exp : nat -> St -> list R * St;                                                       (* np.random.standard_exponential *)
  g_chisq : R -> nat -> St -> list R * St;                                                (* np.random.chisquare *)
  g_randint : nat -> nat -> St -> list nat * St;                                          (* np.random.randint(0, m, n) *)
  g_choice : list R -> nat -> St -> list nat * St;                                        (* np.random.choice(range(m), n, p=weights) *)
  g_mvn : list R -> mat R -> nat -> St -> list (list R) * St }.                           (* scipy's multivariate_normal.rvs, before its squeeze *)
Arguments g_seed {St}. Arguments g_uniform {St}. Arguments g_gamma {St}. Arguments g_exp {St}. Arguments g_chisq {St}.
Arguments g_randint {St}. Arguments g_choice {St}. Arguments g_mvn {St}.

(** a copula object: what its method random reads *)
Inductive cop :=
| KIndep (d : nat)
| KClayton (d : nat) (th : R)
| KFrank (d : nat) (th : R)
| KGumbel (d : nat) (th : R)
| KGauss (sigma : mat R)
| KStudent (sigma : mat R) (df : R)
| KEmpirical (data : mat R)
| KMixture (p : gmc).
Definition cop_dim (c : cop) : nat :=
  match c with
  | KIndep d | KClayton d _ | KFrank d _ | KGumbel d _ => d
  | KGauss sigma | KStudent sigma _ => nr sigma
  | KEmpirical data => nc data
  | KMixture p => n_dim p
  end.
(** what random returns: a vector, a matrix or a DataFrame *)
Inductive sample := SVector (l : list ext) | STable (rows : list (list ext)) | SFrame (columns : list string) (rows : list (list ext)).

Section Random.
  Context {St : Type} (g : generator St).
  Variable norm_cdf : R -> R.                                                             (* scipy.stats.norm.cdf *)
  Variable t_cdf : R -> R -> R.                                                           (* scipy.stats.t.cdf *)
  Variable argmax : R -> R -> R.                                                          (* as in M_Stable *)
  Variable fuel : nat.                                                                    (* steps of the loop in log.py; None: more are needed *)

  Definition seeded (seed : option Z) (s : St) : St := match seed with Some k => g_seed g k | None => s end.
  (** numbers cut into n rows of d *)
  Fixpoint into_rows (d n : nat) (l : list R) : list (list R) := match n with O => [] | S n => firstn d l :: into_rows d n (skipn d l) end.
  (** stats/uniform.py:6-9 *)
  Definition random_uniform (n d : nat) (seed : option Z) (s : St) : list (list R) * St :=
    let '(l, s) := g_uniform g (n * d) (seeded seed s) in (into_rows d n l, s).
  Definition two {A} (p : A * A) : list A := [fst p; snd p].
  Definition at_ (row : list R) (j : nat) : R := nth j row 0.

  Definition fin_rows (u : list (list R)) : list (list ext) := map (map Fin) u.
  Definition small (x : R) : bool := Rltb (Rabs x) (/ 10000000).
  (** the rows drawn *)
  Definition clayton_rows (d : nat) (th : R) (n : nat) (seed : option Z) (s : St) : result (list (list ext)) * St :=
    let '(u, s) := random_uniform n d seed s in
    if small th then (Ok (fin_rows u), s)                                                                      (* 150-151 *)
    else if Nat.eqb d 2 then (mapM (fun row => rmap two (clayton_random2 th (at_ row 0) (at_ row 1))) u, s)    (* 154-156 *)
    else if Rltb th 0 then (Err ValueError, s)                                                                 (* standard_gamma of a negative shape *)
    else let '(v, s) := g_gamma g (1 / th) n s in (mapM (fun p => clayton_random_row th (snd p) (fst p)) (combine u v), s).
  Definition frank_frailty (th : R) (n : nat) (s : St) : option (list ext) * St :=
    let '(u1, s) := g_uniform g n s in
    if Rltb (- th) (-3) then (random_log_series fuel (- th) u1 [], s)                                          (* log.py:8-21 *)
    else let '(u2, s) := g_uniform g n s in (random_log_series fuel (- th) u1 u2, s).
  Definition frank_row (th : R) (p : list R * ext) : result (list ext) :=
    match snd p with
    | Fin f => mapM (fun w => frank_psi th (ediv (eopp (elog (Fin w))) f)) (fst p)
    | Nan => Ok (map (fun _ => Nan) (fst p))
    | _ => mapM (fun _ => frank_psi th (Fin 0)) (fst p)
    end.
  Definition frank_rows (d : nat) (th : R) (n : nat) (seed : option Z) (s : St) : option (result (list (list ext))) * St :=
    let '(u, s) := random_uniform n d seed s in
    if small th then (Some (Ok (fin_rows u)), s)                                                               (* 176-177 *)
    else if Nat.eqb d 2 then (Some (Ok (map (fun row => two (frank_random2 th (at_ row 0) (at_ row 1))) u)), s)    (* 179-184 *)
    else if Reqb (ln (1 - exp (- th))) 0 then (Some (Ok (repeat (repeat (Fin 1) d) n)), s)                     (* 187-188 *)
    else let '(fr, s) := frank_frailty th n s in (option_map (fun fr => mapM (frank_row th) (combine u fr)) fr, s).
  Definition gumbel_rows (d : nat) (th : R) (n : nat) (seed : option Z) (s : St) : result (list (list ext)) * St :=
    let '(u, s) := random_uniform n d seed s in
    if Rltb (th - 1) (/ 10000000) then let '(u, s) := random_uniform n d seed s in (Ok (fin_rows u), s)        (* 233-234 *)
    else if Rleb (Rabs (th - 1)) (/ 100000000 + / 100000 * Rabs 1) then (Ok (fin_rows u), s)                   (* 236-237 *)
    else let '(a, s) := g_uniform g n s in let '(w, s) := g_exp g n s in                                       (* stable.py:155-156 *)
         (mapM (fun p => gumbel_random_row argmax 0 th (fst (snd p)) (snd (snd p)) (fst p)) (combine u (combine a w)), s).
  Definition gauss_rows (sigma : mat R) (n : nat) (seed : option Z) (s : St) : result (list (list ext)) * St :=
    let '(r, s) := mvn_rvs St (g_seed g) (g_mvn g) (repeat 0 (nr sigma)) sigma n seed s in
    (Ok (map (map (fun x => Fin (norm_cdf x))) r), s).
  Definition student_rows (sigma : mat R) (df : R) (n : nat) (seed : option Z) (s : St) : result (list (list ext)) * St :=
    let '(r, s) := student_random St (g_seed g) (g_chisq g) (g_mvn g) t_cdf sigma df n seed s in (rmap (fin_rows) r, s).
  Definition empirical_rows (data : mat R) (n : nat) (seed : option Z) (s : St) : result (list (list ext)) * St :=
    let s := seeded seed s in
    if Nat.eqb (nr data) 0 then (Err ValueError, s)
    else let '(idx, s) := g_randint g (nr data) n s in (Ok (map (fun i => map (fun j => Fin (get data i j)) (seq 0 (nc data))) idx), s).
  (** random.py:36-38: for each component the number of its labels and the rows of mvn.rvs *)
  Fixpoint mixture_draws (p : gmc) (order : list nat) (ks : list nat) (s : St) : list (list (list R)) * St :=
    match ks with
    | [] => ([], s)
    | k :: ks => let '(r, s) := g_mvn g (map (get (means p) k) (seq 0 (n_dim p))) (snd (component p k)) (count (Nat.eqb k) order) s in
                 let '(rs, s) := mixture_draws p order ks s in (r :: rs, s)
    end.
  Definition mixture_rows (p : gmc) (n : nat) (seed : option Z) (s : St) : result (list (list ext)) * St :=
    let s := seeded seed s in
    if existsb (fun w => Rltb w 0) (prob p) || Rltb (/ 67108864) (Rabs (lsum (prob p) - 1)) then (Err ValueError, s)
    else let '(order, s) := g_choice g (prob p) n s in
         let '(rs, s) := mixture_draws p order (seq 0 (n_clusters p)) s in
         (rmap (fun m => map (fun i => map (fun j => Fin (get m i j)) (seq 0 (nc m))) (seq 0 (nr m)))
            (random_gmcm n p (fun i => nth i order 0%nat) (fun k i j => at_ (nth i (nth k rs []) []) j)), s).
  Definition draw_rows (c : cop) (n : nat) (seed : option Z) (s : St) : option (result (list (list ext))) * St :=
    let some (p : result (list (list ext)) * St) := (Some (fst p), snd p) in
    match c with
    | KIndep d => let '(u, s) := random_uniform n d seed s in (Some (Ok (fin_rows u)), s)
    | KClayton d th => some (clayton_rows d th n seed s)
    | KFrank d th => frank_rows d th n seed s
    | KGumbel d th => some (gumbel_rows d th n seed s)
    | KGauss sigma => some (gauss_rows sigma n seed s)
    | KStudent sigma df => some (student_rows sigma df n seed s)
    | KEmpirical data => some (empirical_rows data n seed s)
    | KMixture p => some (mixture_rows p n seed s)
    end.
  (** multivariate_normal.rvs squeezes its result, and multivariate_t.rvs keeps that shape (two or more dimensions): a single row comes
      as a vector.  The other classes return n rows. *)
  Definition raw_sample (c : cop) (rows : list (list ext)) : sample :=
    match c, rows with
    | (KGauss _ | KStudent _ _), [row] => SVector row
    | _, _ => STable rows
    end.
  (** utility/annotations/reshape.py:51-58: pd.DataFrame(output, columns=columns) makes one column of a vector, and wants as many
      names as columns *)
  Definition cast_sample (columns : option (list string)) (width : nat) (x : sample) : result sample :=
    match columns with
    | None => Ok x
    | Some cols => match x with
                   | SVector l => if Nat.eqb (length cols) 1 then Ok (SFrame cols (map (fun v => [v]) l)) else Err ValueError
                   | STable rows => if Nat.eqb (length cols) width then Ok (SFrame cols rows) else Err ValueError
                   | SFrame _ _ => Ok x
                   end
    end.
  Definition random (columns : option (list string)) (c : cop) (n : nat) (seed : option Z) (s : St) : option (result sample) * St :=
    let '(rows, s) := draw_rows c n seed s in
    (option_map (fun rows => bind rows (fun rows => cast_sample columns (cop_dim c) (raw_sample c rows))) rows, s).
  (** marginal.py:148-155; [ppfs]: the quantile functions of the margins, one for each dimension; [inner]: the column names of the joint
      copula, if it was fitted to a DataFrame.  [u[:, i]] fails on a vector and on a DataFrame. *)
  Definition marginal_sample (columns : option (list string)) (ppfs : list (ext -> ext)) (inner : option (list string)) (c : cop) (n : nat)
    (seed : option Z) (s : St) : option (result sample) * St :=
    let '(u, s) := random inner c n seed s in
    (option_map (fun u => bind u (fun u =>
       match u, ppfs with
       | _, [] => Ok u
       | SVector _, _ => Err IndexError
       | SFrame _ _, _ => Err KeyError
       | STable rows, _ => cast_sample columns (cop_dim c) (STable (map (fun row => map (fun p => fst p (snd p)) (combine ppfs row)) rows))
       end)) u, s).
End Random.
