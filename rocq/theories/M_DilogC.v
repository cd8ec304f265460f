(** Model of the complex dilogarithm, /repo/copulae/special/_specfunc.pyx:444-671 and 146-166, and of its wrapper
    /repo/copulae/special/dilog.py:32-56.  Doubles are exact reals, so hypot(x, y) is sqrt (x^2 + y^2) and the constant PI is the
    number PI.  None is nan, in each component on its own. *)
From Verif Require Import Base RSumLib M_Specfunc M_Clausen M_Dilog.
Open Scope R_scope.

(** lines 9-11: the struct ComplexResult *)
Definition cres := (option R * option R)%type.
Definition some2 (p : R * R) : cres := (Some (fst p), Some (snd p)).
(** libc.math.hypot and atan2 *)
Definition hypot (x y : R) : R := sqrt (x * x + y * y).
Definition atan2 (y x : R) : R :=
  if Rltb 0 x then atan (y / x)
  else if Rltb x 0 then (if Rleb 0 y then atan (y / x) + PI else atan (y / x) - PI)
  else if Rltb 0 y then PI / 2 else if Rltb y 0 then - (PI / 2) else 0.
(** the C cast <int> of a double that is not negative *)
Definition trunc (x : R) : nat := Z.to_nat (Int_part x).
Definition square (x : R) : R := x * x.

(** lines 483-501 *)
Definition complex_log (zr zi : R) : cres :=
  if Reqb zr 0 && Reqb zi 0 then (None, None)
  else let ax := Rabs zr in
       let ay := Rabs zi in
       let min_ := Rmin ax ay in
       let max_ := Rmax ax ay in
       (Some (ln max_ + 1 / 2 * ln (1 + square (min_ / max_))), Some (atan2 zi zr)).

(** the loops of lines 553-563 and 651-661: [w k] is the number r^k is divided by, [n] the number of values of k left *)
Fixpoint series_loop (w : nat -> R) (n k : nat) (r alpha beta ck sk rk real imag : R) : R * R :=
  match n with
  | O => (real, imag)
  | S n =>
    let ck_tmp := ck in
    let ck := ck - (alpha * ck + beta * sk) in
    let sk := sk - (alpha * sk - beta * ck_tmp) in
    let rk := rk * r in
    let dr := rk / w k * ck in
    let di := rk / w k * sk in
    let real := real + dr in
    let imag := imag + di in
    if Rltb (Rabs ((square dr + square di) / (square real + square imag))) (square DBL_EPSILON) then (real, imag)
    else series_loop w n (S k) r alpha beta ck sk rk real imag
  end.
(** lines 539-567: k in range(2, kmax) *)
Definition dilogc_series_1 (r x y : R) : R * R :=
  let cos_theta := x / r in
  let sin_theta := y / r in
  let kmax := (50 + trunc (- 22 / ln r))%nat in
  series_loop (fun k => INR k * INR k) (kmax - 2) 2 r (1 - cos_theta) sin_theta cos_theta sin_theta r (r * cos_theta) (r * sin_theta).
(** lines 635-665: k in range(2, kmax) *)
Definition series_2_c (r x y : R) : R * R :=
  let cos_theta := x / r in
  let sin_theta := y / r in
  let kmax := (30 + trunc (18 / (- ln r)))%nat in
  series_loop (fun k => INR k * INR k * (INR k + 1)) (kmax - 2) 2 r (1 - cos_theta) sin_theta cos_theta sin_theta r (1 / 2 * r * cos_theta) (1 / 2 * r * sin_theta).
(** lines 570-591 *)
Definition dilogc_series_2 (r x y : R) : cres :=
  let r2 := square r in
  if Rleb (Rabs r) (DBL_EPSILON * 10) then some2 (0, 0)
  else
    let sum_c := series_2_c r x y in
    match complex_log (1 - x) (- y) with
    | (Some lre, Some lim) =>
        let tx := (lre * x + lim * y) / r2 in
        let ty := (- lre * y + lim * x) / r2 in
        let rx := (1 - x) * tx + y * ty in
        let ry := (1 - x) * ty - y * tx in
        some2 (fst sum_c + rx + 1, snd sum_c + ry)
    | _ => (None, None)
    end.
(** lines 593-633: the tables re and im, and the sum of a^n / n! times them, n in range(1, 7).  A nan of the Clausen function reaches
    the imaginary part only. *)
Definition taylor (a : R) (l : list R) : R :=
  snd (fold_left (fun '(n, an, nfact, sum) c => let an := an * a in let nfact := nfact * INR n in (S n, an, nfact, sum + an / nfact * c))
         (tl l) (1%nat, 1, 1, hd 0 l)).
Definition dilogc_series_3 (r x y : R) : cres :=
  let theta := atan2 y x in
  let cos_theta := x / r in
  let sin_theta := y / r in
  let omc := 1 - cos_theta in
  let a := ln r in
  let re := [PI ^ 2 / 6 + 1 / 4 * (theta ^ 2 - 2 * PI * Rabs theta);
             - (1 / 2) * ln (2 * omc);
             - (1 / 2);
             - (1 / 2) / omc;
             0;
             1 / 2 * (2 + cos_theta) / omc ^ 2;
             0] in
  let im claus := [claus;
             - atan2 (- sin_theta) omc;
             1 / 2 * sin_theta / omc;
             0;
             - (1 / 2) * sin_theta / omc ^ 2;
             0;
             1 / 2 * sin_theta / omc ^ 5 * (8 * omc - sin_theta * sin_theta * (3 + cos_theta))] in
  (Some (taylor a re), match clausen_fn theta with None => None | Some claus => Some (taylor a (im claus)) end).
(** lines 503-509 *)
Definition dilogc_fundamental (r x y : R) : cres :=
  if Rltb (98 / 100) r then dilogc_series_3 r x y
  else if Rltb (1 / 4) r then dilogc_series_2 r x y
  else some2 (dilogc_series_1 r x y).
(** lines 512-536 *)
Definition dilogc_unit_disk (x y : R) : cres :=
  let r := hypot x y in
  let zeta2 := PI ^ 2 / 6 in
  if Rltb (732 / 1000) x then
    let x_tmp := 1 - x in
    let y_tmp := - y in
    let r_tmp := hypot x_tmp y_tmp in
    let tmp_c := dilogc_fundamental r_tmp x_tmp y_tmp in
    let lnz := ln r in
    let lnomz := ln r_tmp in
    let argz := atan2 y x in
    let argomz := atan2 y_tmp x_tmp in
    (option_map (fun t => - t + zeta2 - lnz * lnomz + argz * argomz) (fst tmp_c),
     option_map (fun t => - t - argz * lnomz - argomz * lnz) (snd tmp_c))
  else dilogc_fundamental r x y.
(** lines 444-480 *)
Definition dilog_complex (r theta : R) : cres :=
  let x := r * cos theta in
  let y := r * sin theta in
  let zeta2 := PI ^ 2 / 6 in
  let r2 := x * x + y * y in
  if Rltb (Rabs y) (10 * DBL_EPSILON) then (dilog x, Some (if Rleb 1 x then - PI * ln x else 0))
  else if Rleb (Rabs (r2 - 1)) DBL_EPSILON then
    (Some (zeta2 + theta * theta / 4 - PI * Rabs theta / 2), clausen_fn theta)
  else if Rltb r2 1 then dilogc_unit_disk x y
  else
    let c := dilogc_unit_disk (x / r2) (- y / r2) in
    let ln_minusz_re := ln r in
    let ln_minusz_im := (if Rltb theta 0 then - (1) else 1) * (Rabs theta - PI) in
    let lmz2_re := ln_minusz_re ^ 2 - ln_minusz_im ^ 2 in
    let lmz2_im := 2 * ln_minusz_re * ln_minusz_im in
    (option_map (fun t => - t - 1 / 2 * lmz2_re - zeta2) (fst c), option_map (fun t => - t - 1 / 2 * lmz2_im) (snd c)).

(** ** The wrappers *)
(** dilog.py:51-56 without theta: np.angle and np.abs of x + i y *)
Definition dilog_complex_z (x y : R) : cres := dilog_complex (hypot x y) (atan2 y x).
(** A memory is a function from addresses to numbers.  The vectors r_vec and i_vec (_specfunc.pyx:151-153) are n cells each, from the
    addresses [r] and [t] on: np.asarray and ravel return views of a contiguous float array, so r and t are then cells of the caller's
    own arrays; an argument that is copied is a region of its own.  Simplification: contiguous regions.
    _specfunc.pyx:213-234: mapc_dbl_s runs i = 0, ..., n - 1, mapc_dbl_p in any order.  Simplification: the iterations of prange are
    not interleaved; each touches its own cells only, unless the regions overlap. *)
Definition upd {A} (m : nat -> A) (i : nat) (a : A) : nat -> A := fun j => if Nat.eqb j i then a else m j.
Definition mapc_step {A} (f : A -> A -> A * A) (r t : nat) (m : nat -> A) (i : nat) : nat -> A :=
  let c := f (m (r + i)%nat) (m (t + i)%nat) in
  upd (upd m (r + i) (fst c)) (t + i) (snd c).
Definition mapc_dbl {A} (f : A -> A -> A * A) (r t : nat) (order : list nat) (m : nat -> A) : nat -> A := fold_left (mapc_step f r t) order m.
(** _specfunc.pyx:146-166: the value, a pair per entry for real + 1j * imag, and the memory afterwards.  [same_shape] is the assertion of
    line 155; [sched] the order in which prange runs. *)
Definition dilog_complex_arrays {A} (f : A -> A -> A * A) (same_shape threaded : bool) (sched : list nat) (n r t : nat) (m : nat -> A)
    : result (value (A * A)) * (nat -> A) :=
  if same_shape then
    if Nat.eqb n 1 then (Ok (VScalar (f (m r) (m t))), m)
    else let m' := mapc_dbl f r t (if threaded then sched else seq 0 n) m in
         (Ok (VArray (map (fun i => (m' (r + i)%nat, m' (t + i)%nat)) (seq 0 n))), m')
  else (Err AssertionError, m).
