(** The assumptions about eigenvalues used in several theorems can be met: every symmetric matrix has a smallest eigenvalue. *)
From Verif Require Import Base RSumLib S_Matrix S_Linalg M_Linalg P_Linalg.
Open Scope R_scope.

Lemma square_dot n (b x : nat -> R) : rsum n (fun i => b i * x i) * rsum n (fun i => b i * x i) <= rsum n (fun i => b i * b i) * norm2 n x.
Proof.
  induction n as [|n IH]; cbn; [lra|]. unfold norm2 in *. cbn [rsum].
  set (s := rsum n (fun i => b i * x i)) in *. set (B := rsum n (fun i => b i * b i)) in *. set (X := rsum n (fun i => x i * x i)) in *.
  assert (0 <= B) by (apply rsum_nonneg; intros; nra). assert (0 <= X) by (apply rsum_nonneg; intros; nra).
  assert (2 * s * (b n * x n) <= B * (x n * x n) + X * (b n * b n)); [|nra].
  (* 2 s b x <= 2 sqrt(B) |x| sqrt(X) |b| *)
  assert (S2 : s * s <= B * X) by exact IH.
  assert (Q : (2 * s * (b n * x n)) * (2 * s * (b n * x n)) <= (B * (x n * x n) + X * (b n * b n)) * (B * (x n * x n) + X * (b n * b n))).
  { assert (0 <= (b n * x n) * (b n * x n)) by nra.
    assert (s * s * ((b n * x n) * (b n * x n)) <= B * X * ((b n * x n) * (b n * x n))) by (apply Rmult_le_compat_r; assumption).
    assert (0 <= (B * (x n * x n) - X * (b n * b n)) * (B * (x n * x n) - X * (b n * b n))) by apply Rle_0_sqr. nra. }
  assert (0 <= B * (x n * x n) + X * (b n * b n)) by (assert (0 <= x n * x n) by nra; assert (0 <= b n * b n) by nra; assert (0 <= B * (x n * x n)) by (apply Rmult_le_pos; assumption); assert (0 <= X * (b n * b n)) by (apply Rmult_le_pos; assumption); lra).
  apply Rsqr_incr_0_var; [unfold Rsqr; exact Q|assumption].
Qed.
Definition sym_on (n : nat) (m : nat -> nat -> R) : Prop := forall i j, (i < n)%nat -> (j < n)%nat -> m i j = m j i.
Lemma quad_S n m x : sym_on (S n) m -> quad (S n) m x = quad n m x + 2 * x n * rsum n (fun i => m i n * x i) + x n * m n n * x n.
Proof.
  intros Sy. unfold quad. cbn [rsum]. rewrite rsum_plus.
  rewrite (rsum_ext n (fun j => x n * m n j * x j) (fun i => x n * (m i n * x i))) by (intros i Hi; rewrite (Sy n i) by lia; ring).
  rewrite (rsum_ext n (fun i => x i * m i n * x n) (fun i => x n * (m i n * x i))) by (intros; ring). rewrite rsum_scal. ring.
Qed.
Lemma quad_schur n m x : sym_on (S n) m -> m n n <> 0 ->
  quad (S n) m x = m n n * ((x n + rsum n (fun i => m i n / m n n * x i)) * (x n + rsum n (fun i => m i n / m n n * x i)))
                   + quad n (fun i j => m i j - m i n * m j n / m n n) x.
Proof.
  intros Sy Ha. rewrite quad_S by exact Sy.
  rewrite (rsum_ext n (fun i => m i n / m n n * x i) (fun i => / m n n * (m i n * x i))) by (intros; unfold Rdiv; ring). rewrite rsum_scal.
  set (s := rsum n (fun i => m i n * x i)).
  assert (E : quad n (fun i j => m i j - m i n * m j n / m n n) x = quad n m x - s * s / m n n).
  { unfold s, quad. unfold Rdiv. rewrite rsum_mul, <- rsum_scal_r, <- rsum_minus. apply rsum_ext. intros i _. rewrite <- rsum_scal_r, <- rsum_minus. apply rsum_ext. intros j _. ring. }
  rewrite E. field. exact Ha.
Qed.
Lemma pos_def_bound n : forall m, sym_on n m -> pos_def n m -> exists eps, 0 < eps /\ forall x, eps * norm2 n x <= quad n m x.
Proof.
  induction n as [|n IH]; intros m Sy Pd; [exists 1; split; [lra|]; intros x; cbn; unfold norm2, quad; cbn; lra|].
  assert (Ha : 0 < m n n).
  { specialize (Pd (fun i => if Nat.eqb i n then 1 else 0)). rewrite quad_S in Pd by exact Sy. rewrite Nat.eqb_refl in Pd.
    assert (Z : forall f, rsum n (fun i => f i * (if Nat.eqb i n then 1 else 0)) = 0) by (intros f; apply rsum_zero; intros i Hi; rewrite (proj2 (Nat.eqb_neq i n)) by lia; ring).
    assert (Q : quad n m (fun i => if Nat.eqb i n then 1 else 0) = 0) by (unfold quad; apply rsum_zero; intros i Hi; apply rsum_zero; intros j Hj; rewrite (proj2 (Nat.eqb_neq i n)) by lia; ring).
    rewrite Q, (Z (fun i => m i n)) in Pd. assert (0 < 0 + 2 * 1 * 0 + 1 * m n n * 1); [|lra]. apply Pd. exists n. split; [lia|]. rewrite Nat.eqb_refl. lra. }
  set (m' := fun i j => m i j - m i n * m j n / m n n). set (lin := fun x : nat -> R => rsum n (fun i => m i n / m n n * x i)).
  destruct (IH m') as [e' [He' Hb]].
  - intros i j Hi Hj. unfold m'. rewrite (Sy i j) by lia. unfold Rdiv. ring.
  - intros x [i [Hi Hx]]. set (y := fun k => if Nat.eqb k n then - lin x else x k).
    assert (Ey : forall k, (k < n)%nat -> y k = x k) by (intros k Hk; unfold y; rewrite (proj2 (Nat.eqb_neq k n)) by lia; reflexivity).
    assert (Py : 0 < quad (S n) m y) by (apply Pd; exists i; split; [lia|rewrite Ey by exact Hi; exact Hx]).
    rewrite quad_schur in Py by (try exact Sy; lra). fold m' in Py. fold (lin y) in Py.
    assert (El : lin y = lin x) by (apply rsum_ext; intros k Hk; rewrite Ey by exact Hk; reflexivity).
    assert (Eq : quad n m' y = quad n m' x) by (unfold quad; apply rsum_ext; intros a Ha'; apply rsum_ext; intros b Hb; rewrite !Ey by assumption; reflexivity).
    rewrite El, Eq in Py. unfold y in Py. rewrite Nat.eqb_refl in Py. replace (- lin x + lin x) with 0 in Py by ring. lra.
  - set (B := rsum n (fun i => m i n / m n n * (m i n / m n n))). assert (HB : 0 <= B) by (apply rsum_nonneg; intros; apply Rle_0_sqr).
    exists (Rmin (e' / (1 + 2 * B)) (m n n / 2)). assert (0 < e' / (1 + 2 * B)) by (apply Rdiv_lt_0_compat; lra).
    split; [apply Rmin_glb_lt; lra|]. intros x. rewrite quad_schur by (try exact Sy; lra). fold m' (lin x). set (eps := Rmin (e' / (1 + 2 * B)) (m n n / 2)).
    assert (E1 : eps * (1 + 2 * B) <= e').
    { apply Rle_trans with (e' / (1 + 2 * B) * (1 + 2 * B)); [apply Rmult_le_compat_r; [lra|apply Rmin_l]|]. right. field. lra. }
    assert (E2 : eps <= m n n / 2) by apply Rmin_r. assert (E0 : 0 < eps) by (apply Rmin_glb_lt; lra).
    specialize (Hb x). pose proof (square_dot n (fun i => m i n / m n n) x) as CS. cbv beta in CS. fold (lin x) B in CS.
    unfold norm2. cbn [rsum]. fold (norm2 n x). pose proof (norm2_nonneg n x) as N0. set (N := norm2 n x) in *. set (l := lin x) in *. set (s := x n + l).
    assert (T : x n * x n <= 2 * (s * s) + 2 * (l * l)) by (unfold s; assert (0 <= (x n + 2 * l) * (x n + 2 * l)) by apply Rle_0_sqr; nra).
    assert (0 <= s * s) by apply Rle_0_sqr.
    assert (eps * (x n * x n) <= eps * (2 * (s * s) + 2 * (B * N))) by (apply Rmult_le_compat_l; lra).
    assert (eps * (1 + 2 * B) * N <= e' * N) by (apply Rmult_le_compat_r; assumption). assert (eps * (2 * (s * s)) <= m n n * (s * s)) by nra. nra.
Qed.

(** ** The smallest eigenvalue *)
Definition floors (m : mat R) (c : R) : Prop := forall x, c * norm2 (nr m) x <= quad (nr m) (lower_sym m) x.
Lemma floors_bound m k : nr m = S k -> bound (floors m).
Proof.
  intros Hn. exists (quad (nr m) (lower_sym m) (fun i => if Nat.eqb i 0 then 1 else 0)). intros c Hc. specialize (Hc (fun i => if Nat.eqb i 0 then 1 else 0)).
  assert (E : norm2 (nr m) (fun i => if Nat.eqb i 0 then 1 else 0) = 1); [|rewrite E in Hc; lra].
  unfold norm2. rewrite (rsum_ext _ _ (fun i => if Nat.eqb i 0 then 1 else 0)) by (intros i _; destruct (Nat.eqb i 0); ring). apply (rsum_delta (nr m) 0 (fun _ => 1)). lia.
Qed.
Lemma coord_norm2 n x i : (i < n)%nat -> x i * x i <= norm2 n x.
Proof.
  intros Hi. unfold norm2. rewrite <- (rsum_delta n i (fun i => x i * x i) Hi). apply rsum_le. intros k _. destruct (Nat.eqb k i); [lra|nra].
Qed.
Lemma floors_exists m : exists c, floors m c.
Proof.
  set (n := nr m). exists (- rsum n (fun i => rsum n (fun j => Rabs (lower_sym m i j)))). intros x. fold n.
  replace (- rsum n (fun i => rsum n (fun j => Rabs (lower_sym m i j))) * norm2 n x) with (- (rsum n (fun i => rsum n (fun j => Rabs (lower_sym m i j))) * norm2 n x)) by ring.
  rewrite <- rsum_scal_r, <- rsum_opp. apply rsum_le. intros i Hi. rewrite <- rsum_scal_r, <- rsum_opp. apply rsum_le. intros j Hj.
  pose proof (coord_norm2 n x i Hi). pose proof (coord_norm2 n x j Hj). set (a := lower_sym m i j). assert (P : Rabs (x i * x j) <= norm2 n x).
  { unfold Rabs. destruct (Rcase_abs _); [assert (0 <= (x i + x j) * (x i + x j)) by apply Rle_0_sqr|assert (0 <= (x i - x j) * (x i - x j)) by apply Rle_0_sqr]; nra. }
  assert (Rabs (a * (x i * x j)) <= Rabs a * norm2 n x) by (rewrite Rabs_mult; apply Rmult_le_compat_l; [apply Rabs_pos|exact P]).
  pose proof (Rle_abs (- (a * (x i * x j)))) as Q. rewrite Rabs_Ropp in Q. lra.
Qed.
Definition smallest (m : mat R) : list R :=
  match nr m as n return nr m = n -> list R with
  | O => fun _ => []
  | S k => fun E => [proj1_sig (completeness (floors m) (floors_bound m k E) (floors_exists m))]
  end eq_refl.
Lemma smallest_S m k : nr m = S k -> exists e, smallest m = [e] /\ is_lub (floors m) e.
Proof.
  intros E. unfold smallest.
  assert (G : forall n (Q : nr m = n), n = S k -> exists e, (match n as n0 return nr m = n0 -> list R with
    | O => fun _ => [] | S k => fun E => [proj1_sig (completeness (floors m) (floors_bound m k E) (floors_exists m))] end) Q = [e] /\ is_lub (floors m) e).
  { intros n Q ->. eexists. split; [reflexivity|]. apply (proj2_sig (completeness (floors m) (floors_bound m k Q) (floors_exists m))). }
  exact (G (nr m) eq_refl E).
Qed.
Lemma smallest_O m : nr m = O -> smallest m = [].
Proof.
  intros E. unfold smallest.
  assert (G : forall n (Q : nr m = n), n = O -> (match n as n0 return nr m = n0 -> list R with
    | O => fun _ => [] | S k => fun E => [proj1_sig (completeness (floors m) (floors_bound m k E) (floors_exists m))] end) Q = []) by (intros n Q ->; reflexivity).
  exact (G (nr m) eq_refl E).
Qed.
Lemma norm2_pos n x : (exists i, (i < n)%nat /\ x i <> 0) -> 0 < norm2 n x.
Proof. intros [i [Hi Hx]]. pose proof (coord_norm2 n x i Hi). nra. Qed.

Theorem rayleigh_exists : exists eig : mat R -> list R, forall m, rayleigh (eig m) m.
Proof.
  exists smallest. intros m c. destruct (nr m) as [|k] eqn:E.
  - rewrite (smallest_O m E). unfold norm2, quad. cbn. split; split; intros; try lra; try contradiction. destruct H0 as [i [Hi _]]. lia.
  - destruct (smallest_S m k E) as [e [-> [Hub Hlub]]]. rewrite <- E.
    assert (Fe : floors m e).
    { intros x. destruct (floors_exists m) as [c0 Hc0]. pose proof (Hc0 x) as H0. pose proof (norm2_nonneg (nr m) x) as N. destruct (Req_dec (norm2 (nr m) x) 0) as [Z|Z].
      - rewrite Z in *. lra.
      - assert (e <= quad (nr m) (lower_sym m) x / norm2 (nr m) x).
        { apply Hlub. intros c' Hc'. specialize (Hc' x). apply (Rmult_le_reg_r (norm2 (nr m) x)); [lra|]. unfold Rdiv. rewrite Rmult_assoc, Rinv_l by exact Z. lra. }
        apply (Rmult_le_compat_r (norm2 (nr m) x)) in H; [|lra]. unfold Rdiv in H. rewrite Rmult_assoc, Rinv_l in H by exact Z. lra. }
    split; split.
    + intros H x. assert (c <= e) by (apply H; left; reflexivity). specialize (Fe x). pose proof (norm2_nonneg (nr m) x). nra.
    + intros H e' [<-|[]]. apply Hub. exact H.
    + intros H x Hx. assert (c < e) by (apply H; left; reflexivity). specialize (Fe x). pose proof (norm2_pos (nr m) x Hx). nra.
    + intros H e' [<-|[]].
      destruct (pos_def_bound (nr m) (fun i j => lower_sym m i j - (if Nat.eqb i j then c else 0))) as [eps [He Hb]].
      * intros i j _ _. unfold lower_sym. rewrite (Nat.eqb_sym j i). destruct (Nat.eqb_spec i j) as [->|N]; [reflexivity|].
        destruct (Nat.ltb_spec i j), (Nat.ltb_spec j i); try lia; reflexivity.
      * intros x Hx. specialize (H x Hx).
        assert (Q : quad (nr m) (fun i j => lower_sym m i j - (if Nat.eqb i j then c else 0)) x = quad (nr m) (lower_sym m) x - c * norm2 (nr m) x).
        { unfold quad, norm2. rewrite <- rsum_scal, <- rsum_minus. apply rsum_ext. intros i Hi. rewrite <- (rsum_delta (nr m) i (fun j => c * (x i * x j)) Hi) at 1.
          rewrite <- rsum_minus. apply rsum_ext. intros j _. rewrite (Nat.eqb_sym j i). destruct (Nat.eqb i j); ring. }
        rewrite Q. lra.
      * assert (floors m (c + eps)).
        { intros x. specialize (Hb x).
          assert (Q : quad (nr m) (fun i j => lower_sym m i j - (if Nat.eqb i j then c else 0)) x = quad (nr m) (lower_sym m) x - c * norm2 (nr m) x).
          { unfold quad, norm2. rewrite <- rsum_scal, <- rsum_minus. apply rsum_ext. intros i Hi. rewrite <- (rsum_delta (nr m) i (fun j => c * (x i * x j)) Hi) at 1.
            rewrite <- rsum_minus. apply rsum_ext. intros j _. rewrite (Nat.eqb_sym j i). destruct (Nat.eqb i j); ring. }
          rewrite Q in Hb. lra. }
        assert (c + eps <= e) by (apply Hub; assumption). lra.
Qed.
