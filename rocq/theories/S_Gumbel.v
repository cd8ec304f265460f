(** Specification vocabulary for the Gumbel polynomial. *)
From Coquelicot Require Import Coquelicot.
From Verif Require Import Base RSumLib Ext.
Open Scope R_scope.
(** x (x-1) .. (x-n+1) for a real x, and the binomial coefficient with a real upper argument *)
Fixpoint rfalling (x : R) (n : nat) : R := match n with O => 1 | S m => rfalling x m * (x - INR m) end.
Definition rbinom (x : R) (n : nat) : R := rfalling x n / INR (fact n).
(** sum over j = 1 .. n of binom(n, j) binom(alpha j, x) (-1)^(x-j): the mass at x of a sum of n Sibuya(alpha) variables *)
Definition sibuya_sum (alpha : R) (x n : nat) : R :=
  rsum n (fun i => let j := S i in rbinom (INR n) j * rbinom (alpha * INR j) x * (-1) ^ (x + j)).
(** the coefficient a_dk of the Gumbel polynomial *)
Definition gumbel_a (alpha : R) (d k : nat) : R := INR (fact d) / INR (fact k) * sibuya_sum alpha d k.
(** the Gumbel generator exp(-t^alpha) *)
Definition gumbel_generator (alpha t : R) : R := exp (- Rpower t alpha).
(** the coefficients in a returned array: the answer is finite and its k-th number (counted from 1) is f k *)
Definition coefficients (d : nat) (f : nat -> R) : list ext := map (fun i => Fin (f (S i))) (seq 0 d).
(** their logarithms, log 0 = -inf *)
Definition log_coefficients (d : nat) (f : nat -> R) : list ext := map (fun i => elog (Fin (f (S i)))) (seq 0 d).
(** sum of f k x^k *)
Definition polynomial (d : nat) (f : nat -> R) (x : R) : R := rsum d (fun i => f (S i) * x ^ S i).

(** ** What is assumed of scipy's gamma and gammaln *)
Definition pole (x : R) : Prop := exists m : nat, x = - INR m.
Definition gamma_function (gamma : R -> ext) : Prop :=
  gamma 1 = Fin 1 /\
  (forall x, ~ pole x -> exists g, g <> 0 /\ gamma x = Fin g /\ gamma (x + 1) = Fin (x * g)) /\
  (forall x, pole x -> gamma x = Pinf).
Definition log_gamma_function (gamma gammaln : R -> ext) : Prop :=
  forall x, gammaln x = match gamma x with Fin g => Fin (ln (Rabs g)) | _ => Pinf end.
