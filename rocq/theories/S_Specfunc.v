(** Specification vocabulary for _specfunc: interleavings of loop iterations, sums of cosines. *)
From Verif Require Import Base RSumLib M_Specfunc.
Open Scope nat_scope.
(** the loop iteration an event belongs to *)
Definition iteration (e : event) : nat := match e with Read i | Write i => i end.
(** an interleaving of n iterations, each of which reads and then writes: every event belongs to one of them and, looking at
    one iteration alone, one sees its read followed by its write *)
Definition interleaving (n : nat) (sched : list event) : Prop :=
  (forall e, In e sched -> iteration e < n) /\
  forall i, i < n -> filter (fun e => Nat.eqb (iteration e) i) sched = [Read i; Write i].
(** c_0 / 2 + c_1 cos t + c_2 cos 2t + .. *)
Definition cosine_sum (c : list R) (t : R) : R :=
  (nth 0 c 0 / 2 + rsum (length c - 1) (fun i => nth (S i) c 0 * cos (INR (S i) * t)))%R.
