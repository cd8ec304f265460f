(** Specification vocabulary for shared mixture parameters. *)
From Verif Require Import Base RSumLib Ext M_Linalg M_Gmc M_GmcShare.
Open Scope nat_scope.

(** every name in use was handed out *)
Definition in_use (s : store) : Prop :=
  (forall o, o < next_obj s -> q_prob (objs s o) < next_array s /\ q_means (objs s o) < next_array s)
  /\ forall c o, k_param (cops s c) = Some o -> o < next_obj s.
(** an operation on names that exist *)
Definition known (s : store) (x : op) : Prop :=
  match x with
  | WriteVec a _ _ | WriteTab a _ _ _ => a < next_array s
  | SetProb o a | SetMeans o a => o < next_obj s /\ a < next_array s
  | SetCovs o _ | ToVector o | SetParam _ o => o < next_obj s
  | SetDict _ a b _ => a < next_array s /\ b < next_array s
  | SetVector _ _ | SetBest _ _ => True
  end.
(** an operation that names the copula c, the object o, its weights a or its means b *)
Definition names (c o a b : nat) (x : op) : Prop :=
  match x with
  | WriteVec i _ _ => i = a
  | WriteTab i _ _ _ => i = b
  | SetProb p i => p = o \/ i = a
  | SetMeans p i => p = o \/ i = b
  | SetCovs p _ | ToVector p => p = o
  | SetParam k p => k = c \/ p = o
  | SetDict k i j _ => k = c \/ i = a \/ j = b
  | SetVector k _ | SetBest k _ => k = c
  end.
(** the object o and its arrays belong to the copula c alone *)
Definition owns (s : store) (c o : nat) : Prop :=
  k_param (cops s c) = Some o /\ (forall c', c' <> c -> k_param (cops s c') <> Some o)
  /\ forall o', o' < next_obj s -> o' <> o -> q_prob (objs s o') <> q_prob (objs s o) /\ q_means (objs s o') <> q_means (objs s o).
(** the copula as a value of M_Gmc *)
Definition as_value (s : store) (c : nat) (method : option string) : copula := mkCop (k_clusters (cops s c)) (k_dim (cops s c)) (shown_copula s c) method.
(** the parameters given, as values *)
Definition given (s : store) (x : op) : option (nat * params_in) :=
  match x with
  | SetParam c o => Some (c, PParam (shown s o))
  | SetDict c a b v => Some (c, PDict (map Fin (vecs s a)) (tabs s b) v)
  | SetVector c v => Some (c, PVector v)
  | SetBest c p => Some (c, PParam p)
  | _ => None
  end.
(** a history on existing names that names neither the copula c nor what it owns *)
Fixpoint apart (eig : mat R -> list R) (cn : mat R -> mat R) (s : store) (c o a b : nat) (l : list op) : Prop :=
  match l with [] => True | x :: r => known s x /\ ~ names c o a b x /\ apart eig cn (fst (step eig cn s x)) c o a b r end.
