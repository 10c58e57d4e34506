(** * SingletonSpec: the life of singletons, seen by their clients. *)
From Verif Require Import Base Names Smap Singleton.
Local Open Scope nat_scope.

(** The number of use<> objects of a singleton that exist after an operation. A use<> object whose construction throws does
    not exist: this happens when it would be the first and the constructor of the singleton throws. *)
Definition uses_step (u : str -> nat) (o : op) : str -> nat :=
  match o with
  | Use n c => fun k => if list_eq_dec Ascii.ascii_dec n k then (if c then S (u k) else match u k with 0 => 0 | S x => S (S x) end) else u k
  | Drop n => fun k => if list_eq_dec Ascii.ascii_dec n k then u k - 1 else u k
  | Deref n => u
  end.
Definition uses (h : list op) : str -> nat := fold_left uses_step h (fun _ => 0).
(** Clients destroy and dereference only use<> objects that exist, and there are less than 2^64 of these. *)
Definition allowed (u : str -> nat) (o : op) : Prop :=
  match o with Use n _ => (N.of_nat (u n) + 1 < 2 ^ 64)%N | Drop n | Deref n => u n <> 0 end.
Fixpoint disciplined_from (u : str -> nat) (h : list op) : Prop :=
  match h with [] => True | o :: r => allowed u o /\ disciplined_from (uses_step u o) r end.
Definition disciplined (h : list op) : Prop := disciplined_from (fun _ => 0) h.

(** The instance of a singleton, if it exists. *)
Definition live (s : sing) (n : str) : option nat :=
  match the_instance s with None => None | Some (_, m) => option_map snd (m_find n m) end.
(** The instances ever created. *)
Definition created (l : list event) : list nat := concat (map (fun e => match e with Created _ i => [i] | Destroyed _ _ => [] end) l).

(** Threads: each one runs its operations in order, the scheduler chooses who is next. *)
Inductive interleaving : list (list op) -> list op -> Prop :=
| interleaving_end ps : Forall (fun p => p = []) ps -> interleaving ps []
| interleaving_step a o p b h : interleaving (a ++ p :: b) h -> interleaving (a ++ (o :: p) :: b) (o :: h).
(** Within a thread every object destroyed or dereferenced was constructed by this thread. *)
Fixpoint own_from (u : str -> nat) (p : list op) : Prop :=
  match p with
  | [] => True
  | o :: r => match o with Use _ c => c = true | Drop n | Deref n => u n <> 0 end /\ own_from (uses_step u o) r
  end.
Definition own (p : list op) : Prop := own_from (fun _ => 0) p.
