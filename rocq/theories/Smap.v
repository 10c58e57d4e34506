(** * Smap: std::map, std::set and std::multimap with std::string keys (libstdc++), as sorted lists. *)
From Verif Require Import Base.
From Verif Require Import Names Graph Registry.
Local Open Scope nat_scope.

(** std::map: find, insert (does nothing if the key is there), erase(key). *)
Definition smap (A : Type) := list (str * A).
Fixpoint m_find {A} (n : str) (m : smap A) : option A :=
  match m with [] => None | (k, v) :: r => if seqb k n then Some v else m_find n r end.
Fixpoint m_insert {A} (n : str) (v : A) (m : smap A) : smap A :=
  match m with
  | [] => [(n, v)]
  | (k, x) :: r => if slt k n then (k, x) :: m_insert n v r else if slt n k then (n, v) :: m else m
  end.
Definition m_erase {A} (n : str) (m : smap A) : smap A := filter (fun p => negb (seqb (fst p) n)) m.
(** The assignment m[n] = v (also used for in-place updates of a mapped value). *)
Definition m_set {A} (n : str) (v : A) (m : smap A) : smap A := m_insert n v (m_erase n m).
(** std::multimap::insert: at the end of the range of the key (C++11). *)
Fixpoint mm_insert {A} (n : str) (v : A) (m : smap A) : smap A :=
  match m with
  | [] => [(n, v)]
  | (k, x) :: r => if slt n k then (n, v) :: m else (k, x) :: mm_insert n v r
  end.
(** std::set::insert is Registry.set_insert. *)
