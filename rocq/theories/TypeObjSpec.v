(** * TypeObjSpec: histories of calls (specification side). *)
From Coq Require Import Sorted.
From Verif Require Import Base Types.
Local Open Scope N_scope.

(** In the history [h] of add(name, value) calls, the first one for the name [n] had the value [v]. *)
Definition first_def (n : str) (h : list (str * Z)) (v : Z) : Prop := exists a b, h = a ++ (n, v) :: b /\ ~ In n (map fst a).
(** The order of std::string: lexicographic on the character codes. *)
Inductive str_lt : str -> str -> Prop :=
| lt_nil c s : str_lt [] (c :: s)
| lt_head c d s t : (nat_of_ascii c < nat_of_ascii d)%nat -> str_lt (c :: s) (d :: t)
| lt_tail c s t : str_lt s t -> str_lt (c :: s) (c :: t).
Definition alphabetical (l : list str) : Prop := StronglySorted str_lt l.
Definition is_int (z : Z) : Prop := (-2147483648 <= z <= 2147483647)%Z.
