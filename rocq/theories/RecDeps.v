(** * RecDeps: Type.recursive_dependencies, bindings/ruby/lib/typelib/type.rb:154-182.

    Types are numbers; [deps t]: direct_dependencies of t, in the order of the set (which comes from a std::set of pointers). Each type
    class keeps its set in an instance variable, here a table. *)
From Verif Require Import Base.
Local Open Scope nat_scope.

Section RecDeps.
  Variable deps : nat -> list nat.
  Definition memo := nat -> option (list nat).
  Definition no_memo : memo := fun _ => None.
  Definition put (m : memo) (t : nat) (l : list nat) : memo := fun u => if u =? t then Some l else m u.
  Definition get (m : memo) (t : nat) : list nat := match m t with Some l => l | None => [] end.
  (** The loop of type.rb:170-173; [rec]: recursive_dependencies of another type. *)
  Fixpoint each_dep (rec : memo -> nat -> option memo) (m : memo) (t : nat) (ds : list nat) : option memo :=
    match ds with
    | [] => Some m
    | d :: r =>
        let m1 := put m t (get m t ++ [d]) in
        match rec m1 d with
        | None => None
        | Some m2 => each_dep rec (put m2 t (get m2 t ++ get m2 d)) t r
        end
    end.
  Fixpoint rec_deps (fuel : nat) (m : memo) (t : nat) : option memo :=
    match fuel with
    | 0 => None
    | S f => match m t with
             | Some _ => Some m
             | None => each_dep (rec_deps f) (put m t []) t (deps t)
             end
    end.
  (** A sequence of calls, and what they return (as lists: sets, here with repetitions). *)
  Fixpoint calls (fuel : nat) (m : memo) (l : list nat) : option (list (list nat)) :=
    match l with
    | [] => Some []
    | t :: r => match rec_deps fuel m t with Some m' => option_map (cons (get m' t)) (calls fuel m' r) | None => None end
    end.
End RecDeps.
