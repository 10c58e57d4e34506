(** * Accessor: Typelib::Accessor and Typelib::Path of the Ruby library (lib/typelib/accessor.rb, path.rb). *)
From Coq Require Import Permutation Sorted.
From Verif Require Import Base Types ValueOps.
From Verif Require Import Graph.
Local Open Scope N_scope.

(** One element of a Path: [:call, [getter, name]] or [:iterate, [iterator]], path.rb:5-51. *)
Inductive pstep := PCall (name : str) | PIterate.
(** A Ruby value object: its type, where it is in the root value (field and element indexes) and its memory. Simplification:
    wrappers and their caches are in Wrapper.v: the same place gives the same wrapper. *)
Definition pvalue : Type := tid * list nat * list cell.

Fixpoint collect {A C} (f : A -> res (list C)) (l : list A) : res (list C) :=
  match l with [] => Ok [] | x :: r => a <- f x ;; b <- collect f r ;; Ok (a ++ b) end.

(** Accessor.traverse_and_find_in_type, accessor.rb:20-52, [p]: the block. The recursion has no other bound than Ruby's stack. *)
Fixpoint traverse (fuel : nat) (H : heap) (p : tid -> bool) (t : tid) : res (list (list pstep)) :=
  match fuel with
  | O => Fuel
  | S f =>
    let own := if p t then [[]] else [] in
    match o_kind (H t) with
    | OComp fs =>
        r <- collect (fun x => a <- traverse f H p (f_type x) ;; Ok (map (cons (PCall (f_name x))) a)) fs ;;
        Ok (own ++ r)
    | OArr _ x | OCont _ x => r <- traverse f H p x ;; Ok (own ++ map (cons PIterate) r)
    | _ => Ok own
    end
  end.
(** matches.sort_by { |p| p.size }, accessor.rb:14: sort_by is not stable, the result is any ordering by size. *)
Definition sort_by_size (l l' : list (list pstep)) : Prop :=
  Permutation l l' /\ StronglySorted (fun a b => length a <= length b)%nat l'.
(** Accessor.find_in_type, accessor.rb:12-16. *)
Definition find_in_type (H : heap) (p : tid -> bool) (t : tid) (r : list (list pstep)) : Prop :=
  exists l, conv (fun f => traverse f H p t) (Ok l) /\ sort_by_size l r.

(** raw_get(name) of compounds, compound_type.rb:473-475, through typelib_get_field (ext/specialized_types.cc) and
    Compound::getField (typemodel.cc): the first field of this name. NoMethodError on other values. *)
Fixpoint find_field (n : str) (fs : list fld) (i : nat) : option (nat * fld) :=
  match fs with [] => None | f :: r => if seqb (f_name f) n then Some (i, f) else find_field n r (S i) end.
Definition raw_get (H : heap) (v : pvalue) (n : str) : res pvalue :=
  let '(t, q, m) := v in
  match o_kind (H t) with
  | OComp fs =>
      match find_field n fs 0 with
      | None => Throw EArg
      | Some (i, f) => Ok (f_type f, q ++ [i], takeN (o_size (H (f_type f))) (dropN (f_off f) m))
      end
  | _ => Throw EType
  end.
(** raw_each of arrays, array_type.rb:85-93 and 154-156, with array_get (ext/specialized_types.cc:236-257); of containers,
    container_type.rb:160-165 and 318-326, with Vector::getElement/visit and the same of String (containers.cc). *)
Definition raw_each (H : heap) (v : pvalue) : res (list pvalue) :=
  let '(t, q, m) := v in
  match o_kind (H t) with
  | OArr d x => let z := o_size (H x) in
      Ok (map (fun i => (x, q ++ [i], takeN z (dropN (N.of_nat i * z) m))) (seq 0 (N.to_nat d)))
  | OCont KVec x => let z := o_size (H x) in
      '(o, _) <- take_obj (o_size (H t)) m ;;
      match o with
      | VecObj _ cs => Ok (map (fun i => (x, q ++ [i], takeN z (dropN (N.of_nat i * z) cs))) (seq 0 (N.to_nat (lenN cs / z))))
      | _ => UB URaw
      end
  | OCont KStr x =>
      '(o, _) <- take_obj (o_size (H t)) m ;;
      match o with
      | StrObj bs => Ok (map (fun i => (x, q ++ [i], [B (nth i bs 0)])) (seq 0 (length bs)))
      | _ => UB URaw
      end
  | _ => Throw EType
  end.
(** Path#resolve, #call and #iterate, path.rb:54-83. *)
Fixpoint resolve (H : heap) (a : list pstep) (v : pvalue) : res (list pvalue) :=
  match a with
  | [] => Ok [v]
  | PCall n :: a' => v' <- raw_get H v n ;; resolve H a' v'
  | PIterate :: a' => es <- raw_each H v ;; collect (resolve H a') es
  end.
(** Accessor#each, accessor.rb:54-63: the values it yields, in this order. *)
Definition each (H : heap) (paths : list (list pstep)) (root : pvalue) : res (list pvalue) :=
  collect (fun a => resolve H a root) paths.
