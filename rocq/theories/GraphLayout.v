(** * GraphLayout: the layout visitor on type objects (typelib/memory_layout.cc), which may refer to themselves.

    Layout.v models the visitor on trees. Type objects form graphs (Graph.v), in which a compound can hold pointers to
    itself, or a container of itself; here the visitor follows the references between objects. *)
From Verif Require Import Base Types Layout.
From Verif Require Import Graph.
Local Open Scope N_scope.

(** The word that holds the address of the Container object [c] (memory_layout.cc:70,108): the address is the identity
    of the object; the other two components of the word are not used. *)
Definition addr (c : tid) : word := WC KVec (N.of_nat c) TNull.
(** MemoryLayout::pushContainer and pushInitContainer, memory_layout.cc:67-75,106-109. *)
Definition push_container_at (c : tid) (sub : layout) (l : layout) : layout :=
  mkLayout (ops l ++ [W FLAG_CONTAINER; addr c] ++ ops sub ++ [W FLAG_END])
           (iops l ++ [W FLAG_INIT_CONTAINER; addr c]).

(** The loop of MemLayout::Visitor::visit_(Compound), memory_layout.cc:594-599, [rec]: TypeVisitor::dispatch. *)
Fixpoint gvisit_fields (H : heap) (rec : tid -> layout -> res layout) (fs : list fld) (cur : N) (l : layout) : res (layout * N) :=
  match fs with
  | [] => Ok (l, cur)
  | f :: r =>
      l' <- rec (f_type f) (push_skip (wsub (f_off f) cur) l) ;;
      gvisit_fields H rec r (wadd (f_off f) (o_size (H (f_type f)))) l'
  end.
(** MemLayout::Visitor, memory_layout.cc:546-622, with TypeVisitor::dispatch (typevisitor.cc:37-60). [fuel] bounds the
    depth of the recursion. *)
Fixpoint gvisit (fuel : nat) (ap ao : bool) (H : heap) (t : tid) (l : layout) : res layout :=
  match fuel with
  | O => Fuel
  | S f =>
    match o_kind (H t) with
    | ONull => Throw ENullType
    | OOpaque => if ao then Ok (push_skip (o_size (H t)) l) else Throw ENoLayout
    | ONum _ => push_memcpy (o_size (H t)) [] l
    | OEnum vs => if 8 <? o_size (H t) then Throw ERuntime else push_memcpy (o_size (H t)) (enum_init (o_size (H t)) vs) l
    | OPtr _ => if ap then push_memcpy (o_size (H t)) [] l else Throw ENoLayout
    | Graph.OArr d e => sub <- gvisit f false false H e empty_layout ;; Ok (push_array d sub l)
    | Graph.OCont _ e => sub <- gvisit f false false H e empty_layout ;; Ok (push_container_at t sub l)
    | OComp fs =>
        '(l', cur) <- gvisit_fields H (gvisit f ap ao H) fs 0 l ;;
        Ok (push_skip (wsub (o_size (H t)) cur) l')
    end
  end.
(** layout_of, memory_layout.hh:180-184 (raw_layout_of, memory_layout.hh:155-161). MemoryLayout::simplify is the function
    of Layout.v: it copies the addresses of the containers without looking at them. *)
Definition glayout_of (fuel : nat) (ap ao merge rts : bool) (H : heap) (t : tid) : res layout :=
  l <- gvisit fuel ap ao H t empty_layout ;; simplify merge rts l.
