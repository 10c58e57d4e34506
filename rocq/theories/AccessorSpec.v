(** * AccessorSpec: the parts of a value (specification side). *)
From Verif Require Import Base Types ValueOps.
From Verif Require Import Graph GraphLayoutSpec.
Local Open Scope N_scope.

(** The [i]th of equal pieces of [n] cells. *)
Definition piece (n : N) (i : nat) (m : list cell) : list cell := takeN n (dropN (N.of_nat i * n) m).
(** [part H t m q u k]: in a value of type [t] whose memory is [m], the fields and elements with the indexes [q] lead to a
    value of type [u] with the memory [k]. Pointers lead nowhere. *)
Inductive part (H : heap) : tid -> list cell -> list nat -> tid -> list cell -> Prop :=
| part_self t m : part H t m [] t m
| part_field t fs i f m q u k : o_kind (H t) = OComp fs -> nth_error fs i = Some f ->
    part H (f_type f) (takeN (o_size (H (f_type f))) (dropN (f_off f) m)) q u k -> part H t m (i :: q) u k
| part_array t d x i m q u k : o_kind (H t) = Graph.OArr d x -> N.of_nat i < d ->
    part H x (piece (o_size (H x)) i m) q u k -> part H t m (i :: q) u k
| part_vector t x i m s cap cs q u k : o_kind (H t) = Graph.OCont KVec x -> m = put_obj s (VecObj cap cs) ->
    (N.of_nat i + 1) * o_size (H x) <= lenN cs -> part H x (piece (o_size (H x)) i cs) q u k -> part H t m (i :: q) u k
| part_string t x i m s bs b q u k : o_kind (H t) = Graph.OCont KStr x -> m = put_obj s (StrObj bs) -> nth_error bs i = Some b ->
    part H x [B b] q u k -> part H t m (i :: q) u k.

(** The fields of every structure inside of [t] have different names. *)
Definition named_apart (H : heap) (t : tid) : Prop :=
  forall b fs, b = t \/ holds H t b -> o_kind (H b) = OComp fs -> NoDup (map f_name fs).
