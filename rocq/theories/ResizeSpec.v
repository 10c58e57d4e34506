(** * ResizeSpec: what resizing types does to the other ones. *)
From Verif Require Import Base Types NamesSpec Names Graph Registry RegistrySpec.
Local Open Scope N_scope.

(** Each field moves by the growth [d] of the types of the fields before it. *)
Fixpoint shifted (d : tid -> N) (g : N) (fs : list fld) : list fld :=
  match fs with
  | [] => []
  | x :: r => Fld (f_name x) (f_off x + g) (f_type x) :: shifted d (g + d (f_type x)) r
  end.
Fixpoint total (d : tid -> N) (fs : list fld) : N :=
  match fs with [] => 0 | x :: r => d (f_type x) + total d r end.
Definition growth (H H' : heap) (t : tid) : N := o_size (H' t) - o_size (H t).

(** The request gives the size [s] to the type [t]. *)
Definition asks (r : reg) (req : list (str * N)) (t : tid) (s : N) : Prop := exists n, In (n, s) req /\ get r n = Some t.
(** [H'] is what [t] should be, given the sizes of the types it depends on. *)
Definition resized (r : reg) (req : list (str * N)) (H H' : heap) (t : tid) : Prop :=
  o_name (H' t) = o_name (H t) /\
  (forall s, asks r req t s -> o_size (H' t) = s /\ o_kind (H' t) = o_kind (H t)) /\
  ((forall s, ~ asks r req t s) ->
     match o_kind (H t) with
     | OComp fs => o_kind (H' t) = OComp (shifted (growth H H') 0 fs) /\ o_size (H' t) = o_size (H t) + total (growth H H') fs
     | OArr d x => o_kind (H' t) = o_kind (H t) /\ o_size (H' t) = d * o_size (H' x)
     | _ => H' t = H t
     end).

(** The sizes of arrays and compounds are those of their elements and fields. *)
Definition sizes_ok (H : heap) (t : tid) : Prop :=
  match o_kind (H t) with
  | OComp fs => Forall (fun x => f_off x + o_size (H (f_type x)) <= o_size (H t)) fs
  | OArr d x => o_size (H t) = d * o_size (H x)
  | _ => True
  end.
(** No type refers to itself, pointers included. *)
Definition acyclic (H : heap) (r : reg) : Prop :=
  exists rank : tid -> nat, forall t d, registered r t -> In d (dependsOn H t) -> (rank d < rank t)%nat.
(** The fields of a compound are in order, do not overlap and are inside. *)
Fixpoint in_order (H : heap) (from : N) (fs : list fld) (size : N) : Prop :=
  match fs with
  | [] => from <= size
  | x :: r => from <= f_off x /\ in_order H (f_off x + o_size (H (f_type x))) r size
  end.
