(** * CastSpec: the numbers in a value (specification side). *)
From Verif Require Import Base Types ValueOps.
Local Open Scope N_scope.

(** [contains t m n c bs]: the value [m] of type [t] holds, at some depth, a number of [n] bytes and category [c] whose
    bytes are [bs]. *)
Fixpoint contains (t : ty) (m : list cell) (n : N) (c : ncat) (bs : list N) : Prop :=
  match t with
  | TNull | TOpaque _ | TPtr _ | TEnum _ _ => False
  | TNum n' c' => n' = n /\ c' = c /\ m = map B bs
  | TArray _ d e => exists xs x, m = concat xs /\ lenN xs = d /\ Forall (fun y => lenN y = sizeof e) xs /\ In x xs /\ contains e x n c bs
  | TCont KVec s e => exists cap xs x, m = put_obj s (VecObj cap (concat xs)) /\ Forall (fun y => lenN y = sizeof e) xs /\ In x xs /\
                                       contains e x n c bs
  | TCont KStr s e => exists chars b, m = put_obj s (StrObj chars) /\ In b chars /\ contains e [B b] n c bs
  | TComp s fs => contains_field fs m n c bs
  end
with contains_field (fs : fields) (m : list cell) (n : N) (c : ncat) (bs : list N) : Prop :=
  match fs with
  | FNil => False
  | FCons _ off t r => contains t (slice off (sizeof t) m) n c bs \/ contains_field r m n c bs
  end.
(** The type has a number of [n] bytes and category [c] in it. *)
Fixpoint has_num (t : ty) (n : N) (c : ncat) : Prop :=
  match t with
  | TNum n' c' => n' = n /\ c' = c
  | TArray _ _ e | TCont _ _ e => has_num e n c
  | TComp _ fs => has_num_field fs n c
  | _ => False
  end
with has_num_field (fs : fields) (n : N) (c : ncat) : Prop :=
  match fs with
  | FNil => False
  | FCons _ _ t r => has_num t n c \/ has_num_field r n c
  end.

(** The first field with the name: its offset and type. *)
Inductive first_field (name : str) : fields -> N -> ty -> Prop :=
| ff_here off t r : first_field name (FCons name off t r) off t
| ff_next nm o u r off t : nm <> name -> first_field name r off t -> first_field name (FCons nm o u r) off t.
Fixpoint field_names (fs : fields) : list str := match fs with FNil => [] | FCons nm _ _ r => nm :: field_names r end.
