(** * ValueSpec: what a value in memory is (specification side).

    Nothing here mentions the bytecode or the interpreters: only the type description and the memory. *)
From Verif Require Import Base Types Layout ValueOps.
Local Open Scope N_scope.

(** [n] bytes that hold no live container. *)
Definition bytes (n : N) (m : list cell) : Prop := exists bs, lenN bs = n /\ m = map B bs.

(** [valid t m]: the cells [m] are exactly the memory of a live value of type [t]: bytes for the numerics,
    enums and pointers, anything for the padding, a live container object at each container field, whose
    buffer is a sequence of valid elements (with a capacity and a size a real vector can have). *)
Fixpoint valid (t : ty) (m : list cell) : Prop :=
  match t with
  | TNull | TOpaque _ => False
  | TNum n _ | TEnum n _ | TPtr n => bytes n m
  | TArray _ d e => exists ms, lenN ms = d /\ m = concat ms /\ Forall (valid e) ms
  | TCont KVec s e =>
      exists cap ms, m = put_obj s (VecObj cap (concat ms)) /\ Forall (valid e) ms /\
                     lenN (concat ms) <= cap /\ cap <= max_size
  | TCont KStr s _ => exists bs, m = put_obj s (StrObj bs) /\ lenN bs <= max_size
  | TComp s fs => valid_fields fs 0 s m
  end
with valid_fields (fs : fields) (cur s : N) (m : list cell) : Prop :=
  match fs with
  | FNil => bytes (s - cur) m
  | FCons _ off t r =>
      exists p a b, m = p ++ a ++ b /\ bytes (off - cur) p /\ valid t a /\
                    valid_fields r (off + sizeof t) s b
  end.

(** [same t a b]: [a] and [b] are valid values of type [t] and they are logically equal: same numbers,
    enums and pointers, same number of elements, element by element the same; padding and capacities do
    not count. *)
Fixpoint same (t : ty) (a b : list cell) : Prop :=
  match t with
  | TNull | TOpaque _ => False
  | TNum n _ | TEnum n _ | TPtr n => bytes n a /\ a = b
  | TArray _ d e => exists xs ys, lenN xs = d /\ a = concat xs /\ b = concat ys /\ Forall2 (same e) xs ys
  | TCont KVec s e =>
      exists ca cb xs ys, a = put_obj s (VecObj ca (concat xs)) /\ b = put_obj s (VecObj cb (concat ys)) /\
        Forall2 (same e) xs ys /\ lenN (concat xs) <= ca /\ ca <= max_size /\
        lenN (concat ys) <= cb /\ cb <= max_size
  | TCont KStr s _ => exists bs, a = put_obj s (StrObj bs) /\ b = put_obj s (StrObj bs) /\ lenN bs <= max_size
  | TComp s fs => same_fields fs 0 s a b
  end
with same_fields (fs : fields) (cur s : N) (a b : list cell) : Prop :=
  match fs with
  | FNil => bytes (s - cur) a /\ bytes (s - cur) b
  | FCons _ off t r =>
      exists p x y q z w, a = p ++ x ++ y /\ b = q ++ z ++ w /\ bytes (off - cur) p /\ bytes (off - cur) q /\
        same t x z /\ same_fields r (off + sizeof t) s y w
  end.

(** [image t m bs]: [bs] is the marshalled form of the value [m]: the bytes in memory order, padding
    included, where a container is replaced by its number of elements (8 bytes, little endian) followed by
    the images of its elements. (dump leaves out trailing padding of the outermost type.) *)
Fixpoint image (t : ty) (m : list cell) (bs : list N) : Prop :=
  match t with
  | TNull | TOpaque _ => False
  | TNum n _ | TEnum n _ | TPtr n => lenN bs = n /\ m = map B bs
  | TArray _ d e => exists ms bss, lenN ms = d /\ m = concat ms /\ bs = concat bss /\ Forall2 (image e) ms bss
  | TCont KVec s e =>
      exists cap ms bss, m = put_obj s (VecObj cap (concat ms)) /\ lenN (concat ms) <= cap /\ cap <= max_size /\
        Forall2 (image e) ms bss /\ bs = le_bytes 8 (lenN ms) ++ concat bss
  | TCont KStr s _ => exists cs, m = put_obj s (StrObj cs) /\ lenN cs <= max_size /\ bs = le_bytes 8 (lenN cs) ++ cs
  | TComp s fs => image_fields fs 0 s m bs
  end
with image_fields (fs : fields) (cur s : N) (m : list cell) (bs : list N) : Prop :=
  match fs with
  | FNil => lenN bs = s - cur /\ m = map B bs
  | FCons _ off t r =>
      exists p a b bp ba bb, m = p ++ a ++ b /\ bs = bp ++ ba ++ bb /\
        (lenN bp = off - cur /\ p = map B bp) /\ image t a ba /\ image_fields r (off + sizeof t) s b bb
  end.

(** [initialised t m m']: what Typelib::init must do to raw memory [m]: containers are constructed empty,
    an enum that has symbols is set to the value of one of them, everything else is left alone. *)
Definition enum_bytes (n : N) (v : Z) : list N := le_bytes (N.to_nat n) (Z.to_N (v mod Z.of_N two64)).
Fixpoint initialised (t : ty) (m m' : list cell) : Prop :=
  match t with
  | TNull | TOpaque _ => False
  | TNum n _ | TPtr n => bytes n m /\ m' = m
  | TEnum n vs =>
      bytes n m /\
      match vs with
      | [] => m' = m
      | _ => exists sym v, In (sym, v) vs /\ m' = map B (enum_bytes n v)
      end
  | TArray _ d e => exists ms ms', lenN ms = d /\ m = concat ms /\ m' = concat ms' /\ Forall2 (initialised e) ms ms'
  | TCont KVec s _ => bytes s m /\ m' = put_obj s (VecObj 0 [])
  | TCont KStr s _ => bytes s m /\ m' = put_obj s (StrObj [])
  | TComp s fs => initialised_fields fs 0 s m m'
  end
with initialised_fields (fs : fields) (cur s : N) (m m' : list cell) : Prop :=
  match fs with
  | FNil => bytes (s - cur) m /\ m' = m
  | FCons _ off t r =>
      exists p a b a' b', m = p ++ a ++ b /\ m' = p ++ a' ++ b' /\ bytes (off - cur) p /\
        initialised t a a' /\ initialised_fields r (off + sizeof t) s b b'
  end.

(** [zeroed t m]: every numeric, enum and pointer is 0, every container is empty; padding is anything. *)
Fixpoint zeroed (t : ty) (m : list cell) : Prop :=
  match t with
  | TNull | TOpaque _ => False
  | TNum n _ | TEnum n _ | TPtr n => m = repN n (B 0)
  | TArray _ d e => exists ms, lenN ms = d /\ m = concat ms /\ Forall (zeroed e) ms
  | TCont KVec s e => exists cap, m = put_obj s (VecObj cap []) /\ cap <= max_size
  | TCont KStr s _ => m = put_obj s (StrObj [])
  | TComp s fs => zeroed_fields fs 0 s m
  end
with zeroed_fields (fs : fields) (cur s : N) (m : list cell) : Prop :=
  match fs with
  | FNil => bytes (s - cur) m
  | FCons _ off t r =>
      exists p a b, m = p ++ a ++ b /\ bytes (off - cur) p /\ zeroed t a /\
                    zeroed_fields r (off + sizeof t) s b
  end.

(** [fresh t m]: a live value all of whose containers are empty (what init produces). *)
Fixpoint fresh (t : ty) (m : list cell) : Prop :=
  match t with
  | TNull | TOpaque _ => False
  | TNum n _ | TEnum n _ | TPtr n => bytes n m
  | TArray _ d e => exists ms, lenN ms = d /\ m = concat ms /\ Forall (fresh e) ms
  | TCont KVec s e => exists cap, m = put_obj s (VecObj cap []) /\ cap <= max_size
  | TCont KStr s _ => m = put_obj s (StrObj [])
  | TComp s fs => fresh_fields fs 0 s m
  end
with fresh_fields (fs : fields) (cur s : N) (m : list cell) : Prop :=
  match fs with
  | FNil => bytes (s - cur) m
  | FCons _ off t r =>
      exists p a b, m = p ++ a ++ b /\ bytes (off - cur) p /\ fresh t a /\
                    fresh_fields r (off + sizeof t) s b
  end.

(** [full t m]: a live value in which no container is empty, at any depth. *)
Fixpoint full (t : ty) (m : list cell) : Prop :=
  match t with
  | TNull | TOpaque _ => False
  | TNum n _ | TEnum n _ | TPtr n => bytes n m
  | TArray _ d e => exists ms, lenN ms = d /\ m = concat ms /\ Forall (full e) ms
  | TCont KVec s e =>
      exists cap ms, m = put_obj s (VecObj cap (concat ms)) /\ ms <> [] /\ Forall (full e) ms /\
                     lenN (concat ms) <= cap /\ cap <= max_size
  | TCont KStr s _ => exists bs, m = put_obj s (StrObj bs) /\ bs <> [] /\ lenN bs <= max_size
  | TComp s fs => full_fields fs 0 s m
  end
with full_fields (fs : fields) (cur s : N) (m : list cell) : Prop :=
  match fs with
  | FNil => bytes (s - cur) m
  | FCons _ off t r =>
      exists p a b, m = p ++ a ++ b /\ bytes (off - cur) p /\ full t a /\
                    full_fields r (off + sizeof t) s b
  end.

(** [dumped t m out]: [out] is the image of [m] up to a tail [pad] that holds nothing but padding: whatever is
    stored at its place, the value is the same. *)
Definition dumped (t : ty) (m : list cell) (out : list N) : Prop :=
  exists pad, image t m (out ++ pad) /\
    forall q, lenN q = lenN pad -> same t (takeN (sizeof t - lenN pad) m ++ map B q) m.

(** The bytes a compound declares after the end of its last field; none for the other types. *)
Fixpoint field_ends (fs : fields) : list N :=
  match fs with
  | FNil => []
  | FCons _ o t r => (o + sizeof t) :: field_ends r
  end.
Definition declared_padding (t : ty) (p : N) : Prop :=
  match t with
  | TComp s FNil => p = s
  | TComp s fs => (exists e, In e (field_ends fs) /\ e + p = s) /\ (forall e, In e (field_ends fs) -> e + p <= s)
  | _ => p = 0
  end.
