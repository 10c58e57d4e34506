(** * StreamSpec: byte sequences as marshalled values, without reference to memory. *)
From Verif Require Import Base Types Layout ValueOps.
Local Open Scope N_scope.

(** [stream t bs]: [bs] is the marshalled form of some value of type [t]: the bytes of numbers and padding, and for containers the number of
    elements, as 8 bytes, and the elements. *)
Fixpoint stream (t : ty) (bs : list N) : Prop :=
  match t with
  | TNull | TOpaque _ => False
  | TNum n _ | TEnum n _ | TPtr n => lenN bs = n
  | TArray _ d e => exists bss, lenN bss = d /\ bs = concat bss /\ Forall (stream e) bss
  | TCont KVec _ e => exists b8 bss, bs = b8 ++ concat bss /\ lenN b8 = 8 /\ lenN bss = le_val b8 /\ Forall (stream e) bss
  | TCont KStr _ _ => exists b8 cs, bs = b8 ++ cs /\ lenN b8 = 8 /\ lenN cs = le_val b8
  | TComp s fs => stream_fields fs 0 s bs
  end
with stream_fields (fs : fields) (cur s : N) (bs : list N) : Prop :=
  match fs with
  | FNil => lenN bs = s - cur
  | FCons _ off t r => exists p a b, bs = p ++ a ++ b /\ lenN p = off - cur /\ stream t a /\ stream_fields r (off + sizeof t) s b
  end.

(** [overflows t x]: reading a value of type [t] from [x] comes to a container whose number of elements, times the size of an element,
    is 2^64 or more. *)
Fixpoint overflows (t : ty) (x : list N) : Prop :=
  match t with
  | TArray _ d e => exists bss r, x = concat bss ++ r /\ lenN bss < d /\ Forall (stream e) bss /\ overflows e r
  | TCont KVec _ e =>
      exists b8 y, x = b8 ++ y /\ lenN b8 = 8 /\
        (two64 <= le_val b8 * sizeof e \/
         exists bss r, y = concat bss ++ r /\ lenN bss < le_val b8 /\ Forall (stream e) bss /\ overflows e r)
  | TComp s fs => overflows_fields fs 0 s x
  | _ => False
  end
with overflows_fields (fs : fields) (cur s : N) (x : list N) : Prop :=
  match fs with
  | FNil => False
  | FCons _ off t r =>
      exists p y, x = p ++ y /\ lenN p = off - cur /\
        (overflows t y \/ exists a z, y = a ++ z /\ stream t a /\ overflows_fields r (off + sizeof t) s z)
  end.
