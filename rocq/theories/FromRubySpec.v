(** * FromRubySpec: typed values made from plain Ruby objects (specification side).

    The Ruby objects are those of SimpleSpec: Integers, Floats, Strings, nil, Arrays and Hashes. A Symbol is the String with its
    name; a Hash may give a key twice, as a String and as a Symbol, then the last one counts. *)
From Verif Require Import Base Types WellFormed Layout ValueOps ValueSpec RubyConvSpec SimpleSpec.
Local Open Scope N_scope.

(** What depends on the machine, on Ruby and on the allocator: the contents of a new value; the number of characters of a String and
    the code of the first one, which depend on its encoding; the bytes of a Float, or an Integer, assigned to a floating point
    number of n bytes; the bytes of a Float assigned to an integer (None: RangeError). *)
Record env := Env {
  new_of : ty -> list cell;
  chars : list N -> N;
  ord : list N -> Z;
  fl_set : N -> fval -> list N;
  fl_int : N -> Z -> list N;
  fl_to_int : N -> ncat -> fval -> option (list N)
}.
Definition oct (b : N) : Prop := b < 256.
Definition number_bytes (n : N) (bs : list N) : Prop := lenN bs = n /\ Forall oct bs.
Record env_ok (P : env) : Prop := EnvOk {
  eo_new : forall t, wf t -> plain t -> fresh t (new_of P t);
  eo_chars : forall bs, chars P bs <= lenN bs;
  eo_set : forall n x, number_bytes n (fl_set P n x);
  eo_int : forall n z, number_bytes n (fl_int P n z);
  eo_to_int : forall n c x bs, fl_to_int P n c x = Some bs -> number_bytes n bs
}.
(** Floats that a number of the type has are stored exactly. *)
Definition exact_floats (P : env) : Prop := forall n bs x, n = 4 \/ n = 8 -> number_bytes n bs -> number n Float bs = SFlo x -> number n Float (fl_set P n x) = SFlo x.

(** Objects that Ruby can hold in memory. *)
Fixpoint ruby_ok (s : sval) : Prop :=
  match s with
  | SStr bs => Forall oct bs /\ lenN bs <= max_size
  | SArr l => lenN l <= max_size /\ (fix all l := match l with [] => True | x :: r => ruby_ok x /\ all r end) l
  | SHash l => (fix all l := match l with [] => True | (_, x) :: r => ruby_ok x /\ all r end) l
  | _ => True
  end.
(** Types as in C78 (showable), with what else C++ guarantees: the values of symbols are ints, arrays have at most 2^31 elements
    and at least one if these are characters, /std/string has elements of type /char. *)
Definition is_char (t : ty) : bool := match t with TNum 1 SInt => true | _ => false end.
Fixpoint loadable (t : ty) : Prop :=
  match t with
  | TEnum _ vs => Forall (fun x => (- 2 ^ 31 <= snd x < 2 ^ 31)%Z) vs
  | TArray _ d e => d <= 2 ^ 31 /\ (is_char e = true -> 1 <= d) /\ loadable e
  | TCont KVec _ e => loadable e
  | TCont KStr _ e => e = TNum 1 SInt
  | TComp _ fs => loadable_fields fs
  | _ => True
  end
with loadable_fields (fs : fields) : Prop := match fs with FNil => True | FCons _ _ t r => loadable t /\ loadable_fields r end.

Section S.
Variable P : env.

(** ** Which objects are accepted for a type *)
Definition number_accepted (n : N) (c : ncat) (s : sval) : Prop :=
  match s, c with
  | SNum _, Float | SFlo _, Float => True
  | SNum z, _ => accepted n c z
  | SFlo x, _ => fl_to_int P n c x <> None
  | SStr bs, SInt => n = 1 /\ chars P bs = 1 /\ accepted 1 SInt (ord P bs)
  | _, _ => False
  end.
Fixpoint before_nul (bs : list N) : list N := match bs with [] => [] | b :: r => if b =? 0 then [] else b :: before_nul r end.
(** The object names the symbol [k], or its value [z]. *)
Definition names (k : str) (z : Z) (s : sval) : Prop := s = SNum z \/ exists b, s = SStr b /\ before_nul b = map N_of_ascii k.
(** Containers convert what is put into them, except for enums (container_type.rb:233, specialized_types.cc:465). *)
Definition is_enum (t : ty) : bool := match t with TEnum _ _ => true | _ => false end.
Fixpoint acceptable (t : ty) (s : sval) : Prop :=
  match t with
  | TNull | TOpaque _ | TPtr _ => False
  | TNum n c => number_accepted n c s
  | TEnum _ vs => exists k z, In (k, z) vs /\ names k z s
  | TArray _ d e =>
    (exists l, s = SArr l /\ lenN l = d /\ Forall (acceptable e) l) \/
    (is_char e = true /\ exists b, s = SStr b /\ lenN b < d /\ ~ In 0 b)
  | TCont KVec _ e => exists l, s = SArr l /\ lenN l * sizeof e <= max_size /\ (l = [] \/ is_enum e = false) /\ Forall (acceptable e) l
  | TCont KStr _ _ => (exists b, s = SStr b) \/ exists l, s = SArr l /\ Forall (number_accepted 1 SInt) l
  | TComp _ fs =>
    (exists l, s = SHash l /\ Forall (fun kv => field_accepted fs (fst kv) (snd kv)) l) \/
    (exists l, s = SArr l /\ fields_accepted fs l)
  end
with field_accepted (fs : fields) (k : str) (s : sval) : Prop :=
  match fs with FNil => False | FCons k' _ t r => (k' = k /\ acceptable t s) \/ field_accepted r k s end
with fields_accepted (fs : fields) (l : list sval) : Prop :=
  match l with
  | [] => True
  | x :: l' => match fs with FNil => False | FCons _ _ t r => acceptable t x /\ fields_accepted r l' end
  end.

(** ** What the value holds then *)
(** Integers are cut to the size of the type: the number is the given one modulo 2^(8n). *)
Definition congruent (n : N) (bs : list N) (z : Z) : Prop := exists k, Z.of_N (num_of bs) = (z + k * 2 ^ (8 * Z.of_N n))%Z.
Definition number_given (n : N) (c : ncat) (s : sval) (bs : list N) : Prop :=
  number_bytes n bs /\
  match s, c with
  | SNum z, Float => bs = fl_int P n z
  | SNum z, _ => congruent n bs z
  | SFlo x, Float => bs = fl_set P n x
  | SFlo x, _ => fl_to_int P n c x = Some bs
  | SStr b, SInt => congruent 1 bs (ord P b)
  | _, _ => False
  end.
Fixpoint last_given (k : str) (l : list (str * sval)) : option sval :=
  match l with
  | [] => None
  | (k', x) :: r => match last_given k r with Some y => Some y | None => if list_eq_dec ascii_dec k' k then Some x else None end
  end.
Fixpoint nth_given (ks : list str) (l : list sval) (k : str) : option sval :=
  match ks, l with k' :: ks', x :: l' => if list_eq_dec ascii_dec k' k then Some x else nth_given ks' l' k | _, _ => None end.
(** What a Hash or an Array gives for each field. *)
Definition given (ks : list str) (s : sval) : option (str -> option sval) :=
  match s with SHash l => Some (fun k => last_given k l) | SArr l => Some (nth_given ks l) | _ => None end.
Definition field_names (fs : fields) : list str := map (fun f => fst (fst f)) (fields_list fs).
Fixpoint holds (t : ty) (s : sval) (m : list cell) : Prop :=
  match t with
  | TNull | TOpaque _ | TPtr _ => False
  | TNum n c => exists bs, m = map B bs /\ number_given n c s bs
  | TEnum _ vs => exists bs k z, m = map B bs /\ number_bytes 4 bs /\ number 4 SInt bs = SNum z /\ In (k, z) vs /\ names k z s
  | TArray _ d e =>
    (exists l ms, s = SArr l /\ lenN l = d /\ m = concat ms /\ Forall2 (holds e) l ms) \/
    (is_char e = true /\ exists b bs, s = SStr b /\ m = map B bs /\ lenN bs = d /\ holds_text bs b)
  | TCont KVec sz e => exists l cap ms, s = SArr l /\ m = put_obj sz (VecObj cap (concat ms)) /\ Forall2 (holds e) l ms
  | TCont KStr sz _ =>
    exists bs, m = put_obj sz (StrObj bs) /\
      ((exists b, s = SStr b /\ bs = takeN (chars P b) b) \/ exists l, s = SArr l /\ Forall2 (fun x c => number_given 1 SInt x [c]) l bs)
  | TComp sz fs =>
    lenN m = sz /\ match given (field_names fs) s with Some find => holds_fields fs find 0 m (new_of P (TComp sz fs)) | None => False end
  end
(** [m0]: the contents of the new value; the fields that are not given keep these. *)
with holds_fields (fs : fields) (find : str -> option sval) (cur : N) (m m0 : list cell) : Prop :=
  match fs with
  | FNil => True
  | FCons k off t r =>
    exists p a b p0 a0 b0, m = p ++ a ++ b /\ m0 = p0 ++ a0 ++ b0 /\ lenN p = off - cur /\ lenN p0 = off - cur /\ lenN a = sizeof t /\ lenN a0 = sizeof t /\
      match find k with Some s => holds t s a | None => same t a a0 end /\ holds_fields r find (off + sizeof t) b b0
  end.
(** Strings of single byte characters. *)
Fixpoint single_byte (s : sval) : Prop :=
  match s with
  | SStr bs => chars P bs = lenN bs /\ ~ In 0 bs
  | SArr l => (fix all l := match l with [] => True | x :: r => single_byte x /\ all r end) l
  | SHash l => (fix all l := match l with [] => True | (_, x) :: r => single_byte x /\ all r end) l
  | _ => True
  end.
End S.
(** No vectors of enums. *)
Fixpoint no_enum_vectors (t : ty) : Prop :=
  match t with
  | TArray _ _ e => no_enum_vectors e
  | TCont KVec _ e => is_enum e = false /\ no_enum_vectors e
  | TComp _ fs => no_enum_vectors_fields fs
  | _ => True
  end
with no_enum_vectors_fields (fs : fields) : Prop := match fs with FNil => True | FCons _ _ t r => no_enum_vectors t /\ no_enum_vectors_fields r end.
(** Unsigned numbers of 8 bytes are below 2^63, and there are no NaNs. *)
Definition good (n : N) (c : ncat) (bs : list N) : Prop := (n = 8 -> c = UInt -> num_of bs < 2 ^ 63) /\ no_nan n c bs.
