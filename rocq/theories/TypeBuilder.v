(** * TypeBuilder: typelib/typebuilder.cc. *)
From Verif Require Import Base Types NamesSpec Names Graph Registry World.
Local Open Scope nat_scope.

(** ** Parsing *)
(** TypeBuilder::Modifier, typebuilder.hh:57-62: the category (Pointer or Array) and an int. *)
Inductive modcat := ModPtr | ModArr.
Definition modifier : Type := modcat * Z.

(** atoi: white space, a sign, digits; a value that is not an int is undefined behaviour. *)
Definition isspace (c : ascii) : bool := let n := nat_of_ascii c in (n =? 32) || ((9 <=? n) && (n <=? 13)).
Fixpoint skip_space (s : str) : str :=
  match s with c :: r => if isspace c then skip_space r else s | [] => [] end.
Fixpoint read_digits (acc : Z) (s : str) : Z :=
  match s with
  | c :: r => if isdigit c then read_digits (10 * acc + (Z.of_nat (nat_of_ascii c) - 48)) r else acc
  | [] => acc
  end.
Definition atoi (s : str) : res Z :=
  let v := match skip_space s with
           | c :: r => if ceqb c "-" then (- read_digits 0 r)%Z else if ceqb c "+" then read_digits 0 r else read_digits 0 (c :: r)
           | [] => 0%Z
           end in
  if ((- 2 ^ 31 <=? v) && (v <? 2 ^ 31))%Z then Ok v else UB UOther.
(** find_last_of('[', end) on the reversed prefix: what is between the '[' and the end of the prefix, and the (reversed)
    prefix that stops before the '['. *)
Fixpoint find_open (inside rpre : str) : option (str * str) :=
  match rpre with
  | [] => None
  | c :: r => if ceqb c "[" then Some (inside, r) else find_open (c :: inside) r
  end.
(** The loop of TypeBuilder::parseTypename, typebuilder.cc:123-151: [rpre] is the reversed prefix full_name[0..end] and
    [post] the rest of full_name; end > 0 means at least two characters. Names have less than 2^31 characters (end is an
    int). *)
Fixpoint parse_loop (fuel : nat) (rpre post : str) (mods : list modifier) : res (str * list modifier) :=
  match fuel with
  | 0 => Fuel
  | S f =>
    match rpre with
    | c :: (_ :: _) as r =>
        if ceqb c "]" then
          match find_open [] rpre with
          | None => Throw ERuntime
          | Some (inside, r') => n <- atoi (inside ++ post) ;; parse_loop f r' ("["%char :: inside ++ post) ((ModArr, n) :: mods)
          end
        else if ceqb c "*" then parse_loop f (tl rpre) (c :: post) ((ModPtr, 1%Z) :: mods)
        else if ceqb c " " then parse_loop f (tl rpre) (c :: post) mods
        else Ok (rev rpre, mods)
    | _ => Throw ERuntime
    end
  end.
(** TypeBuilder::parseTypename, typebuilder.cc:119-153; getBaseTypename, typebuilder.cc:182-186. *)
Definition parseTypename (full_name : str) : res (str * list modifier) := parse_loop (S (length full_name)) (rev full_name) [] [].
Definition getBaseTypename (full_name : str) : res str := p <- parseTypename full_name ;; Ok (fst p).
(** TypeBuilder::parse, typebuilder.cc:155-163. *)
Definition parse (r : reg) (full_name : str) : res (tid * list modifier) :=
  p <- parseTypename full_name ;;
  match get r (fst p) with Some t => Ok (t, snd p) | None => Throw EUndefined end.

(** ** Building *)
(** The state of a TypeBuilder: the store, the registry; m_type is the result. *)
Definition bstate : Type := store * reg.
(** The common part of addPointer and addArrayMajor: the type of this name in the registry, or a new one that is
    added to it. *)
Definition find_or_add (f : nat) (w : bstate) (o : tobj) : bstate * res tid :=
  let '(s, r) := w in
  match get r (o_name o) with
  | Some t => (w, Ok t)
  | None =>
      let t := s_next s in
      let s' := alloc s o in
      match add f (s_heap s') r t [] with
      | (r', Ok _) => ((s', r'), Ok t)
      | (r', Throw e) => ((s', r'), Throw e)
      | (r', UB u) => ((s', r'), UB u)
      | (r', Fuel) => ((s', r'), Fuel)
      end
  end.
(** Pointer's constructor, typemodel.cc:561-562; Array's constructor, typemodel.cc:520-522. *)
Definition pointer_obj (H : heap) (m : tid) : tobj := Obj (getPointerName (o_name (H m))) 8 (OPtr m).
Definition array_obj (H : heap) (m : tid) (d : N) : tobj := Obj (getArrayName (o_name (H m)) d) ((d * o_size (H m)) mod 2 ^ 64) (OArr d m).
(** TypeBuilder::addPointer, typebuilder.cc:38-53, for a level that is not negative. *)
Fixpoint addPointer (f : nat) (w : bstate) (m : tid) (level : nat) : bstate * res tid :=
  match level with
  | 0 => (w, Ok m)
  | S l => match find_or_add f w (pointer_obj (s_heap (fst w)) m) with
           | (w', Ok m') => addPointer f w' m' l
           | x => x
           end
  end.
(** Conversion of an int to size_t. *)
Definition to_size (z : Z) : N := Z.to_N (z mod 2 ^ 64).
(** TypeBuilder::addArrayMajor, typebuilder.cc:73-84. *)
Definition addArrayMajor (f : nat) (w : bstate) (m : tid) (d : Z) : bstate * res tid :=
  find_or_add f w (array_obj (s_heap (fst w)) m (to_size d)).
(** Conversion of a size_t to int. *)
Definition to_int (n : N) : Z := let z := (Z.of_N n mod 2 ^ 32)%Z in if (z <? 2 ^ 31)%Z then z else (z - 2 ^ 32)%Z.
(** The while loop of addArrayMinor, typebuilder.cc:60-65: the dimensions (the last one pushed first) and the type. *)
Fixpoint strip_arrays (fuel : nat) (H : heap) (m : tid) (rdims : list Z) : res (list Z * tid) :=
  match fuel with
  | 0 => Fuel
  | S f => match o_kind (H m) with OArr d x => strip_arrays f H x (to_int d :: rdims) | _ => Ok (rdims, m) end
  end.
(** A list of modifiers, in order (the loop of build, typebuilder.cc:97-107). A negative level never reaches zero without
    an overflow. *)
Fixpoint apply_mods (f : nat) (w : bstate) (m : tid) (mods : list modifier) : bstate * res tid :=
  match mods with
  | [] => (w, Ok m)
  | (c, n) :: ms =>
      match (match c with
             | ModPtr => if (n <? 0)%Z then (w, UB UOther) else addPointer f w m (Z.to_nat n)
             | ModArr => addArrayMajor f w m n
             end) with
      | (w', Ok m') => apply_mods f w' m' ms
      | x => x
      end
  end.
(** TypeBuilder::addArrayMinor, typebuilder.cc:55-71. *)
Definition addArrayMinor (f : nat) (w : bstate) (m : tid) (d : Z) : bstate * res tid :=
  match strip_arrays f (s_heap (fst w)) m [] with
  | Ok (rdims, x) => apply_mods f w x (map (fun d => (ModArr, d)) (d :: rdims))
  | Throw e => (w, Throw e)
  | UB u => (w, UB u)
  | Fuel => (w, Fuel)
  end.
(** TypeBuilder::setSize, typebuilder.cc:86-89, at the end of build, typebuilder.cc:108-109; int to size_t. *)
Definition set_size (w : bstate) (m : tid) (size : Z) : bstate :=
  if (size =? 0)%Z then w
  else let '(s, r) := w in let o := s_heap s m in (Store (upd (s_heap s) m (Obj (o_name o) (to_size size) (o_kind o))) (s_next s), r).
(** TypeBuilder::build(registry, full_name, size), typebuilder.cc:91-111, 165-172; None is the null pointer. *)
Definition build (f : nat) (w : bstate) (full_name : str) (size : Z) : bstate * res (option tid) :=
  match parse (snd w) full_name with
  | Ok (t, mods) =>
      match apply_mods f w t mods with
      | (w', Ok m) => (set_size w' m size, Ok (Some m))
      | (w', Throw e) => (w', Throw e)
      | (w', UB u) => (w', UB u)
      | (w', Fuel) => (w', Fuel)
      end
  | Throw EUndefined => (w, Ok None)
  | Throw e => (w, Throw e)
  | UB u => (w, UB u)
  | Fuel => (w, Fuel)
  end.
(** TypeBuilder::getBaseType, typebuilder.cc:174-180. *)
Definition getBaseType (r : reg) (full_name : str) : res (option tid) :=
  match parse r full_name with
  | Ok (t, _) => Ok (Some t)
  | Throw EUndefined => Ok None
  | Throw e => Throw e
  | UB u => UB u
  | Fuel => Fuel
  end.
