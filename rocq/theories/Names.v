(** * Names: typelib/typename.cc and nameSort of typelib/registry.cc.

    Strings are lists of characters; indices are natural numbers. *)
From Verif Require Import Base NamesSpec.
Local Open Scope char_scope.

Definition ceqb (a b : ascii) : bool := Ascii.eqb a b.
Definition slash : ascii := "/".
Definition str_eqb (a b : str) : bool := if list_eq_dec ascii_dec a b then true else false.

(** A char as a number: char is signed on the modelled platform. *)
Definition schar (c : ascii) : Z :=
  let n := Z.of_nat (nat_of_ascii c) in if (n <? 128)%Z then n else (n - 256)%Z.

(** Typelib::nameSort, registry.cc:25-43. *)
Fixpoint nameSort (a b : str) : bool :=
  match a, b with
  | [], [] => false
  | [], _ :: _ => true
  | _ :: _, [] => false
  | c1 :: a', c2 :: b' =>
      if ceqb c1 c2 then nameSort a' b'
      else if ceqb c1 slash then true
      else if ceqb c2 slash then false
      else (schar c1 <? schar c2)%Z
  end.

(** std::string operator[] on an index up to the length ('\0' at the end); anything beyond is UB. *)
Definition at_ (s : str) (i : nat) : ascii := nth i s "000".
(** std::string(s, pos, n): throws std::out_of_range if pos > size, otherwise at most n characters. *)
Definition substr (s : str) (pos n : nat) : str := firstn n (skipn pos s).

(** isAbsoluteName, typename.cc:42-46. *)
Definition isAbsoluteName (s : str) : bool := match s with [] => false | c :: _ => ceqb c slash end.

(** isalnum in the "C" locale. *)
Definition isalnum (c : ascii) : bool :=
  let n := nat_of_ascii c in
  ((48 <=? n) && (n <=? 57) || (65 <=? n) && (n <=? 90) || (97 <=? n) && (n <=? 122))%nat.
Definition isdigit (c : ascii) : bool := let n := nat_of_ascii c in ((48 <=? n) && (n <=? 57))%nat.

(** isValidIdentifier, typename.cc:24-37. *)
Definition ident_char (c : ascii) : bool :=
  ceqb c "_" || ceqb c " " || isalnum c || ceqb c "<" || ceqb c ">".
Definition isValidIdentifier (s : str) : bool := negb (str_eqb s []) && forallb ident_char s.

(** s.find_first_of("*[") as the prefix before it. *)
Fixpoint before_modifiers (s : str) : str :=
  match s with
  | [] => []
  | c :: r => if ceqb c "*" || ceqb c "[" then [] else c :: before_modifiers r
  end.
(** isValidTypeBasename, typename.cc:48-66. *)
Definition isValidTypeBasename (s : str) (absolute accept_integers : bool) : bool :=
  if accept_integers && forallb (fun c => ceqb c "-" || isdigit c) s then true
  else if absolute && negb (isAbsoluteName s) then false
  else isValidIdentifier (before_modifiers (if isAbsoluteName s then tl s else s)).

(** splitTypename, typename.cc:68-95. [cur]: the characters from start_pos to i. *)
Fixpoint split_loop (level : Z) (cur : str) (s : str) : list str :=
  match s with
  | [] => match cur with [] => [] | _ => [cur] end
  | c :: r =>
      if ceqb c slash then
        if (level =? 0)%Z then cur :: split_loop level [] r
        else split_loop level (cur ++ [c]) r
      else if ceqb c "<" then split_loop (level + 1) (cur ++ [c]) r
      else if ceqb c ">" then split_loop (level - 1) (cur ++ [c]) r
      else split_loop level (cur ++ [c]) r
  end.
Definition splitTypename (name : str) : list str :=
  split_loop 0 [] (if isAbsoluteName name then tl name else name).

(** The recursive isValidTypename, typename.cc:97-174. [vt_loop]: the for loop at index [i]; [vt_args]: the
    while loop over the template arguments, at index [i]; [vt]: the function itself at [pos]. *)
Fixpoint vt_loop (fuel : nat) (s : str) (start i : nat) (absolute ai : bool) : res (bool * nat) :=
  match fuel with
  | O => Fuel
  | S f =>
    if (i <? length s)%nat then
      let c := at_ s i in
      let base := substr s start (i - start) in
      if ceqb c "/" then
        if isValidTypeBasename base absolute ai then vt_loop f s i (S i) absolute ai
        else Ok (false, i)
      else if ceqb c "<" then
        if isValidTypeBasename base absolute ai then
          '(ok, j) <- vt_args f s i ;;
          if negb ok then Ok (false, j)
          else if (S j <? length s)%nat then
            if ceqb (at_ s (S j)) "/" then vt_loop f s (S j) (S (S j)) absolute ai
            else if negb (ceqb (at_ s (S j)) ">") && negb (ceqb (at_ s (S j)) "[") && negb (ceqb (at_ s (S j)) ",")
            then Ok (false, S j)
            else vt_loop f s (S j) (S j) absolute ai
          else vt_loop f s (S j) (S j) absolute ai
        else Ok (false, i)
      else if ceqb c "[" then
        if negb (start =? i)%nat && negb (isValidTypeBasename base absolute ai) then Ok (false, i)
        else if (S i =? length s)%nat then Ok (false, i)
        else vt_loop f s (S i) (S i) absolute ai
      else if ceqb c "]" then
        if (start =? i)%nat then Ok (false, start)
        else if negb (forallb isdigit base) then Ok (false, start)
        else if (S i <? length s)%nat then
          if ceqb (at_ s (S i)) "/" then vt_loop f s (S i) (S (S i)) absolute ai
          else if negb (ceqb (at_ s (S i)) ">") && negb (ceqb (at_ s (S i)) "[") then Ok (false, S i)
          else vt_loop f s (S i) (S i) absolute ai
        else vt_loop f s (S i) (S i) absolute ai
      else if ceqb c ">" || ceqb c "," then
        Ok (isValidTypeBasename base true true, i)
      else vt_loop f s start (S i) absolute ai
    else
      if (start =? length s)%nat then Ok (true, length s)
      else Ok (isValidTypeBasename (substr s start (length s - start)) absolute ai, length s)
  end
with vt_args (fuel : nat) (s : str) (i : nat) : res (bool * nat) :=
  match fuel with
  | O => Fuel
  | S f =>
    if ceqb (at_ s i) ">" then Ok (true, i)
    else
      '(ok, j) <- vt f s (S i) true true ;;
      if negb ok then Ok (false, j)
      else if (j =? length s)%nat || (negb (ceqb (at_ s j) ",") && negb (ceqb (at_ s j) ">")) then Ok (false, j)
      else vt_args f s j
  end
with vt (fuel : nat) (s : str) (pos : nat) (absolute ai : bool) : res (bool * nat) :=
  match fuel with
  | O => Fuel
  | S f => vt_loop f s pos (if ceqb (at_ s pos) "/" then S pos else pos) absolute ai
  end.
(** isValidTypename, typename.cc:176-181. The fuel is enough for every string (NamesProofs.v). *)
Definition vt_fuel (s : str) : nat := 4 * S (length s).
Definition isValidTypename (s : str) (absolute : bool) : bool :=
  match s with
  | [] => false
  | _ => match vt (vt_fuel s) s 0 absolute false with Ok (b, _) => b | _ => false end
  end.

(** boost::tokenizer<NameSeparator> (typename.hh:15-20): the non-empty pieces between '/'. (Within namespace
    Typelib this one, and not the keep_empty_tokens one of typename.cc:14-19, is found by name lookup.) *)
Fixpoint tok_loop (cur : str) (s : str) : list str :=
  match s with
  | [] => match cur with [] => [] | _ => [cur] end
  | c :: r =>
      if ceqb c slash then match cur with [] => tok_loop [] r | _ => cur :: tok_loop [] r end
      else tok_loop (cur ++ [c]) r
  end.
Definition tokens (s : str) : list str := tok_loop [] s.

(** isValidNamespace, typename.cc:183-198. *)
Definition isValidNamespace (s : str) (absolute : bool) : bool :=
  match s with
  | [] => false
  | _ => if absolute && negb (isAbsoluteName s) then false else forallb isValidIdentifier (tokens s)
  end.

(** getNormalizedNamespace, typename.cc:212-217. *)
Definition last_is_slash (s : str) : bool := match rev s with c :: _ => ceqb c slash | [] => false end.
Definition getNormalizedNamespace (s : str) : str :=
  match s with
  | [] => [slash]
  | _ => if last_is_slash s then s else s ++ [slash]
  end.

Fixpoint has_prefix (p s : str) : bool :=
  match p, s with
  | [], _ => true
  | a :: p', b :: s' => ceqb a b && has_prefix p' s'
  | _ :: _, [] => false
  end.
(** isInNamespace, typename.cc:200-210: string(type, 0, length) == normalized_nspace. *)
Definition isInNamespace (type nspace : str) (recursive : bool) : bool :=
  let n := getNormalizedNamespace nspace in
  has_prefix n type && (recursive || (length (splitTypename (skipn (length n) type)) =? 1)%nat).

(** getTypename, typename.cc:219-225. *)
Definition getTypename (name : str) : str := last (splitTypename name) [].
(** getNamespace, typename.cc:284-297. *)
Definition getNamespace (name : str) : str :=
  match splitTypename name with
  | [] => [slash]
  | l => concat (map (fun p => slash :: p) (removelast l)) ++ [slash]
  end.
(** getRelativeName, typename.cc:227-233; rbegin() of an empty string is UB; a position after the end of the
    string throws std::out_of_range. *)
Definition getRelativeName (name ns : str) : res str :=
  match ns with
  | [] => UB UOob
  | _ => let size := if last_is_slash ns then length ns else S (length ns) in
         if (length name <? size)%nat then Throw ERuntime else Ok (skipn size name)
  end.

(** ns.find(x) != npos *)
Fixpoint contains_str (s x : str) : bool :=
  has_prefix x s || match s with [] => false | _ :: r => contains_str r x end.
(** Common leading components of two lists, and the remainder of the first (typename.cc:249-258). *)
Fixpoint common (a b : list str) : list str * list str :=
  match a, b with
  | x :: a', y :: b' => if str_eqb x y then let '(c, r) := common a' b' in (x :: c, r) else ([], a)
  | _, _ => ([], a)
  end.
(** result += "/" + token (typename.cc:266-269). *)
Fixpoint join_tokens (l : list str) : str :=
  match l with
  | [] => []
  | [x] => x
  | x :: r => x ++ slash :: join_tokens r
  end.
(** The while loop of typename.cc:271-275; [rc]: common_tokens, last one first. *)
Fixpoint disambiguate (ns : str) (rc : list str) (result : str) : list str * str :=
  match rc with
  | [] => ([], result)
  | c :: rc' => if contains_str ns result then disambiguate ns rc' (c ++ slash :: result) else (rc, result)
  end.
(** getMinimalPathTo, typename.cc:235-282. *)
Definition getMinimalPathTo (full_name ns : str) : res str :=
  let type_ns := getNamespace full_name in
  if isInNamespace full_name ns true then getRelativeName type_ns ns
  else if contains_str ns type_ns || contains_str ns full_name then Ok type_ns
  else
    let '(cm, rest) := common (splitTypename type_ns) (splitTypename ns) in
    match cm with
    | [] => Ok type_ns
    | _ =>
      match rest with
      | [] => UB UOther                     (* *it1 with it1 == tok1.end() *)
      | _ =>
        let '(rc, result) := disambiguate ns (rev cm) (join_tokens rest) in
        match rc with
        | [] => Ok type_ns
        | _ => match result with [] => Ok [] | _ => Ok (result ++ [slash]) end
        end
      end
    end.

(** std::map<..., nameSort_t>::lower_bound on the keys in order; an iterator is the list of the remaining keys. *)
Fixpoint lower_bound (p : str) (l : list str) : list str :=
  match l with
  | [] => []
  | k :: r => if nameSort k p then lower_bound p r else l
  end.
(** Registry::begin(prefix), registry.cc:535-542. *)
Definition begin_prefix (p : str) (l : list str) : list str :=
  match lower_bound p l with
  | k :: r => if has_prefix p k then k :: r else []
  | [] => []
  end.
(** Registry::end(prefix), registry.cc:543-551. *)
Fixpoint skip_prefix (p : str) (l : list str) : list str :=
  match l with
  | k :: r => if has_prefix p k then skip_prefix p r else l
  | [] => []
  end.
Definition end_prefix (p : str) (l : list str) : list str := skip_prefix p (begin_prefix p l).
