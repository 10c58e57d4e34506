(** * NameConv: names of C++ types and names of types (tools/typelib-clang-tlb-importer/NamingConversions.cpp, the
    functions on strings, and the renames of IgnoredOrRenamedTypes.cpp). *)
From Verif Require Import Base Names.
Local Open Scope char_scope.
Local Open Scope nat_scope.

(** std::string::find(x, pos); x is not empty. *)
Fixpoint find0 (x s : str) : option nat :=
  if has_prefix x s then Some 0 else match s with [] => None | _ :: r => option_map S (find0 x r) end.
Definition find_at (x s : str) (pos : nat) : option nat := option_map (fun i => pos + i) (find0 x (skipn pos s)).
(** std::string::replace(pos, n, to); insert is replace(pos, 0, to), erase is replace(pos, n, ""). *)
Definition replace (s : str) (pos n : nat) (to : str) : str := firstn pos s ++ to ++ skipn (pos + n) s.

(** stringFromToReplace, NamingConversions.cpp:11-23. *)
Fixpoint replace_loop (fuel : nat) (from to result : str) (start : option nat) : res str :=
  match start with
  | None => Ok result
  | Some p => match fuel with
              | 0 => Fuel
              | S f => let r := replace result p (length from) to in replace_loop f from to r (find_at from r (p + length to))
              end
  end.
Definition stringFromToReplace (s from to : str) : res str := replace_loop (S (length s)) from to s (find_at from s 0).

(** NamingConversions.cpp:47-55: a slash after every '<'; at() throws std::out_of_range. *)
Fixpoint angle_loop (fuel : nat) (s : str) (pos : option nat) : res str :=
  match pos with
  | None => Ok s
  | Some p => match fuel with
              | 0 => Fuel
              | S f => if length s <=? p + 1 then Throw ERuntime
                       else let s' := if ceqb (at_ s (p + 1)) "/" then s else replace s (p + 1) 0 ["/"%char] in
                            angle_loop f s' (find_at ["<"%char] s' (p + 1))
              end
  end.
(** NamingConversions.cpp:57-78: no slash before a digit or a minus. *)
Fixpoint slash_loop (fuel : nat) (s : str) (pos : option nat) : res str :=
  match pos with
  | None => Ok s
  | Some p => match fuel with
              | 0 => Fuel
              | S f => if length s <=? p + 1 then Ok s
                       else let s' := if isdigit (at_ s (p + 1)) || ceqb "-" (at_ s (p + 1)) then replace s p 1 [] else s in
                            slash_loop f s' (find_at ["/"%char] s' (p + 1))
              end
  end.
(** The constructor of IgnoredOrRenamedType, IgnoredOrRenamedTypes.cpp:80-86. *)
Definition type_renames : list (str * str) :=
  [(s_ "/std/__1", s_ "/std"); (s_ "/std/__cxx11", s_ "/std"); (s_ "/std/basic_string", s_ "/std/string")].
(** replaceAll, IgnoredOrRenamedTypes.cpp:49-58: the loop is that of stringFromToReplace. *)
Definition replaceAll (s from to : str) : res (bool * str) :=
  r <- stringFromToReplace s from to ;; Ok (match find_at from s 0 with Some _ => true | None => false end, r).
(** isTypeRenamed, IgnoredOrRenamedTypes.cpp:60-70: || does not call replaceAll any more once a rename was made. *)
Fixpoint rename_loop (l : list (str * str)) (done : bool) (s : str) : res (bool * str) :=
  match l with
  | [] => Ok (done, s)
  | (x, y) :: r => if done then rename_loop r done s else '(b, s') <- replaceAll s x y ;; rename_loop r b s'
  end.
Definition isTypeRenamed (s : str) : res (bool * str) := rename_loop type_renames false s.

(** cxxToTypelibName, NamingConversions.cpp:26-92; exit() for the empty string, and std::out_of_range, are ERuntime. *)
Definition cxxToTypelibName (name : str) : res str :=
  match name with
  | [] => Throw ERuntime
  | _ =>
    s1 <- stringFromToReplace name (s_ "::") (s_ "/") ;;
    s2 <- stringFromToReplace s1 (s_ " [") (s_ "[") ;;
    s3 <- stringFromToReplace s2 (s_ "> ") (s_ ">") ;;
    s4 <- stringFromToReplace s3 (s_ "< ") (s_ "<") ;;
    s5 <- stringFromToReplace s4 (s_ ", ") (s_ ",/") ;;
    s6 <- angle_loop (S (length s5)) s5 (find_at ["<"%char] s5 0) ;;
    s7 <- slash_loop (S (length s6)) s6 (find_at ["/"%char] s6 0) ;;
    match s7 with
    | [] => Throw ERuntime
    | c :: _ =>
      let s8 := if negb (ceqb c "/") && (1 <? length s7) then "/"%char :: s7 else s7 in
      '(b, s9) <- isTypeRenamed s8 ;;
      Ok (if b then s9 else s8)
    end
  end.
(** typelibToCxxName, NamingConversions.cpp:135-152. *)
Definition typelibToCxxName (name : str) : res str :=
  s1 <- stringFromToReplace name (s_ "/") (s_ "::") ;;
  s2 <- stringFromToReplace s1 (s_ "<::") (s_ "<") ;;
  s3 <- stringFromToReplace s2 (s_ ",::") (s_ ",") ;;
  Ok (if (2 <? length s3) && str_eqb (substr s3 0 2) (s_ "::") then skipn 2 s3 else s3).
