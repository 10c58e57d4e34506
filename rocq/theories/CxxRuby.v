(** * CxxRuby: the conversions between C++ and Typelib names of bindings/ruby/lib/typelib/cxx.rb and gccxml.rb. *)
From Verif Require Import Base.
Local Open Scope char_scope.

(** The characters removed by String#strip. Simplified: NUL is removed at both ends (at the start, since ruby 2.6). *)
Definition blankb (c : ascii) : bool := existsb (Ascii.eqb c) (" " :: map ascii_of_nat [0; 9; 10; 11; 12; 13]).
Definition punctb (c : ascii) : bool := existsb (Ascii.eqb c) (s_ "<,>").
Fixpoint lstrip (s : str) : str := match s with c :: r => if blankb c then lstrip r else s | [] => [] end.
Definition strip (s : str) : str := rev (lstrip (rev (lstrip s))).

(** CXX.template_tokenizer, cxx.rb:58-75. [cur]: the characters of [^<,>]* matched so far; the match ends at a punctuation
    character, which is $'[0, 1], or at the end, where $'[1..-1] is nil and the loop is left. *)
Definition flush (cur : str) : list str := match strip cur with [] => [] | w => [w] end.
Fixpoint tok (cur s : str) : list str :=
  match s with
  | [] => flush cur
  | c :: r => if punctb c then flush cur ++ [c] :: tok [] r else tok (cur ++ [c]) r
  end.
Definition template_tokenizer (s : str) : list str := tok [] s.

(** A token, or nil: what Array#shift gives on an empty array. *)
Notation token := (option str).
Definition is_tok (t : token) (c : ascii) : bool := match t with Some [d] => Ascii.eqb c d | _ => false end.
Definition finish (args : list (list token)) (cur : list token) : list (list token) := match cur with [] => args | _ => args ++ [cur] end.
(** CXX.collect_template_arguments, cxx.rb:19-56; returns the arguments and what is left in the array of tokens. *)
Fixpoint collect (level : Z) (args : list (list token)) (cur : list token) (ts : list token) : list (list token) * list token :=
  match ts with
  | [] => (finish args cur, [])
  | t :: r =>
      if is_tok t "<" then
        let level := (level + 1)%Z in
        if (level >? 1)%Z then
          match r with
          | [] => (finish args (cur ++ [t; None]), [])
          | u :: r' => collect level args (cur ++ [t; u]) r'
          end
        else collect level args [] r
      else if is_tok t ">" then
        let level := (level - 1)%Z in
        if (level =? 0)%Z then (args ++ [cur], r)
        else collect level args (cur ++ [t]) r
      else if is_tok t "," then
        if (level =? 1)%Z then collect level (args ++ [cur]) [] r
        else match r with
             | [] => (finish args (cur ++ [t; None]), [])
             | u :: r' => collect level args (cur ++ [t; u]) r'
             end
      else collect level args (cur ++ [t]) r
  end.
Definition collect_template_arguments := collect 0 [] [].
Definition tok_str (t : token) : str := match t with Some s => s | None => [] end.
Definition join0 (l : list token) : str := concat (map tok_str l).

(** CXX.parse_template, cxx.rb:8-17. The first token is nil if there is none. *)
Definition parse_template (name : str) : option str * list str :=
  match template_tokenizer name with
  | [] => (None, [])
  | t :: r => (Some t, map join0 (fst (collect_template_arguments (map Some r))))
  end.

Fixpoint prefixb (p s : str) : bool :=
  match p, s with
  | [], _ => true
  | a :: p', b :: s' => Ascii.eqb a b && prefixb p' s'
  | _, [] => false
  end.
(** String#gsub with a string: the occurrences from left to right that do not overlap. *)
Fixpoint gsub_ (pat rep : str) (skip : nat) (s : str) : str :=
  match s with
  | [] => []
  | c :: r =>
      match skip with
      | S k => gsub_ pat rep k r
      | O => if prefixb pat s then rep ++ gsub_ pat rep (length pat - 1) r else c :: gsub_ pat rep 0 r
      end
  end.
Definition gsub (pat rep s : str) : str := gsub_ pat rep 0 s.

(** =~ /^[-+\d]/ : at the beginning of any line. *)
Definition numc (c : ascii) : bool := existsb (Ascii.eqb c) (s_ "-+0123456789").
Fixpoint bol_num (bol : bool) (s : str) : bool :=
  match s with [] => false | c :: r => (bol && numc c) || bol_num (Ascii.eqb c "010") r end.
Definition starts_slash (s : str) : bool := match s with c :: _ => Ascii.eqb c "/" | [] => false end.
(** tk[0, 1] != '/' && tk !~ /^[-+\d]/ ? '/' + tk : tk, gccxml.rb:266-270 and 273-275. *)
Definition with_slash (s : str) : str := if negb (starts_slash s) && negb (bol_num true s) then "/" :: s else s.
(** Array#join(','). *)
Fixpoint join_comma (l : list str) : str :=
  match l with [] => [] | [x] => x | x :: r => x ++ "," :: join_comma r end.
Fixpoint map_res (A B : Type) (f : A -> res B) (l : list A) : res (list B) :=
  match l with [] => Ok [] | x :: r => y <- f x ;; ys <- map_res f r ;; Ok (y :: ys) end.
Fixpoint set_last (l : list str) (f : str -> str) : res (list str) :=
  match l with [] => Throw EIndex | [x] => Ok [f x] | x :: r => r' <- set_last r f ;; Ok (x :: r') end.
(** GCCXMLLoader.tokenized_cxx_to_typelib without a filter, gccxml.rb:253-278. [result]: the array of strings. The
    template arguments are converted by the same function; nil tokens raise NoMethodError (EType). *)
Fixpoint tcx (fuel : nat) (result : list str) (ts : list token) : res str :=
  match fuel with
  | O => Fuel
  | S n =>
      match ts with
      | [] => Ok (with_slash (concat result))
      | t :: r =>
          if is_tok t "<" then
            let '(targs, rest) := collect_template_arguments (t :: r) in
            args <- map_res (tcx n []) targs ;;
            result' <- set_last result (fun x => x ++ "<" :: join_comma args ++ [">"]) ;;
            tcx n result' rest
          else match t with
               | Some s => tcx n (result ++ [with_slash s]) r
               | None => Throw EType
               end
      end
  end.
(** GCCXMLLoader.cxx_to_typelib, gccxml.rb:245-251. *)
Definition cxx_to_typelib (name : str) : res str :=
  let name := gsub (s_ "::") ["/"] name in
  let name := gsub (s_ "> >") (s_ ">>") name in
  let ts := map Some (template_tokenizer name) in
  tcx (S (length ts)) [] ts.

(** =~ /[<,>]/ and =~ /^\d/. *)
Definition digitc (c : ascii) : bool := existsb (Ascii.eqb c) (s_ "0123456789").
Fixpoint bol_digit (bol : bool) (s : str) : bool :=
  match s with [] => false | c :: r => (bol && digitc c) || bol_digit (Ascii.eqb c "010") r end.
(** GCCXMLLoader#typelib_to_cxx, gccxml.rb:199-217. The last gsub is given a string, not a regular expression, so that it
    looks for the text of the expression. *)
Definition typelib_to_cxx (name : str) : str :=
  let ts := map (fun t => if existsb punctb t || bol_digit true t then t else gsub ["/"] (s_ "::") t) (template_tokenizer name) in
  let n := gsub (s_ ",([^\s])") (s_ ", ") (gsub (s_ ",::") [","] (gsub (s_ "<::") ["<"] (concat ts))) in
  if prefixb (s_ "::") n then skipn 2 n else n.

(** =~ /[\/<>]/ : the text before the first of these characters, the character and the rest. *)
Definition markb (c : ascii) : bool := existsb (Ascii.eqb c) (s_ "/<>").
(** GCCXMLLoader.split_first_namespace, gccxml.rb:280-306. [ns]: namespace; [cur]: the characters since the last marker. The
    text after the last marker is basename. An empty name raises NoMethodError. *)
Fixpoint sfn (level : Z) (ns cur s : str) : str * str :=
  match s with
  | [] => (ns, cur)
  | c :: r =>
      if markb c then
        let ns := ns ++ cur ++ [c] in
        if Ascii.eqb c "/" then if (level =? 0)%Z then (ns, r) else sfn level ns [] r
        else sfn (if Ascii.eqb c "<" then level + 1 else level - 1)%Z ns [] r
      else sfn level ns (cur ++ [c]) r
  end.
Definition split_first_namespace (typename : str) : res (str * str) :=
  match typename with
  | [] => Throw EType
  | _ :: b =>
      let '(ns, base) := sfn 0 ["/"] [] b in
      match base with [] => Ok (["/"], tl ns) | _ => Ok (ns, base) end
  end.
(** GCCXMLLoader.split_last_namespace, gccxml.rb:308-338, on the reversed name. Returns what is left of it and basename. *)
Fixpoint sln (level : Z) (base s : str) : str * str :=
  match s with
  | [] => ([], base)
  | c :: r =>
      if markb c then
        if Ascii.eqb c "/" then if (level =? 0)%Z then (s, base) else sln level (base ++ [c]) r
        else sln (if Ascii.eqb c "<" then level + 1 else level - 1)%Z (base ++ [c]) r
      else sln level (base ++ [c]) r
  end.
Definition split_last_namespace (name : str) : str * str :=
  let '(t, b) := sln 0 [] (rev name) in (rev t, rev b).
