(** * Xml: the XML documents the tlb importer reads, as libxml2's xmlParseMemory gives them.

    libxml2 is not part of the repository: this is a specification of the subset of XML 1.0 that the exporter writes
    (and a little more): an XML declaration, elements, attributes in double quotes with the five predefined entities,
    character data, CDATA sections. ASCII only. Documents outside of the subset (comments, processing instructions,
    DTDs, attributes in single quotes, character references, entities in character data) are rejected. *)
From Verif Require Import Base.
From Verif Require Import Graph.
Local Open Scope nat_scope.

Local Notation "'c_' x" := (Ascii.ascii_of_nat x) (at level 1).

(** A node: element (name, attributes, children), one character of a text node (libxml2 groups adjacent characters in
    one node; the importer never looks at them), CDATA section. *)
Inductive xnode :=
| XElem (tag : str) (attrs : list (str * str)) (kids : list xnode)
| XChar (c : ascii)
| XCdata (s : str).

(** [2] Char, restricted to ASCII. *)
Definition isxchar (c : ascii) : bool := let n := nat_of_ascii c in ((32 <=? n) && (n <? 128)) || (n =? 9) || (n =? 10) || (n =? 13).
(** [3] S *)
Definition isxspace (c : ascii) : bool := let n := nat_of_ascii c in (n =? 32) || (n =? 9) || (n =? 10) || (n =? 13).
(** [4] NameStartChar, [4a] NameChar. *)
Definition isletter (c : ascii) : bool := let n := nat_of_ascii c in ((65 <=? n) && (n <=? 90)) || ((97 <=? n) && (n <=? 122)).
Definition isxstart (c : ascii) : bool := isletter c || Ascii.eqb c "_" || Ascii.eqb c ":".
Definition isxname (c : ascii) : bool :=
  isxstart c || (let n := nat_of_ascii c in (48 <=? n) && (n <=? 57)) || Ascii.eqb c "-" || Ascii.eqb c ".".
Fixpoint span (p : ascii -> bool) (s : str) : str * str :=
  match s with
  | c :: r => if p c then let '(a, b) := span p r in (c :: a, b) else ([], s)
  | [] => ([], [])
  end.
Definition read_name (s : str) : option (str * str) :=
  match s with
  | c :: _ => if isxstart c then Some (span isxname s) else None
  | [] => None
  end.
(** The rest of [s] after the prefix [p]. *)
Fixpoint after (p s : str) : option str :=
  match p, s with
  | [], _ => Some s
  | x :: p', y :: s' => if Ascii.eqb x y then after p' s' else None
  | _ :: _, [] => None
  end.
(** [10] AttValue, after the opening quote, with the normalisation of 3.3.3 and 2.11: the value and what follows the closing quote. *)
Fixpoint read_value (fuel : nat) (s : str) : option (str * str) :=
  match fuel with
  | 0 => None
  | S f =>
    match s with
    | [] => None
    | c :: r =>
        let go x r' := match read_value f r' with Some (v, rest) => Some (x :: v, rest) | None => None end in
        if Ascii.eqb c """" then Some ([], r)
        else if Ascii.eqb c "<" then None
        else if Ascii.eqb c "&" then
          match after (s_ "lt;") r with Some r' => go "<"%char r' | None =>
          match after (s_ "gt;") r with Some r' => go ">"%char r' | None =>
          match after (s_ "amp;") r with Some r' => go "&"%char r' | None =>
          match after (s_ "quot;") r with Some r' => go """"%char r' | None =>
          match after (s_ "apos;") r with Some r' => go "'"%char r' | None => None end end end end end
        else if nat_of_ascii c =? 13 then
          match r with d :: r' => if nat_of_ascii d =? 10 then go " "%char r' else go " "%char r | [] => None end
        else if isxspace c then go " "%char r
        else if isxchar c then go c r
        else None
    end
  end.
(** The attributes of a tag and its end, > or /> (true). *)
Fixpoint read_attrs (fuel : nat) (s : str) (acc : list (str * str)) : option (list (str * str) * bool * str) :=
  match fuel with
  | 0 => None
  | S f =>
    let '(sp, s1) := span isxspace s in
    match s1 with
    | [] => None
    | c :: r =>
        if Ascii.eqb c ">" then Some (rev acc, false, r)
        else if Ascii.eqb c "/" then match r with d :: r' => if Ascii.eqb d ">" then Some (rev acc, true, r') else None | [] => None end
        else match sp, read_name s1 with
             | _ :: _, Some (n, s2) =>
                 match after (s_ "=""") s2 with
                 | None => None
                 | Some s3 =>
                     match read_value (S (length s3)) s3 with
                     | None => None
                     | Some (v, s4) => if existsb (fun p => seqb (fst p) n) acc then None else read_attrs f s4 ((n, v) :: acc)
                     end
                 end
             | _, _ => None
             end
    end
  end.
(** [20] CData, up to the first ]]>; line ends are normalised (2.11). *)
Fixpoint read_cdata (fuel : nat) (s : str) : option (str * str) :=
  match fuel with
  | 0 => None
  | S f =>
    match after (s_ "]]>") s with
    | Some r => Some ([], r)
    | None =>
      match s with
      | [] => None
      | c :: r =>
          let go x r' := match read_cdata f r' with Some (v, rest) => Some (x :: v, rest) | None => None end in
          if nat_of_ascii c =? 13 then
            match r with d :: r' => if nat_of_ascii d =? 10 then go (c_ 10) r' else go (c_ 10) r | [] => None end
          else if isxchar c then go c r else None
      end
    end
  end.
(** Tokens: start tag (true: empty element), end tag, character, CDATA section. *)
Inductive token :=
| TOpen (tag : str) (attrs : list (str * str)) (empty : bool)
| TClose (tag : str)
| TChar (c : ascii)
| TCdata (s : str).
(** [14] CharData excludes ]]>. *)
Fixpoint lex (fuel : nat) (s : str) : option (list token) :=
  match fuel with
  | 0 => None
  | S f =>
    match s with
    | [] => Some []
    | c :: r =>
        let go t r' := match lex f r' with Some ts => Some (t :: ts) | None => None end in
        if Ascii.eqb c "<" then
          match after (s_ "![CDATA[") r with
          | Some r1 => match read_cdata (S (length r1)) r1 with Some (v, r2) => go (TCdata v) r2 | None => None end
          | None =>
            match after (s_ "/") r with
            | Some r1 =>
                match read_name r1 with
                | Some (n, r2) => match snd (span isxspace r2) with d :: r3 => if Ascii.eqb d ">" then go (TClose n) r3 else None | [] => None end
                | None => None
                end
            | None =>
                match read_name r with
                | Some (n, r1) => match read_attrs (S (length r1)) r1 [] with Some (a, e, r2) => go (TOpen n a e) r2 | None => None end
                | None => None
                end
            end
          end
        else if Ascii.eqb c "&" then None
        else if isxchar c && match after (s_ "]]>") s with Some _ => false | None => true end then go (TChar c) r else None
    end
  end.
(** The nodes of a sequence of tokens: [stk] holds the open elements and the (reversed) nodes before them, [kids] the
    (reversed) nodes since the last open tag. *)
Definition frame : Type := str * list (str * str) * list xnode.
Fixpoint build_tree (ts : list token) (stk : list frame) (kids : list xnode) : option (list xnode) :=
  match ts with
  | [] => match stk with [] => Some (rev kids) | _ => None end
  | TOpen t a false :: r => build_tree r ((t, a, kids) :: stk) []
  | TOpen t a true :: r => build_tree r stk (XElem t a [] :: kids)
  | TClose t :: r => match stk with (t', a, k) :: stk' => if seqb t' t then build_tree r stk' (XElem t' a (rev kids) :: k) else None | [] => None end
  | TChar c :: r => build_tree r stk (XChar c :: kids)
  | TCdata s :: r => build_tree r stk (XCdata s :: kids)
  end.
(** A document: an optional XML declaration (only this one), the root element, white space around it. *)
Fixpoint root_of (l : list xnode) (found : option xnode) : option xnode :=
  match l with
  | [] => found
  | XChar c :: r => if isxspace c then root_of r found else None
  | XCdata _ :: _ => None
  | e :: r => match found with None => root_of r (Some e) | Some _ => None end
  end.
Definition parse_doc (s : str) : option xnode :=
  let body := match after (s_ "<?xml version=""1.0""?>") s with Some r => r | None => s end in
  match lex (S (length body)) body with
  | Some ts => match build_tree ts [] [] with Some l => root_of l None | None => None end
  | None => None
  end.
