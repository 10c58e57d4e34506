(** * RbExportSpec: types of a registry as methods and constants of a Ruby module (specification side).

    After registry.export_to_ruby(Types), Types.a.b.Name gives the type /a/b/Name: whatever a call returns stands for a name, and calling
    a method c of it looks for that name followed by /c. *)
From Verif Require Import Base NamesSpec.

(** Template arguments of a call: Types.std.vector('/int') is /std/vector</int>. *)
Fixpoint commas (l : list str) : str := match l with [] => [] | [x] => x | x :: t => x ++ (","%char :: commas t) end.
Definition targs (l : list str) : str := match l with [] => [] | _ => "<"%char :: commas l ++ [">"%char] end.
Record call := Call { c_const : bool; c_m : str; c_args : list str }.      (* c_const: Types::Name *)
Definition text (c : call) : str := c_m c ++ targs (c_args c).
Inductive eop :=
| ECall (h : nat) (c : call)              (* a call on what the h-th successful call returned; 0: the module itself *)
| ERegister (n canon : str)               (* a type, or an alias of the type canon, is added to the registry *)
| ERemove (n : str).
Inductive exported := XType (t : str) | XClass (name : str).    (* a type, or the Ruby class given as its conversion or by the filter *)
Inductive eresult := EType (t : str) | EClass (name : str) | ENamespace (p : str) | ENotFound | EDone.
Definition str_dec := list_eq_dec ascii_dec.
Fixpoint entry (types : list (str * str)) (n : str) : option str :=
  match types with [] => None | (k, c) :: r => if str_dec k n then Some c else entry r n end.
Fixpoint starts (p s : str) : bool :=
  match p, s with [], _ => true | a :: p', b :: s' => if ascii_dec a b then starts p' s' else false | _ :: _, [] => false end.

Section Spec.
  Variable export : str -> exported.
  Record sexp := SE { se_types : list (str * str); se_names : list str }.     (* what was returned so far, as names followed by '/' *)
  Definition s_lookup (types : list (str * str)) (n : str) : eresult :=
    match entry types n with
    | Some t => match export t with XType t' => EType t' | XClass k => EClass k end
    | None => if existsb (fun e => starts (n ++ [sep]) (fst e)) types then ENamespace (n ++ [sep]) else ENotFound
    end.
  Definition s_estep (s : sexp) (o : eop) : sexp * eresult :=
    match o with
    | ERegister n c => (SE ((n, c) :: se_types s) (se_names s), EDone)
    | ERemove n => (SE (filter (fun e => if str_dec (snd e) n then false else true) (se_types s)) (se_names s), EDone)
    | ECall h c =>
        match nth_error (se_names s) h with
        | None => (s, ENotFound)
        | Some p => match s_lookup (se_types s) (p ++ text c) with
                    | ENotFound => (s, ENotFound)
                    | r => (SE (se_types s) (se_names s ++ [p ++ text c ++ [sep]]), r)
                    end
        end
    end.
  Fixpoint s_erun (s : sexp) (l : list eop) : list eresult := match l with [] => [] | o :: t => let (s', x) := s_estep s o in x :: s_erun s' t end.
End Spec.
