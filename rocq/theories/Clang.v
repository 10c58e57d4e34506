(** * Clang: the clang importer (tools/typelib-clang-tlb-importer/TypelibBuilder.cpp).

    Simplifications: the syntax tree is given (clang), names too (NamingConversions.cpp, see C43); containers have one argument (the
    other ones are ignored by isTemplateArgumentIgnored) and, as their members are pointers, are not imported as classes when
    their argument cannot be registered; std::string and opaques are left out; metadata is left out. Members lie within the
    object, so that Compound::addField does not change the size. The registry is that of Gccxml.v. *)
From Verif Require Import Base Types TypeObj GccxmlSpec Gccxml ClangSpec.
Local Open Scope nat_scope.

(** int is 32 bits wide: the conversion of int64_t to Enum::integral_type (typemodel.hh:311). *)
Definition to_int (z : Z) : Z := ((z + 2147483648) mod 4294967296 - 2147483648)%Z.
Section Clang.
  Variable P : cprog.
  (** The names Typelib accepts (Registry::add). *)
  Definition cp_names : program := Prog (fun _ => None) (fun _ => false) (fun _ => false) (c_valid P).
  Notation add := (add_type cp_names).
  Notation alias_ := (alias cp_names).
  Definition cres : Type := res (option nm * areg).
  (** isReferenceType and isAnyPointerType look through typedefs. *)
  Definition is_indirect (t : ctype) : bool := match canon t with CPtr _ | CRef _ => true | _ => false end.
  Definition is_array (t : ctype) : bool := match t with CArray _ _ => true | _ => false end.
  (** registerBuiltIn, TypelibBuilder.cpp:276-355, once the name is known to be missing. *)
  Definition register_builtin (r : areg) (s : str) (k : bkind) (bits : N) : cres :=
    match numeric_name P s k bits with
    | None => Ok (None, r)
    | Some n =>
        match get r (NBase n) with
        | None => r1 <- add r (NBase n) (DNum (bits / 8)) ;; r2 <- alias_ r1 (NBase s) (NBase n) ;; Ok (Some (NBase n), r2)
        | Some c => r2 <- alias_ r (NBase s) c ;; Ok (Some c, r2)
        end
    end.
  (** addEnum, TypelibBuilder.cpp:443-475. *)
  Definition add_enum (r : areg) (e : enumd) : cres :=
    if negb (en_named e) then Ok (None, r)
    else match en_access e with
         | Priv => Ok (None, r)
         | _ => let vs := map (fun p => (fst p, to_int (snd p))) (en_values e) in
                if consistentb vs then r1 <- add r (NBase (en_name e)) (DEnum vs) ;; Ok (Some (NBase (en_name e)), r1) else Throw EAlreadyExists
         end.
  Section Rec.
    (** [rec]: registerType, [recm]: addMembersOfClassToCompound. *)
    Variable rec : areg -> ctype -> cres.
    Variable recm : areg -> nat -> res (option (list cfield) * areg).
    (** addArray, TypelibBuilder.cpp:402-441. *)
    Definition add_array (r : areg) (t : ctype) (n : N) : cres :=
      if is_array t then Ok (None, r)
      else '(o, r1) <- rec r t ;;
           match o with
           | None => Ok (None, r1)
           | Some c => r2 <- add r1 (NArrOf c n) (DArr c n) ;; Ok (Some (NArrOf c n), r2)
           end.
    (** registerTypedefNameDecl, TypelibBuilder.cpp:689-719: exit() when the name is not valid. *)
    Definition register_typedef (r : areg) (s : str) (u : ctype) : cres :=
      if c_valid P (NBase s) then
        '(o, r1) <- rec r u ;;
        match o with None => Ok (None, r1) | Some c => r2 <- alias_ r1 (NBase s) (cname P u) ;; Ok (Some c, r2) end
      else Throw EStd.
    (** The fields of addMembersOfClassToCompound, TypelibBuilder.cpp:608-664. *)
    Fixpoint fields_members (r : areg) (fs : list fieldd) : res (option (list cfield) * areg) :=
      match fs with
      | [] => Ok (Some [], r)
      | f :: fs' =>
          if cf_anon f then Ok (None, r)
          else match cf_access f with
               | Priv => Ok (None, r)
               | _ => '(o, r1) <- rec r (canon (cf_type f)) ;;
                      match o with
                      | None => Ok (None, r1)
                      | Some c => if negb (cf_bits f mod 8 =? 0)%N then Ok (None, r1)
                                  else '(l, r2) <- fields_members r1 fs' ;; Ok (option_map (cons (cf_name f, c, Z.of_N (cf_bits f / 8))) l, r2)
                      end
               end
      end.
    (** Its bases, TypelibBuilder.cpp:666-680. A null declaration is dereferenced. *)
    Fixpoint bases_members (r : areg) (bs : list cbase) : res (option (list cfield) * areg) :=
      match bs with
      | [] => Ok (Some [], r)
      | b :: bs' =>
          match as_record (cb_type b) with
          | None => UB UOther
          | Some j => '(o, r1) <- recm r j ;;
                      match o with
                      | None => Ok (None, r1)
                      | Some l => '(l2, r2) <- bases_members r1 bs' ;; Ok (option_map (app l) l2, r2)
                      end
          end
      end.
    Definition class_members (r : areg) (i : nat) : res (option (list cfield) * areg) :=
      '(o, r1) <- fields_members r (rd_fields (c_record P i)) ;;
      match o with
      | None => Ok (None, r1)
      | Some l => '(o2, r2) <- bases_members r1 (rd_bases (c_record P i)) ;; Ok (option_map (app l) o2, r2)
      end.
    (** The bases in addRecord, TypelibBuilder.cpp:549-589: true to go on. *)
    Fixpoint register_bases (r : areg) (bs : list cbase) : res (bool * areg) :=
      match bs with
      | [] => Ok (true, r)
      | b :: bs' =>
          match as_record (cb_type b) with
          | None => register_bases r bs'
          | Some _ => match cb_access b with Priv => Ok (false, r) | _ => '(_, r1) <- rec r (cb_type b) ;; register_bases r1 bs' end
          end
      end.
    (** checkRegisterContainer, TypelibBuilder.cpp:66-190, and Vector::factory, containers.cc:367-387. *)
    Definition register_container (r : areg) (name : str) (e : ctype) : cres :=
      '(o, r1) <- rec r e ;;
      match o with
      | None => Ok (None, r1)
      | Some c =>
          let n := NBase (c_cont P c) in
          '(r2, x) <- match get r1 n with
                      | Some x => match def r1 x with Some (DCont _) => Ok (r1, x) | _ => Throw EStd end
                      | None => r2 <- add r1 n (DCont c) ;; Ok (r2, n)
                      end ;;
          r3 <- (if nm_dec x (NBase name) then Ok r2 else alias_ r2 (NBase name) x) ;;
          Ok (Some x, r3)
      end.
    (** addRecord, TypelibBuilder.cpp:477-606. *)
    Definition add_record (r : areg) (i : nat) : cres :=
      let d := c_record P i in
      if negb (rd_named d) || rd_bad d then Ok (None, r)
      else match rd_container d with
           | Some e => register_container r (rd_name d) e
           | None =>
               if negb (rd_defined d) || rd_poly d then Ok (None, r)
               else '(o, r1) <- recm r i ;;
                    match o with
                    | None => Ok (None, r1)
                    | Some [] => Ok (None, r1)
                    | Some fs => '(go, r2) <- register_bases r1 (rd_bases d) ;;
                                 if go : bool then r3 <- add r2 (NBase (rd_name d)) (DComp (rd_size d) fs) ;; Ok (Some (NBase (rd_name d)), r3)
                                 else Ok (None, r2)
                    end
           end.
  End Rec.
  (** registerType, TypelibBuilder.cpp:357-400; the name it is given is always that of the type. *)
  Fixpoint register_type (fuel : nat) (r : areg) (t : ctype) : cres :=
    match fuel with
    | 0 => Fuel
    | S f =>
        match get r (cname P t) with
        | Some c => Ok (Some c, r)
        | None =>
            if is_indirect t then Ok (None, r)
            else match t with
                 | CBuiltin s k bits => register_builtin r s k bits
                 | CRecord i => add_record (register_type f) (add_members f) r i
                 | CEnum e => add_enum r (c_enum P e)
                 | CArray u n => add_array (register_type f) r u n
                 | CTypedef s u => register_typedef (register_type f) r s u
                 | CElab u => register_type f r u
                 | _ => Ok (None, r)
                 end
        end
    end
  with add_members (fuel : nat) (r : areg) (i : nat) : res (option (list cfield) * areg) :=
    match fuel with
    | 0 => Fuel
    | S f => class_members (register_type f) (add_members f) r i
    end.
  (** The callback of main.cpp:66-102 over the declarations of the main file, in order; registerTypeDecl, TypelibBuilder.cpp:21-64
      (the declarations it ignores are not given). *)
  Fixpoint import (fuel : nat) (r : areg) (l : list ctype) : res areg :=
    match l with
    | [] => Ok r
    | t :: l' =>
        '(_, r1) <- match t with CTypedef s u => register_typedef (register_type fuel) r s u | _ => register_type fuel r t end ;;
        import fuel r1 l'
    end.
End Clang.
