(** * StdTypes: lang/csupport/standard_types.cc, on x86-64 Linux. *)
From Verif Require Import Base Types NamesSpec Names Graph Registry RegistrySpec World TypeBuilder.
Local Open Scope nat_scope.

(** One statement of addStandardTypes: r.add(new ...) or r.alias(base, name). *)
Inductive std_step := SAdd (o : tobj) | SAlias (base name : str).
Definition num (n : string) (size : N) (c : ncat) : std_step := SAdd (Obj (s_ n) size (ONum c)).
Definition same (base : string) (names : list string) : list std_step := map (fun n => SAlias (s_ base) (s_ n)) names.
(** The statements of ::addStandardTypes, standard_types.cc:8-120. The sizes of the C types are those of the platform:
    numeric_limits<...>::digits + 1 is 8 for char, 16 for short, 32 for int and wchar_t, 64 for long and long long; char and
    wchar_t are signed. *)
Definition std_steps : list std_step :=
  [SAdd (Obj (s_ "/nil") 0 ONull); SAlias (s_ "/nil") (s_ "/void")] ++
  (* 16-23 *)
  [num "/int8_t" 1 SInt; num "/uint8_t" 1 UInt; num "/int16_t" 2 SInt; num "/uint16_t" 2 UInt;
   num "/int32_t" 4 SInt; num "/uint32_t" 4 UInt; num "/int64_t" 8 SInt; num "/uint64_t" 8 UInt] ++
  (* 25-40 *)
  same "/int8_t" ["/signed char"%string; "/char"%string] ++ same "/uint8_t" ["/unsigned char"%string] ++ same "/int32_t" ["/wchar_t"%string] ++
  (* 42-58 *)
  same "/int16_t" ["/signed short int"%string; "/signed int short"%string; "/int signed short"%string; "/short signed int"%string; "/signed short int"%string;
                   "/signed short"%string; "/short signed"%string; "/short"%string; "/short int"%string] ++
  same "/uint16_t" ["/short unsigned int"%string; "/short int unsigned"%string; "/int short unsigned"%string; "/unsigned short int"%string;
                    "/short unsigned"%string; "/unsigned short"%string] ++
  (* 60-68 *)
  same "/int32_t" ["/signed int"%string; "/signed"%string; "/int signed"%string; "/int"%string] ++
  same "/uint32_t" ["/unsigned int"%string; "/unsigned"%string; "/int unsigned"%string] ++
  (* 70-86 *)
  same "/int64_t" ["/signed long int"%string; "/signed int long"%string; "/int signed long"%string; "/long signed int"%string; "/signed long int"%string;
                   "/signed long"%string; "/long signed"%string; "/long"%string; "/long int"%string] ++
  same "/uint64_t" ["/long unsigned int"%string; "/long int unsigned"%string; "/int long unsigned"%string; "/unsigned long int"%string;
                    "/long unsigned"%string; "/unsigned long"%string] ++
  (* 88-113 *)
  same "/int64_t" ["/signed long long int"%string; "/signed long int long"%string; "/signed int long long"%string; "/int signed long long"%string;
                   "/long signed long int"%string; "/long long signed int"%string; "/long long int signed"%string; "/signed long long"%string;
                   "/long long signed"%string; "/long signed long"%string; "/long long int"%string; "/long int long"%string; "/int long long"%string;
                   "/long long"%string] ++
  same "/uint64_t" ["/unsigned long long int"%string; "/unsigned long int long"%string; "/unsigned int long long"%string; "/int unsigned long long"%string;
                    "/long unsigned long int"%string; "/long long unsigned int"%string; "/long long int unsigned"%string; "/unsigned long long"%string;
                    "/long long unsigned"%string; "/long unsigned long"%string] ++
  (* 115-121 *)
  [num "/float" 4 Float; num "/double" 8 Float; num "/bool" 1 UInt].

(** One statement; alias and add as in registry.cc:393-400, 370-373. *)
Definition std_do (f : nat) (w : bstate) (st : std_step) : bstate * res unit :=
  let '(s, r) := w in
  match st with
  | SAdd o => let s' := alloc s o in let '(r', out) := add f (s_heap s') r (s_next s) [] in ((s', r'), out)
  | SAlias base n => let '(r', out) := alias f (s_heap s) r base n [] in ((s, r'), out)
  end.
Fixpoint std_run (f : nat) (w : bstate) (l : list std_step) : bstate * res unit :=
  match l with
  | [] => (w, Ok tt)
  | st :: l' => match std_do f w st with (w', Ok _) => std_run f w' l' | x => x end
  end.
(** String's constructor, containers.cc:391-393. *)
Definition string_obj (c : tid) : tobj := Obj (s_ "/std/string") 32 (OCont KStr c).
(** Typelib::CXX::addStandardTypes, standard_types.cc:124-130. get returns a null pointer, and dereferencing it is undefined. *)
Definition addStandardTypes (f : nat) (w : bstate) : bstate * res unit :=
  match (if has (snd w) (s_ "/bool") then (w, Ok tt) else std_run f w std_steps) with
  | (w1, Ok _) =>
      if has (snd w1) (s_ "/std/string") then (w1, Ok tt)
      else match get (snd w1) (s_ "/int8_t") with
           | None => (w1, UB UOther)
           | Some c => std_do f w1 (SAdd (string_obj c))
           end
  | x => x
  end.
