(** * Singleton: the singleton server (typelib/utilmm/singleton/server.cc, dummy.cc, bits/use.tcc, bits/wrapper.tcc).

    Every call of dummy::attach, dummy::detach and dummy::instance holds the one recursive mutex (dummy.cc:26-42), so
    what threads do is a sequence of such calls. *)
From Verif Require Import Base Names Graph Registry Smap.
Local Open Scope nat_scope.

(** What happens to instances, in order. *)
Inductive event := Created (n : str) (i : nat) | Destroyed (n : str) (i : nat).

(** server::the_instance: the server, with a number that tells servers apart, and its map from names to wrappers; a wrapper
    has a reference counter (dummy.hh:71, a size_t) and an instance. *)
Record sing := Sing { the_instance : option (nat * smap (N * nat)); next_server : nat; next_inst : nat; log : list event }.
Definition sing0 : sing := Sing None 0 0 [].

(** server.cc:54-58 *)
Definition instance (s : sing) : sing * (nat * smap (N * nat)) :=
  match the_instance s with
  | Some v => (s, v)
  | None => (Sing (Some (next_server s, [])) (S (next_server s)) (next_inst s) (log s), (next_server s, []))
  end.
Definition set_map (s : sing) (e : nat) (m : smap (N * nat)) : sing := Sing (Some (e, m)) (next_server s) (next_inst s) (log s).

Section clients.
(** [holds n]: the singletons that the singleton n uses (its use<> members: attached when it is constructed, detached when it
    is destroyed); [ok n]: whether its constructor completes. *)
Variable holds : str -> list str.
Variable ok : str -> bool.

(** dummy.cc:32-36 with server.cc:35-46. The wrapper is destroyed after it left the map; then the map is looked at again, and
    the server deleted if it is empty. A server deleted meanwhile is a use after free. *)
Fixpoint detach (fuel : nat) (s : sing) (n : str) : res sing :=
  match fuel with
  | O => Fuel
  | S f =>
      let '(s, (e, m)) := instance s in
      match m_find n m with
      | None => UB UOther                                             (* i->second with i == end() *)
      | Some (c, i) =>
          if (c <=? 1)%N then
            let s := set_map s e (m_erase n m) in
            let s := Sing (the_instance s) (next_server s) (next_inst s) (log s ++ [Destroyed n i]) in
            s <- fold_left (fun a k => s <- a ;; detach f s k) (rev (holds n)) (Ok s) ;;
            match the_instance s with
            | Some (e', m') => if Nat.eqb e e' then Ok (match m' with [] => Sing None (next_server s) (next_inst s) (log s) | _ => s end) else UB UOther
            | None => UB UOther
            end
          else Ok (set_map s e (m_set n ((c - 1)%N, i) m))
      end
  end.
(** dummy.cc:27-30 with server.cc:27-33. *)
Fixpoint attach (fuel : nat) (s : sing) (n : str) : res sing * sing :=
  match fuel with
  | O => (Fuel, s)
  | S f =>
      let '(s, (e, m)) := instance s in
      match m_find n m with
      | Some (c, i) => let s := set_map s e (m_set n (((c + 1) mod 2 ^ 64)%N, i) m) in (Ok s, s)
      | None =>
          let fix all (s : sing) (done todo : list str) : res sing * sing :=
            match todo with
            | [] => (Ok s, s)
            | k :: r =>
                match attach f s k with
                | (Ok s, _) => all s (k :: done) r
                | (Throw x, s) => match fold_left (fun a k => s <- a ;; detach f s k) done (Ok s) with Ok s => (Throw x, s) | x => (x, s) end
                | (UB u, s) => (UB u, s)
                | (Fuel, s) => (Fuel, s)
                end
            end in
          match all s [] (holds n) with
          | (Ok s, _) =>
              if ok n then
                let i := next_inst s in
                let s := Sing (the_instance s) (next_server s) (S i) (log s ++ [Created n i]) in
                match the_instance s with
                | Some (e', m') => if Nat.eqb e e' then let s := set_map s e' (m_insert n (1%N, i) m') in (Ok s, s) else (UB UOther, s)
                | None => (UB UOther, s)
                end
              else match fold_left (fun a k => s <- a ;; detach f s k) (rev (holds n)) (Ok s) with Ok s => (Throw ERuntime, s) | x => (x, s) end
          | x => x
          end
      end
  end.
End clients.
(** dummy.cc:38-41 with server.cc:49-51. *)
Definition get_instance (s : sing) (n : str) : res nat :=
  match m_find n (snd (snd (instance s))) with None => UB UOther | Some (_, i) => Ok i end.

(** The clients: a use<> object is constructed or copied (use.tcc:16-24; [c]: would the constructor of the singleton complete
    now?), destroyed (use.tcc:26-29), dereferenced (use.tcc:31-34). *)
Inductive op := Use (n : str) (c : bool) | Drop (n : str) | Deref (n : str).
(** Histories of clients of singletons that use no other singleton (the only singleton of typelib, PluginManager, does not). *)
Definition step (s : sing) (o : op) : res sing :=
  match o with
  | Use n c => match attach (fun _ => []) (fun _ => c) 2 s n with (Ok s, _) => Ok s | (Throw _, s) => Ok s | (UB u, _) => UB u | (Fuel, _) => Fuel end
  | Drop n => detach (fun _ => []) 2 s n
  | Deref n => _ <- get_instance s n ;; Ok (fst (instance s))
  end.
Definition run (h : list op) : res sing := fold_left (fun a o => s <- a ;; step s o) h (Ok sing0).
