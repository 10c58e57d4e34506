(** * C76: types of an exported registry are found by their names. *)
From Verif Require Import Base NamesSpec Names NamesProofs NamesPath RbExportSpec RbExport RbExportProofs.

(** A call that method_missing or const_missing receives: one component of a name, with arguments for templates. The name of the module
    as a method of itself, that of a class as a method of the class, and constants for which the registry has no type with this very name
    are excepted (see below). *)
Definition ordinary (root : str) (export : str -> exported) (sp : sexp) (o : eop) : Prop :=
  match o with
  | ECall h c => forall p, nth_error (se_names sp) h = Some p ->
      comp (text c) /\ text c <> [] /\ (p = [sep] -> c_m c <> root) /\ (forall t k, p = t ++ [sep] -> export t = XClass k -> c_m c <> k) /\
      (c_const c = false \/ entry (se_types sp) (p ++ text c) <> None)
  | ERegister n canon => n = canon
  | ERemove _ => False
  end.
Fixpoint all_ordinary (root : str) (export : str -> exported) (sp : sexp) (l : list eop) : Prop :=
  match l with [] => True | o :: t => ordinary root export sp o /\ all_ordinary root export (fst (s_estep export sp o)) t end.
Definition c76_start : sexp := SE [] [[sep]].

(** Whatever was called and cached before, and whatever was registered in between, every call gives what the registry has at that moment
    under the name it stands for. *)
Theorem C76_history_partial snake camel export root l :
  (forall t, export t = XType t \/ exists k, export t = XClass k) ->
  all_ordinary root export c76_start l -> e_run snake camel export (e_start root) l = s_erun export c76_start l.
Proof.
  intros X F. apply (run_agree snake camel (root := root) X (agree_start export root)). change (SE [] [[sep]]) with c76_start. revert F. generalize c76_start. induction l as [|o l IH]; intros sp F; [exact I|]. destruct F as [F1 F2]. split; [|apply IH; exact F2].
  destruct o as [h c|n n'|n]; cbn [ordinary strict_op] in *; [|exact F1|exact F1]. intros p Hp. destruct (F1 p Hp) as (Y1 & Y2 & Y3 & Y4 & Y5). split; [split; [exact Y1|auto]|exact Y5].
Qed.

(** Types.a.b.Name *)
Fixpoint path (cs : list call) : str := match cs with [] => [] | [c] => text c | c :: r => text c ++ sep :: path r end.
Fixpoint chain (k h : nat) (cs : list call) : list eop := match cs with [] => [] | c :: r => ECall h c :: chain (S k) k r end.
Lemma starts_app p r : starts p (p ++ r) = true.
Proof. rewrite starts_prefix. apply has_prefix_app. eauto. Qed.
Lemma starts_shorter p q s : starts (p ++ q) s = true -> starts p s = true.
Proof. rewrite !starts_prefix, !has_prefix_app. intros (r & ->). exists (q ++ r). rewrite app_assoc. reflexivity. Qed.
Lemma lookup_parent export T n r : s_lookup export T (n ++ sep :: r) <> ENotFound -> s_lookup export T n <> ENotFound.
Proof.
  unfold s_lookup. intros H. destruct (entry T n) as [t|]; [destruct (export t); discriminate|]. assert (X : existsb (fun e => starts (n ++ [sep]) (fst e)) T = true); [|rewrite X; discriminate].
  apply existsb_exists. destruct (entry T (n ++ sep :: r)) as [t|] eqn:E.
  - clear H. induction T as [|[k c] T IH]; cbn [entry] in E; [discriminate|]. destruct (str_dec k (n ++ sep :: r)) as [-> |].
    + exists (n ++ sep :: r, c). split; [left; reflexivity|]. cbn [fst]. change (sep :: r) with ([sep] ++ r). rewrite app_assoc. apply starts_app.
    + destruct (IH E) as (e & H1 & H2). exists e. split; [right; exact H1|exact H2].
  - destruct (existsb _ T) eqn:Ex; [|congruence]. apply existsb_exists in Ex as (e & H1 & H2). exists e. split; [exact H1|]. change (sep :: r) with ([sep] ++ r) in H2. rewrite !app_assoc in H2. rewrite <- app_assoc in H2. exact (starts_shorter H2).
Qed.
Lemma chain_spec export : forall cs sp h p, cs <> [] -> nth_error (se_names sp) h = Some p -> s_lookup export (se_types sp) (p ++ path cs) <> ENotFound ->
  last (s_erun export sp (chain (length (se_names sp)) h cs)) ENotFound = s_lookup export (se_types sp) (p ++ path cs).
Proof.
  induction cs as [|c [|c2 r] IH]; intros sp h p N E H; [congruence| |].
  - cbn [chain s_erun s_estep path] in *. rewrite E. destruct (s_lookup export (se_types sp) (p ++ text c)); reflexivity || congruence.
  - assert (Q : path (c :: c2 :: r) = text c ++ sep :: path (c2 :: r)) by reflexivity. rewrite Q in *. clear Q. rewrite app_assoc in H. assert (Hp := lookup_parent H).
    set (sp' := SE (se_types sp) (se_names sp ++ [p ++ text c ++ [sep]])). assert (St : s_estep export sp (ECall h c) = (sp', s_lookup export (se_types sp) (p ++ text c))).
    { cbn [s_estep]. rewrite E. destruct (s_lookup export (se_types sp) (p ++ text c)); reflexivity || congruence. }
    assert (G : last (s_erun export sp' (chain (S (length (se_names sp))) (length (se_names sp)) (c2 :: r))) ENotFound = s_lookup export (se_types sp) (p ++ text c ++ sep :: path (c2 :: r))).
    { assert (IH' := IH sp' (length (se_names sp)) (p ++ text c ++ [sep])). unfold sp' in IH'. cbn [se_names se_types] in IH'. rewrite app_length in IH'. cbn [length] in IH'. rewrite Nat.add_1_r in IH'.
      replace (p ++ text c ++ sep :: path (c2 :: r)) with ((p ++ text c ++ [sep]) ++ path (c2 :: r)) by (rewrite <- !app_assoc; reflexivity). apply IH'; [discriminate|rewrite nth_error_app2, Nat.sub_diag by lia; reflexivity|].
      replace ((p ++ text c ++ [sep]) ++ path (c2 :: r)) with ((p ++ text c) ++ sep :: path (c2 :: r)) by (rewrite <- !app_assoc; reflexivity). exact H. }
    rewrite <- G. change (chain (length (se_names sp)) h (c :: c2 :: r)) with (ECall h c :: chain (S (length (se_names sp))) (length (se_names sp)) (c2 :: r)).
    assert (Cons : forall s o t, s_erun export s (o :: t) = snd (s_estep export s o) :: s_erun export (fst (s_estep export s o)) t) by (intros s o t; cbn [s_erun]; destruct (s_estep export s o); reflexivity).
    rewrite Cons, St. cbn [fst snd]. cbn [chain]. rewrite Cons. reflexivity.
Qed.
(** After any ordinary history, a chain of calls ends with what the registry has under the whole name. *)
Theorem C76_path_partial snake camel export root l cs sp :
  (forall t, export t = XType t \/ exists k, export t = XClass k) ->
  sp = fold_left (fun s o => fst (s_estep export s o)) l c76_start ->
  all_ordinary root export c76_start (l ++ chain (length (se_names sp)) 0 cs) -> cs <> [] ->
  s_lookup export (se_types sp) (sep :: path cs) <> ENotFound ->
  last (e_run snake camel export (e_start root) (l ++ chain (length (se_names sp)) 0 cs)) ENotFound = s_lookup export (se_types sp) (sep :: path cs).
Proof.
  intros X -> F N H. rewrite (C76_history_partial snake camel X F). clear F. assert (Z : forall l s l2, l2 <> [] -> last (s_erun export s (l ++ l2)) ENotFound = last (s_erun export (fold_left (fun s o => fst (s_estep export s o)) l s) l2) ENotFound).
  { clear. induction l as [|o l IH]; intros s l2 N; [reflexivity|]. cbn [app s_erun fold_left]. destruct (s_estep export s o) as [s' x]. cbn [fst]. rewrite <- (IH s' l2 N). destruct (s_erun export s' (l ++ l2)) eqn:E; [|reflexivity].
    exfalso. destruct l as [|o' l]; cbn [app] in E; [destruct l2 as [|o' l2]; [congruence|]|]; cbn [s_erun] in E; destruct (s_estep export s' o') in E; discriminate. }
  rewrite Z by (destruct cs; [congruence|discriminate]).
  assert (R : forall l s, nth_error (se_names s) 0 = Some [sep] -> nth_error (se_names (fold_left (fun s o => fst (s_estep export s o)) l s)) 0 = Some [sep]).
  { clear. induction l as [|o l IH]; intros s E; [exact E|]. cbn [fold_left]. apply IH. destruct o as [h c|n n'|n]; cbn [s_estep]; [|exact E|exact E]. destruct (nth_error (se_names s) h) as [p|]; [|exact E].
    assert (Y : forall x, nth_error (se_names s ++ [x]) 0 = Some [sep]) by (intros x; rewrite nth_error_app1 by (apply nth_error_Some; congruence); exact E).
    destruct (s_lookup export (se_types s) (p ++ text c)); cbn [fst se_names]; first [apply Y|exact E]. }
  change (sep :: path cs) with ([sep] ++ path cs). apply chain_spec; [exact N|apply R; reflexivity|exact H].
Qed.

(** Not vacuous: two namespaces, a template, a nested type, and a type registered after its name was known as a namespace. *)
Definition c76_plain (t : str) : exported := if str_dec t (s_ "/base/Time") then XClass (s_ "Time") else XType t.
Definition call_ (m : string) : call := Call false (s_ m) [].
Definition const_ (m : string) : call := Call true (s_ m) [].
Definition reg (n : string) : eop := ERegister (s_ n) (s_ n).
Notation run76 := (e_run (fun x => x) (fun x => x) c76_plain (e_start (s_ "Types"))).
Notation spec76 := (s_erun c76_plain c76_start).
Definition c76_program : list eop :=
  [reg "/base/Time"; reg "/std/vector</base/Time>"; reg "/base/Pose/In"; ECall 0 (call_ "base"); ECall 1 (call_ "Pose"); ECall 2 (call_ "In"); reg "/base/Pose"; ECall 1 (call_ "Pose");
   ECall 1 (call_ "Time"); ECall 0 (call_ "std"); ECall 6 (Call false (s_ "vector") [s_ "/base/Time"]); ECall 1 (const_ "Pose"); ECall 1 (call_ "Nothing")].
Example C76_case : run76 c76_program =
  [EDone; EDone; EDone; ENamespace (s_ "/base/"); ENamespace (s_ "/base/Pose/"); EType (s_ "/base/Pose/In"); EDone; EType (s_ "/base/Pose"); EClass (s_ "Time"); ENamespace (s_ "/std/");
   EType (s_ "/std/vector</base/Time>"); EType (s_ "/base/Pose"); ENotFound].
Proof. reflexivity. Qed.
Lemma no_top_dec x : (forallb (fun k => negb (ceqb (nth k x "000"%char) sep) || negb (lev (firstn k x) =? 0)%Z) (seq 0 (length x))) = true -> no_top x.
Proof.
  intros H a b -> E. rewrite forallb_forall in H. specialize (H (length a)). rewrite app_nth2, Nat.sub_diag in H by lia. rewrite firstn_app, Nat.sub_diag, firstn_all, firstn_O, app_nil_r, E in H. cbn in H. discriminate H. apply in_seq. rewrite app_length. cbn [length]. lia.
Qed.
Ltac comp76 := split; [apply no_top_dec; vm_compute; reflexivity|vm_compute; reflexivity].
Example C76_case_hyp : all_ordinary (s_ "Types") c76_plain c76_start c76_program /\ forall t, c76_plain t = XType t \/ exists k, c76_plain t = XClass k.
Proof.
  assert (K : forall (m p : str), m <> s_ "Time" -> forall t k, p = t ++ [sep] -> c76_plain t = XClass k -> m <> k) by (intros m p N t k _; unfold c76_plain; destruct (str_dec t _); [|discriminate]; intros X; injection X as <-; exact N).
  assert (K2 : forall (m p : str), p <> s_ "/base/Time/" -> forall t k, p = t ++ [sep] -> c76_plain t = XClass k -> m <> k).
  { intros m p N t k E. unfold c76_plain. destruct (str_dec t _) as [-> |]; [|discriminate]. exfalso. apply N. rewrite E. reflexivity. }
  split; [|intros t; unfold c76_plain; destruct (str_dec t _); eauto].
  assert (O : forall sp h m args b p, nth_error (se_names sp) h = Some p -> comp (text (Call b (s_ m) args)) -> s_ m <> [] -> s_ m <> s_ "Types" -> p <> s_ "/base/Time/" ->
    b = false \/ entry (se_types sp) (p ++ text (Call b (s_ m) args)) <> None -> ordinary (s_ "Types") c76_plain sp (ECall h (Call b (s_ m) args))).
  { intros sp h m args b p E C N1 N2 N3 B p' E'. rewrite E in E'. injection E' as <-. split; [exact C|]. split; [unfold text; cbn [c_m]; destruct (s_ m); [congruence|discriminate]|]. split; [intros _; exact N2|]. split; [|exact B]. intros t k. apply K2. exact N3. }
  unfold c76_program. cbn [all_ordinary]. repeat (split; [first [reflexivity|eapply O; [vm_compute; reflexivity|comp76|discriminate|discriminate|vm_compute; discriminate|first [left; reflexivity|right; vm_compute; discriminate]]]|]). exact I.
Qed.

(** What is not so. Looking a type up through an alias changes what is found below it, also through its own name and for objects the
    program already has. *)
Theorem C76_alias_refuted : let program := [reg "/b/Y"; reg "/b/Y/In"; ERegister (s_ "/a/X") (s_ "/b/Y"); reg "/a/Z"; ECall 0 (call_ "b"); ECall 1 (call_ "Y"); ECall 2 (call_ "In"); ECall 0 (call_ "a"); ECall 4 (call_ "X"); ECall 2 (call_ "In")] in
  last (run76 program) EDone = ENotFound /\ nth 6 (run76 program) EDone = EType (s_ "/b/Y/In") /\ last (spec76 program) EDone = EType (s_ "/b/Y/In").
Proof. repeat split; vm_compute; reflexivity. Qed.
(** A namespace that has aliases only is not found. *)
Theorem C76_namespace_of_aliases_refuted : let program := [reg "/b/Y"; ERegister (s_ "/a/X") (s_ "/b/Y"); ECall 0 (call_ "a")] in
  last (run76 program) EDone = ENotFound /\ last (spec76 program) EDone = ENamespace (s_ "/a/").
Proof. repeat split; vm_compute; reflexivity. Qed.
(** A method with the name of the module gives the namespace that was looked up last. *)
Theorem C76_own_name_refuted : let program := [reg "/base/Pose"; ECall 0 (call_ "base"); ECall 0 (call_ "Types")] in
  last (run76 program) EDone = ENamespace (s_ "/base/") /\ last (spec76 program) EDone = ENotFound.
Proof. repeat split; vm_compute; reflexivity. Qed.
(** Types that were removed are still found, but only by those who had looked them up before. *)
Theorem C76_removed_type_refuted : let program := [reg "/Pose"; reg "/Time"; ECall 0 (call_ "Pose"); ERemove (s_ "/Pose"); ERemove (s_ "/Time"); ECall 0 (call_ "Pose"); ECall 0 (call_ "Time")] in
  run76 program = [EDone; EDone; EType (s_ "/Pose"); EDone; EDone; EType (s_ "/Pose"); ENotFound] /\ spec76 program = [EDone; EDone; EType (s_ "/Pose"); EDone; EDone; ENotFound; ENotFound].
Proof. split; vm_compute; reflexivity. Qed.
(** With a filter that gives another type, that type has its members where they are not. *)
Theorem C76_filter_refuted : let f := fun t => if str_dec t (s_ "/a/X") then XType (s_ "/b/Y") else XType t in
  let program := [reg "/a/X"; reg "/b/Y"; reg "/b/Y/In"; ECall 0 (call_ "b"); ECall 1 (call_ "Y"); ECall 0 (call_ "a"); ECall 3 (call_ "X"); ECall 2 (call_ "In")] in
  last (e_run (fun x => x) (fun x => x) f (e_start (s_ "Types")) program) EDone = ENotFound /\ last (s_erun f c76_start program) EDone = EType (s_ "/b/Y/In").
Proof. split; vm_compute; reflexivity. Qed.
(** Constants: a snakecase function that maps Foo to foo and BarBaz to barbaz, say. *)
Definition c76_snake (s : str) : str := map (fun c => let n := nat_of_ascii c in if (65 <=? n) && (n <=? 90) then ascii_of_nat (n + 32) else c)%nat s.
Notation runc := (e_run c76_snake (fun x => x) XType (e_start (s_ "Types"))).
(** Once Types::Foo was used for /foo, Types.Foo, for which there is no type, is found too. *)
Theorem C76_constant_leaks_into_methods_refuted :
  runc [reg "/foo"; ECall 0 (call_ "Foo"); ECall 0 (const_ "Foo"); ECall 0 (call_ "Foo")] = [EDone; ENotFound; EType (s_ "/foo"); EType (s_ "/foo")].
Proof. vm_compute. reflexivity. Qed.
(** A namespace with this very name is not preferred to a type with a similar one. *)
Theorem C76_constant_prefers_similar_type_refuted :
  runc [reg "/Foo/X"; reg "/foo"; ECall 0 (const_ "Foo")] = [EDone; EDone; EType (s_ "/foo")].
Proof. vm_compute. reflexivity. Qed.
(** Types with unusual spellings are found by constants in the namespace in which one was looked for first, ... *)
Theorem C76_spelling_works_once_refuted :
  runc [reg "/a/fOo"; reg "/b/fOo"; ECall 0 (call_ "a"); ECall 0 (call_ "b"); ECall 1 (const_ "FOO"); ECall 2 (const_ "FOO")] =
    [EDone; EDone; ENamespace (s_ "/a/"); ENamespace (s_ "/b/"); EType (s_ "/a/fOo"); ENamespace (s_ "/b/fOo/")] /\
  runc [reg "/a/fOo"; reg "/b/fOo"; ECall 0 (call_ "a"); ECall 0 (call_ "b"); ECall 2 (const_ "FOO"); ECall 1 (const_ "FOO")] =
    [EDone; EDone; ENamespace (s_ "/a/"); ENamespace (s_ "/b/"); EType (s_ "/b/fOo"); ENamespace (s_ "/a/fOo/")].
Proof. split; vm_compute; reflexivity. Qed.
(** ... and may then be found in a namespace they are not in. *)
Theorem C76_type_of_another_namespace_refuted :
  runc [reg "/a/b/fOo"; ECall 0 (call_ "a"); ECall 1 (call_ "b"); ECall 2 (const_ "FOO"); ECall 1 (const_ "FOO")] = [EDone; ENamespace (s_ "/a/"); ENamespace (s_ "/a/b/"); EType (s_ "/a/b/fOo"); EType (s_ "/a/b/fOo")].
Proof. vm_compute. reflexivity. Qed.
