(** * Properties_Names: the properties C18, C19, C20 and C40 of type names.

    Notions used in the statements: NamesSpec.v ([type_path], [ns_path], [no_top], [word], [simple], the grammar).
    Functions of the code: [nameSort], [isValidTypename name absolute], [isValidNamespace name absolute],
    [getNamespace], [getTypename], [splitTypename], [isInNamespace type ns recursive], [getRelativeName name ns],
    [getMinimalPathTo full_name ns], [begin_prefix]/[end_prefix]: Registry::begin/end(prefix) on the sorted names. *)
From Coq Require Import Sorting.Sorted.
From Verif Require Import Base NamesSpec Names NamesProofs NamesGrammar NamesPath.

(** ** C18: nameSort is a strict total order and namespaces are contiguous *)
Theorem C18_strict_total_order :
  (forall a, nameSort a a = false) /\
  (forall a b, nameSort a b = true -> nameSort b a = false) /\
  (forall a b c, nameSort a b = true -> nameSort b c = true -> nameSort a c = true) /\
  (forall a b, a <> b -> nameSort a b = true \/ nameSort b a = true).
Proof. repeat split; [exact nameSort_irrefl|exact nameSort_asym|exact nameSort_trans|exact nameSort_total]. Qed.
(** Names with a common prefix are contiguous. *)
Theorem C18_prefix_contiguous p x y z :
  nameSort (p ++ x) y = true -> nameSort y (p ++ z) = true -> exists r, y = p ++ r.
Proof.
  intros H1 H2. apply has_prefix_app. apply (prefix_contiguous H1 H2); apply has_prefix_app; eauto.
Qed.
(** The names of a sorted map visited from begin(prefix) to end(prefix) are exactly the names with this prefix, in
    order: [begin = visited ++ end]. *)
Theorem C18_namespace_iteration p names :
  StronglySorted (fun a b => nameSort a b = true) names ->
  exists visited, begin_prefix p names = visited ++ end_prefix p names /\
    StronglySorted (fun a b => nameSort a b = true) visited /\
    forall n, In n visited <-> In n names /\ exists r, n = p ++ r.
Proof.
  intros H. exists (filter (has_prefix p) names). split; [apply range_spec; assumption|]. split.
  - induction H as [|k l Hs IH Hk]; [constructor|]. cbn [filter]. destruct (has_prefix p k); [|assumption]. constructor; [assumption|].
    rewrite Forall_forall in *. intros x Hx. apply filter_In in Hx. apply Hk. tauto.
  - intros n. rewrite filter_In, has_prefix_app. tauto.
Qed.
Example C18_example :
  let names := map s_ ["/A"; "/A/B"; "/A/B/C"; "/A0"; "/AB/C"]%string in
  StronglySorted (fun a b => nameSort a b = true) names /\
  begin_prefix (s_ "/A/") names = map s_ ["/A/B"; "/A/B/C"]%string ++ end_prefix (s_ "/A/") names /\
  end_prefix (s_ "/A/") names = map s_ ["/A0"; "/AB/C"]%string.
Proof. split; [repeat constructor|split; reflexivity]. Qed.

(** ** C19: the namespace and the base name of a type name *)
(** Every absolute name not ending with a top-level '/' is a base name in a namespace, in one way only... *)
Theorem C19_decomposition s : s <> [] -> ~ ends_top (sep :: s) ->
  (exists comps base, type_path (sep :: s) comps base) /\
  (forall c1 b1 c2 b2, type_path (sep :: s) c1 b1 -> type_path (sep :: s) c2 b2 -> c1 = c2 /\ b1 = b2).
Proof.
  intros H1 H2. split; [apply path_exists; assumption|]. intros c1 b1 c2 b2 P1 P2. apply path_split in P1, P2. rewrite P1 in P2.
  apply app_inj_tail in P2. assumption.
Qed.
(** ... and this is what getNamespace, getTypename and splitTypename return. *)
Theorem C19_split name comps base : type_path name comps base ->
  splitTypename name = comps ++ [base] /\ getNamespace name = sep :: terms comps /\ getTypename name = base /\
  getNamespace name ++ getTypename name = name.
Proof.
  intros H. split; [exact (path_split H)|]. split; [exact (path_namespace H)|]. split; [exact (path_typename H)|].
  rewrite (path_namespace H), (path_typename H). symmetry. apply H.
Qed.
Theorem C19_lossless s : s <> [] -> ~ ends_top (sep :: s) ->
  getNamespace (sep :: s) ++ getTypename (sep :: s) = sep :: s /\ no_top (getTypename (sep :: s)).
Proof.
  intros H1 H2. destruct (path_exists H1 H2) as (c & b & P). split; [apply (C19_split P)|]. rewrite (path_typename P). apply P.
Qed.
(** A name ending with '/' is not split losslessly. *)
Theorem C19_trailing_separator_refuted : exists name, hd_error name = Some sep /\ getNamespace name ++ getTypename name <> name.
Proof. exists (s_ "/A/B/"). split; [reflexivity|discriminate]. Qed.
Example C19_example : type_path (s_ "/std/map</std/string,/A/B>/Inner") [s_ "std"; s_ "map</std/string,/A/B>"] (s_ "Inner").
Proof.
  split; [reflexivity|].
  assert (D : forall x, (forallb (fun k => negb (ceqb (nth k x "000"%char) sep) || negb (lev (firstn k x) =? 0)%Z) (seq 0 (length x))) = true -> no_top x).
  { intros x H a b -> E. rewrite forallb_forall in H. specialize (H (length a)). rewrite app_nth2, Nat.sub_diag in H by lia.
    rewrite firstn_app, Nat.sub_diag, firstn_all, firstn_O, app_nil_r, E in H. cbn in H. discriminate H.
    apply in_seq. rewrite app_length. cbn [length]. lia. }
  split; [repeat constructor; try (apply D; reflexivity)|]. split; [discriminate|]. apply D. reflexivity.
Qed.

(** ** C20: name validation *)
(** It terminates on every string (isValidTypename's default fuel is enough). *)
Theorem C20_terminates s absolute : exists b j, vt (vt_fuel s) s 0 absolute false = Ok (b, j).
Proof.
  destruct (proj2 (proj2 (vt_terminates (vt_fuel s))) s 0%nat absolute false) as (b & j & E & _); [lia|unfold vt_fuel; lia|]. eauto.
Qed.
(** Without template arguments, arrays and pointers: exactly the words separated by '/'. *)
Theorem C20_simple_names_exact s absolute : simple s ->
  (isValidTypename s absolute = true <->
   exists l, l <> [] /\ Forall word l /\ (s = sep :: join l \/ (absolute = false /\ s = join l))).
Proof. exact (@isValidTypename_simple s absolute). Qed.
(** With them: every name of the grammar is accepted. *)
Theorem C20_grammar_accepted_partial path dims absolute : g_path path -> g_dims dims -> isValidTypename (path ++ dims) absolute = true.
Proof. exact (@grammar_accepted path dims absolute). Qed.
(** But garbage is accepted too, and legal modifier combinations are not. *)
Theorem C20_accepts_garbage_refuted :
  isValidTypename (s_ "/int*$%") true = true /\ isValidTypename (s_ "/A,%%") true = true /\
  isValidTypename (s_ "/A/B>x") true = true /\ isValidTypename (s_ "/A</B>>") true = true.
Proof. repeat split; vm_compute; reflexivity. Qed.
Theorem C20_rejects_modifiers_refuted :
  isValidTypename (s_ "/int[3]*") true = false /\ isValidTypename (s_ "/std/vector</int>*") true = false /\
  isValidTypename (s_ "/std/map</int[3],/int>") true = false.
Proof. repeat split; vm_compute; reflexivity. Qed.
(** Namespaces: exactly the strings of word characters, '/' and angle brackets, ... *)
Theorem C20_namespace_exact s absolute :
  isValidNamespace s absolute = true <->
  s <> [] /\ (absolute = true -> exists r, s = sep :: r) /\ Forall (fun c => c = sep \/ word_char c \/ c = "<"%char \/ c = ">"%char) s.
Proof. exact (@isValidNamespace_exact s absolute). Qed.
(** ... so that empty components and unbalanced brackets are accepted and template arguments are not. *)
Theorem C20_namespace_grammar_refuted :
  isValidNamespace (s_ "/A//B") true = true /\ isValidNamespace (s_ "/A><<") true = true /\ isValidNamespace (s_ "/A</B,/C>") true = false.
Proof. repeat split; vm_compute; reflexivity. Qed.
Ltac chars := repeat (constructor; [unfold word_char, digit; simpl; tauto|]); try constructor.
Example C20_example :
  g_path (s_ "/std/map</std/vector</int>,/int[3]>/Iterator") /\ g_dims (s_ "[4][5]") /\
  isValidTypename (s_ "/std/map</std/vector</int>,/int[3]>/Iterator[4][5]") true = true.
Proof.
  assert (W : forall w, w <> [] -> Forall (fun c => wchar c = true) w -> word w) by (intros w H1 H2; apply word_B; split; assumption).
  split; [|split].
  - apply (@gp_cons (s_ "/std") (s_ "/map</std/vector</int>,/int[3]>/Iterator")); [apply (@ge_word (s_ "std")); apply W; [discriminate|repeat constructor]|].
    apply (@gp_cons (s_ "/map</std/vector</int>,/int[3]>") (s_ "/Iterator")).
    + apply (@ge_tmpl (s_ "map") (s_ "/std/vector</int>,/int[3]")); [apply W; [discriminate|repeat constructor]|].
      apply (@ga_path (s_ "/std/vector</int>") (s_ "/int[3]")).
      * apply (@gp_cons (s_ "/std") (s_ "/vector</int>")); [apply (@ge_word (s_ "std")); apply W; [discriminate|repeat constructor]|].
        apply gp_one. apply (@ge_tmpl (s_ "vector") (s_ "/int")); [apply W; [discriminate|repeat constructor]|].
        rewrite <- (app_nil_r (s_ "/int")). apply ga_last; [|constructor]. apply gp_one. apply (@ge_word (s_ "int")); apply W; [discriminate|repeat constructor].
      * apply (@ga_last (s_ "/int") (s_ "[3]")); [apply gp_one; apply (@ge_word (s_ "int")); apply W; [discriminate|repeat constructor]|].
        apply (@gd_cons (s_ "3") []); [discriminate|repeat constructor; simpl; tauto|constructor].
    + apply gp_one. apply (@ge_word (s_ "Iterator")); apply W; [discriminate|repeat constructor].
  - apply (@gd_cons (s_ "4") (s_ "[5]")); [discriminate|chars; unfold digit; simpl; tauto|]. apply (@gd_cons (s_ "5") []); [discriminate|chars; unfold digit; simpl; tauto|constructor].
  - vm_compute. reflexivity.
Qed.

(** ** C40: relative names *)
Theorem C40_relative_name_completes name ns : ns <> [] -> isInNamespace name ns true = true ->
  exists r, getRelativeName name ns = Ok r /\ (ns ++ r = name \/ ns ++ sep :: r = name).
Proof.
  intros H1 H2. destruct (relative_complete H1 H2) as (r & E & Er). exists r. split; [assumption|].
  unfold getNormalizedNamespace in Er. destruct ns as [|c ns]; [contradiction|]. destruct (last_is_slash (c :: ns)); [left; assumption|right].
  rewrite <- app_assoc in Er. exact Er.
Qed.
(** The path returned is the absolute namespace of the type, or a path that gives this namespace back when appended
    to the namespace [ns] or to one that encloses it. *)
Theorem C40_minimal_path_partial full ns comps base nsc :
  type_path full comps base -> Forall (fun p => p <> []) comps -> ns_path ns nsc ->
  exists r, getMinimalPathTo full ns = Ok r /\
    (r = sep :: terms comps \/
     exists outer inner, nsc = outer ++ inner /\ (sep :: terms outer) ++ r = sep :: terms comps).
Proof.
  intros H1 H2 H3. destruct (minimal_path H1 H2 H3) as (r & E & [Hr|(k & m & n2 & E1 & E2 & E3)]); exists r; (split; [assumption|]); [left; assumption|right].
  exists k, n2. split; [assumption|]. rewrite E3, E1, terms_app. reflexivity.
Qed.
(** But a path whose first component is a namespace enclosing [ns] deeper may be returned: "B/C/" from /A/X/B, where
    B is /A/X/B (and not /A/B). *)
Theorem C40_ambiguous_path_refuted :
  exists full ns, type_path full [s_ "A"; s_ "B"; s_ "C"] (s_ "T") /\ ns_path ns [s_ "A"; s_ "X"; s_ "B"] /\
    getMinimalPathTo full ns = Ok (s_ "B/C/").
Proof.
  assert (D : forall x, ~ In sep x -> no_top x) by (intros x H a b -> _; apply H; apply in_or_app; right; left; reflexivity).
  assert (C : forall x, ~ In sep x -> lev x = 0%Z -> comp x) by (split; auto).
  assert (N : forall a, a <> sep -> ~ In sep [a]) by (intros a H [E|[]]; congruence).
  exists (s_ "/A/B/C/T"), (s_ "/A/X/B"). split; [|split; [|vm_compute; reflexivity]].
  - split; [reflexivity|]. split; [repeat constructor; apply D, N; discriminate|]. split; [discriminate|apply D, N; discriminate].
  - split; [discriminate|]. split; [repeat constructor; apply D, N; discriminate|]. split; [repeat constructor; discriminate|]. right. reflexivity.
Qed.
(** Undefined behaviour: an empty namespace, a relative namespace below the type's. *)
Theorem C40_undefined_behaviour_refuted :
  (forall name, getRelativeName name [] = UB UOob) /\ getMinimalPathTo (s_ "/A/T") (s_ "A/B/C") = UB UOther.
Proof. split; [reflexivity|vm_compute; reflexivity]. Qed.
Example C40_example :
  getMinimalPathTo (s_ "/A/B/C/T") (s_ "/A/D") = Ok (s_ "B/C/") /\ isInNamespace (s_ "/A/B/C/T") (s_ "/A/B") true = true /\
  getRelativeName (s_ "/A/B/C/T") (s_ "/A/B") = Ok (s_ "C/T").
Proof. repeat split; vm_compute; reflexivity. Qed.

Print Assumptions C18_strict_total_order.
Print Assumptions C18_prefix_contiguous.
Print Assumptions C18_namespace_iteration.
Print Assumptions C19_decomposition.
Print Assumptions C19_split.
Print Assumptions C19_lossless.
Print Assumptions C20_terminates.
Print Assumptions C20_simple_names_exact.
Print Assumptions C20_grammar_accepted_partial.
Print Assumptions C20_namespace_exact.
Print Assumptions C40_relative_name_completes.
Print Assumptions C40_minimal_path_partial.
