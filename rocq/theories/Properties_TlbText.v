(** * Properties_TlbText: what a tlb file says (C30). *)
From Verif Require Import Base Types NamesSpec Names NamesProofs NamesGrammar Graph GraphSpec GraphProofs Registry RegistrySpec RegistryProofs RegistryOps RegistryMain Properties_Registry Exporter ExporterSpec ExporterProofs Properties_Export World Smap TypeObj CsvSpec Csv CsvProofs Xml Tlb TlbSpec XmlProofs TlbText TlbDoc.
From Verif Require Import Graph.
Local Open Scope nat_scope.

(** Attribute values written through xmlEscape are read back: every string of printable characters without ampersands and double quotes. *)
Theorem C30_escaped_attribute s rest : Forall attr_char s ->
  read_value (S (length (xmlEscape s ++ """"%char :: rest))) (xmlEscape s ++ """"%char :: rest) = Some (s, rest).
Proof. intros Hs. apply escaped_reads. assumption. Qed.
(** The names of types given by the grammar of type names (C20) are such strings. *)
Lemma word_attr w : word w -> Forall attr_char w.
Proof.
  intros [_ Hw]. eapply Forall_impl; [|exact Hw]. intros c [Hc|[Hc|[-> | ->]]]; [| |split; [vm_compute; lia|split; discriminate]|split; [vm_compute; lia|split; discriminate]].
  - revert c Hc. apply Forall_forall. repeat (apply Forall_cons; [split; [vm_compute; lia|split; discriminate]|]). constructor.
  - revert c Hc. apply Forall_forall. repeat (apply Forall_cons; [split; [vm_compute; lia|split; discriminate]|]). constructor.
Qed.
Lemma digit_attr c : digit c -> attr_char c.
Proof. revert c. apply Forall_forall. repeat (apply Forall_cons; [split; [vm_compute; lia|split; discriminate]|]). constructor. Qed.
Lemma dims_attr d : g_dims d -> Forall attr_char d.
Proof.
  induction 1 as [|n d _ Hn _ IH]; [constructor|]. constructor; [split; [vm_compute; lia|split; discriminate]|]. apply Forall_app. split; [eapply Forall_impl; [|exact Hn]; apply digit_attr|].
  constructor; [split; [vm_compute; lia|split; discriminate]|exact IH].
Qed.
Lemma integer_attr i : integer i -> Forall attr_char i.
Proof. intros [_ Hi]. eapply Forall_impl; [|exact Hi]. intros c [-> |Hc]; [split; [vm_compute; lia|split; discriminate]|apply digit_attr, Hc]. Qed.
Theorem C30_type_names : (forall e, g_elem e -> Forall attr_char e) /\ (forall p, g_path p -> Forall attr_char p) /\ (forall a, g_args a -> Forall attr_char a).
Proof.
  assert (Sl : attr_char sep) by (split; [vm_compute; lia|split; discriminate]). assert (Lt : attr_char "<"%char) by (split; [vm_compute; lia|split; discriminate]).
  assert (Gt : attr_char ">"%char) by (split; [vm_compute; lia|split; discriminate]). assert (Co : attr_char ","%char) by (split; [vm_compute; lia|split; discriminate]).
  assert (St : attr_char "*"%char) by (split; [vm_compute; lia|split; discriminate]).
  apply g_mutind.
  - intros w Hw. constructor; [assumption|apply word_attr; assumption].
  - intros w a Hw _ Ha. constructor; [assumption|]. apply Forall_app. split; [apply word_attr; assumption|]. constructor; [assumption|]. apply Forall_app. split; [assumption|]. constructor; [assumption|constructor].
  - auto.
  - intros w k Hw. constructor; [assumption|]. apply Forall_app. split; [apply word_attr; assumption|]. apply Forall_forall. intros c Hc. apply repeat_spec in Hc. subst. assumption.
  - intros e p _ He _ Hp. apply Forall_app. auto.
  - intros p d _ Hp Hd. apply Forall_app. split; [assumption|apply dims_attr; assumption].
  - apply integer_attr.
  - intros p a _ Hp _ Ha. apply Forall_app. split; [assumption|]. constructor; assumption.
  - intros i a Hi _ Ha. apply Forall_app. split; [apply integer_attr; assumption|]. constructor; assumption.
Qed.
(** The document of a successful export is well-formed, and its elements show, one by one, the persistent entries of the
    registry: names, sizes, categories, fields with their types and offsets, symbols and values, aliases, source ids and
    all metadata, unchanged. For texts without the characters that are not escaped. *)
Theorem C30_document_partial H md r : reachable H r -> (forall p, In p (persistent r) -> entry_ok H md p) ->
  forall f text, tlb_export f H md r = Ok text -> exists x out, parse_doc text = Some x /\ tagged (s_ "typelib") x = true /\
    Permutation out (persistent r) /\ well_ordered H out /\ Forall2 (shows H md) out (top_elements x).
Proof.
  intros Hr Hok f text Ef. unfold tlb_export in Ef. destruct (export f H (fun _ _ => true) r) as [out0 o] eqn:Ee.
  assert (K : o = Ok tt) by (destruct o as [[]|e|u|]; [reflexivity|discriminate Ef ..]). subst o. injection Ef as <-.
  destruct (@C29_export H r Hr (fun _ _ => true)) as (out & res & E & Nd & W & In1 & _ & In2 & _).
  assert (X : (out, res) = (out0, Ok tt)).
  { rewrite <- (E (f + S (length (r_global r)))) by lia. assert (Y : forall g o1 r1, export f H (fun _ _ => true) r = (o1, r1) -> r1 <> Fuel -> export (f + g) H (fun _ _ => true) r = (o1, r1)) by (intros g o1 r1 A B; apply save_loop_more; assumption). apply Y; [exact Ee|discriminate]. }
  injection X as -> ->. specialize (In2 eq_refl). assert (P : Permutation out0 (persistent r)).
  { apply NoDup_Permutation; [exact Nd|apply nodup_filter, (@nodup_of_keys _ _ fst); exact (gsorted_NoDup (inv_sorted (reachable_Inv Hr)))|]. intros p. unfold persistent. rewrite filter_In. split; [apply In1|intros [A B]; apply In2; assumption]. }
  exists (root_node H md out0), out0. split; [apply document_tree; intros p Hp; apply Hok; apply (Permutation_in _ P Hp)|]. split; [reflexivity|]. split; [exact P|]. split; [exact W|].
  unfold root_node, top_elements. rewrite filter_app_. replace (filter _ (ws nl)) with (@nil xnode) by reflexivity. rewrite filter_concat. clear. induction out0 as [|p l IH]; [constructor|]. cbn [map concat].
  rewrite !filter_app_. replace (filter _ (ws nl)) with (@nil xnode) by reflexivity. replace (filter _ (ws (s_ "  "))) with (@nil xnode) by reflexivity.
  assert (E : forall b, filter (fun y => match y with XElem _ _ _ => true | _ => false end) [entry_node H md p] ++ b = entry_node H md p :: b).
  { intros b. unfold entry_node, type_node. destruct (isAlias H p); [reflexivity|]. destruct (o_kind (H (e_type (snd p)))); reflexivity. }
  rewrite E. constructor; [apply entry_shown|exact IH].
Qed.
(** What is not escaped is not read back. & in an attribute: another string, or no document. *)
Theorem C30_ampersand_refuted : exists s s', s' <> s /\ read_value 100 (xmlEscape s ++ q) = Some (s', []).
Proof. exists (s_ "a&lt;b"), (s_ "a<b"). split; [discriminate|vm_compute; reflexivity]. Qed.
Definition no_meta : metas := Metas (fun _ => []) (fun _ _ => []).
(** [a registry with one opaque type, its metadata] *)
Definition hone (n : str) (k : okind) : heap := fun t => match t with 0 => Obj n 4 k | _ => Obj [] 0 ONull end.
Definition rone (n : str) (k : okind) : reg := run (hone n k) reg0 [OpAdd 0 true []].
(** A registry takes the name /a*&lt;b, which is read back as /a*<b, and the name /a*&b, of which no document is made;
    numerics, nulls and enums are not escaped at all: a numeric /std/vector</A> gives no document either; nor do
    metadata values with ]]>, or keys with a double quote. *)
Theorem C30_type_name_refuted :
  (exists n r text x y, reachable (hone n OOpaque) r /\ tlb_export 20 (hone n OOpaque) no_meta r = Ok text /\ parse_doc text = Some x /\
     top_elements x = [y] /\ exists n', attr y (s_ "name") n' /\ n' <> n) /\
  (exists n r text, reachable (hone n OOpaque) r /\ tlb_export 20 (hone n OOpaque) no_meta r = Ok text /\ parse_doc text = None) /\
  (exists n r text, reachable (hone n (ONum SInt)) r /\ tlb_export 20 (hone n (ONum SInt)) no_meta r = Ok text /\ parse_doc text = None).
Proof.
  split; [|split].
  - exists (s_ "/a*&lt;b"), (rone (s_ "/a*&lt;b") OOpaque). eexists. eexists. eexists. split; [reach [OpAdd 0 true []]|]. split; [vm_compute; reflexivity|]. split; [vm_compute; reflexivity|]. split; [vm_compute; reflexivity|].
    exists (s_ "/a*<b"). split; [|discriminate]. split; [left; vm_compute; reflexivity|]. vm_compute. repeat constructor; intros X; repeat (destruct X as [X|X]; [discriminate X|]); exact X.
  - exists (s_ "/a*&b"), (rone (s_ "/a*&b") OOpaque). eexists. split; [reach [OpAdd 0 true []]|]. split; [vm_compute; reflexivity|]. vm_compute. reflexivity.
  - exists (s_ "/std/vector</A>"), (rone (s_ "/std/vector</A>") (ONum SInt)). eexists. split; [reach [OpAdd 0 true []]|]. split; [vm_compute; reflexivity|]. vm_compute. reflexivity.
Qed.
Theorem C30_metadata_refuted :
  (exists m r text, reachable (hone (s_ "/a") OOpaque) r /\ tlb_export 20 (hone (s_ "/a") OOpaque) (Metas (fun _ => m) (fun _ _ => [])) r = Ok text /\ parse_doc text = None /\
     m = [(s_ "k", [s_ "]]>"])]) /\
  (exists m r text, reachable (hone (s_ "/a") OOpaque) r /\ tlb_export 20 (hone (s_ "/a") OOpaque) (Metas (fun _ => m) (fun _ _ => [])) r = Ok text /\ parse_doc text = None /\
     m = [(s_ "a<b", [s_ "x"])]).
Proof.
  split.
  - exists [(s_ "k", [s_ "]]>"])], (rone (s_ "/a") OOpaque). eexists. split; [reach [OpAdd 0 true []]|]. split; [vm_compute; reflexivity|]. split; [vm_compute|]; reflexivity.
  - exists [(s_ "a<b", [s_ "x"])], (rone (s_ "/a") OOpaque). eexists. split; [reach [OpAdd 0 true []]|]. split; [vm_compute; reflexivity|]. split; [vm_compute|]; reflexivity.
Qed.
Print Assumptions C30_document_partial.

(** A registry with a numeric, a pointer, a vector, an array of vectors, an enum, a compound, an alias and metadata. *)
Definition htlb : heap := fun t =>
  match t with
  | 0 => Obj (s_ "/A") 4 (ONum SInt)
  | 1 => Obj (s_ "/A*") 8 (OPtr 0)
  | 2 => Obj (s_ "/std/vector</A>") 24 (OCont KVec 0)
  | 3 => Obj (s_ "/std/vector</A>[3]") 72 (OArr 3 2)
  | 4 => Obj (s_ "/B/C") 96 (OComp [Fld (s_ "x") 0 3; Fld (s_ "p") 72 1; Fld (s_ "e") 80 5])
  | 5 => Obj (s_ "/E") 4 (OEnum [(s_ "K", (-5)%Z); (s_ "L", 3%Z)])
  | _ => Obj [] 0 ONull
  end.
Definition tlb_history : list op :=
  [OpAdd 0 true (s_ "f<1>"); OpAdd 1 false []; OpAdd 2 true []; OpAdd 3 false []; OpAdd 5 true []; OpAdd 4 true []; OpAlias (s_ "/A") (s_ "/D/E") true []].
Definition rtlb : reg := run htlb reg0 tlb_history.
Definition mtlb : metas := Metas (fun t => match t with 0 => [(s_ "a", []); (s_ "b", [s_ "v2"; s_ "v<1>"])] | _ => [] end) (fun t i => match t, i with 4, 1 => [(s_ "c", [s_ "w"])] | _, _ => [] end).
Lemma attrb_ok s : forallb (fun c => (32 <=? nat_of_ascii c) && (nat_of_ascii c <? 128) && negb (ceqb c "&") && negb (ceqb c """")) s = true -> Forall attr_char s.
Proof.
  intros Hs. rewrite forallb_forall in Hs. apply Forall_forall. intros c Hc. specialize (Hs c Hc). rewrite !andb_true_iff in Hs. destruct Hs as [[[H1 H2] H3] H4].
  split; [lia|]. split; intros ->; discriminate.
Qed.
Fixpoint cdatab (s : str) : bool := match s with [] => true | c :: r => isxchar c && negb (nat_of_ascii c =? 13) && (match Xml.after (s_ "]]>") s with Some _ => false | None => true end) && cdatab r end.
Lemma cdatab_ok s : cdatab s = true -> cdata_ok s.
Proof.
  induction s as [|c s IH]; intros E; [split; [constructor|intros [|? ?] b E'; discriminate]|]. cbn [cdatab] in E. rewrite !andb_true_iff in E. destruct E as [[[E1 E2] E3] E4]. destruct (IH E4) as [A B]. split; [constructor; [split; [assumption|]|assumption]|].
  - apply negb_true_iff, Nat.eqb_neq in E2. exact E2.
  - intros a b E. destruct a as [|x a]; [|injection E as -> ->; apply (B a b); reflexivity]. cbn [app] in E. rewrite E in E3. rewrite after_app in E3. discriminate.
Qed.
Ltac meta_tac := repeat (first [apply rawb_ok; vm_compute; reflexivity | apply attrb_ok; vm_compute; reflexivity | apply cdatab_ok; vm_compute; reflexivity | apply Forall_nil | apply Forall_cons | split]).
Lemma rtlb_ok : forall p, In p (persistent rtlb) -> entry_ok htlb mtlb p.
Proof.
  assert (E : persistent rtlb = [(s_ "/A", Ent 0 true (s_ "f<1>")); (s_ "/B/C", Ent 4 true []); (s_ "/D/E", Ent 0 true []); (s_ "/E", Ent 5 true []); (s_ "/std/vector</A>", Ent 2 true [])]) by (vm_compute; reflexivity).
  rewrite E. clear E. apply Forall_forall. repeat (apply Forall_cons; [split; [apply attrb_ok; vm_compute; reflexivity|split; [apply attrb_ok; vm_compute; reflexivity|split; [apply attrb_ok; vm_compute; reflexivity|]]]|]); try apply Forall_nil.
  all: cbn [snd e_type]; unfold kind_ok, meta_ok; cbn [htlb mtlb o_kind m_type m_field].
  all: split; [meta_tac|]; try (apply rawb_ok; vm_compute; reflexivity); try (apply attrb_ok; vm_compute; reflexivity).
  - split; [|intros [|[|i]]; meta_tac]. meta_tac.
  - meta_tac.
Qed.
Lemma rtlb_reachable : reachable htlb rtlb.
Proof. reach tlb_history. Qed.
Example C30_case : exists text, tlb_export 20 htlb mtlb rtlb = Ok text /\ length (persistent rtlb) = 5.
Proof. eexists. split; [vm_compute; reflexivity|]. vm_compute. reflexivity. Qed.
