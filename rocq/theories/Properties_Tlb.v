(** * Properties_Tlb: reading back a tlb file (C31). *)
From Coq Require Import Sorted.
From Verif Require Import Base Types NamesSpec Names NamesProofs NamesGrammar Graph GraphSpec GraphProofs Registry RegistrySpec RegistryProofs RegistryOps RegistryMain Properties_Registry Exporter ExporterSpec ExporterProofs Properties_Export World TypeBuilderSpec Smap TypeObj TypeObjSpec CsvSpec Csv CsvProofs Xml Tlb TlbSpec XmlProofs TlbText TlbDoc Properties_TlbText TlbLoad TlbCore TlbBuild.
From Verif Require Import Graph.
Local Open Scope nat_scope.

(** ** What a successful export says of the registry *)
Lemma defined_registered H r t : Inv H r -> (defined H (r_global r) t <-> registered r t).
Proof.
  intros I. split.
  - intros (e & Hi & <-). destruct (global_get I Hi) as (A & _ & B). exists (o_name (H (e_type e))). auto.
  - intros (n & _ & Hg). destruct (get_primary I Hg) as [A B]. rewrite (get_global I A) in B. destruct (find_ (o_name (H t)) (r_global r)) as [e|] eqn:E; [|discriminate]. injection B as B. apply find_In in E. exists e. auto.
Qed.
Lemma topo_induction H (P : tid -> Prop) l : topo H l -> (forall t, In t (map ety l) -> (forall d, needs H t d -> P d) -> P t) -> forall t, In t (map ety l) -> P t.
Proof.
  intros Ht. induction Ht as [|l p Ht IH Hr]; intros Hi t Hm; [destruct Hm|]. rewrite map_app in *. apply in_app_or in Hm.
  assert (A : forall t, In t (map ety l) -> P t) by (apply IH; intros u Hu Hd; apply Hi; [apply in_or_app; auto|exact Hd]).
  destruct Hm as [Hm|[<- |[]]]; [auto|]. apply Hi; [apply in_or_app; right; left; reflexivity|]. intros d Hd. apply A.
  apply (proj2 (@topo_needs H (l ++ [p]) (topo_snoc Ht Hr) l p [] eq_refl)). exact Hd.
Qed.
Lemma export_facts H md r f text : reachable H r -> tlb_export f H md r = Ok text ->
  deps_closed H r /\ (forall t, registered r t -> ~ needs H t t) /\
  (forall P : tid -> Prop, (forall t, registered r t -> (forall d, needs H t d -> P d) -> P t) -> forall t, registered r t -> P t) /\
  exists out, text = document H md out /\ (forall p, In p out <-> In p (persistent r)) /\ NoDup (map fst out).
Proof.
  intros Hr Ef. assert (I := reachable_Inv Hr). assert (Hs := inv_sorted I). assert (Hn := gsorted_NoDup Hs). unfold tlb_export in Ef. destruct (export f H (fun _ _ => true) r) as [out0 o] eqn:Ee.
  assert (K : o = Ok tt) by (destruct o as [[]|e|u|]; [reflexivity|discriminate Ef ..]). subst o. injection Ef as <-.
  destruct (@export_final H (fun _ _ => true) r (f + S (length (r_global r))) Hs) as (out & res & E & F); [lia|].
  assert (X : (out, res) = (out0, Ok tt)).
  { rewrite <- E. unfold export in *. apply save_loop_more; [exact Ee|discriminate]. }
  injection X as -> ->.
  assert (Hp : forall n e, In (n, e) (r_global r) -> defined H (r_global r) (e_type e)).
  { intros n e Hi. destruct (inv_primary I Hi) as (e' & A & B). exists e'. split; assumption. }
  destruct (final_fails Hn Hp F) as [(_ & A & B)|[X _]]; [|discriminate]. destruct F as (types & done & P & T & -> & [[_ ->]|[X _]]); [|discriminate]. cbn [app] in P.
  assert (In1 : forall t, registered r t <-> In t (map ety done)).
  { intros t. rewrite <- (defined_registered t I). split; [intros (e & Hi & <-); apply (Permutation_in _ P), (in_map ety) in Hi; exact Hi|].
    intros Hi. destruct (topo_own T Hi) as ([n e] & Hq & [Q1 Q2]). cbn in Q1, Q2. subst n. exists e. split; [apply (Permutation_in _ (Permutation_sym P)); exact Hq|exact Q1]. }
  split; [|split; [|split]].
  - intros t d Ht Hd. apply In1. apply In1 in Ht. apply in_map_iff in Ht. destruct Ht as (p & <- & Hp'). apply in_split in Hp'. destruct Hp' as (a & b & ->).
    destruct (topo_needs T eq_refl) as [_ Bn]. rewrite map_app. apply in_or_app. left. apply Bn. constructor. exact Hd.
  - intros t Ht Hc. apply B. exists t. split; [apply (defined_registered _ I); exact Ht|exact Hc].
  - intros Q HQ t Ht. apply (topo_induction T); [|apply In1; exact Ht]. intros u Hu. apply HQ. apply In1. exact Hu.
  - exists (filter epers done). split; [reflexivity|]. split.
    + intros p. unfold persistent. rewrite !filter_In. split; intros [X Y]; (split; [|exact Y]); [apply (Permutation_in _ (Permutation_sym P)); exact X|apply (Permutation_in _ P); exact X].
    + assert (Hd : NoDup (map fst done)) by (eapply nodup_perm; eassumption). clear -Hd. induction done as [|p l IH]; [constructor|]. cbn [map] in Hd. inversion Hd as [|x y Hx Hl E]; subst. cbn [filter]. destruct (epers p); [|auto].
      cbn [map]. constructor; [|auto]. intros Hi. apply Hx. apply in_map_iff in Hi. destruct Hi as (q0 & Eq & Hq). apply filter_In in Hq. rewrite <- Eq. apply in_map. apply Hq.
Qed.

(** The state of a program that has loaded nothing: no type object, the empty registry, no metadata. *)
Definition fresh : store := Store (fun _ => null_obj) 0.
(** Reading a saved registry: the import succeeds, every saved name denotes the same type in the new registry (same name,
    size, category, symbols, fields with their offsets, and so on for all types it is made of), with the same metadata,
    and all absolute names of the new registry are names of the old one, for the same types. For the registries that the
    format can hold ([portable]). *)
Theorem C31_round_trip_partial H md r : reachable H r -> portable H md r -> forall f text, tlb_export f H md r = Ok text ->
  exists s' r' md', (exists k, forall g, k <= g -> tlb_import g text fresh reg0 no_meta = (IS s' r' md' [], Ok tt)) /\
    (forall n e, In (n, e) (persistent r) -> exists t', get r' n = Some t' /\ same H (s_heap s') (e_type e) t' /\
      (indirection (o_kind (H (e_type e))) = false -> m_type md' t' = m_type md (e_type e)) /\
      (forall fs i, o_kind (H (e_type e)) = OComp fs -> i < length fs -> m_field md' t' i = m_field md (e_type e) i)) /\
    (forall n t', absolute n -> get r' n = Some t' -> exists t, get r n = Some t /\ same H (s_heap s') t t').
Proof.
  intros Hr Po f text Ef. assert (I := reachable_Inv Hr). assert (V := reachable_valid Hr).
  destruct (export_facts Hr Ef) as (D & Nn & Wf & out & -> & Ho & Hn).
  assert (Pd : parse_doc (document H md out) = Some (root_node H md out)) by (apply document_tree; intros p Hp; apply (po_text Po); apply Ho; exact Hp).
  destruct (import_ok I V D Nn Po Wf no_meta Ho Hn Pd) as (st' & (k & E) & R & Em). destruct st' as [s' r' md' m']. cbn [i_map] in Em. subst m'. exists s', r', md'. split; [exists k; exact E|].
  assert (Wd := co_world (rel_core R)). cbn [i_store i_reg] in Wd.
  assert (X : forall n t', absolute n -> get r' n = Some t' -> exists t, get r n = Some t /\ same H (s_heap s') t t' /\ registered r' t' /\ get r (o_name (s_heap s' t')) = Some t).
  { intros n t' Hab Hg. destruct (co_sub (rel_core R) Hab Hg) as (t & Ht & [Ln _]). cbn [i_store i_reg] in *. exists t. assert (Rt : registered r' t') by (exists n; auto).
    destruct (get_primary I Ht) as [_ Gp]. rewrite <- Ln in Gp. split; [exact Ht|]. split; [apply (rel_same I D R Rt Gp)|auto]. }
  split.
  - intros n e Hi. assert (Hi' := Hi). unfold persistent in Hi'. apply filter_In in Hi'. destruct Hi' as [Hg Hpe]. destruct (global_get I Hg) as (Hab & _ & Gn).
    destruct (rel_cover R Hi) as [C|[C|[]]]; [cbn in C; destruct C; reflexivity|]. cbn [fst i_reg] in C. destruct (get r' n) as [t'|] eqn:En; [|congruence]. exists t'. split; [reflexivity|].
    destruct (X n t' Hab En) as (t & Ht & Sm & Rt & Gp). rewrite Gn in Ht. injection Ht as <-. split; [exact Sm|]. split.
    + intros Hind. apply (rel_meta R Rt Gp Hind).
    + intros fs i Ek Hlt. assert (Hind : indirection (o_kind (H (e_type e))) = false) by (rewrite Ek; reflexivity). apply (proj2 (rel_meta R Rt Gp Hind) fs i Ek Hlt).
  - intros n t' Hab Hg. destruct (X n t' Hab Hg) as (t & Ht & Sm & _). exists t. auto.
Qed.
Print Assumptions C31_round_trip_partial.

(** ** What is lost, and what cannot be read back *)
(** The source ids of containers and aliases are not restored. *)
Definition source_of (r : reg) (n : str) : option str := option_map e_src (find_ n (r_global r)).
Definition hcont : heap := fun t => match t with 0 => Obj (s_ "/A") 4 (ONum SInt) | 1 => Obj (s_ "/std/vector</A>") 24 (OCont KVec 0) | _ => Obj [] 0 ONull end.
Definition cont_history : list op := [OpAdd 0 true (s_ "a.h"); OpAdd 1 true (s_ "b.h"); OpAlias (s_ "/A") (s_ "/D") true (s_ "c.h")].
Theorem C31_source_ids_refuted : exists H r text s' r' md', reachable H r /\ tlb_export 20 H no_meta r = Ok text /\ tlb_import 60 text fresh reg0 no_meta = (IS s' r' md' [], Ok tt) /\
  source_of r (s_ "/A") = Some (s_ "a.h") /\ source_of r' (s_ "/A") = Some (s_ "a.h") /\
  source_of r (s_ "/std/vector</A>") = Some (s_ "b.h") /\ source_of r' (s_ "/std/vector</A>") = Some [] /\
  source_of r (s_ "/D") = Some (s_ "c.h") /\ source_of r' (s_ "/D") = Some [].
Proof.
  exists hcont, (run hcont reg0 cont_history). eexists. eexists. eexists. eexists. split; [reach cont_history|]. split; [vm_compute; reflexivity|]. split; [vm_compute; reflexivity|]. vm_compute. tauto.
Qed.
(** The format writes pointers and arrays that are persistent, and the importer has no case for them: the whole file is refused. *)
Definition hpers : heap := fun t => match t with 0 => Obj (s_ "/A") 4 (ONum SInt) | 1 => Obj (s_ "/A*") 8 (OPtr 0) | _ => Obj [] 0 ONull end.
Theorem C31_persistent_pointer_refuted : exists H r text, reachable H r /\ tlb_export 20 H no_meta r = Ok text /\
  (exists x, parse_doc text = Some x) /\ forall g, tlb_import g text fresh reg0 no_meta = (IS fresh reg0 no_meta [], Throw ERuntime).
Proof.
  exists hpers, (run hpers reg0 [OpAdd 0 true []; OpAdd 1 true []]). eexists. split; [reach [OpAdd 0 true []; OpAdd 1 true []]|]. split; [vm_compute; reflexivity|]. split; [eexists; vm_compute; reflexivity|].
  intros g. unfold tlb_import. match goal with |- context [parse_doc ?t] => let v := eval vm_compute in (parse_doc t) in replace (parse_doc t) with v by (vm_compute; reflexivity) end.
  cbv beta iota. match goal with |- context [negb ?b] => replace b with true by (vm_compute; reflexivity) end. cbn [negb].
  match goal with |- context [load_nodes ?a ?b ?c] => replace (load_nodes a b c) with (@Throw (smap (xnode * str)) ERuntime) by (vm_compute; reflexivity) end. reflexivity.
Qed.
(** The natural size of containers is also what size="0" stands for: a container of size 0 comes back with another one. *)
Definition hzero : heap := fun t => match t with 0 => Obj (s_ "/A") 4 (ONum SInt) | 1 => Obj (s_ "/std/vector</A>") 0 (OCont KVec 0) | _ => Obj [] 0 ONull end.
Theorem C31_container_size_refuted : exists H r text s' r' md' t t', reachable H r /\ tlb_export 20 H no_meta r = Ok text /\
  tlb_import 60 text fresh reg0 no_meta = (IS s' r' md' [], Ok tt) /\ get r (s_ "/std/vector</A>") = Some t /\ get r' (s_ "/std/vector</A>") = Some t' /\
  o_size (H t) = 0%N /\ o_size (s_heap s' t') = 24%N.
Proof.
  exists hzero, (run hzero reg0 [OpAdd 0 true []; OpAdd 1 true []]). eexists. eexists. eexists. eexists. exists 1, 1. split; [reach [OpAdd 0 true []; OpAdd 1 true []]|]. split; [vm_compute; reflexivity|]. split; [vm_compute; reflexivity|]. vm_compute. tauto.
Qed.

(** ** A case *)
Lemma rtlb_types t : registered rtlb t -> t = 0 \/ t = 1 \/ t = 2 \/ t = 3 \/ t = 4 \/ t = 5.
Proof.
  intros Ht. apply (defined_registered t (reachable_Inv rtlb_reachable)) in Ht. destruct Ht as (e & Hi & <-). apply (in_map (fun p => e_type (snd p))) in Hi. cbn [snd] in Hi.
  assert (E : map (fun p => e_type (snd p)) (r_global rtlb) = [0; 1; 4; 0; 1; 5; 2; 3; 2; 3]) by (vm_compute; reflexivity). rewrite E in Hi. cbn in Hi. intuition.
Qed.
Lemma names_in H r a x : Inv H r -> absolute a -> get r a = Some x -> In (a, x) (map (fun p => (fst p, e_type (snd p))) (r_global r)).
Proof.
  intros I Ha Hg. rewrite (get_global I Ha) in Hg. destruct (find_ a (r_global r)) as [e|] eqn:E; [|discriminate]. injection Hg as <-. apply find_In in E.
  apply (in_map (fun p => (fst p, e_type (snd p)))) in E. exact E.
Qed.
Definition rtlb_map : list (str * tid) :=
  [(s_ "/A", 0); (s_ "/A*", 1); (s_ "/B/C", 4); (s_ "/D/E", 0); (s_ "/D/E*", 1); (s_ "/E", 5); (s_ "/std/vector</A>", 2); (s_ "/std/vector</A>[3]", 3); (s_ "/std/vector</D/E>", 2); (s_ "/std/vector</D/E>[3]", 3)].
Lemma rtlb_map_ok : map (fun p => (fst p, e_type (snd p))) (r_global rtlb) = rtlb_map.
Proof. vm_compute. reflexivity. Qed.
Ltac alpha := unfold alphabetical; cbn [map fst]; repeat (first [apply SSorted_nil | apply SSorted_cons; [|repeat (apply Forall_cons; [apply TypeObjProofs.slt_spec; vm_compute; reflexivity|]); apply Forall_nil]]).
Example rtlb_portable : portable htlb mtlb rtlb.
Proof.
  constructor.
  - intros t x mk Ht Hm. destruct (rtlb_types Ht) as [-> |[-> |[-> |[-> |[-> | ->]]]]]; cbn in Hm; try discriminate; injection Hm as <- <-; vm_compute; reflexivity.
  - intros t x mk a Ht Hm Ha Hg. apply (names_in (reachable_Inv rtlb_reachable) Ha) in Hg. rewrite rtlb_map_ok in Hg. unfold rtlb_map in Hg. cbn [In] in Hg.
    destruct (rtlb_types Ht) as [-> |[-> |[-> |[-> |[-> | ->]]]]]; cbn in Hm; try discriminate; injection Hm as <- <-;
    repeat (destruct Hg as [Hg|Hg]; [injection Hg; intros; subst; try discriminate; vm_compute; reflexivity|]); destruct Hg.
  - intros n e. revert n. assert (K : forallb (fun p => implb (seqb (fst p) (o_name (htlb (e_type (snd p))))) (Bool.eqb (e_pers (snd p)) (negb (indirection (o_kind (htlb (e_type (snd p)))))))) (r_global rtlb) = true) by (vm_compute; reflexivity).
    intros n Hi En. rewrite forallb_forall in K. specialize (K _ Hi). cbn [fst snd] in K. rewrite <- En, seqb_refl in K. cbn [implb] in K. apply eqb_prop in K. exact K.
  - assert (E : map fst (persistent rtlb) = [s_ "/A"; s_ "/B/C"; s_ "/D/E"; s_ "/E"; s_ "/std/vector</A>"]) by (vm_compute; reflexivity).
    intros p Hp. apply (in_map fst) in Hp. rewrite E in Hp. cbn [In] in Hp.
    destruct Hp as [<- |[<- |[<- |[<- |[<- |[]]]]]]; [exists "/"%char, [], "A"%char|exists "/"%char, (s_ "B/"), "C"%char|exists "/"%char, (s_ "D/"), "E"%char|exists "/"%char, [], "E"%char|exists "/"%char, (s_ "std/vector</A"), ">"%char];
    (split; [reflexivity|repeat split; discriminate]).
  - intros t Ht. destruct (rtlb_types Ht) as [-> |[-> |[-> |[-> |[-> | ->]]]]]; unfold natural; cbn [htlb o_kind o_size].
    + reflexivity.
    + reflexivity.
    + split; [split; reflexivity|discriminate].
    + split; reflexivity.
    + split; [reflexivity|]. split; [repeat constructor|]. repeat (first [apply SSorted_nil | apply SSorted_cons; [|repeat (apply Forall_cons; [left; reflexivity|]); apply Forall_nil]]).
    + split; [reflexivity|]. split; [alpha|]. repeat (apply Forall_cons; [cbv; split; discriminate|]). apply Forall_nil.
  - exact rtlb_ok.
  - intros t _. split.
    + destruct t as [|t]; cbn [mtlb m_type]; (split; [alpha|]); [|apply Forall_nil]. repeat (apply Forall_cons; [cbn [snd]; alpha|]). apply Forall_nil.
    + intros i. cbn [mtlb m_field]. destruct t as [|[|[|[|[|t]]]]], i as [|[|i]]; (split; [alpha|]); try apply Forall_nil. repeat (apply Forall_cons; [cbn [snd]; alpha|]). apply Forall_nil.
Qed.
Lemma rtlb_persistent : persistent rtlb = [(s_ "/A", Ent 0 true (s_ "f<1>")); (s_ "/B/C", Ent 4 true []); (s_ "/D/E", Ent 0 true []); (s_ "/E", Ent 5 true []); (s_ "/std/vector</A>", Ent 2 true [])].
Proof. vm_compute; reflexivity. Qed.
Lemma in_bc : In (s_ "/B/C", Ent 4 true []) (persistent rtlb).
Proof. rewrite rtlb_persistent; right; left; reflexivity. Qed.
Lemma in_de : In (s_ "/D/E", Ent 0 true []) (persistent rtlb).
Proof. rewrite rtlb_persistent. do 2 right; left; reflexivity. Qed.
Example C31_case : exists text s' r' md', tlb_export 20 htlb mtlb rtlb = Ok text /\ (exists k, forall g, k <= g -> tlb_import g text fresh reg0 no_meta = (IS s' r' md' [], Ok tt)) /\
  (exists t', get r' (s_ "/B/C") = Some t' /\ same htlb (s_heap s') 4 t') /\ exists t', get r' (s_ "/D/E") = Some t' /\ m_type md' t' = [(s_ "a", []); (s_ "b", [s_ "v2"; s_ "v<1>"])].
Proof.
  destruct C30_case as (text & E & _). destruct (C31_round_trip_partial rtlb_reachable rtlb_portable E) as (s' & r' & md' & I & A & _).
  exists text, s', r', md'. split; [exact E|]. split; [exact I|]. split; [destruct (A _ _ in_bc) as (t' & B & C & _); exists t'; split; [exact B|exact C]|].
  destruct (A _ _ in_de) as (t' & B & _ & C & _). exists t'. split; [exact B|]. exact (C eq_refl).
Qed.
