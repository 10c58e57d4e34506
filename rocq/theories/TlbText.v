(** * TlbText: the tree of an exported document. *)
From Coq Require Import Permutation.
From Verif Require Import Base Types NamesSpec Names NamesProofs Graph GraphProofs Registry RegistryOps World Exporter Smap TypeObj CsvSpec Csv CsvProofs Xml Tlb TlbSpec XmlProofs.
From Verif Require Import Graph.
Local Open Scope nat_scope.

(** ** The nodes *)
Definition value_node (key v : str) : xnode := XElem (s_ "metadata") [(s_ "key", key)] [XCdata v].
Definition key_nodes (p : str * list str) : list xnode :=
  match snd p with
  | [] => [XElem (s_ "metadata") [(s_ "key", fst p)] []]
  | vs => concat (map (fun v => [value_node (fst p) v] ++ ws nl) vs)
  end.
Definition meta_nodes (m : meta) : list xnode := concat (map key_nodes m).
Definition src_attr (src : str) : list (str * str) := match src with [] => [] | _ => [(s_ "source_id", src)] end.
Definition body (kids : list xnode) (m : meta) : list xnode := ws nl ++ kids ++ ws (s_ "  ") ++ meta_nodes m ++ ws nl ++ ws (s_ "  ").
Definition field_node (H : heap) (f : fld) (m : meta) : xnode :=
  XElem (s_ "field") [(s_ "name", f_name f); (s_ "type", o_name (H (f_type f))); (s_ "offset", dec (f_off f))]
    (ws nl ++ ws (s_ "    ") ++ meta_nodes m ++ ws nl ++ ws (s_ "    ")).
Fixpoint field_nodes (H : heap) (fs : list fld) (m : nat -> meta) : list xnode :=
  match fs with [] => [] | f :: r => ws (s_ "    ") ++ [field_node H f (m 0)] ++ ws nl ++ field_nodes H r (fun i => m (S i)) end.
Definition value_nodes (vs : list (str * Z)) : list xnode :=
  concat (map (fun p => ws (s_ "    ") ++ [XElem (s_ "value") [(s_ "symbol", fst p); (s_ "value", decZ (snd p))] []] ++ ws nl) vs).
Definition type_node (H : heap) (md : metas) (t : tid) (src : str) : xnode :=
  let o := H t in
  let m := m_type md t in
  let nm := (s_ "name", o_name o) in
  match o_kind o with
  | OOpaque => XElem (s_ "opaque") ([nm; (s_ "size", dec (o_size o))] ++ src_attr src) (body [] m)
  | OComp fs => XElem (s_ "compound") ([nm; (s_ "size", dec (o_size o))] ++ src_attr src) (body (field_nodes H fs (m_field md t)) m)
  | ONum c => XElem (s_ "numeric") ([nm; (s_ "category", category_text c); (s_ "size", dec (o_size o))] ++ src_attr src) (body [] m)
  | ONull => XElem (s_ "null") ([nm] ++ src_attr src) (body [] m)
  | OPtr x => XElem (s_ "pointer") ([nm; (s_ "of", o_name (H x))] ++ src_attr src) (body [] m)
  | OArr d x => XElem (s_ "array") ([nm; (s_ "of", o_name (H x)); (s_ "dimension", dec d)] ++ src_attr src) (body [] m)
  | OCont k x => XElem (s_ "container") ([nm; (s_ "of", o_name (H x)); (s_ "size", dec (o_size o)); (s_ "kind", kind_text k)] ++ src_attr src) (body [] m)
  | OEnum vs => XElem (s_ "enum") ([nm] ++ src_attr src) (body (value_nodes vs) m)
  end.
Definition entry_node (H : heap) (md : metas) (p : ent) : xnode :=
  if isAlias H p then XElem (s_ "alias") [(s_ "name", fst p); (s_ "source", o_name (H (e_type (snd p))))] []
  else type_node H md (e_type (snd p)) (e_src (snd p)).

(** ** Proofs *)
Lemma text_ws s : forallb (fun c => isxchar c && negb (ceqb c "<") && negb (ceqb c "&") && negb (ceqb c "]")) s = true -> Forall text_char s.
Proof.
  intros Hs. rewrite forallb_forall in Hs. apply Forall_forall. intros c Hc. specialize (Hs c Hc). rewrite !andb_true_iff in Hs. destruct Hs as [[[H1 H2] H3] H4].
  split; [assumption|]. split; [|split]; intros ->; discriminate.
Qed.
Lemma Reads_lit s : forallb (fun c => isxchar c && negb (ceqb c "<") && negb (ceqb c "&") && negb (ceqb c "]")) s = true -> Reads s (ws s).
Proof. intros Hs. apply Reads_ws, text_ws, Hs. Qed.
Definition xnameb (n : str) : bool := match n with c :: r => isxstart c && forallb isxname r | [] => false end.
Lemma xname_of n : xnameb n = true -> xname n.
Proof. destruct n as [|c r]; [discriminate|]. cbn. intros E. apply andb_true_iff in E. destruct E as [E1 E2]. split; [assumption|]. apply Forall_forall. apply forallb_forall. assumption. Qed.
Lemma piece_of sp n raw v : sp <> [] -> forallb isxspace sp = true -> xnameb n = true -> vreads raw v -> piece_ok (Piece sp n raw v).
Proof. intros H1 H2 H3 H4. split; [assumption|]. split; [apply Forall_forall; apply forallb_forall; assumption|]. split; [apply xname_of; assumption|assumption]. Qed.
Lemma raw_digit c : isdigit c = true -> raw_char c.
Proof.
  intros Hc. unfold isdigit in Hc. split; [split; [lia|]|]; [split|]; intros ->; discriminate.
Qed.
Lemma dec_reads n : vreads (dec n) (dec n).
Proof. apply raw_reads. eapply Forall_impl; [|apply dec_digits]. apply raw_digit. Qed.
Lemma decZ_reads z : vreads (decZ z) (decZ z).
Proof.
  apply raw_reads. unfold decZ, decN. assert (X : forall n, Forall raw_char (dec n)) by (intros n; eapply Forall_impl; [|apply dec_digits]; apply raw_digit).
  destruct (z <? 0)%Z; [|apply X]. cbn. constructor; [|apply X]. repeat split; try discriminate; vm_compute; lia.
Qed.
Definition rawb (s : str) : bool := forallb (fun c => (32 <=? nat_of_ascii c) && (nat_of_ascii c <? 128) && negb (ceqb c "&") && negb (ceqb c """") && negb (ceqb c "<")) s.
Lemma rawb_ok s : rawb s = true -> Forall raw_char s.
Proof.
  intros Hs. unfold rawb in Hs. rewrite forallb_forall in Hs. apply Forall_forall. intros c Hc. specialize (Hs c Hc). rewrite !andb_true_iff in Hs. destruct Hs as [[[[H1 H2] H3] H4] H5].
  split; [split; [lia|]|]; [split|]; intros ->; discriminate.
Qed.
Lemma raw_attr s : Forall raw_char s -> Forall attr_char s.
Proof. apply Forall_impl. intros c [Hc _]. exact Hc. Qed.
Ltac nodup_ := repeat constructor; let X := fresh in intros X; repeat (destruct X as [X|X]; [discriminate X|]); exact X.

Lemma Reads_value key v : Forall raw_char key -> cdata_ok v -> Reads (s_ "<metadata key=""" ++ key ++ s_ """><![CDATA[" ++ v ++ s_ "]]></metadata>" ++ nl) ([value_node key v] ++ ws nl).
Proof.
  intros Hk Hv.
  replace (s_ "<metadata key=""" ++ key ++ s_ """><![CDATA[" ++ v ++ s_ "]]></metadata>" ++ nl)
    with ((s_ "<" ++ s_ "metadata" ++ concat (map piece_text [Piece (s_ " ") (s_ "key") key key]) ++ [] ++ s_ ">" ++ (s_ "<![CDATA[" ++ v ++ s_ "]]>") ++ s_ "</" ++ s_ "metadata" ++ s_ ">") ++ nl)
    by (unfold piece_text; cbn [map concat p_sp p_name p_raw]; rewrite <- !app_assoc; reflexivity).
  apply Reads_app; [|apply Reads_lit; reflexivity]. apply Reads_elem; [apply xname_of; reflexivity| |nodup_|constructor|left; discriminate|apply Reads_cdata; assumption].
  constructor; [|constructor]. apply piece_of; [discriminate|reflexivity|reflexivity|apply raw_reads; assumption].
Qed.
Lemma Reads_key p : Forall raw_char (fst p) -> Forall cdata_ok (snd p) -> Reads (emit_key (fst p) (snd p)) (key_nodes p).
Proof.
  destruct p as [key vs]. cbn [fst snd]. intros Hk Hv. unfold emit_key, key_nodes. cbn [fst snd]. destruct vs as [|v0 vs].
  - replace (s_ "<metadata key=""" ++ key ++ s_ """ />") with (s_ "<" ++ s_ "metadata" ++ concat (map piece_text [Piece (s_ " ") (s_ "key") key key]) ++ s_ " " ++ s_ "/>")
      by (unfold piece_text; cbn [map concat p_sp p_name p_raw]; rewrite <- !app_assoc; reflexivity).
    apply Reads_empty; [apply xname_of; reflexivity| |nodup_|repeat constructor|left; discriminate].
    constructor; [|constructor]. apply piece_of; [discriminate|reflexivity|reflexivity|apply raw_reads; assumption].
  - apply Reads_concat. intros v Hi. rewrite Forall_forall in Hv. apply Reads_value; auto.
Qed.
Lemma Reads_meta m : meta_ok m -> Reads (emitMetaData m) (meta_nodes m).
Proof. intros Hm. apply Reads_concat. intros p Hp. unfold meta_ok in Hm. rewrite Forall_forall in Hm. destruct (Hm p Hp). apply Reads_key; assumption. Qed.
Definition src_pieces (src : str) : list piece := match src with [] => [] | _ => [Piece (s_ " ") (s_ "source_id") (xmlEscape src) src] end.
Definition src_sp (src : str) : str := match src with [] => s_ " " | _ => [] end.
Lemma src_text src X : s_ " " ++ emitSourceID src ++ X = concat (map piece_text (src_pieces src)) ++ src_sp src ++ X.
Proof. destruct src as [|c src]; [reflexivity|]. cbn [src_pieces src_sp emitSourceID]. unfold piece_text. cbn [map concat p_sp p_name p_raw]. rewrite <- !app_assoc. reflexivity. Qed.
Lemma src_attrs src : attrs_of (src_pieces src) = src_attr src.
Proof. destruct src; reflexivity. Qed.
Lemma attrs_app a b : attrs_of (a ++ b) = attrs_of a ++ attrs_of b.
Proof. apply map_app. Qed.
Lemma Reads_type_elem tag ps src kids m knodes : xnameb tag = true -> ps <> [] -> Forall piece_ok ps -> NoDup (s_ "source_id" :: map p_name ps) -> Forall attr_char src -> Reads kids knodes -> meta_ok m ->
  Reads (s_ "<" ++ tag ++ concat (map piece_text ps) ++ s_ " " ++ emitSourceID src ++ s_ ">" ++ nl ++ kids ++ tail_ m tag) [XElem tag (attrs_of ps ++ src_attr src) (body knodes m)].
Proof.
  intros Ht Hne Hp Hd Hs Hk Hm. rewrite (src_text src (s_ ">" ++ nl ++ kids ++ tail_ m tag)).
  replace (s_ "<" ++ tag ++ concat (map piece_text ps) ++ concat (map piece_text (src_pieces src)) ++ src_sp src ++ s_ ">" ++ nl ++ kids ++ tail_ m tag)
    with (s_ "<" ++ tag ++ concat (map piece_text (ps ++ src_pieces src)) ++ src_sp src ++ s_ ">" ++ (nl ++ kids ++ s_ "  " ++ emitMetaData m ++ nl ++ s_ "  ") ++ s_ "</" ++ tag ++ s_ ">")
    by (rewrite map_app, concat_app; unfold tail_; rewrite <- !app_assoc; reflexivity).
  rewrite <- src_attrs, <- attrs_app. apply Reads_elem; [apply xname_of; assumption| | | |left; destruct ps; [contradiction|discriminate]|].
  - rewrite Forall_app. split; [assumption|]. destruct src as [|c src]; constructor; [|constructor]. apply piece_of; [discriminate|reflexivity|reflexivity|apply escaped_reads; assumption].
  - rewrite map_app. destruct src as [|c src]; [rewrite app_nil_r; inversion Hd; assumption|]. cbn [src_pieces map p_name]. apply (Permutation_NoDup (Permutation_cons_append _ _)). exact Hd.
  - destruct src; repeat constructor.
  - unfold body. repeat (first [apply Reads_app | apply Reads_lit; reflexivity | assumption | apply Reads_meta; assumption]).
Qed.
Lemma Reads_field H f m : Forall raw_char (f_name f) -> Forall attr_char (o_name (H (f_type f))) -> meta_ok m ->
  Reads (export_field H f m) (ws (s_ "    ") ++ [field_node H f m] ++ ws nl).
Proof.
  intros H1 H2 Hm. unfold export_field, field_node. set (ps := [Piece (s_ " ") (s_ "name") (f_name f) (f_name f); Piece (s_ " ") (s_ "type") (xmlEscape (o_name (H (f_type f)))) (o_name (H (f_type f))); Piece (s_ " ") (s_ "offset") (dec (f_off f)) (dec (f_off f))]).
  apply Reads_app; [apply Reads_lit; reflexivity|].
  replace (s_ "<field name=""" ++ f_name f ++ q ++ s_ " type=""" ++ xmlEscape (o_name (H (f_type f))) ++ q ++ s_ " offset=""" ++ dec (f_off f) ++ s_ """>" ++ nl ++ s_ "    " ++ emitMetaData m ++ nl ++ s_ "    " ++ s_ "</field>" ++ nl)
    with ((s_ "<" ++ s_ "field" ++ concat (map piece_text ps) ++ [] ++ s_ ">" ++ (nl ++ s_ "    " ++ emitMetaData m ++ nl ++ s_ "    ") ++ s_ "</" ++ s_ "field" ++ s_ ">") ++ nl)
    by (unfold ps, piece_text; cbn [map concat p_sp p_name p_raw]; rewrite <- !app_assoc; reflexivity).
  apply Reads_app; [|apply Reads_lit; reflexivity].
  apply (@Reads_elem (s_ "field") ps); [apply xname_of; reflexivity| |unfold ps; nodup_|constructor|left; discriminate|].
  - unfold ps. repeat (apply Forall_cons || apply Forall_nil); (apply piece_of; [discriminate|reflexivity|reflexivity|]); [apply raw_reads; assumption|apply escaped_reads; assumption|apply dec_reads].
  - repeat (first [apply Reads_app | apply Reads_lit; reflexivity | assumption | apply Reads_meta; assumption]).
Qed.
Lemma Reads_fields H fs : Forall (fun f => Forall raw_char (f_name f) /\ Forall attr_char (o_name (H (f_type f)))) fs -> forall m, (forall i, meta_ok (m i)) ->
  Reads (export_fields H fs m) (field_nodes H fs m).
Proof.
  induction 1 as [|f fs [H1 H2] _ IH]; intros m Hm; [apply Reads_nil|]. cbn [export_fields field_nodes]. rewrite !app_assoc. rewrite <- (app_assoc (ws (s_ "    "))). apply Reads_app; [apply Reads_field; auto|apply IH; auto].
Qed.
Lemma Reads_values vs : Forall (fun p => Forall raw_char (fst p)) vs -> Reads (concat (map export_value vs)) (value_nodes vs).
Proof.
  intros Hv. apply Reads_concat. intros [k z] Hi. rewrite Forall_forall in Hv. specialize (Hv _ Hi). cbn [fst snd] in *. unfold export_value. cbn [fst snd].
  apply Reads_app; [apply Reads_lit; reflexivity|]. set (ps := [Piece (s_ " ") (s_ "symbol") k k; Piece (s_ " ") (s_ "value") (decZ z) (decZ z)]).
  replace (s_ "<value symbol=""" ++ k ++ s_ """ value=""" ++ decZ z ++ s_ """/>" ++ nl) with ((s_ "<" ++ s_ "value" ++ concat (map piece_text ps) ++ [] ++ s_ "/>") ++ nl)
    by (unfold ps, piece_text; cbn [map concat p_sp p_name p_raw]; rewrite <- !app_assoc; reflexivity).
  apply Reads_app; [|apply Reads_lit; reflexivity]. apply (@Reads_empty (s_ "value") ps); [apply xname_of; reflexivity| |unfold ps; nodup_|constructor|left; discriminate].
  unfold ps. repeat (apply Forall_cons || apply Forall_nil); (apply piece_of; [discriminate|reflexivity|reflexivity|]); [apply raw_reads; assumption|apply decZ_reads].
Qed.
Lemma Reads_type H md t src : Forall attr_char (o_name (H t)) -> Forall attr_char src -> meta_ok (m_type md t) -> kind_ok H md t -> Reads (export_type H md t src) [type_node H md t src].
Proof.
  intros Hn Hs Hm Hk. unfold kind_ok in Hk. unfold export_type, type_node. cbv zeta.
  set (nm sp := Piece sp (s_ "name") (xmlEscape (o_name (H t))) (o_name (H t))).
  set (rnm sp := Piece sp (s_ "name") (o_name (H t)) (o_name (H t))).
  set (sz := Piece (s_ " ") (s_ "size") (dec (o_size (H t))) (dec (o_size (H t)))).
  set (of x := Piece (s_ " ") (s_ "of") (xmlEscape (o_name (H x))) (o_name (H x))).
  assert (Pn : forall sp, sp <> [] -> forallb isxspace sp = true -> piece_ok (nm sp)) by (intros; apply piece_of; auto; apply escaped_reads; assumption).
  assert (Pz : piece_ok sz) by (apply piece_of; [discriminate|reflexivity|reflexivity|apply dec_reads]).
  assert (Po : forall x, Forall attr_char (o_name (H x)) -> piece_ok (of x)) by (intros; apply piece_of; [discriminate|reflexivity|reflexivity|apply escaped_reads; assumption]).
  assert (Pr : forall sp, Forall raw_char (o_name (H t)) -> sp <> [] -> forallb isxspace sp = true -> piece_ok (rnm sp)) by (intros; apply piece_of; auto; apply raw_reads; assumption).
  destruct (o_kind (H t)) as [| |c|vs|x|d x|k x|fs].
  - assert (X : Forall piece_ok [rnm (s_ "  ")]) by (repeat (apply Forall_cons || apply Forall_nil); auto; apply Pr; [auto|discriminate|reflexivity]).
    assert (Z : Reads [] []) by (apply Reads_nil).
    assert (Y := @Reads_type_elem (s_ "null") [rnm (s_ "  ")] src [] (m_type md t) [] eq_refl ltac:(discriminate) X ltac:(nodup_) Hs Z Hm). clear X Z. unfold piece_text in Y. cbn [map concat rnm p_sp p_name p_raw] in Y. rewrite <- !app_assoc in Y. exact Y.
  - assert (X : Forall piece_ok [nm (s_ " "); sz]) by (repeat (apply Forall_cons || apply Forall_nil); auto; apply Pn; [discriminate|reflexivity]).
    assert (Z : Reads [] []) by (apply Reads_nil).
    assert (Y := @Reads_type_elem (s_ "opaque") [nm (s_ " "); sz] src [] (m_type md t) [] eq_refl ltac:(discriminate) X ltac:(nodup_) Hs Z Hm). clear X Z. unfold piece_text in Y. cbn [map concat nm sz p_sp p_name p_raw] in Y. rewrite <- !app_assoc in Y. exact Y.
  - set (ct := Piece (s_ " ") (s_ "category") (category_text c) (category_text c)).
    assert (Pc : piece_ok ct) by (apply piece_of; [discriminate|reflexivity|reflexivity|apply raw_reads, rawb_ok; destruct c; reflexivity]).
    assert (X : Forall piece_ok [rnm (s_ " "); ct; sz]) by (repeat (apply Forall_cons || apply Forall_nil); auto; apply Pr; [auto|discriminate|reflexivity]).
    assert (Z : Reads [] []) by (apply Reads_nil).
    assert (Y := @Reads_type_elem (s_ "numeric") [rnm (s_ " "); ct; sz] src [] (m_type md t) [] eq_refl ltac:(discriminate) X ltac:(nodup_) Hs Z Hm). clear X Z. unfold piece_text in Y. cbn [map concat rnm sz ct p_sp p_name p_raw] in Y. rewrite <- !app_assoc in Y. exact Y.
  - destruct Hk as [Hk1 Hk2].
    assert (X : Forall piece_ok [rnm (s_ " ")]) by (repeat (apply Forall_cons || apply Forall_nil); auto; apply Pr; [auto|discriminate|reflexivity]).
    assert (Z : Reads (concat (map export_value vs)) (value_nodes vs)) by (apply Reads_values; assumption).
    assert (Y := @Reads_type_elem (s_ "enum") [rnm (s_ " ")] src (concat (map export_value vs)) (m_type md t) (value_nodes vs) eq_refl ltac:(discriminate) X ltac:(nodup_) Hs Z Hm). clear X Z. unfold piece_text in Y. cbn [map concat rnm p_sp p_name p_raw] in Y. rewrite <- !app_assoc in Y. exact Y.
  - assert (X : Forall piece_ok [nm (s_ "  "); of x]) by (repeat (apply Forall_cons || apply Forall_nil); auto; apply Pn; [discriminate|reflexivity]).
    assert (Z : Reads [] []) by (apply Reads_nil).
    assert (Y := @Reads_type_elem (s_ "pointer") [nm (s_ "  "); of x] src [] (m_type md t) [] eq_refl ltac:(discriminate) X ltac:(nodup_) Hs Z Hm). clear X Z. unfold piece_text in Y. cbn [map concat nm of p_sp p_name p_raw] in Y. rewrite <- !app_assoc in Y. unfold indirect_text, q. rewrite <- !app_assoc. exact Y.
  - set (dm := Piece (s_ " ") (s_ "dimension") (dec d) (dec d)).
    assert (Pc : piece_ok dm) by (apply piece_of; [discriminate|reflexivity|reflexivity|apply dec_reads]).
    assert (X : Forall piece_ok [nm (s_ "  "); of x; dm]) by (repeat (apply Forall_cons || apply Forall_nil); auto; apply Pn; [discriminate|reflexivity]).
    assert (Z : Reads [] []) by (apply Reads_nil).
    assert (Y := @Reads_type_elem (s_ "array") [nm (s_ "  "); of x; dm] src [] (m_type md t) [] eq_refl ltac:(discriminate) X ltac:(nodup_) Hs Z Hm). clear X Z. unfold piece_text in Y. cbn [map concat nm of dm p_sp p_name p_raw] in Y. rewrite <- !app_assoc in Y. unfold indirect_text, q. rewrite <- !app_assoc. exact Y.
  - set (kd := Piece (s_ " ") (s_ "kind") (xmlEscape (kind_text k)) (kind_text k)).
    assert (Pc : piece_ok kd) by (apply piece_of; [discriminate|reflexivity|reflexivity|apply escaped_reads, raw_attr, rawb_ok; destruct k; reflexivity]).
    assert (X : Forall piece_ok [nm (s_ "  "); of x; sz; kd]) by (repeat (apply Forall_cons || apply Forall_nil); auto; apply Pn; [discriminate|reflexivity]).
    assert (Z : Reads [] []) by (apply Reads_nil).
    assert (Y := @Reads_type_elem (s_ "container") [nm (s_ "  "); of x; sz; kd] src [] (m_type md t) [] eq_refl ltac:(discriminate) X ltac:(nodup_) Hs Z Hm). clear X Z. unfold piece_text in Y. cbn [map concat nm of kd sz p_sp p_name p_raw] in Y. rewrite <- !app_assoc in Y. unfold indirect_text, q. rewrite <- !app_assoc. exact Y.
  - destruct Hk as [Hk1 Hk2].
    assert (X : Forall piece_ok [nm (s_ " "); sz]) by (repeat (apply Forall_cons || apply Forall_nil); auto; apply Pn; [discriminate|reflexivity]).
    assert (Z : Reads (export_fields H fs (m_field md t)) (field_nodes H fs (m_field md t))) by (apply Reads_fields; assumption).
    assert (Y := @Reads_type_elem (s_ "compound") [nm (s_ " "); sz] src (export_fields H fs (m_field md t)) (m_type md t) (field_nodes H fs (m_field md t)) eq_refl ltac:(discriminate) X ltac:(nodup_) Hs Z Hm). clear X Z. unfold piece_text in Y. cbn [map concat nm sz p_sp p_name p_raw] in Y. rewrite <- !app_assoc in Y. exact Y.
Qed.
Lemma Reads_entry H md p : entry_ok H md p -> Reads (save_entry H md p) (ws (s_ "  ") ++ [entry_node H md p] ++ ws nl).
Proof.
  intros (H1 & H2 & H3 & H4 & H5). unfold save_entry, entry_node. destruct (isAlias H p).
  - set (ps := [Piece (s_ " ") (s_ "name") (xmlEscape (fst p)) (fst p); Piece (s_ " ") (s_ "source") (xmlEscape (o_name (H (e_type (snd p))))) (o_name (H (e_type (snd p))))]).
    replace (s_ "  <alias name=""" ++ xmlEscape (fst p) ++ s_ """ source=""" ++ xmlEscape (o_name (H (e_type (snd p)))) ++ s_ """/>" ++ nl)
      with (s_ "  " ++ (s_ "<" ++ s_ "alias" ++ concat (map piece_text ps) ++ [] ++ s_ "/>") ++ nl) by (unfold ps, piece_text; cbn [map concat p_sp p_name p_raw]; rewrite <- !app_assoc; reflexivity).
    apply Reads_app; [apply Reads_lit; reflexivity|]. apply Reads_app; [|apply Reads_lit; reflexivity].
    apply (@Reads_empty (s_ "alias") ps); [apply xname_of; reflexivity| |unfold ps; nodup_|constructor|left; discriminate].
    unfold ps. repeat (apply Forall_cons || apply Forall_nil); (apply piece_of; [discriminate|reflexivity|reflexivity|]); apply escaped_reads; assumption.
  - apply Reads_app; [apply Reads_lit; reflexivity|]. apply Reads_app; [|apply Reads_lit; reflexivity]. apply Reads_type; assumption.
Qed.
Definition root_node (H : heap) (md : metas) (out : list ent) : xnode :=
  XElem (s_ "typelib") [] (ws nl ++ concat (map (fun p => ws (s_ "  ") ++ [entry_node H md p] ++ ws nl) out)).
Lemma document_tree H md out : (forall p, In p out -> entry_ok H md p) -> parse_doc (document H md out) = Some (root_node H md out).
Proof.
  intros Ho. unfold document, root_node. apply (@parse_doc_ok _ _ _ _ nl nl); [repeat constructor|repeat constructor|]. apply Reads_app; [apply Reads_lit; reflexivity|].
  replace (s_ "<typelib>" ++ nl ++ concat (map (save_entry H md) out) ++ s_ "</typelib>" ++ nl)
    with ((s_ "<" ++ s_ "typelib" ++ concat (map piece_text []) ++ [] ++ s_ ">" ++ (nl ++ concat (map (save_entry H md) out)) ++ s_ "</" ++ s_ "typelib" ++ s_ ">") ++ nl)
    by (rewrite <- !app_assoc; reflexivity).
  apply Reads_app; [|apply Reads_lit; reflexivity]. apply (@Reads_elem (s_ "typelib") []); [apply xname_of; reflexivity|constructor|constructor|constructor|right; reflexivity|].
  apply Reads_app; [apply Reads_lit; reflexivity|]. apply Reads_concat. intros p Hp. apply Reads_entry, Ho, Hp.
Qed.
