(** * XmlProofs: what the reader makes of the exporter's text. *)
From Verif Require Import Base Types NamesSpec Names NamesProofs Graph GraphProofs Registry World Exporter Smap TypeObj Csv Xml Tlb TlbSpec.
From Verif Require Import Graph.
Local Open Scope nat_scope.

(** ** Escaping *)
Definition esc (c : ascii) : str := if ceqb c "<" then s_ "&lt;" else if ceqb c ">" then s_ "&gt;" else [c].
Definition angle (c : ascii) : bool := ceqb c "<" || ceqb c ">".
Lemma find_angle_none p : Forall (fun c => angle c = false) p -> find_angle p = None.
Proof. induction 1 as [|c p Hc _ IH]; cbn [find_angle]; [reflexivity|]. unfold angle in Hc. rewrite Hc, IH. reflexivity. Qed.
Lemma find_angle_app p c s : Forall (fun c => angle c = false) p -> angle c = true -> find_angle (p ++ c :: s) = Some (p, c, s).
Proof.
  intros Hp Hc. induction Hp as [|x p Hx _ IH]; cbn [find_angle app]; [unfold angle in Hc; rewrite Hc; reflexivity|].
  unfold angle in Hx. rewrite Hx, IH. reflexivity.
Qed.
Lemma escape_loop_eq s : forall p f, Forall (fun c => angle c = false) p -> length s < f -> escape_loop f (p ++ s) = p ++ flat_map esc s.
Proof.
  induction s as [|c s IH]; intros p f Hp Hf.
  - destruct f; [lia|]. cbn [escape_loop flat_map]. rewrite app_nil_r. rewrite find_angle_none by assumption. reflexivity.
  - destruct (angle c) eqn:Ec.
    + destruct f as [|f]; [lia|]. cbn [escape_loop]. rewrite find_angle_app by assumption.
      rewrite app_assoc. rewrite IH; [|rewrite Forall_app; split; [assumption|]; destruct (ceqb c "<"); repeat constructor|simpl in Hf; lia].
      rewrite <- app_assoc. f_equal. cbn [flat_map]. f_equal. unfold esc. unfold angle in Ec. destruct (ceqb c "<"); [reflexivity|]. cbn in Ec. rewrite Ec. reflexivity.
    + change (c :: s) with ([c] ++ s). rewrite app_assoc. rewrite IH; [|rewrite Forall_app; split; [assumption|repeat constructor; assumption]|simpl in Hf; lia].
      rewrite <- app_assoc. f_equal. cbn [app flat_map]. unfold esc. unfold angle in Ec. apply orb_false_iff in Ec. destruct Ec as [-> ->]. reflexivity.
Qed.
Lemma xmlEscape_eq s : xmlEscape s = flat_map esc s.
Proof. unfold xmlEscape. apply (@escape_loop_eq s []); [constructor|lia]. Qed.

(** ** Attribute values *)
Definition vreads (raw v : str) : Prop := forall rest, read_value (S (length (raw ++ """"%char :: rest))) (raw ++ """"%char :: rest) = Some (v, rest).
Definition vreads_ (raw v : str) : Prop := forall f rest, length (raw ++ """"%char :: rest) < f -> read_value f (raw ++ """"%char :: rest) = Some (v, rest).
Lemma vreads_of raw v : vreads_ raw v -> vreads raw v.
Proof. intros Hv rest. apply Hv. lia. Qed.
Lemma eqb_neq (a b : ascii) : a <> b -> Ascii.eqb a b = false.
Proof. intros Hn. destruct (Ascii.eqb_spec a b); [contradiction|reflexivity]. Qed.
Lemma vreads_nil : vreads_ [] [].
Proof. intros f rest Hf. destruct f; [simpl in Hf; lia|]. reflexivity. Qed.
Lemma xchar_space c : 32 <= nat_of_ascii c -> isxspace c = true -> c = " "%char.
Proof.
  unfold isxspace. intros Hc Hs. assert (X : nat_of_ascii c = 32) by lia. rewrite <- (ascii_nat_embedding c), X. reflexivity.
Qed.
Lemma vreads_char c raw v : raw_char c -> vreads_ raw v -> vreads_ (c :: raw) (c :: v).
Proof.
  intros [(Hr & H1 & H2) H3] Hv f rest Hf. destruct f as [|f]; [lia|]. cbn [app length] in Hf. cbn [app read_value].
  rewrite (eqb_neq H2), (eqb_neq H3), (eqb_neq H1). replace (nat_of_ascii c =? 13) with false by (symmetry; apply Nat.eqb_neq; lia).
  destruct (isxspace c) eqn:Es; [rewrite (xchar_space (proj1 Hr) Es); rewrite Hv by lia; reflexivity|].
  replace (isxchar c) with true by (symmetry; unfold isxchar; lia). rewrite Hv by lia. reflexivity.
Qed.
Lemma vreads_lt raw v : vreads_ raw v -> vreads_ (s_ "&lt;" ++ raw) ("<"%char :: v).
Proof. intros Hv f rest Hf. destruct f as [|f]; [lia|]. cbn in Hf. cbn. rewrite Hv by lia. reflexivity. Qed.
Lemma vreads_gt raw v : vreads_ raw v -> vreads_ (s_ "&gt;" ++ raw) (">"%char :: v).
Proof. intros Hv f rest Hf. destruct f as [|f]; [lia|]. cbn in Hf. cbn. rewrite Hv by lia. reflexivity. Qed.
Lemma raw_reads s : Forall raw_char s -> vreads s s.
Proof. intros Hs. apply vreads_of. induction Hs; [apply vreads_nil|apply vreads_char; assumption]. Qed.
Lemma escaped_reads s : Forall attr_char s -> vreads (xmlEscape s) s.
Proof.
  intros Hs. apply vreads_of. rewrite xmlEscape_eq. induction Hs as [|c s Hc _ IH]; [apply vreads_nil|]. cbn [flat_map]. unfold esc at 1.
  destruct (ceqb c "<") eqn:E1; [apply ceqb_eq in E1; subst; apply vreads_lt; exact IH|].
  destruct (ceqb c ">") eqn:E2; [apply ceqb_eq in E2; subst; apply vreads_gt; exact IH|].
  apply vreads_char; [|exact IH]. split; [exact Hc|]. intros ->. discriminate.
Qed.

(** ** Tags *)
Definition xname (n : str) : Prop := match n with c :: r => isxstart c = true /\ Forall (fun c => isxname c = true) r | [] => False end.
Lemma span_app p s c r : Forall (fun c => p c = true) s -> p c = false -> span p (s ++ c :: r) = (s, c :: r).
Proof. intros Hs Hc. induction Hs as [|x s Hx _ IH]; cbn [span app]; [rewrite Hc; reflexivity|]. rewrite Hx, IH. reflexivity. Qed.
Lemma read_name_app n c r : xname n -> isxname c = false -> read_name (n ++ c :: r) = Some (n, c :: r).
Proof.
  destruct n as [|x n]; [intros []|]. intros [Hx Hn] Hc. unfold read_name. cbn [app]. rewrite Hx. f_equal.
  change (x :: n ++ c :: r) with ((x :: n) ++ c :: r). apply span_app; [|assumption]. constructor; [unfold isxname; rewrite Hx; reflexivity|assumption].
Qed.
(** white space, name, text of the value, value *)
Record piece := Piece { p_sp : str; p_name : str; p_raw : str; p_val : str }.
Definition piece_ok (p : piece) : Prop :=
  p_sp p <> [] /\ Forall (fun c => isxspace c = true) (p_sp p) /\ xname (p_name p) /\ vreads (p_raw p) (p_val p).
Definition piece_text (p : piece) : str := p_sp p ++ p_name p ++ s_ "=""" ++ p_raw p ++ s_ """".
Definition attrs_of (ps : list piece) : list (str * str) := map (fun p => (p_name p, p_val p)) ps.
Definition end_text (e : bool) : str := if e then s_ "/>" else s_ ">".
Lemma span_space sp c r : Forall (fun c => isxspace c = true) sp -> isxspace c = false -> span isxspace (sp ++ c :: r) = (sp, c :: r).
Proof. apply span_app. Qed.
Lemma start_not_space c : isxstart c = true -> isxspace c = false /\ Ascii.eqb c ">" = false /\ Ascii.eqb c "/" = false.
Proof.
  unfold isxstart, isletter, isxspace. destruct (Ascii.eqb_spec c "_"); [subst; intros _; vm_compute; auto|]. destruct (Ascii.eqb_spec c ":"); [subst; intros _; vm_compute; auto|]. intros Hc.
  destruct (Ascii.eqb_spec c ">"); [subst; discriminate|]. destruct (Ascii.eqb_spec c "/"); [subst; discriminate|]. split; [lia|auto].
Qed.
Lemma read_attrs_ok e sp : Forall (fun c => isxspace c = true) sp -> forall ps, Forall piece_ok ps -> forall f acc rest, length ps < f -> NoDup (map fst acc ++ map p_name ps) ->
  read_attrs f (concat (map piece_text ps) ++ sp ++ end_text e ++ rest) acc = Some (rev acc ++ attrs_of ps, e, rest).
Proof.
  intros Hsp. induction ps as [|p ps IH]; intros Hps f acc rest Hf Hd; (destruct f as [|f]; [lia|]).
  - cbn [map concat app read_attrs]. cbn [attrs_of map]. rewrite app_nil_r. destruct e; cbn [end_text s_ list_ascii_of_string app]; rewrite span_space by (auto; reflexivity); reflexivity.
  - inversion Hps as [|? ? (Hs1 & Hs2 & Hn & Hv) Hps']; subst. cbn [map concat read_attrs]. unfold piece_text at 1. rewrite <- !app_assoc.
    destruct (p_name p) as [|c n] eqn:En; [destruct Hn|]. destruct (start_not_space (proj1 Hn)) as (N1 & N2 & N3).
    cbn [app]. rewrite span_space by assumption. rewrite N2, N3. destruct (p_sp p) as [|b sp']; [contradiction|].
    change (s_ "=""" ++ p_raw p ++ s_ """" ++ concat (map piece_text ps) ++ sp ++ end_text e ++ rest)
      with ("="%char :: """"%char :: p_raw p ++ """"%char :: concat (map piece_text ps) ++ sp ++ end_text e ++ rest).
    change (c :: n ++ "="%char :: """"%char :: p_raw p ++ """"%char :: concat (map piece_text ps) ++ sp ++ end_text e ++ rest)
      with ((c :: n) ++ "="%char :: """"%char :: p_raw p ++ """"%char :: concat (map piece_text ps) ++ sp ++ end_text e ++ rest).
    rewrite read_name_app by (auto; reflexivity). cbn [after s_ list_ascii_of_string Ascii.eqb Bool.eqb]. rewrite Hv.
    assert (Ha : existsb (fun p0 : str * str => seqb (fst p0) (c :: n)) acc = false).
    { apply not_true_iff_false. intros Hx. apply existsb_exists in Hx. destruct Hx as (y & Hy & E). apply seqb_eq in E. cbn [map] in Hd. rewrite En in Hd. apply NoDup_remove_2 in Hd.
      apply Hd. apply in_or_app. left. rewrite <- E. apply in_map. assumption. }
    rewrite Ha. rewrite IH; [|assumption|simpl in Hf; lia|].
    + cbn [rev attrs_of map]. rewrite <- app_assoc. cbn [app]. rewrite En. reflexivity.
    + cbn [map] in *. rewrite En in Hd. cbn [app]. apply NoDup_remove in Hd. constructor; [apply Hd|apply Hd].
Qed.

(** ** Tokens *)
Definition Lexes (s : str) (ts : list token) : Prop :=
  length ts <= length s /\ forall f rest, lex (length ts + f) (s ++ rest) = match lex f rest with Some l => Some (ts ++ l) | None => None end.
Lemma Lexes_nil : Lexes [] [].
Proof. split; [auto|]. intros f rest. cbn. destruct (lex f rest); reflexivity. Qed.
Lemma Lexes_app s ts s' ts' : Lexes s ts -> Lexes s' ts' -> Lexes (s ++ s') (ts ++ ts').
Proof.
  intros [L1 E1] [L2 E2]. split; [rewrite !app_length; lia|]. intros f rest. rewrite app_length, <- Nat.add_assoc, <- app_assoc, E1, E2.
  destruct (lex f rest); [rewrite app_assoc|]; reflexivity.
Qed.
Definition text_char (c : ascii) : Prop := isxchar c = true /\ c <> "<"%char /\ c <> "&"%char /\ c <> "]"%char.
Lemma Lexes_text s : Forall text_char s -> Lexes s (map TChar s).
Proof.
  induction 1 as [|c s (H1 & H2 & H3 & H4) _ IH]; [apply Lexes_nil|]. apply (@Lexes_app [c] [TChar c] s (map TChar s)); [|exact IH]. split; [auto|]. intros f rest. cbn [length plus app lex]. rewrite (eqb_neq H2), (eqb_neq H3), H1.
  cbn [s_ list_ascii_of_string after]. rewrite (eqb_neq (not_eq_sym H4)). reflexivity.
Qed.
Lemma xname_char n : xname n -> exists c r, n = c :: r /\ c <> "!"%char /\ c <> "/"%char.
Proof. destruct n as [|c r]; [intros []|]. intros [Hc _]. exists c, r. split; [reflexivity|]. split; intros ->; discriminate. Qed.
Lemma Lexes_open tag ps sp e : xname tag -> Forall piece_ok ps -> NoDup (map p_name ps) -> Forall (fun c => isxspace c = true) sp -> (ps <> [] \/ sp = []) ->
  Lexes (s_ "<" ++ tag ++ concat (map piece_text ps) ++ sp ++ end_text e) [TOpen tag (attrs_of ps) e].
Proof.
  intros Ht Hp Hd Hs Hne. split; [cbn; lia|]. intros f rest. cbn [length plus]. change (s_ "<") with ["<"%char]. rewrite <- !app_assoc. cbn [app]. cbn [lex].
  change (Ascii.eqb "<" "<") with true. cbn iota.
  destruct (xname_char Ht) as (c & r & Et & N1 & N2).
  set (X := concat (map piece_text ps) ++ sp ++ end_text e ++ rest).
  assert (HX : exists d Y, X = d :: Y /\ isxname d = false).
  { unfold X. destruct ps as [|p ps].
    - destruct Hne as [Hne| ->]; [contradiction|]. destruct e; cbn; eauto.
    - inversion Hp as [|? ? (Hs1 & Hs2 & _) _]; subst. cbn [map concat]. unfold piece_text at 1. destruct (p_sp p) as [|d sp']; [contradiction|]. inversion Hs2 as [|? ? Hd1 _]; subst.
      cbn [app]. exists d. eexists. split; [reflexivity|]. unfold isxname, isxstart, isletter. unfold isxspace in Hd1. 
      assert (Hn : nat_of_ascii d = 32 \/ nat_of_ascii d = 9 \/ nat_of_ascii d = 10 \/ nat_of_ascii d = 13) by lia.
      rewrite <- (ascii_nat_embedding d). destruct Hn as [-> |[-> |[-> | ->]]]; reflexivity. }
  destruct HX as (d & Y & EX & Hdn).
  assert (E1 : after (s_ "![CDATA[") (tag ++ X) = None) by (rewrite Et; cbn [s_ list_ascii_of_string after app]; rewrite (eqb_neq (not_eq_sym N1)); reflexivity).
  assert (E2 : after (s_ "/") (tag ++ X) = None) by (rewrite Et; cbn [s_ list_ascii_of_string after app]; rewrite (eqb_neq (not_eq_sym N2)); reflexivity).
  rewrite E1, E2. rewrite EX at 1. rewrite read_name_app by assumption. rewrite <- EX. unfold X. rewrite read_attrs_ok; [reflexivity|assumption|assumption| |].
  - rewrite !app_length. assert (K : forall l, Forall piece_ok l -> length l <= length (concat (map piece_text l))).
    { induction 1 as [|p l (A & _) _ IHl]; [cbn; lia|]. cbn [map concat length]. rewrite app_length. unfold piece_text at 1. destruct (p_sp p); [contradiction|]. cbn [app length]. lia. }
    specialize (K ps Hp). lia.
  - exact Hd.
Qed.
Lemma Lexes_close tag : xname tag -> Lexes (s_ "</" ++ tag ++ s_ ">") [TClose tag].
Proof.
  intros Ht. split; [cbn; lia|]. intros f rest. change (s_ "</") with ["<"; "/"]%char. change (s_ ">") with [">"%char]. rewrite <- !app_assoc. cbn [app length plus lex].
  change (Ascii.eqb "<" "<") with true. cbn iota. cbn [s_ list_ascii_of_string after]. change (Ascii.eqb "!" "/") with false. change (Ascii.eqb "/" "/") with true. cbn iota.
  rewrite read_name_app by (auto; reflexivity). cbn [span]. change (isxspace ">") with false. cbn [snd]. change (Ascii.eqb ">" ">") with true. cbn iota. destruct (lex f rest); reflexivity.
Qed.
(** ** CDATA *)
Lemma after_spec p : forall s r, after p s = Some r -> s = p ++ r.
Proof. induction p as [|x p IH]; intros [|y s] r; cbn [after app]; try discriminate; try (intros E; inversion E; reflexivity). destruct (Ascii.eqb_spec x y); [subst|discriminate]. intros E. rewrite (IH _ _ E). reflexivity. Qed.
Lemma after_app p r : after p (p ++ r) = Some r.
Proof. induction p as [|x p IH]; cbn [after app]; [reflexivity|]. rewrite Ascii.eqb_refl. exact IH. Qed.
Lemma no_end v rest r : (forall a b, v <> a ++ s_ "]]>" ++ b) -> v <> [] -> after (s_ "]]>") (v ++ s_ "]]>" ++ rest) = Some r -> False.
Proof.
  intros Hv Hne E. apply after_spec in E. destruct v as [|x [|y [|z v]]]; cbn in E; [contradiction| | |].
  - discriminate.
  - discriminate.
  - inversion E; subst. apply (Hv [] v). reflexivity.
Qed.
Lemma read_cdata_ok v : cdata_ok v -> forall f rest, length v < f -> read_cdata f (v ++ s_ "]]>" ++ rest) = Some (v, rest).
Proof.
  intros [Hc Hv]. induction v as [|c v IH]; intros f rest Hf; (destruct f as [|f]; [lia|]).
  - cbn [app read_cdata]. rewrite after_app. reflexivity.
  - cbn [read_cdata]. destruct (after (s_ "]]>") ((c :: v) ++ s_ "]]>" ++ rest)) as [r|] eqn:E; [exfalso; eapply no_end; [exact Hv|discriminate|exact E]|]. clear E.
    inversion Hc as [|? ? [H1 H2] Hc']; subst. cbn [app]. replace (nat_of_ascii c =? 13) with false by (symmetry; apply Nat.eqb_neq; assumption). rewrite H1.
    rewrite IH; [reflexivity|assumption| |simpl in Hf; lia]. intros a b E. apply (Hv (c :: a) b). rewrite E. reflexivity.
Qed.
Lemma Lexes_cdata v : cdata_ok v -> Lexes (s_ "<![CDATA[" ++ v ++ s_ "]]>") [TCdata v].
Proof.
  intros Hv. split; [cbn; lia|]. intros f rest. change (s_ "<![CDATA[") with ("<"%char :: s_ "![CDATA["). rewrite <- !app_assoc. cbn [app length plus lex].
  change (Ascii.eqb "<" "<") with true. cbn iota. rewrite after_app. rewrite read_cdata_ok; [destruct (lex f rest); reflexivity|assumption|]. rewrite !app_length. lia.
Qed.

(** ** Trees *)
Definition Builds (ts : list token) (ns : list xnode) : Prop := forall rest stk kids, build_tree (ts ++ rest) stk kids = build_tree rest stk (rev ns ++ kids).
Definition Reads (s : str) (ns : list xnode) : Prop := exists ts, Lexes s ts /\ Builds ts ns.
Definition ws (s : str) : list xnode := map XChar s.
Lemma Reads_nil : Reads [] [].
Proof. exists []. split; [apply Lexes_nil|]. intros rest stk kids. reflexivity. Qed.
Lemma Reads_app s ns s' ns' : Reads s ns -> Reads s' ns' -> Reads (s ++ s') (ns ++ ns').
Proof.
  intros (ts & L & B) (ts' & L' & B'). exists (ts ++ ts'). split; [apply Lexes_app; assumption|]. intros rest stk kids. rewrite <- app_assoc, B, B', rev_app_distr, <- app_assoc. reflexivity.
Qed.
Lemma Reads_ws s : Forall text_char s -> Reads s (ws s).
Proof.
  intros Hs. exists (map TChar s). split; [apply Lexes_text; assumption|]. clear Hs. induction s as [|c s IH]; intros rest stk kids; [reflexivity|].
  cbn [map app build_tree]. rewrite IH. unfold ws. cbn [map rev]. rewrite <- app_assoc. reflexivity.
Qed.
Lemma Reads_concat A (f : A -> str) (g : A -> list xnode) l : (forall x, In x l -> Reads (f x) (g x)) -> Reads (concat (map f l)) (concat (map g l)).
Proof. induction l as [|x l IH]; intros Hl; [apply Reads_nil|]. cbn [map concat]. apply Reads_app; [apply Hl; left; reflexivity|]. apply IH. intros y Hy. apply Hl. right. assumption. Qed.
Lemma Reads_elem tag ps sp body ns : xname tag -> Forall piece_ok ps -> NoDup (map p_name ps) -> Forall (fun c => isxspace c = true) sp -> (ps <> [] \/ sp = []) -> Reads body ns ->
  Reads (s_ "<" ++ tag ++ concat (map piece_text ps) ++ sp ++ s_ ">" ++ body ++ s_ "</" ++ tag ++ s_ ">") [XElem tag (attrs_of ps) ns].
Proof.
  intros Ht Hp Hd Hs Hne (ts & L & B). exists ([TOpen tag (attrs_of ps) false] ++ ts ++ [TClose tag]). split.
  - replace (s_ "<" ++ tag ++ concat (map piece_text ps) ++ sp ++ s_ ">" ++ body ++ s_ "</" ++ tag ++ s_ ">")
      with ((s_ "<" ++ tag ++ concat (map piece_text ps) ++ sp ++ end_text false) ++ body ++ (s_ "</" ++ tag ++ s_ ">")) by (rewrite <- !app_assoc; reflexivity).
    apply Lexes_app; [apply Lexes_open; assumption|]. apply Lexes_app; [exact L|apply Lexes_close; assumption].
  - intros rest stk kids. cbn [app build_tree]. rewrite <- app_assoc, B. cbn [app build_tree]. rewrite seqb_refl, app_nil_r, rev_involutive. reflexivity.
Qed.
Lemma Reads_empty tag ps sp : xname tag -> Forall piece_ok ps -> NoDup (map p_name ps) -> Forall (fun c => isxspace c = true) sp -> (ps <> [] \/ sp = []) ->
  Reads (s_ "<" ++ tag ++ concat (map piece_text ps) ++ sp ++ s_ "/>") [XElem tag (attrs_of ps) []].
Proof.
  intros Ht Hp Hd Hs Hne. exists [TOpen tag (attrs_of ps) true]. split; [apply (@Lexes_open tag ps sp true); assumption|]. intros rest stk kids. reflexivity.
Qed.
Lemma Reads_cdata v : cdata_ok v -> Reads (s_ "<![CDATA[" ++ v ++ s_ "]]>") [XCdata v].
Proof. intros Hv. exists [TCdata v]. split; [apply Lexes_cdata; assumption|]. intros rest stk kids. reflexivity. Qed.
Lemma root_ws s found : Forall (fun c => isxspace c = true) s -> root_of (ws s) found = found.
Proof. induction 1 as [|c s Hc _ IH]; [reflexivity|]. cbn [ws map root_of]. rewrite Hc. exact IH. Qed.
Lemma parse_doc_ok s tag a k s1 s2 : Forall (fun c => isxspace c = true) s1 -> Forall (fun c => isxspace c = true) s2 ->
  Reads s (ws s1 ++ [XElem tag a k] ++ ws s2) -> parse_doc (s_ "<?xml version=""1.0""?>" ++ s) = Some (XElem tag a k).
Proof.
  intros H1 H2 (ts & (Hl & L) & B). unfold parse_doc. rewrite after_app. assert (E : lex (S (length s)) s = Some ts).
  { assert (X := L (S (length s) - length ts) []). rewrite app_nil_r in X. replace (length ts + (S (length s) - length ts)) with (S (length s)) in X by lia. rewrite X.
    destruct (S (length s) - length ts) eqn:En; [lia|]. cbn [lex]. rewrite app_nil_r. reflexivity. }
  rewrite E. assert (X := B [] [] []). rewrite !app_nil_r in X. rewrite X. cbn [build_tree]. rewrite rev_involutive.
  clear - H1 H2. induction H1 as [|c s1 Hc _ IH]; [cbn [ws map app root_of]; apply root_ws; assumption|]. cbn [ws map app root_of]. rewrite Hc. exact IH.
Qed.
