(** * IdlMain: what the IDL exporter writes. *)
From Coq Require Import Permutation.
From Verif Require Import Base Types NamesSpec Names NamesProofs.
From Verif Require Import Graph GraphProofs Registry RegistryProofs Exporter Idl IdlSpec IdlProofs.
Local Open Scope char_scope.

#[local] Arguments ceqb : simpl never.
Notation sp := (map (fun c => if special c then "_" else c)).

(** ** Names *)
Lemma sp_idem s : sp (sp s) = sp s.
Proof. rewrite map_map. apply map_ext. intros x. destruct (special x) eqn:e; [reflexivity | rewrite e; reflexivity]. Qed.
Lemma sp_strip1 s : sp (strip1 (sp s)) = strip1 (sp s).
Proof.
  destruct s as [| x s]; [reflexivity |]. simpl. destruct (ceqb (if special x then "_" else x) "_"); [apply sp_idem |].
  exact (sp_idem (x :: s)).
Qed.
Definition not_two (s : str) : Prop := match sp s with "_" :: "_" :: _ => False | _ => True end.
Lemma ceqb_eq x y : ceqb x y = true -> x = y.
Proof. apply Ascii.eqb_eq. Qed.
Lemma ceqb_neq x y : ceqb x y = false -> x <> y.
Proof. apply Ascii.eqb_neq. Qed.
Lemma idl_id_idem s : not_two s -> idl_id (idl_id s) = idl_id s.
Proof.
  unfold idl_id, not_two. intros h. rewrite sp_strip1. destruct (sp s) as [| x [| y r]]; [reflexivity | |].
  - simpl. destruct (ceqb x "_") eqn:e; [reflexivity | simpl; rewrite e; reflexivity].
  - simpl. destruct (ceqb x "_") eqn:e; [| simpl; rewrite e; reflexivity]. apply ceqb_eq in e; subst x.
    simpl. destruct (ceqb y "_") eqn:e2; [| reflexivity]. apply ceqb_eq in e2; subst y. contradiction.
Qed.
Lemma strip1_no_colon s : no_colon s -> no_colon (strip1 s).
Proof. destruct s as [| x s]; [auto |]. simpl. destruct (ceqb x "_"); intros h hi; apply h; [right; assumption | assumption]. Qed.
Lemma idl_id_no_colon s : no_colon s -> no_colon (idl_id s).
Proof. intros h. apply strip1_no_colon, map_no_colon; assumption. Qed.
Lemma replace1_char a b s : replace1 a [b] s = map (fun x => if ceqb x a then b else x) s.
Proof. induction s as [| x s IH]; [reflexivity |]. simpl. rewrite <- IH. destruct (ceqb x a); reflexivity. Qed.
Lemma mangle_eq s : replace1 " " (s_ "_") (replace1 slash (s_ "_") s) = mangle s.
Proof.
  change (s_ "_") with ["_"]. rewrite !replace1_char, map_map. unfold mangle. apply map_ext. intros x.
  unfold slash. destruct (ceqb x "/") eqn:e; [reflexivity |]. simpl. destruct (ceqb x " "); reflexivity.
Qed.
Lemma mangle_no_colon s : no_colon s -> no_colon (mangle s).
Proof.
  intros h hi. apply in_map_iff in hi. destruct hi as (x & e & hx). destruct (ceqb x "/" || ceqb x " "); [discriminate |].
  subst; auto.
Qed.
Lemma kind_id k s : idl_id (getTypename (container_kind k) ++ s) = getTypename (container_kind k) ++ sp s.
Proof.
  assert (e : getTypename (container_kind k) = s_ "vector" \/ getTypename (container_kind k) = s_ "string").
  { destruct k; [left | right]; vm_compute; reflexivity. }
  unfold idl_id. rewrite map_app. destruct e as [-> | ->]; reflexivity.
Qed.
Definition seq_id (k : ckind) (n : str) : str := getTypename (container_kind k) ++ s_ "_" ++ mangle n ++ s_ "_".
Lemma seq_id_no_colon k n : no_colon n -> no_colon (seq_id k n).
Proof.
  intros h. unfold seq_id. apply no_colon_app.
  - destruct k; vm_compute; intros hi; repeat destruct hi as [hi | hi]; try discriminate; exact hi.
  - apply no_colon_app; [intros [e | []]; discriminate |]. apply no_colon_app; [apply mangle_no_colon; assumption | intros [e | []]; discriminate].
Qed.
Lemma numeric_id o k : normalizeIDLName (numeric_name o k) = numeric_name o k /\ no_colon (numeric_name o k) /\ idl_id (numeric_name o k) = numeric_name o k.
Proof.
  assert (g : forall s, normalizeIDLName s = s -> idl_id s = s -> forallb (fun x => negb (ceqb x ":")) s = true ->
              normalizeIDLName s = s /\ no_colon s /\ idl_id s = s).
  { intros s h1 h2 h3. repeat split; auto. intros hi. rewrite forallb_forall in h3. specialize (h3 _ hi). discriminate. }
  unfold numeric_name.
  destruct (seqb (o_name o) (s_ "/bool")); [apply g; reflexivity |].
  destruct k; destruct (o_size o =? 1)%N; destruct (o_size o =? 2)%N; destruct (o_size o =? 4)%N; destruct (o_size o =? 8)%N;
    apply g; reflexivity.
Qed.

Lemma named_fun c H t o n d : named c H t o n d -> forall o' n' d', named c H t o' n' d' -> o' = o /\ n' = n /\ d' = d.
Proof.
  induction 1 as [t k hk | t k x hk hs | t hk ha | t fs hk | t vs hk | t k x o n d hk hs hx IH | t dim x o n hk hx IH];
    intros o' n' d' h'; inversion h'; subst; try congruence; auto.
  - match goal with e : o_kind (H t) = ONum _ |- _ => rewrite hk in e; injection e as <- end. auto.
  - match goal with e : o_kind (H t) = Graph.OCont _ _ |- _ => rewrite hk in e; injection e as <- <- end.
    match goal with hn : named c H x _ _ _ |- _ => destruct (IH _ _ _ hn) as (-> & _) end. auto.
  - match goal with e : o_kind (H t) = Graph.OArr _ _ |- _ => rewrite hk in e; injection e as <- <- end.
    match goal with hn : named c H x _ _ _ |- _ => destruct (IH _ _ _ hn) as (-> & -> & _) end. auto.
Qed.
Lemma Ok_inj A (a b : A) : Ok a = Ok b -> a = b.
Proof. congruence. Qed.
(** ** Typedefs *)
Definition tdecls (m : list (str * list str)) : list decl :=
  flat_map (fun g => map (fun d => (map normalizeIDLName (nameSplit (fst g)), [s_ "typedef " ++ d])) (snd g)) m.
Definition groups_ok (m : list (str * list str)) : Prop := Forall (fun g => snd g <> []) m.
Lemma add_typedef_perm ns d m : Permutation (tdecls (add_typedef ns d m)) (tdecls m ++ [(map normalizeIDLName (nameSplit ns), [s_ "typedef " ++ d])]).
Proof.
  induction m as [| [k ds] m IH]; [apply Permutation_refl |]. cbn [add_typedef]. destruct (seqb k ns) eqn:e; [| destruct (slt ns k)].
  - apply seqb_eq in e. subst k. unfold tdecls. cbn [flat_map fst snd]. rewrite map_app, <- !app_assoc. apply Permutation_app_head. apply Permutation_app_comm.
  - unfold tdecls at 1. cbn [flat_map fst snd]. cbn [map]. apply (Permutation_app_comm [_]).
  - unfold tdecls in *. cbn [flat_map fst snd]. rewrite <- app_assoc. apply Permutation_app_head. exact IH.
Qed.
Lemma add_typedef_ok ns d m : groups_ok m -> groups_ok (add_typedef ns d m).
Proof.
  unfold groups_ok. induction 1 as [| [k ds] m h hm IH]; [repeat constructor; discriminate |]. cbn [add_typedef].
  destruct (seqb k ns); [constructor; [intros e; destruct ds; discriminate | assumption] |]. destruct (slt ns k); repeat constructor; auto; discriminate.
Qed.
Lemma generate_inv st ds : doc_inv st ds -> groups_ok (x_typedefs st) -> doc_inv (generateTypedefs st) (ds ++ tdecls (x_typedefs st)).
Proof.
  unfold generateTypedefs. generalize (x_typedefs st). intros m h hm. revert st ds h.
  induction hm as [| [ns l] m hl hm IH]; intros st ds h; [rewrite app_nil_r; exact h |].
  cbn [fold_left]. unfold tdecls. cbn [flat_map fst snd]. rewrite app_assoc. apply IH. apply typedef_group_inv; assumption.
Qed.
Lemma end_spec st ds : doc_inv st ds -> groups_ok (x_typedefs st) ->
  exists doc, x_out (idl_end st) = text doc /\ fulls doc /\ decls doc = ds ++ tdecls (x_typedefs st).
Proof.
  intros h hg. pose proof (generate_inv h hg) as (root & fr & ha & hs). unfold idl_end. cbv zeta.
  destruct (@close_at (namespaceIndentLevel (x_ns (generateTypedefs st))) _ root fr _ [] (nameSplit (x_ns (generateTypedefs st))) eq_refl ha hs)
    as (root' & fr' & (h1 & h2 & h3 & h4 & h5) & _).
  destruct fr' as [| f fr']; [| apply (f_equal (@length _)) in h3; rewrite zpath_len in h3; discriminate].
  exists root'. repeat split; [exact h1 | apply h5 | exact h2].
Qed.
Lemma doc_inv0 : doc_inv idl0 [].
Proof. exists [], []. repeat split; simpl; auto. Qed.

Lemma tok_loop_chars (P : ascii -> Prop) s : forall cur, Forall P cur -> Forall P s -> Forall (Forall P) (tok_loop cur s).
Proof.
  induction s as [| x s IH]; intros cur hcur hs; simpl; [destruct cur; constructor; auto |].
  inversion hs; subst. destruct (ceqb x slash).
  - destruct cur; [auto | constructor; auto].
  - apply IH; [apply Forall_app; auto | assumption].
Qed.
Lemma norm_path ns : no_colon ns -> map normalizeIDLName (nameSplit ns) = map idl_id (tokens ns).
Proof.
  intros h. rewrite nameSplit_tokens. apply map_ext_in. intros x hx. apply norm_id.
  rewrite no_colon_Forall in h. unfold tokens in hx. pose proof (@tok_loop_chars _ ns [] (Forall_nil _) h) as g.
  rewrite Forall_forall in g. apply no_colon_Forall. apply g. exact hx.
Qed.

Section Names.
Variables (c : cfg) (H : heap).
Hypothesis hc : cfg_ok c.
Hypothesis ht : forall t, tame (H t).

Lemma name_no_colon t : no_colon (o_name (H t)).
Proof. apply ht. Qed.
Definition place (ns : str) (o : option (list str)) : Prop :=
  match o with None => ns = [] | Some p => shaped ns /\ p = map idl_id (tokens ns) end.
Lemma place_abs s : no_colon s -> place (absolute_ns c (getNamespace s)) (Some (path c (getNamespace s))).
Proof. intros h. split; [| reflexivity]. apply absolute_shaped; [assumption |]. apply getNamespace_shaped; assumption. Qed.
Lemma slash_shaped : shaped (absolute_ns c [slash]).
Proof. apply absolute_shaped; [assumption |]. split; [intros [e | []]; discriminate | left; reflexivity]. Qed.
Lemma place_elt ns o : place ns o ->
  place (match ns with [] => absolute_ns c [slash] | _ => ns end) (Some (match o with Some p => p | None => path c [slash] end)).
Proof.
  destruct o as [p |]; simpl.
  - intros [h e]. destruct ns; [destruct h as [_ [h | [m h]]]; discriminate | auto].
  - intros ->. split; [apply slash_shaped | reflexivity].
Qed.
Lemma ident_named fuel : forall t ns front back, ident fuel c H t = Ok (ns, front, back) ->
  exists o, named c H t o front back /\ place ns o /\ no_colon front /\ idl_id front = front.
Proof.
  induction fuel as [| f IH]; intros t ns front back h; [discriminate |]. cbn [ident] in h.
  destruct (ht t) as (h1 & h2 & h3). pose proof (getTypename_no_colon h1) as h1'.
  destruct (o_kind (H t)) as [| | k | vs | x | d x | k x | fs] eqn:ek.
  - discriminate.
  - destruct (c_any c) eqn:ea; [| discriminate]. injection h as <- <- <-. exists None. repeat split; auto; [apply named_any; assumption |].
    intros hi. repeat destruct hi as [hi | hi]; try discriminate; exact hi.
  - (* num *) injection h as <- <- <-. destruct (numeric_id (H t) k) as (e1 & e2 & e3). rewrite e1. exists None.
    repeat split; auto. constructor; assumption.
  - injection h as <- <- <-. rewrite (norm_id h1'). eexists. split; [eapply named_enum; eassumption |]. split; [apply place_abs; assumption |].
    split; [apply idl_id_no_colon; assumption | apply idl_id_idem; exact h3].
  - discriminate.
  - assert (hx : exists ns1 f1 b1, ident f c H x = Ok (ns1, f1, b1) /\ (forall d' x', o_kind (H x) <> Graph.OArr d' x') /\
               ns = ns1 /\ front = normalizeIDLName (f1 ++ b1) /\ back = s_ "[" ++ dec d ++ s_ "]").
    { destruct (o_kind (H x)); try discriminate; destruct (ident f c H x) as [[[ns1 f1] b1] | | |]; try discriminate;
        injection h as <- <- <-; exists ns1, f1, b1; repeat split; intros; discriminate. }
    destruct hx as (ns1 & f1 & b1 & ex & hna & -> & -> & ->).
    destruct (IH _ _ _ _ ex) as (o & hn & hp & hc1 & hi).
    assert (b1 = []) by (inversion hn; subst; try reflexivity; exfalso; eapply hna; eassumption). subst b1.
    rewrite app_nil_r, (norm_id hc1), hi. exists o. repeat split; auto. eapply named_arr; eassumption.
  - destruct (is_string (H t)) eqn:es.
    + injection h as <- <- <-. exists None. apply seqb_eq in es. repeat split; auto; [eapply named_string; eassumption |].
      intros hi. repeat destruct hi as [hi | hi]; try discriminate; exact hi.
    + destruct (ident f c H x) as [[[ns1 f1] b1] | | |] eqn:ex; try discriminate. injection h as <- <- <-.
      destruct (IH _ _ _ _ ex) as (o & hn & hp & hc1 & hi).
      rewrite mangle_eq. pose proof (@seq_id_no_colon k _ (@name_no_colon x)) as hq. pose proof (norm_id hq) as eq. unfold seq_id in eq, hq.
      unfold str in *. change ("_" :: mangle (o_name (H x)) ++ ["_"]) with (s_ "_" ++ mangle (o_name (H x)) ++ s_ "_"). rewrite eq.
      eexists. split; [eapply named_seq; try eassumption; intros e; rewrite <- not_true_iff_false in es; apply es; apply seqb_eq; exact e |].
      split; [apply place_elt; assumption |]. split; [apply idl_id_no_colon; assumption |].
      rewrite kind_id, kind_id, sp_idem. reflexivity.
  - injection h as <- <- <-. rewrite (norm_id h1'). eexists. split; [eapply named_comp; eassumption |]. split; [apply place_abs; assumption |].
    split; [apply idl_id_no_colon; assumption | apply idl_id_idem; exact h3].
Qed.
Lemma base_spec fuel t field ns b : idl_base fuel c H t field = Ok (ns, b) -> no_colon field ->
  exists o n d, named c H t o n d /\ place ns o /\ no_colon n /\
    b = match field with [] => n ++ d | _ => n ++ s_ " " ++ strip1 field ++ d end.
Proof.
  unfold idl_base. destruct (ident fuel c H t) as [[[ns1 f1] b1] | | |] eqn:ei; try discriminate. intros h hf. injection h as <- <-.
  destruct (ident_named ei) as (o & hn & hp & hc1 & _). exists o, f1, b1. repeat split; auto.
  rewrite (strip_no_colon hf). reflexivity.
Qed.
Lemma absolute_spec fuel t field s : idl_absolute fuel c H t field = Ok s -> no_colon field ->
  exists o n d, named c H t o n d /\ s = ref o n ++ match field with [] => d | _ => s_ " " ++ strip1 field ++ d end.
Proof.
  unfold idl_absolute. destruct (idl_base fuel c H t field) as [[ns b] | | |] eqn:eb; try discriminate. intros h hf. apply Ok_inj in h. subst s.
  destruct (base_spec eb hf) as (o & n & d & hn & hp & _ & ->). exists o, n, d. split; [assumption |].
  destruct o as [p |]; cbn [place] in hp.
  - destruct hp as [hs ->]. destruct ns as [| a ns]; [destruct hs as [_ [e | [m e]]]; discriminate |].
    rewrite (norm_scope hs). unfold ref. destruct field; rewrite <- ?app_assoc; reflexivity.
  - subst ns. destruct field; reflexivity.
Qed.

(** ** Declarations *)
Lemma field_lines_spec fuel ind : forall fs body, field_lines fuel c H (ind ++ s_ "    ") fs = Ok body ->
  (forall f, In f fs -> f_name f <> [] /\ no_colon (f_name f)) ->
  exists ls, Forall2 (field_line c H) fs ls /\ body = concat (map (fun l => ind ++ l ++ nl) ls).
Proof.
  induction fs as [| x fs IH]; intros body h hf; cbn [field_lines] in h.
  - apply Ok_inj in h. subst. exists []. split; [constructor | reflexivity].
  - destruct (idl_absolute fuel c H (f_type x) (f_name x)) as [a | | |] eqn:ea; try discriminate.
    destruct (field_lines fuel c H (ind ++ s_ "    ") fs) as [rest | | |] eqn:er; try discriminate.
    apply Ok_inj in h. subst body. destruct (IH _ eq_refl) as (ls & h1 & ->); [intros; apply hf; right; assumption |].
    destruct (hf x (or_introl eq_refl)) as [hx1 hx2].
    destruct (absolute_spec ea hx2) as (o & n & d & hn & ->).
    exists ((s_ "    " ++ ref o n ++ s_ " " ++ strip1 (f_name x) ++ d ++ s_ ";") :: ls). split.
    + constructor; [| assumption]. exists o, n, d. auto.
    + cbn [map concat]. destruct (f_name x); [congruence |]. rewrite <- !app_assoc. reflexivity.
Qed.
Definition layout (ns : str) (ls : list str) : str := concat (map (fun l => spaces (4 * namespaceIndentLevel ns) ++ l ++ nl) ls).
Lemma strip_id s : no_colon s -> forallb (fun c => negb (special c)) s = true -> stripLeadingUnderscore s = idl_id s.
Proof.
  intros h1 h2. rewrite (strip_no_colon h1). unfold idl_id. f_equal. rewrite forallb_forall in h2.
  rewrite <- (map_id s) at 1. apply map_ext_in. intros x hx. specialize (h2 x hx). destruct (special x); [discriminate | reflexivity].
Qed.
Lemma replace_colons_id s : no_colon s -> forall by_, replace_colons by_ s = s.
Proof.
  intros h by_. induction s as [| x s IH]; [reflexivity |]. cbn [replace_colons].
  assert (hs : no_colon s) by (intros hi; apply h; right; assumption).
  assert (hx : x <> ":") by (intros ->; apply h; left; reflexivity). rewrite (IH hs).
  destruct x as [[|] [|] [|] [|] [|] [|] [|] [|]]; try reflexivity. congruence.
Qed.
Lemma visit_spec fuel t ns text ex : visit_type fuel c H t = Ok (ns, text, ex) ->
  (text = [] /\ builtin c H t /\ ex = None) \/
  (shaped ns /\ exists n ls, declares c H t (map idl_id (tokens ns)) n ls /\ text = layout ns ls /\ text <> [] /\
     ex = match o_kind (H t) with OCont _ x => Some (getNamespace (o_name (H x)) ++ n, t) | _ => None end).
Proof.
  unfold visit_type. destruct (ht t) as (h1 & h2 & h3). pose proof (getTypename_no_colon h1) as h1'.
  cbv zeta. unfold layout.
  assert (hsh : shaped (absolute_ns c (getNamespace (o_name (H t))))) by (apply absolute_shaped; [assumption | apply getNamespace_shaped; assumption]).
  destruct (o_kind (H t)) as [| | k | vs | x | d x | k x | fs] eqn:ek; try discriminate.
  - destruct (c_any c) eqn:ea; [| discriminate]. intros h. apply Ok_inj in h. inversion h; subst. left. unfold builtin. rewrite ek. auto.
  - intros h. apply Ok_inj in h. inversion h; subst. left. unfold builtin. rewrite ek. auto.
  - intros h. apply Ok_inj in h. apply pair_equal_spec in h. destruct h as [h <-]. apply pair_equal_spec in h. destruct h as [<- <-].
    right. split; [assumption |]. rewrite (Nat.mul_comm _ 4). rewrite (strip_id h1' (proj2 h2)).
    eexists _, _. split; [eapply declares_enum; eassumption |]. split; [| split; [| reflexivity]].
    + cbn [map concat]. rewrite app_nil_r. f_equal. rewrite <- !app_assoc. do 3 f_equal. f_equal. f_equal.
      apply map_ext_in. intros v hv. apply strip_no_colon. apply h2; assumption.
    + intros e. apply app_eq_nil in e. destruct e as [_ e]. discriminate.
  - destruct (is_string (H t)) eqn:es.
    + intros h. apply Ok_inj in h. inversion h; subst. left. unfold builtin. rewrite ek. apply seqb_eq in es. auto.
    + assert (es' : o_name (H t) <> s_ "/std/string").
      { intros e. rewrite <- not_true_iff_false in es; apply es; apply seqb_eq; exact e. }
      destruct (idl_base fuel c H x []) as [[ens eb] | | |] eqn:ee; try discriminate.
      destruct (idl_absolute fuel c H x []) as [el | | |] eqn:ea; try discriminate.
      destruct (idl_base fuel c H t []) as [[tns tb] | | |] eqn:et; try discriminate.
      intros h. apply Ok_inj in h. apply pair_equal_spec in h. destruct h as [h <-]. apply pair_equal_spec in h. destruct h as [<- <-].
      right.
      assert (nc0 : no_colon []) by (intros []).
      destruct (absolute_spec ea nc0) as (o1 & n1 & d1 & hn1 & ->).
      destruct (base_spec ee nc0) as (o2 & n2 & d2 & hn2 & hp2 & _ & _).
      destruct (base_spec et nc0) as (o3 & n3 & d3 & hn3 & hp3 & hc3 & ->).
      destruct (named_fun hn1 hn2) as (-> & -> & ->). clear hn2.
      destruct (place_elt hp2) as [hs2 hm2]. split; [exact hs2 |].
      inversion hn3; subst; try congruence.
      match goal with e : o_kind (H t) = Graph.OCont _ _ |- _ => rewrite ek in e; injection e as <- <- end.
      eexists _, _. split; [rewrite <- hm2; exact (declares_seq ek es' hn1) |]. split; [| split; [| ]].
      * rewrite (Nat.mul_comm _ 4), app_nil_r. rewrite (replace_colons_id hc3). cbn [map concat]. rewrite app_nil_r.
        rewrite <- !app_assoc. reflexivity.
      * intros e. apply app_eq_nil in e. destruct e as [_ e]. discriminate.
      * rewrite app_nil_r. rewrite (replace_colons_id hc3). reflexivity.
  - rewrite (Nat.mul_comm _ 4). destruct (field_lines fuel c H _ fs) as [body | | |] eqn:ef; try discriminate.
    intros h. apply Ok_inj in h. apply pair_equal_spec in h. destruct h as [h <-]. apply pair_equal_spec in h. destruct h as [<- <-].
    right. split; [assumption |]. rewrite (norm_id h1').
    destruct (field_lines_spec ef h2) as (ls & hl & ->).
    eexists _, _. split; [eapply declares_comp; eassumption |]. split; [| split; [| reflexivity]].
    + cbn [map concat]. rewrite map_app, concat_app. cbn [map concat]. rewrite app_nil_r.
      rewrite <- !app_assoc. reflexivity.
    + intros e. apply app_eq_nil in e. destruct e as [_ e]. discriminate.
Qed.

(** ** Aliases *)
Definition spaced (t : tid) (name : str) : Prop :=
  In " " name /\ match o_kind (H t) with Graph.OArr _ _ | OOpaque => False | Graph.OCont _ _ => o_name (H t) = s_ "/std/string" | _ => True end.
Lemma existsb_space s : existsb (ceqb " ") s = true <-> In " " s.
Proof.
  rewrite existsb_exists. split.
  - intros (x & hx & e). apply ceqb_eq in e. subst; assumption.
  - intros h. exists " ". split; [assumption | apply Ascii.eqb_refl].
Qed.
Lemma app_mid_nonempty (a : str) x b : a ++ x :: b <> [].
Proof. destruct a; discriminate. Qed.
Lemma alias_def_spec fuel p def : alias_def fuel c H p = Ok def -> no_colon (fst p) -> checkType H (e_type (snd p)) = Ok tt ->
  let t := e_type (snd p) in let name := getTypename (fst p) in
  (def = [] /\ (spaced t name \/ (o_kind (H t) = OOpaque /\ c_any c = false))) \/
  (def <> [] /\ ~ spaced t name /\ ~ (o_kind (H t) = OOpaque /\ c_any c = false) /\ typedef_line c H t name (s_ "typedef " ++ def)).
Proof.
  intros h hp hk. cbv zeta. unfold alias_def in h. cbv zeta in h. pose proof (getTypename_no_colon hp) as hp'.
  rewrite (strip_no_colon hp') in h. set (t := e_type (snd p)) in *. set (name := getTypename (fst p)) in *.
  assert (nc0 : no_colon []) by (intros []).
  assert (plain : (forall dim x, o_kind (H t) <> Graph.OArr dim x) ->
    (forall k x, o_kind (H t) = Graph.OCont k x -> o_name (H t) = s_ "/std/string") -> o_kind (H t) <> OOpaque ->
    (if existsb (ceqb " ") name then Ok []
         else a <- idl_absolute fuel c H t [] ;; Ok (a ++ s_ " " ++ strip1 name ++ s_ ";")) = Ok def ->
    (def = [] /\ (spaced t name \/ (o_kind (H t) = OOpaque /\ c_any c = false))) \/
    (def <> [] /\ ~ spaced t name /\ ~ (o_kind (H t) = OOpaque /\ c_any c = false) /\ typedef_line c H t name (s_ "typedef " ++ def))).
  { intros h1 h2 h3 hh. destruct (existsb (ceqb " ") name) eqn:es.
    - apply Ok_inj in hh. subst def. left. split; [reflexivity |]. left. unfold spaced. split; [apply existsb_space; assumption |].
      destruct (o_kind (H t)) eqn:ek; auto; [eapply h1; reflexivity | eapply h2; reflexivity].
    - destruct (idl_absolute fuel c H t []) as [a | | |] eqn:ea; try discriminate. apply Ok_inj in hh. subst def. right.
      split; [apply app_mid_nonempty |].
      assert (hns : ~ In " " name) by (intros hi; apply existsb_space in hi; congruence).
      split; [intros [hi _]; auto |]. split; [tauto |].
      destruct (absolute_spec ea nc0) as (o & n & d & hn & ->).
      assert (d = []) by (inversion hn; subst; try reflexivity; exfalso; match goal with e : o_kind (H t) = Graph.OArr _ _ |- _ => exact (h1 _ _ e) end).
      subst d. rewrite app_nil_r. apply td_plain; assumption. }
  destruct (o_kind (H t)) as [| | k | vs | x | d x | k x | fs] eqn:ek; try (apply plain; [discriminate | discriminate | discriminate | exact h]).
  - apply Ok_inj in h. subst def. destruct (c_any c) eqn:ea.
    + right. split; [discriminate |]. split; [unfold spaced; rewrite ek; tauto |]. split; [intros [_ e]; discriminate |].
      exact (td_any name ek ea).
    + left. auto.
  - destruct (idl_absolute fuel c H x []) as [a | | |] eqn:ea; try discriminate. apply Ok_inj in h. subst def. right.
    split; [apply app_mid_nonempty |]. split; [unfold spaced; rewrite ek; tauto |]. split; [intros [e _]; discriminate |].
    destruct (absolute_spec ea nc0) as (o & n & d' & hn & ->).
    assert (d' = []).
    { inversion hn; subst; try reflexivity; exfalso. unfold checkType in hk. rewrite ek in hk.
      match goal with e : o_kind (H x) = Graph.OArr _ _ |- _ => rewrite e in hk end. discriminate. }
    subst d'. rewrite app_nil_r. exact (td_arr name ek hn).
  - destruct (is_string (H t)) eqn:es.
    + apply plain; [discriminate | | discriminate | exact h]. intros k0 x0 e. apply seqb_eq; exact es.
    + assert (es' : o_name (H t) <> s_ "/std/string").
      { intros e. rewrite <- not_true_iff_false in es; apply es; apply seqb_eq; exact e. }
      destruct (idl_absolute fuel c H x []) as [a | | |] eqn:ea; try discriminate. apply Ok_inj in h. subst def. right.
      split; [discriminate |]. split; [unfold spaced; rewrite ek; tauto |]. split; [intros [e _]; discriminate |].
      destruct (absolute_spec ea nc0) as (o & n & d' & hn & ->).
      pose proof (td_seq name ek es' hn) as g. rewrite <- app_assoc. exact g.
Qed.

(** ** One entry *)
Lemma selected_dec p : (match c_sel c with [] => false | _ => negb (existsb (seqb (o_name (H (e_type (snd p))))) (c_sel c)) end) = false <-> selected c H p.
Proof.
  unfold selected. destruct (c_sel c) as [| a l]; [intuition |]. rewrite negb_false_iff, existsb_exists. split.
  - intros (x & hx & e). apply seqb_eq in e. subst. auto.
  - intros [e | e]; [discriminate |]. eexists. split; [exact e | apply seqb_refl].
Qed.
Lemma too_big_dec p : negb (c_blob c =? 0)%Z && (c_blob c <? to_int (o_size (H (e_type (snd p)))))%Z = true <-> too_big c H p.
Proof. unfold too_big. rewrite andb_true_iff, negb_true_iff, Z.eqb_neq, Z.ltb_lt. tauto. Qed.
Lemma find_add k t n l : find_exported n (add_exported (k, t) l) <> None <-> find_exported n l <> None \/ n = k.
Proof.
  unfold add_exported. cbn [fst]. destruct (find_exported k l) eqn:e.
  - intuition; subst; congruence.
  - clear e. induction l as [| [k' t'] l IH]; simpl.
    + destruct (seqb k n) eqn:e; [apply seqb_eq in e; subst; intuition discriminate |]. split; [congruence |].
      intros [h | ->]; [congruence |]. rewrite seqb_refl in e. discriminate.
    + destruct (seqb k' n); [intuition discriminate | exact IH].
Qed.
Record inv (st : idl) (out : list ent) (ds td : list decl) : Prop := Inv_ {
  i_doc : doc_inv st ds;
  i_groups : groups_ok (x_typedefs st);
  i_typedefs : Permutation (tdecls (x_typedefs st)) td;
  i_exported : forall n, find_exported n (x_exported st) <> None <-> exists q, In q out /\ seq_name c H q n
}.
Lemma inv_more st out ds td p : inv st out ds td -> (forall n, ~ seq_name c H p n) -> inv st (out ++ [p]) ds td.
Proof.
  intros [h1 h2 h3 h4] hp. constructor; auto. intros n. rewrite h4. split.
  - intros (q & hq & hn). exists q. rewrite in_app_iff. auto.
  - intros (q & hq & hn). apply in_app_iff in hq. destruct hq as [hq | [<- | []]]; [eauto | destruct (hp _ hn)].
Qed.
Lemma adapt_fields ns st : x_typedefs (adaptNamespace ns st) = x_typedefs st /\ x_exported (adaptNamespace ns st) = x_exported st.
Proof.
  assert (gc : forall k st, x_typedefs (closeNamespaces k st) = x_typedefs st /\ x_exported (closeNamespaces k st) = x_exported st).
  { clear. induction k as [| k IH]; intros st; [auto |]. cbn [closeNamespaces]. cbv zeta. rewrite (proj1 (IH _)), (proj2 (IH _)). auto. }
  assert (go : forall l st, x_typedefs (open_modules l st) = x_typedefs st /\ x_exported (open_modules l st) = x_exported st).
  { clear. induction l as [| n l IH]; intros st; [auto |]. cbn [open_modules]. rewrite (proj1 (IH _)), (proj2 (IH _)). auto. }
  unfold adaptNamespace. destruct (seqb (x_ns st) ns); [auto |]. destruct (uncommon (nameSplit (x_ns st)) (nameSplit ns)) as [a b].
  cbn [x_typedefs x_exported]. rewrite (proj1 (go _ _)), (proj2 (go _ _)). apply gc.
Qed.
Lemma emit_inv ns ls st out ds td p : inv st out ds td -> shaped ns -> (forall n, ~ seq_name c H p n) ->
  inv (emit (layout ns ls) (adaptNamespace ns st)) (out ++ [p]) (ds ++ [(map idl_id (tokens ns), ls)]) td.
Proof.
  intros [h1 h2 h3 h4] hs hp. apply inv_more; [| assumption]. destruct (adapt_fields ns st) as [e1 e2]. constructor; cbn [emit x_typedefs x_exported].
  - rewrite <- (norm_path (proj1 hs)). apply emit_decl; assumption.
  - rewrite e1; assumption.
  - rewrite e1; assumption.
  - intros n. rewrite e2. apply h4.
Qed.
Lemma special_in s : existsb (fun c => ceqb c "/" || ceqb c "<" || ceqb c ">") s = true <-> In "/" s \/ In "<" s \/ In ">" s.
Proof.
  rewrite existsb_exists. split.
  - intros (x & hx & e). apply orb_true_iff in e. destruct e as [e | e]; [apply orb_true_iff in e; destruct e as [e | e] |];
      apply ceqb_eq in e; subst; auto.
  - intros [h | [h | h]]; eexists; (split; [exact h | reflexivity]).
Qed.
Lemma c_like_spec a b : c_like_alias a b = true <-> c_like a b.
Proof.
  unfold c_like_alias, c_like. rewrite andb_true_iff, !orb_true_iff, !seqb_eq. split.
  - intros [e [[[h | h] | h] | h]]; (split; [exact e |]); eexists; (split; [| solve [left; exact h | right; exact h]]); auto.
  - intros [e (kw & [-> | ->] & [h | h])]; rewrite h; tauto.
Qed.
Lemma alias_step fuel st out ds td p st' b : inv st out ds td -> save_alias fuel c H st p = (st', Ok b) -> no_colon (fst p) ->
  selected c H p -> isAlias H p = true ->
  exists a, aliased c H out p a /\ inv st' (out ++ [p]) ds (td ++ a).
Proof.
  intros hi h hp hsel hal. unfold save_alias in h. cbv zeta in h.
  assert (hns : forall n, ~ seq_name c H p n) by (intros n (_ & e & _); congruence).
  assert (none : no_typedef c H out p -> exists a, aliased c H out p a /\ inv st (out ++ [p]) ds (td ++ a)).
  { intros hno. exists []. split; [apply aliased_not; assumption |]. rewrite app_nil_r. apply inv_more; assumption. }
  destruct (c_like_alias (o_name (H (e_type (snd p)))) (fst p)) eqn:ecl.
  { injection h as <- <-. apply none. left. apply c_like_spec; assumption. }
  destruct (checkType H (e_type (snd p))) as [[] | | |] eqn:ect; try discriminate.
  destruct (find_exported (fst p) (x_exported st)) as [t' |] eqn:efe.
  { destruct (t' =? e_type (snd p))%nat; [| discriminate]. injection h as <- <-. apply none. right; left. apply (i_exported hi). congruence. }
  destruct (existsb _ (getTypename (fst p))) eqn:esp.
  { injection h as <- <-. apply none. apply special_in in esp. unfold no_typedef. tauto. }
  destruct (alias_def fuel c H p) as [def | | |] eqn:ead; try discriminate.
  pose proof (alias_def_spec ead hp ect) as hd. cbv zeta in hd. destruct hd as [[-> hd] | (hne & hd1 & hd2 & hd3)].
  { injection h as <- <-. apply none. unfold no_typedef. unfold spaced in hd. tauto. }
  destruct def as [| x def]; [congruence |]. set (def1 := x :: def) in *. injection h as <- <-.
  eexists. split.
  - apply aliased_line; [assumption | assumption | | exact hd3].
    unfold no_typedef. intros [e | [e | [e | [e | [e | [e | e]]]]]]; [apply c_like_spec in e; congruence | | | | | exact (hd1 e) | exact (hd2 e)].
    + apply (i_exported hi) in e. congruence.
    + rewrite <- not_true_iff_false in esp. apply esp, special_in; tauto.
    + rewrite <- not_true_iff_false in esp. apply esp, special_in; tauto.
    + rewrite <- not_true_iff_false in esp. apply esp, special_in; tauto.
  - apply inv_more; [| assumption]. destruct hi as [i1 i2 i3 i4]. constructor; cbn [x_typedefs x_exported].
    + eapply doc_inv_out; [reflexivity | reflexivity | reflexivity | exact i1].
    + apply add_typedef_ok; assumption.
    + eapply Permutation_trans; [apply add_typedef_perm |]. apply Permutation_app; [assumption |].
      rewrite norm_path; [apply Permutation_refl |]. apply absolute_shaped; [assumption | apply getNamespace_shaped; assumption].
    + exact i4.
Qed.
Lemma type_step fuel st out ds td p st' b : inv st out ds td -> save_type fuel c H st p = (st', Ok b) -> no_colon (fst p) ->
  selected c H p -> isAlias H p = false ->
  exists g, gives c H p g /\ inv st' (out ++ [p]) (ds ++ g) td.
Proof.
  intros hi h hp hsel hal. unfold save_type in h. cbv zeta in h.
  destruct (negb (c_blob c =? 0)%Z && (c_blob c <? to_int (o_size (H (e_type (snd p)))))%Z) eqn:eb.
  - injection h as <- <-. apply too_big_dec in eb. eexists. split; [apply gives_blob; assumption |].
    assert (hs : shaped (absolute_ns c (getNamespace (fst p)))) by (apply absolute_shaped; [assumption | apply getNamespace_shaped; assumption]).
    pose proof (@emit_inv (absolute_ns c (getNamespace (fst p))) [s_ "typedef sequence<octet> " ++ getTypename (o_name (H (e_type (snd p)))) ++ s_ ";"] _ _ _ _ p hi hs) as g.
    unfold layout in g. cbn [map concat] in g. rewrite app_nil_r, <- !app_assoc in g. rewrite (Nat.mul_comm _ 4). apply g.
    intros n (_ & _ & e & _). auto.
  - assert (hb : ~ too_big c H p) by (intros e; apply too_big_dec in e; congruence).
    destruct (visit_type fuel c H (e_type (snd p))) as [[[ns text] ex] | | |] eqn:ev; try discriminate.
    destruct (visit_spec ev) as [(-> & hbu & ->) | (hs & n & ls & hd & et & hne & hex)].
    + injection h as <- <-. exists []. split; [apply gives_builtin; assumption |]. rewrite app_nil_r. apply inv_more; [assumption |].
      intros n (_ & _ & _ & k & x & ek & es & _). unfold builtin in hbu. rewrite ek in hbu. congruence.
    + set (st1 := match ex with None => st | Some q => IdlSt (x_ns st) (x_indent st) (x_typedefs st) (add_exported q (x_exported st)) (x_out st) end) in *.
      assert (e : st' = emit text (adaptNamespace ns st1)).
      { destruct text as [| y text']; [congruence |]. injection h as <- <-. reflexivity. }
      subst st'. clear h. eexists. split; [eapply gives_decl; eassumption |]. rewrite et.
      assert (hi1 : forall m, find_exported m (x_exported st1) <> None <-> (exists q, In q (out ++ [p]) /\ seq_name c H q m)).
      { intros m. transitivity (find_exported m (x_exported st) <> None \/ seq_name c H p m).
        - unfold st1. rewrite hex. inversion hd; subst.
          + match goal with e : o_kind _ = _ |- _ => rewrite e end. split; [auto |]. intros [g | (_ & _ & _ & k & x & e & _)]; congruence.
          + match goal with e : o_kind _ = _ |- _ => rewrite e end. split; [auto |]. intros [g | (_ & _ & _ & k & x & e & _)]; congruence.
          + match goal with e : o_kind _ = _ |- _ => rewrite e; rename e into ek end. cbn [x_exported]. rewrite find_add. split.
            * intros [g | ->]; [auto |]. right. repeat split; auto. exists k, x. auto.
            * intros [g | (_ & _ & _ & k' & x' & ek' & _ & ->)]; [auto |]. right. rewrite ek in ek'. injection ek' as <- <-. reflexivity.
        - rewrite (i_exported hi). split.
          + intros [(q & hq & g) | g]; [exists q | exists p]; rewrite in_app_iff; simpl; auto.
          + intros (q & hq & g). apply in_app_iff in hq. destruct hq as [hq | [<- | []]]; eauto. }
      assert (e1 : x_typedefs st1 = x_typedefs st) by (unfold st1; destruct ex; reflexivity).
      destruct (adapt_fields ns st1) as [f1 f2]. destruct hi as [i1 i2 i3 i4].
      constructor; cbn [emit x_typedefs x_exported].
      * rewrite <- (norm_path (proj1 hs)). apply emit_decl. eapply doc_inv_out; [.. | exact i1]; unfold st1; destruct ex; reflexivity.
      * rewrite f1, e1; assumption.
      * rewrite f1, e1; assumption.
      * intros m. rewrite f2. apply hi1.
Qed.
Lemma save_step fuel st out ds td p st' b : inv st out ds td -> idl_save fuel c H st p = (st', Ok b) -> no_colon (fst p) ->
  exists g a, gives c H p g /\ aliased c H out p a /\ inv st' (out ++ [p]) (ds ++ g) (td ++ a).
Proof.
  intros hi h hp. unfold idl_save in h.
  destruct (match c_sel c with [] => false | _ => _ end) eqn:es.
  - injection h as <- <-. assert (hs : ~ selected c H p) by (intros e; apply selected_dec in e; congruence).
    exists [], []. rewrite !app_nil_r. split; [apply gives_unselected; assumption |]. split; [apply aliased_other; auto |].
    apply inv_more; [assumption |]. intros n (e & _). auto.
  - apply selected_dec in es. destruct (isAlias H p) eqn:ea.
    + destruct (alias_step hi h hp es ea) as (a & h1 & h2). exists [], a. rewrite app_nil_r. split; [apply gives_alias; assumption | auto].
    + destruct (type_step hi h hp es ea) as (g & h1 & h2). exists g, []. rewrite app_nil_r. split; [assumption |]. split; [apply aliased_other; auto | assumption].
Qed.
Lemma saves_spec fuel : forall l st out ds td st', inv st out ds td -> idl_saves fuel c H st l = (st', Ok tt) ->
  (forall p, In p l -> no_colon (fst p)) ->
  exists gs a, Forall2 (gives c H) l gs /\ all_aliased c H out l a /\ inv st' (out ++ l) (ds ++ concat gs) (td ++ a).
Proof.
  induction l as [| p l IH]; intros st out ds td st' hi h hp; cbn [idl_saves] in h.
  - injection h as <-. exists [], []. cbn [concat]. rewrite !app_nil_r. repeat split; try constructor; apply hi.
  - destruct (idl_save fuel c H st p) as [st1 [b | | |]] eqn:es; try discriminate.
    destruct (save_step hi es (hp p (or_introl eq_refl))) as (g & a & h1 & h2 & h3).
    destruct (IH _ _ _ _ _ h3 h) as (gs & a' & g1 & g2 & g3); [intros; apply hp; right; assumption |].
    exists (g :: gs), (a ++ a'). cbn [concat]. split; [constructor; assumption |]. split; [constructor; assumption |].
    rewrite <- !app_assoc in g3. exact g3.
Qed.
Lemma inv0 : inv idl0 [] [] [].
Proof.
  constructor; [apply doc_inv0 | constructor | apply Permutation_refl |]. intros n. simpl. split; [congruence |]. intros (q & [] & _).
Qed.
End Names.
