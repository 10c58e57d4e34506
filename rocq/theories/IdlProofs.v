(** * IdlProofs: strings and documents of the IDL exporter. *)
From Verif Require Import Base Types NamesSpec Names NamesProofs.
From Verif Require Import Graph GraphProofs Registry RegistryProofs Exporter Idl IdlSpec.
Local Open Scope char_scope.

#[local] Arguments ceqb : simpl never.

(** ** Strings *)
Lemma tok_loop_csplit s : forall cur insep, (insep = true -> cur = []) ->
  tok_loop cur s = filter (fun x => match x with [] => false | _ => true end) (csplit (ceqb "/") insep cur s).
Proof.
  assert (slash_sym : forall x, ceqb x slash = ceqb "/" x).
  { intros x. unfold ceqb, slash. apply Ascii.eqb_sym. }
  induction s as [| x s IH]; intros cur insep h; simpl.
  - destruct cur; reflexivity.
  - rewrite slash_sym. destruct (ceqb "/" x).
    + destruct insep.
      * rewrite (h eq_refl). apply IH; auto.
      * destruct cur; simpl; [| f_equal]; apply IH; auto.
    + apply IH; discriminate.
Qed.
Definition nonempty (x : str) : bool := match x with [] => false | _ => true end.
Lemma csplit_true sep s : forall l, csplit sep true [] s = l -> exists m y, l = m ++ [y] /\ Forall (fun t => nonempty t = true) m.
Proof.
  assert (g : forall s cur, nonempty cur = true -> exists m y, csplit sep false cur s = m ++ [y] /\ Forall (fun t => nonempty t = true) m).
  { clear s. induction s as [s IH] using (induction_ltof1 _ (@length ascii)). unfold ltof in IH.
    intros cur h. destruct s as [| x s]; simpl; [exists [], cur; split; auto |].
    destruct (sep x).
    - assert (gt : forall s', (length s' <= length s)%nat -> exists m y, csplit sep true [] s' = m ++ [y] /\ Forall (fun t => nonempty t = true) m).
      { induction s' as [| z s' IHs]; intros hl; simpl; [exists [], []; split; auto |]. simpl in hl.
        destruct (sep z); [apply IHs; lia |]. apply IH; simpl; [lia | reflexivity]. }
      destruct (gt s ltac:(lia)) as (m & y & e & hm). exists (cur :: m), y. rewrite e. split; [reflexivity | constructor; auto].
    - apply IH; [simpl; lia |]. destruct cur; reflexivity. }
  induction s as [| x s IH]; intros l <-; simpl; [exists [], []; split; auto |].
  destruct (sep x); [apply IH; reflexivity |]. apply g. reflexivity.
Qed.
Lemma filter_all A (p : A -> bool) l : Forall (fun x => p x = true) l -> filter p l = l.
Proof. induction 1; simpl; [reflexivity |]. rewrite H. congruence. Qed.
Lemma csplit_false sep s : forall cur, exists x l, csplit sep false cur s = x :: l /\
  (l = [] \/ exists m y, l = m ++ [y] /\ Forall (fun t => nonempty t = true) m).
Proof.
  induction s as [| x s IH]; intros cur; simpl; [exists cur, []; auto |].
  destruct (sep x); [| apply IH].
  destruct (csplit_true (eq_refl (csplit sep true [] s))) as (m & y & e & hm).
  exists cur, (m ++ [y]). rewrite e. split; [reflexivity | right; eauto].
Qed.
Lemma drop_empty_nonempty x l : nonempty x = true -> drop_empty (x :: l) = x :: l.
Proof. destruct x; [discriminate | reflexivity]. Qed.
Lemma drop_empty_forall m : Forall (fun t => nonempty t = true) m -> drop_empty m = m.
Proof. destruct 1 as [| x m h _]; [reflexivity | apply drop_empty_nonempty; assumption]. Qed.
Lemma nameSplit_shape m y : Forall (fun t => nonempty t = true) m ->
  rev (drop_empty (rev (m ++ [y]))) = filter nonempty (m ++ [y]).
Proof.
  intros h. rewrite rev_unit, filter_app, (filter_all h). simpl.
  assert (hr : Forall (fun t => nonempty t = true) (rev m)) by (apply Forall_rev; assumption).
  destruct y as [| a y]; simpl.
  - rewrite (drop_empty_forall hr), rev_involutive, app_nil_r. reflexivity.
  - rewrite rev_involutive. reflexivity.
Qed.
Lemma nameSplit_tokens s : nameSplit s = tokens s.
Proof.
  unfold nameSplit, tokens, split_compress. rewrite (@tok_loop_csplit s [] false) by discriminate.
  change (fun x : list ascii => match x with [] => false | _ => true end) with nonempty.
  destruct (csplit_false (ceqb "/") s []) as (x & l & e & hl). rewrite e.
  destruct hl as [-> | (m & y & -> & hm)].
  - destruct x; reflexivity.
  - destruct x as [| a x]; simpl.
    + assert (hd : drop_empty (m ++ [y]) = m ++ [y] \/ (m = [] /\ y = [])).
      { destruct hm as [| t m ht hm]; [destruct y; [right; auto | left; reflexivity] | left; apply drop_empty_nonempty; assumption]. }
      destruct hd as [-> | [-> ->]]; [| reflexivity]. apply nameSplit_shape; assumption.
    + change ((a :: x) :: m ++ [y]) with (((a :: x) :: m) ++ [y]).
      etransitivity; [| exact (@nameSplit_shape ((a :: x) :: m) y ltac:(constructor; auto))]. reflexivity.
Qed.

Lemma csplit_none sep insep cur s : (forall x, In x s -> sep x = false) -> csplit sep insep cur s = [cur ++ s] \/ (insep = true).
Proof.
  revert insep cur. induction s as [| x s IH]; intros insep cur h; simpl; [rewrite app_nil_r; auto |].
  rewrite (h x (or_introl eq_refl)). destruct (IH false (cur ++ [x])) as [e | e]; [intros y hy; apply h; right; auto | | discriminate].
  left. rewrite e, <- app_assoc. reflexivity.
Qed.
Lemma colon_sep x : ceqb ":" x = false <-> x <> ":".
Proof. unfold ceqb. rewrite Ascii.eqb_neq. intuition. Qed.
Lemma strip_no_colon s : no_colon s -> stripLeadingUnderscore s = strip1 s.
Proof.
  intros h. unfold stripLeadingUnderscore, split_compress.
  destruct (@csplit_none (ceqb ":") false [] s) as [-> | e]; [| | discriminate]; [| reflexivity].
  intros x hx. apply colon_sep. intros ->. apply h; assumption.
Qed.
Lemma map_no_colon s : no_colon s -> no_colon (map (fun c => if special c then "_" else c) s).
Proof.
  intros h hi. apply in_map_iff in hi. destruct hi as (x & e & hx).
  destruct (special x); [discriminate | subst; auto].
Qed.
Lemma norm_id s : no_colon s -> normalizeIDLName s = idl_id s.
Proof. intros h. unfold normalizeIDLName. apply strip_no_colon, map_no_colon; assumption. Qed.

(** The text of a namespace. *)
Definition shaped (ns : str) : Prop := no_colon ns /\ (ns = ["/"] \/ exists m, ns = "/" :: m ++ ["/"]).
Notation sp := (map (fun c => if special c then "_" else c)).
Lemma csplit_map s : no_colon s -> forall insep cur,
  csplit (ceqb ":") insep (sp cur) (sp (replace1 slash (s_ "::") s)) = map sp (csplit (ceqb "/") insep cur s).
Proof.
  induction s as [| x s IH]; intros h insep cur; [reflexivity |].
  assert (hs : no_colon s) by (intros hi; apply h; right; assumption).
  assert (hx : x <> ":") by (intros ->; apply h; left; reflexivity).
  unfold replace1. cbn [flat_map]. fold (replace1 slash (s_ "::") s).
  destruct (ceqb x slash) eqn:e.
  - unfold ceqb in e. apply Ascii.eqb_eq in e; subst x. cbn [csplit map app s_ list_ascii_of_string].
    change (if special ":" then "_" else ":") with ":". cbn [csplit ceqb Ascii.eqb Bool.eqb].
    change (ceqb "/" slash) with true. change (ceqb ":" ":") with true. cbv iota.
    destruct insep; [apply (IH hs true []) | cbn [map]; f_equal; apply (IH hs true [])].
  - cbn [app map csplit].
    assert (e2 : ceqb "/" x = false) by (unfold ceqb in *; rewrite Ascii.eqb_sym; exact e). rewrite e2.
    assert (e3 : ceqb ":" (if special x then "_" else x) = false).
    { apply colon_sep. destruct (special x); [discriminate | assumption]. }
    rewrite e3. rewrite <- (IH hs false (cur ++ [x])). rewrite map_app. reflexivity.
Qed.
Lemma csplit_shaped ns : shaped ns -> csplit (ceqb "/") false [] ns = [] :: tokens ns ++ [[]].
Proof.
  intros [_ hs]. unfold tokens. destruct hs as [-> | [m ->]]; [reflexivity |].
  cbn [csplit tok_loop]. change (ceqb "/" "/") with true. change (ceqb "/" slash) with true. cbv iota. f_equal.
  rewrite (@tok_loop_csplit _ [] true) by reflexivity.
  change (fun x : list ascii => match x with [] => false | _ => true end) with nonempty.
  assert (g : forall m insep cur, exists l, csplit (ceqb "/") insep cur (m ++ ["/"]) = l ++ [[]]).
  { clear. induction m as [| x m IH]; intros insep cur; simpl.
    - destruct insep; [exists []; reflexivity | exists [cur]; reflexivity].
    - destruct (ceqb "/" x); [| apply IH]. destruct insep; [apply IH |].
      destruct (IH true []) as [l e]. exists (cur :: l). rewrite e; reflexivity. }
  destruct (g m true []) as [l e]. destruct (csplit_true (eq_refl (csplit (ceqb "/") true [] (m ++ ["/"])))) as (k & y & e2 & hk).
  rewrite e. rewrite e in e2. apply app_inj_tail in e2. destruct e2 as [-> <-].
  rewrite filter_app. rewrite (@filter_all (list ascii) nonempty _ hk). simpl. rewrite app_nil_r. reflexivity.
Qed.
Lemma join_scope l : join (s_ "::") ([] :: l ++ [[]]) = scope l.
Proof.
  unfold scope.
  assert (g : forall l, l <> [] -> join (s_ "::") ([] :: l) = s_ "::" ++ join (s_ "::") l).
  { intros [| x k] h; [congruence | reflexivity]. }
  rewrite g by (destruct l; discriminate).
  induction l as [| x l IH]; [reflexivity |]. cbn [app map concat].
  assert (e : join (s_ "::") (x :: l ++ [[]]) = x ++ s_ "::" ++ join (s_ "::") (l ++ [[]])) by (destruct l; reflexivity).
  rewrite e, IH. rewrite <- !app_assoc. reflexivity.
Qed.
Lemma norm_scope ns : shaped ns -> normalizeIDLName (replace1 slash (s_ "::") ns) = scope (map idl_id (tokens ns)).
Proof.
  intros h. unfold normalizeIDLName, stripLeadingUnderscore, split_compress.
  pose proof (csplit_map (proj1 h) false []) as e. simpl map in e at 1. rewrite e, (csplit_shaped h).
  rewrite map_map. cbn [map]. rewrite map_app. cbn [map].
  change (strip1 (sp [])) with (@nil ascii). rewrite <- join_scope. reflexivity.
Qed.

(** Namespaces of names are shaped. *)
Definition cfg_ok (c : cfg) : Prop :=
  no_colon (c_prefix c) /\ no_colon (c_suffix c) /\
  (c_prefix c = [] \/ exists m, c_prefix c = "/" :: m) /\ (c_suffix c = [] \/ exists m, c_suffix c = m ++ ["/"]).
Lemma split_loop_chars (P : ascii -> Prop) s : forall level cur, Forall P cur -> Forall P s -> Forall (Forall P) (split_loop level cur s).
Proof.
  induction s as [| x s IH]; intros level cur hc hs; simpl.
  - destruct cur; constructor; auto.
  - inversion hs; subst.
    assert (hx : Forall P (cur ++ [x])) by (apply Forall_app; auto).
    destruct (ceqb x slash); [destruct (level =? 0)%Z; [constructor; auto | auto] |].
    destruct (ceqb x "<"); [auto |]. destruct (ceqb x ">"); auto.
Qed.
Lemma splitTypename_chars (P : ascii -> Prop) s : Forall P s -> Forall (Forall P) (splitTypename s).
Proof.
  intros h. unfold splitTypename. apply split_loop_chars; [constructor |].
  destruct (isAbsoluteName s); [destruct h; simpl; auto | assumption].
Qed.
Lemma no_colon_Forall s : no_colon s <-> Forall (fun x => x <> ":") s.
Proof. unfold no_colon. rewrite Forall_forall. split; [intros h x hx -> | intros h hx; apply (h ":" hx)]; auto. Qed.
Lemma getTypename_no_colon s : no_colon s -> no_colon (getTypename s).
Proof.
  rewrite !no_colon_Forall. intros h. unfold getTypename. pose proof (splitTypename_chars h) as hs.
  induction hs as [| x l hx hl IH]; [constructor |]. destruct l; simpl in *; auto.
Qed.
Lemma Forall_removelast A (P : A -> Prop) l : Forall P l -> Forall P (removelast l).
Proof. induction 1 as [| x l hx hl IH]; simpl; [constructor |]. destruct l; constructor; auto. Qed.
Lemma slash_concat (P : ascii -> Prop) (hp : P slash) (q : list (list ascii)) :
  Forall (Forall P) q -> Forall P (concat (map (fun p => slash :: p) q)).
Proof. induction 1; simpl; [constructor |]. constructor; [exact hp |]. apply Forall_app; auto. Qed.
Lemma getNamespace_shaped s : no_colon s -> shaped (getNamespace s).
Proof.
  intros h. split.
  - rewrite no_colon_Forall in *. unfold getNamespace. pose proof (splitTypename_chars h) as hs.
    destruct (splitTypename s) as [| x l]; [constructor; [discriminate | constructor] |].
    apply Forall_app; split; [| constructor; [discriminate | constructor]].
    apply slash_concat; [discriminate |]. exact (Forall_removelast hs).
  - unfold getNamespace. destruct (splitTypename s) as [| x l]; [left; reflexivity |].
    destruct (removelast (x :: l)) as [| y k]; [left; reflexivity |]. right.
    exists (y ++ concat (map (fun p => slash :: p) k)). cbn [map concat app]. reflexivity.
Qed.
Lemma no_colon_app a b : no_colon a -> no_colon b -> no_colon (a ++ b).
Proof. unfold no_colon. rewrite in_app_iff. tauto. Qed.
Lemma absolute_shaped c ns : cfg_ok c -> shaped ns -> shaped (absolute_ns c ns).
Proof.
  intros (h1 & h2 & h3 & h4) [hn hs]. unfold absolute_ns. split; [auto using no_colon_app |].
  assert (hb : exists m, ns = "/" :: m) by (destruct hs as [-> | [m ->]]; eauto).
  assert (he : exists m, ns = m ++ ["/"]) by (destruct hs as [-> | [m ->]]; [exists []; reflexivity | exists ("/" :: m); reflexivity]).
  assert (gb : exists m, c_prefix c ++ ns ++ c_suffix c = "/" :: m).
  { destruct h3 as [-> | [m ->]]; [destruct hb as [m ->]; simpl; eauto | simpl; eauto]. }
  assert (ge : exists m, c_prefix c ++ ns ++ c_suffix c = m ++ ["/"]).
  { destruct h4 as [-> | [m ->]]; [destruct he as [m ->]; rewrite app_nil_r, app_assoc; eauto | rewrite !app_assoc; eauto]. }
  destruct gb as [m e1], ge as [k e2]. rewrite e1 in *. destruct k as [| a k]; [left; rewrite e2; reflexivity |].
  injection e2 as <- ->. right; eauto.
Qed.
Lemma make_cfg_ok prefix suffix blob any sel : no_colon prefix -> no_colon suffix -> cfg_ok (make_cfg prefix suffix blob any sel).
Proof.
  intros h1 h2. unfold make_cfg, cfg_ok; simpl. repeat split.
  - destruct prefix as [| x p]; [assumption |]. destruct (isAbsoluteName (x :: p)); [assumption |].
    intros [e | e]; [discriminate | auto].
  - destruct suffix as [| x p]; [assumption |]. destruct (last_is_slash (x :: p)); [assumption |].
    apply no_colon_app; [assumption |]. intros [e | []]; discriminate.
  - destruct prefix as [| x p]; [auto |]. right. unfold isAbsoluteName, ceqb. destruct (Ascii.eqb_spec x slash) as [-> | n]; eauto.
  - destruct suffix as [| x p]; [auto |]. right. destruct (last_is_slash (x :: p)) eqn:e; [| eauto].
    unfold last_is_slash in e. destruct (rev (x :: p)) as [| y r] eqn:er; [discriminate |].
    exists (rev r). rewrite <- (rev_involutive (x :: p)), er. simpl. unfold ceqb in e. apply Ascii.eqb_eq in e. subst; reflexivity.
Qed.

(** ** Documents being written *)
(** The items of the top level, and the open modules, innermost first, with their items so far. *)
Definition frames : Type := list (str * list item).
Fixpoint ztext (root : list item) (fr : frames) : str :=
  match fr with
  | [] => text root
  | (n, its) :: up =>
      ztext root up ++ spaces (4 * length up) ++ s_ "module " ++ n ++ s_ " {" ++ nl ++ concat (map (render (S (length up))) its)
  end.
Fixpoint zpath (fr : frames) : list str := match fr with [] => [] | (n, _) :: up => zpath up ++ [n] end.
Fixpoint zdecls (root : list item) (fr : frames) : list decl :=
  match fr with
  | [] => decls root
  | (n, its) :: up => zdecls root up ++ flat_map (flat (zpath fr)) its
  end.
Definition zadd (i : item) (root : list item) (fr : frames) : list item * frames :=
  match fr with
  | [] => (root ++ [i], [])
  | (n, its) :: up => (root, (n, its ++ [i]) :: up)
  end.
Lemma ztext_add i root fr : ztext (fst (zadd i root fr)) (snd (zadd i root fr)) = ztext root fr ++ render (length fr) i.
Proof.
  destruct fr as [| [n its] up]; simpl.
  - unfold text. rewrite map_app, concat_app. simpl. rewrite app_nil_r. reflexivity.
  - rewrite map_app, concat_app, <- !app_assoc. simpl. rewrite app_nil_r, <- ?app_assoc. reflexivity.
Qed.
Lemma zdecls_add i root fr : zdecls (fst (zadd i root fr)) (snd (zadd i root fr)) = zdecls root fr ++ flat (zpath fr) i.
Proof.
  destruct fr as [| [n its] up]; simpl.
  - unfold decls. rewrite flat_map_app. simpl. rewrite app_nil_r. reflexivity.
  - rewrite flat_map_app. simpl. rewrite app_nil_r, app_assoc. reflexivity.
Qed.
Lemma zadd_len i root fr : length (snd (zadd i root fr)) = length fr.
Proof. destruct fr as [| [n its] up]; reflexivity. Qed.
Lemma zadd_path i root fr : zpath (snd (zadd i root fr)) = zpath fr.
Proof. destruct fr as [| [n its] up]; reflexivity. Qed.
(** Closing the innermost module. *)
Lemma ztext_close n its root up :
  let z := zadd (Module n its) root up in
  ztext (fst z) (snd z) = ztext root ((n, its) :: up) ++ nl ++ spaces (4 * length up) ++ s_ "};" ++ nl.
Proof. cbv zeta. rewrite ztext_add. cbn [render ztext]. rewrite <- !app_assoc. reflexivity. Qed.
Lemma zdecls_close n its root up :
  let z := zadd (Module n its) root up in zdecls (fst z) (snd z) = zdecls root ((n, its) :: up).
Proof. cbv zeta. rewrite zdecls_add. reflexivity. Qed.

Definition fulls (l : list item) : Prop := fold_right (fun x P => full x /\ P) True l.
Lemma fulls_app a b : fulls (a ++ b) <-> fulls a /\ fulls b.
Proof. induction a; simpl; [tauto | rewrite IHa; tauto]. Qed.
(** Every closed module has items; so has the innermost open one unless [fresh]. *)
Definition zfull (root : list item) (fr : frames) : Prop := fulls root /\ Forall (fun f => fulls (snd f)) fr.
Definition settled (fr : frames) : Prop := match fr with [] => True | f :: _ => snd f <> [] end.
Lemma zadd_full i root fr : full i -> zfull root fr -> zfull (fst (zadd i root fr)) (snd (zadd i root fr)).
Proof.
  intros hi [h1 h2]. destruct fr as [| [n its] up]; simpl; split; simpl; auto.
  - apply fulls_app; simpl; auto.
  - inversion h2; subst. constructor; [| assumption]. simpl in *. apply fulls_app; simpl; auto.
Qed.
Lemma zadd_settled i root fr : settled (snd (zadd i root fr)).
Proof. destruct fr as [| [n its] up]; simpl; auto. destruct its; discriminate. Qed.
Lemma full_module n its : its <> [] -> fulls its -> full (Module n its).
Proof. intros; simpl; auto. Qed.

(** ** The exporter's state against a document *)
Lemma spaces_add n m : spaces (n + m) = spaces n ++ spaces m.
Proof. apply repeat_app. Qed.
Lemma spaces_len n : length (spaces n) = n.
Proof. apply repeat_length. Qed.
Lemma unindent_spaces n : unindent (spaces (4 * S n)) = spaces (4 * n).
Proof.
  unfold unindent. rewrite spaces_len. destruct (Nat.ltb_spec (4 * S n) 4); [lia |].
  replace (4 * S n - 4)%nat with (4 * n)%nat by lia. replace (4 * S n)%nat with (4 * n + 4)%nat by lia.
  rewrite spaces_add, firstn_app, spaces_len, Nat.sub_diag. simpl firstn at 2. rewrite app_nil_r.
  rewrite <- (spaces_len (4 * n)) at 1. apply firstn_all.
Qed.
(** [at_doc st root fr ds]: the stream is the text of the document, which has the declarations [ds]; [names]: the open
    modules, outermost first. *)
Definition at_doc (st : idl) (root : list item) (fr : frames) (ds : list decl) (names : list str) : Prop :=
  x_out st = ztext root fr /\ zdecls root fr = ds /\ zpath fr = map normalizeIDLName names /\
  x_indent st = spaces (4 * length fr) /\ zfull root fr.
Lemma zpath_len fr : length (zpath fr) = length fr.
Proof. induction fr as [| [n its] up IH]; simpl; [reflexivity |]. rewrite app_length; simpl; lia. Qed.
Lemma zpath_pop n its up names : zpath ((n, its) :: up) = map normalizeIDLName names ->
  exists names' x, names = names' ++ [x] /\ zpath up = map normalizeIDLName names' /\ n = normalizeIDLName x.
Proof.
  simpl. intros h. destruct (rev names) as [| x r] eqn:e.
  - apply (f_equal (@rev _)) in e. rewrite rev_involutive in e. subst. simpl in h. destruct (zpath up); discriminate.
  - apply (f_equal (@rev _)) in e. rewrite rev_involutive in e. simpl in e. subst names.
    rewrite map_app in h. apply app_inj_tail in h. destruct h as [h1 h2]. exists (rev r), x. auto.
Qed.
Lemma close_at : forall k st root fr ds keep old, length old = k ->
  at_doc st root fr ds (keep ++ old) -> settled fr ->
  exists root' fr', at_doc (closeNamespaces k st) root' fr' ds keep /\ settled fr' /\
    x_ns (closeNamespaces k st) = x_ns st /\ x_typedefs (closeNamespaces k st) = x_typedefs st /\
    x_exported (closeNamespaces k st) = x_exported st.
Proof.
  induction k as [| k IH]; intros st root fr ds keep old hk (h1 & h2 & h3 & h4 & h5) hs.
  - destruct old; [| discriminate]. rewrite app_nil_r in h3. exists root, fr. unfold at_doc. simpl. tauto.
  - assert (hl : length fr = (length keep + S k)%nat).
    { rewrite <- zpath_len, h3, map_length, app_length. lia. }
    destruct fr as [| [n its] up]; [simpl in hl; lia |].
    destruct (zpath_pop h3) as (names' & x & e & hp & hx).
    destruct (rev old) as [| y r] eqn:er.
    { apply (f_equal (@rev _)) in er. rewrite rev_involutive in er. subst; discriminate. }
    apply (f_equal (@rev _)) in er. rewrite rev_involutive in er. simpl in er. subst old.
    rewrite app_assoc in e. apply app_inj_tail in e. destruct e as [<- <-].
    cbn [closeNamespaces]. cbv zeta.
    set (z := zadd (Module n its) root up).
    destruct (IH (IdlSt (x_ns st) (unindent (x_indent st)) (x_typedefs st) (x_exported st)
                    (x_out st ++ nl ++ unindent (x_indent st) ++ s_ "};" ++ nl))
                 (fst z) (snd z) ds keep (rev r)) as (root' & fr' & ha & hb & hc).
    + rewrite app_length in hk; simpl in hk; lia.
    + repeat split; simpl.
      * rewrite h4. cbn [length]. rewrite unindent_spaces, h1. unfold z. rewrite ztext_close. reflexivity.
      * unfold z. rewrite zdecls_close. exact h2.
      * unfold z. rewrite zadd_path. exact hp.
      * rewrite h4. cbn [length]. rewrite unindent_spaces. unfold z. rewrite zadd_len. reflexivity.
      * destruct h5 as [f1 f2]. inversion f2; subst.
        unfold z. apply zadd_full; [apply full_module; assumption | split; assumption].
      * destruct h5 as [f1 f2]. inversion f2; subst.
        unfold z. apply zadd_full; [apply full_module; assumption | split; assumption].
    + unfold z. apply zadd_settled.
    + exists root', fr'. tauto.
Qed.
Lemma indent_S n : spaces (4 * n) ++ s_ "    " = spaces (4 * S n).
Proof. replace (4 * S n)%nat with (4 * n + 4)%nat by lia. rewrite spaces_add. reflexivity. Qed.
Lemma open_at : forall new st root fr ds names, at_doc st root fr ds names ->
  exists fr', at_doc (open_modules new st) root fr' ds (names ++ new) /\
    x_ns (open_modules new st) = x_ns st /\ x_typedefs (open_modules new st) = x_typedefs st /\
    x_exported (open_modules new st) = x_exported st /\ (new = [] -> fr' = fr).
Proof.
  induction new as [| n new IH]; intros st root fr ds names (h1 & h2 & h3 & h4 & h5).
  - exists fr. rewrite app_nil_r. unfold at_doc; simpl; tauto.
  - cbn [open_modules].
    destruct (IH (IdlSt (x_ns st) (x_indent st ++ s_ "    ") (x_typedefs st) (x_exported st)
                    (x_out st ++ x_indent st ++ s_ "module " ++ normalizeIDLName n ++ s_ " {" ++ nl))
                 root ((normalizeIDLName n, []) :: fr) ds (names ++ [n])) as (fr' & ha & hb & hc & hd & he).
    + repeat split; simpl.
      * rewrite h1, h4. reflexivity.
      * rewrite app_nil_r. exact h2.
      * rewrite map_app, h3. reflexivity.
      * rewrite h4. apply indent_S.
      * apply h5.
      * constructor; [exact I | apply h5].
    + exists fr'. rewrite <- app_assoc in ha. repeat split; try tauto; try apply ha. discriminate.
Qed.
Lemma uncommon_spec a b : exists keep, a = keep ++ fst (uncommon a b) /\ b = keep ++ snd (uncommon a b).
Proof.
  revert b. induction a as [| x a IH]; intros b; [exists []; auto |].
  destruct b as [| y b]; [exists []; auto |]. simpl. destruct (seqb x y) eqn:e; [| exists []; auto].
  apply seqb_eq in e; subst y. destruct (IH b) as (keep & h1 & h2). exists (x :: keep). simpl. split; congruence.
Qed.
(** The state between two calls. *)
Definition doc_inv (st : idl) (ds : list decl) : Prop :=
  exists root fr, at_doc st root fr ds (nameSplit (x_ns st)) /\ settled fr.
Lemma adapt_at ns st ds : doc_inv st ds ->
  exists root fr, at_doc (adaptNamespace ns st) root fr ds (nameSplit ns) /\ x_ns (adaptNamespace ns st) = ns /\
    x_typedefs (adaptNamespace ns st) = x_typedefs st /\ x_exported (adaptNamespace ns st) = x_exported st.
Proof.
  intros (root & fr & hd & hs). unfold adaptNamespace. destruct (seqb (x_ns st) ns) eqn:e.
  - apply seqb_eq in e. subst ns. exists root, fr. repeat split; try apply hd.
  - destruct (uncommon_spec (nameSplit (x_ns st)) (nameSplit ns)) as (keep & h1 & h2).
    destruct (uncommon (nameSplit (x_ns st)) (nameSplit ns)) as [old new]. simpl in h1, h2.
    rewrite h1 in hd. destruct (close_at (eq_refl (length old)) hd hs) as (root' & fr' & ha & hb & hc & hd' & he).
    destruct (open_at new ha) as (fr2 & g1 & g2 & g3 & g4 & _). exists root', fr2. rewrite h2.
    repeat split; simpl; try apply g1; congruence.
Qed.
Lemma emit_decl lines ns st ds : doc_inv st ds ->
  doc_inv (emit (concat (map (fun l => spaces (4 * namespaceIndentLevel ns) ++ l ++ nl) lines)) (adaptNamespace ns st))
          (ds ++ [(map normalizeIDLName (nameSplit ns), lines)]).
Proof.
  intros h. destruct (adapt_at ns h) as (root & fr & (h1 & h2 & h3 & h4 & h5) & hn & _).
  exists (fst (zadd (Decl lines) root fr)), (snd (zadd (Decl lines) root fr)). split; [| apply zadd_settled].
  assert (hl : length fr = namespaceIndentLevel ns).
  { unfold namespaceIndentLevel. rewrite <- zpath_len, h3, map_length. reflexivity. }
  repeat split; cbn [emit x_out x_ns x_indent].
  - rewrite ztext_add, h1, hl. reflexivity.
  - rewrite zdecls_add, h2. cbn [flat]. rewrite h3. reflexivity.
  - rewrite zadd_path, h3, hn. reflexivity.
  - rewrite zadd_len, h4. reflexivity.
  - apply zadd_full; [exact I | assumption].
  - apply zadd_full; [exact I | assumption].
Qed.
Lemma doc_inv_out st st' ds : x_ns st' = x_ns st -> x_indent st' = x_indent st -> x_out st' = x_out st -> doc_inv st ds -> doc_inv st' ds.
Proof.
  intros e1 e2 e3 (root & fr & (h1 & h2 & h3 & h4 & h5) & hs). exists root, fr. split; [| assumption].
  unfold at_doc. rewrite e1, e2, e3. auto.
Qed.
(** The typedefs of one namespace. *)
Lemma typedef_group_inv ns ds0 st ds : doc_inv st ds -> ds0 <> [] ->
  doc_inv (typedef_group st (ns, ds0)) (ds ++ map (fun d => (map normalizeIDLName (nameSplit ns), [s_ "typedef " ++ d])) ds0).
Proof.
  intros h hne. unfold typedef_group. simpl.
  destruct (adapt_at ns h) as (root & fr & hd & hn & _).
  remember (adaptNamespace ns st) as st1. clear Heqst1 h st.
  assert (g : forall l st root fr ds, at_doc st root fr ds (nameSplit ns) -> x_ns st = ns -> (l <> [] \/ settled fr) ->
            doc_inv (fold_left (fun st d => emit (x_indent st ++ s_ "typedef " ++ d ++ nl) st) l st)
                    (ds ++ map (fun d => (map normalizeIDLName (nameSplit ns), [s_ "typedef " ++ d])) l)).
  { clear. induction l as [| d l IH]; intros st root fr ds hd hn hl.
    - rewrite app_nil_r. destruct hl as [hl | hl]; [congruence |]. exists root, fr. simpl. rewrite hn. auto.
    - cbn [fold_left map]. destruct hd as (h1 & h2 & h3 & h4 & h5).
      set (z := zadd (Decl [s_ "typedef " ++ d]) root fr).
      replace (ds ++ (map normalizeIDLName (nameSplit ns), [s_ "typedef " ++ d]) ::
               map (fun d => (map normalizeIDLName (nameSplit ns), [s_ "typedef " ++ d])) l)
        with ((ds ++ [(map normalizeIDLName (nameSplit ns), [s_ "typedef " ++ d])]) ++
               map (fun d => (map normalizeIDLName (nameSplit ns), [s_ "typedef " ++ d])) l) by (rewrite <- app_assoc; reflexivity).
      apply (IH _ (fst z) (snd z)); [| exact hn | right; apply zadd_settled].
      repeat split; cbn [emit x_out x_ns x_indent].
      + unfold z. rewrite ztext_add, h1, h4. cbn [render map concat]. rewrite app_nil_r, <- ?app_assoc. reflexivity.
      + unfold z. rewrite zdecls_add, h2. simpl. rewrite h3. reflexivity.
      + unfold z. rewrite zadd_path. exact h3.
      + unfold z. rewrite zadd_len. exact h4.
      + unfold z. apply zadd_full; [exact I | assumption].
      + unfold z. apply zadd_full; [exact I | assumption]. }
  apply (g ds0 st1 root fr ds hd hn). auto.
Qed.
