(** * Properties_Idl: IDL files (C57 to C59). *)
From Coq Require Import Permutation.
From Verif Require Import Base Types NamesSpec Names NamesProofs.
From Verif Require Import Graph GraphSpec GraphProofs Registry RegistrySpec RegistryProofs RegistryOps RegistryMain Properties_Registry Exporter ExporterSpec ExporterProofs Properties_Export Properties_Names Idl IdlSpec IdlProofs IdlMain.
Local Open Scope char_scope.

Lemma fulls_Forall l : fulls l <-> Forall full l.
Proof. induction l as [| x l IH]; simpl; [split; constructor |]. rewrite IH. split; [intros [? ?]; constructor; assumption | intros h; inversion h; auto]. Qed.
Lemma export_saves fuel c H r st : idl_export fuel c H idl0 r = (st, Ok tt) ->
  exists out st', export fuel H (idl_answer fuel c H idl0) r = (out, Ok tt) /\ idl_saves fuel c H idl0 out = (st', Ok tt) /\ st = idl_end st'.
Proof.
  unfold idl_export. change (IdlSt (x_ns idl0) (x_indent idl0) (x_typedefs idl0) (x_exported idl0) []) with idl0.
  destruct (export fuel H (idl_answer fuel c H idl0) r) as [out res] eqn:ee.
  destruct (idl_saves fuel c H idl0 out) as [st' [[] | | |]] eqn:es; try discriminate.
  destruct res as [[] | | |]; try discriminate. intros h. injection h as <-. eauto.
Qed.
(** What the order of the entries is: C29. *)
Lemma export_order H r ret fuel out : reachable H r -> export fuel H ret r = (out, Ok tt) ->
  NoDup out /\ well_ordered H out /\ (forall p, In p out <-> In p (r_global r) /\ e_pers (snd p) = true) /\
  ~ missing_dependency H (r_global r) /\ ~ recursive_type H (r_global r).
Proof.
  intros Hr he. destruct (C29_export Hr ret) as (out' & res & h1 & h2 & h3 & h4 & h5 & h6 & h7).
  assert (e : export (fuel + S (length (r_global r))) H ret r = (out, Ok tt)) by (apply save_loop_more; [exact he | discriminate]).
  rewrite h1 in e by lia. injection e as <- ->.
  split; [assumption |]. split; [assumption |]. split; [split; [apply h4 | intros [a b]; auto] |].
  split; intros hm; (assert (x : Ok tt = Throw EExport) by (apply h7; auto); discriminate).
Qed.

(** The names of the types, of the entries, and of the modules around. *)
Definition tame_registry (H : heap) (r : reg) : Prop := (forall t, tame (H t)) /\ (forall p, In p (r_global r) -> no_colon (fst p)).

(** C57: whatever the registry, the prefix, the suffix and the options, the text of a successful export is that of an IDL
    document without empty modules; its declarations are those of the persistent entries, in an order in which what a
    type needs comes first, and then, in some order, the typedefs of the aliases. *)
Theorem C57_document H r prefix suffix blob any sel fuel st :
  reachable H r -> tame_registry H r -> no_colon prefix -> no_colon suffix ->
  let c := make_cfg prefix suffix blob any sel in
  idl_export fuel c H idl0 r = (st, Ok tt) ->
  exists out doc given typedefs td,
    x_out st = text doc /\ Forall full doc /\
    NoDup out /\ well_ordered H out /\ (forall p, In p out <-> In p (r_global r) /\ e_pers (snd p) = true) /\
    Forall2 (gives c H) out given /\ all_aliased c H [] out typedefs /\
    decls doc = concat given ++ td /\ Permutation td typedefs.
Proof.
  intros Hr [ht hn] hp hs c he. destruct (export_saves he) as (out & st' & h1 & h2 & ->).
  destruct (export_order Hr h1) as (o1 & o2 & o3 & _).
  assert (hc : cfg_ok c) by (apply make_cfg_ok; assumption).
  destruct (saves_spec hc ht (inv0 c H) h2) as (gs & a & g1 & g2 & g3).
  { intros p hi. apply hn. apply o3 in hi. apply hi. }
  destruct g3 as [i1 i2 i3 _]. destruct (end_spec i1 i2) as (doc & d1 & d2 & d3).
  exists out, doc, gs, a, (tdecls (x_typedefs st')). apply fulls_Forall in d2. auto 10.
Qed.
Print Assumptions C57_document.

(** ** References *)
Lemma Forall2_split A B (R : A -> B -> Prop) l1 x l2 bs : Forall2 R (l1 ++ x :: l2) bs ->
  exists b1 y b2, bs = b1 ++ y :: b2 /\ Forall2 R l1 b1 /\ R x y /\ Forall2 R l2 b2.
Proof.
  intros h. apply Forall2_app_inv_l in h. destruct h as (b1 & b2 & h1 & h2 & ->). inversion h2; subst. eauto 10.
Qed.
Lemma Forall2_In_l A B (R : A -> B -> Prop) l bs x : Forall2 R l bs -> In x l -> exists y, In y bs /\ R x y.
Proof. induction 1 as [| a b l bs h hl IH]; intros hi; [destruct hi |]. destruct hi as [-> | hi]; simpl; [eauto |]. destruct (IH hi) as (y & ? & ?); eauto. Qed.
Lemma before_split A (q p : A) a b : NoDup (a ++ p :: b) -> before q p (a ++ p :: b) -> In q a.
Proof.
  intros hn (u & v & w & e0). assert (e : a ++ p :: b = (u ++ q :: v) ++ p :: w) by (rewrite <- app_assoc; exact e0). clear e0.
  assert (g : forall (a a' b b' : list A), a ++ p :: b = a' ++ p :: b' -> NoDup (a ++ p :: b) -> a = a').
  { clear. induction a as [| x a IH]; intros a' b b' e hn; destruct a' as [| y a']; simpl in *; auto.
    - injection e as <- ->. inversion hn; subst. exfalso. apply H1. apply in_or_app. right; left; reflexivity.
    - injection e as -> _. inversion hn; subst. exfalso. apply H1. apply in_or_app. right; left; reflexivity.
    - injection e as -> e. inversion hn; subst. f_equal. eapply IH; eauto. }
  pose proof (@g _ _ _ _ e hn) as ea. rewrite ea. apply in_or_app. right; left; reflexivity.
Qed.
(** The types that a declaration mentions. *)
Definition mentions (H : heap) (t : tid) : list tid :=
  match o_kind (H t) with
  | OComp fs => map f_type fs
  | Graph.OCont _ x => [x]
  | _ => []
  end.
Definition is_array (H : heap) (t : tid) : Prop := match o_kind (H t) with Graph.OArr _ _ => True | _ => False end.
(** Everything that the exported types need is exported, arrays excepted. *)
Definition closed_selection (H : heap) (r : reg) : Prop :=
  forall p d, In p (r_global r) -> e_pers (snd p) = true -> d = e_type (snd p) \/ needs H (e_type (snd p)) d -> ~ is_array H d ->
    forall q, In q (r_global r) -> own H d q -> e_pers (snd q) = true.
(** The types that the typedef of an alias mentions. *)
Definition alias_mentions (H : heap) (t : tid) : list tid :=
  match o_kind (H t) with
  | Graph.OArr _ x => [x]
  | Graph.OCont _ x => if seqb (o_name (H t)) (s_ "/std/string") then [t] else [x]
  | _ => [t]
  end.

Lemma declares_fun c H t m n ls m' n' ls' : declares c H t m n ls -> declares c H t m' n' ls' -> m' = m /\ n' = n /\ ls' = ls.
Proof.
  assert (gf : forall fs a b, Forall2 (field_line c H) fs a -> Forall2 (field_line c H) fs b -> b = a).
  { clear. induction fs as [| f fs IH]; intros a b ha hb; inversion ha; inversion hb; subst; auto. f_equal; [| auto].
    match goal with h1 : field_line c H f _, h2 : field_line c H f _ |- _ => destruct h1 as (o & n & d & hn & ->), h2 as (o' & n' & d' & hn' & ->) end.
    destruct (named_fun hn hn') as (-> & -> & ->). reflexivity. }
  intros h1 h2. destruct h1 as [fs ls hk hl | vs hk | k x o n d hk hs hx]; inversion h2; subst; try congruence.
  - match goal with e : o_kind (H t) = OComp _ |- _ => rewrite hk in e; injection e as <- end.
    match goal with g : Forall2 _ fs ls0 |- _ => rewrite (gf _ _ _ hl g) end. auto.
  - match goal with e : o_kind (H t) = OEnum _ |- _ => rewrite hk in e; injection e as <- end. auto.
  - match goal with e : o_kind (H t) = Graph.OCont _ _ |- _ => rewrite hk in e; injection e as <- <- end.
    match goal with g : named c H x _ _ _ |- _ => destruct (named_fun hx g) as (-> & -> & ->) end. auto.
Qed.
(** A type that is written with a scope has a declaration there, as an array has for its elements. *)
Lemma named_declares c H x m n d : named c H x (Some m) n d -> exists t, (t = x \/ In t (dependsOn H x)) /\ ~ is_array H t /\
  (forall m' n' ls, declares c H t m' n' ls -> m' = m /\ n' = n) /\ ~ builtin c H t.
Proof.
  assert (g : forall x m n, named c H x (Some m) n [] -> ~ is_array H x -> (forall m' n' ls, declares c H x m' n' ls -> m' = m /\ n' = n) /\ ~ builtin c H x).
  { intros y m0 n0 hn hna. unfold builtin. inversion hn; subst.
    - match goal with e : o_kind (H y) = _ |- _ => rename e into hk; rewrite hk end. split; [| tauto].
      intros m' n' ls hd. inversion hd; subst; try congruence. auto.
    - match goal with e : o_kind (H y) = _ |- _ => rename e into hk; rewrite hk end. split; [| tauto].
      intros m' n' ls hd. inversion hd; subst; try congruence. auto.
    - match goal with e : o_kind (H y) = _ |- _ => rename e into hk; rewrite hk end. split; [| assumption].
      intros m' n' ls hd. inversion hd; subst; try congruence.
      match goal with e : o_kind (H y) = Graph.OCont _ _ |- _ => rewrite hk in e; injection e as <- <- end.
      match goal with g1 : named c H x0 _ _ _, g2 : named c H x0 _ _ _ |- _ => destruct (named_fun g1 g2) as (-> & -> & ->) end. auto. }
  intros hn. destruct (o_kind (H x)) as [| | k | vs | y | dim y | k y | fs] eqn:ek;
    try (assert (d = []) by (inversion hn; subst; try reflexivity; congruence); subst d;
         assert (hna : ~ is_array H x) by (unfold is_array; rewrite ek; tauto);
         exists x; split; [left; reflexivity |]; split; [assumption |]; apply g; assumption).
  inversion hn; subst; try congruence.
  match goal with e : o_kind (H x) = Graph.OArr _ _ |- _ => rewrite ek in e; injection e as <- <- end.
  match goal with g1 : named c H y _ _ [] |- _ => rename g1 into hy end.
  assert (hna : ~ is_array H y).
  { unfold is_array. destruct (o_kind (H y)) eqn:ey; auto. intros _. inversion hy; subst; congruence. }
  exists y. split; [right; unfold dependsOn; rewrite ek; left; reflexivity |]. split; [assumption |]. apply g; assumption.
Qed.

Lemma gives_plain prefix suffix any H p g : let c := make_cfg prefix suffix 0 any [] in
  gives c H p g -> isAlias H p = false -> (builtin c H (e_type (snd p)) /\ g = []) \/ exists m n ls, declares c H (e_type (snd p)) m n ls /\ g = [(m, ls)].
Proof.
  intros c hg ha. destruct hg as [h | h e | h e [b _] | h e b hb | m n ls h e b hd]; try congruence; auto.
  - exfalso. apply h. left. reflexivity.
  - exfalso. apply b. reflexivity.
  - right. eauto.
Qed.
Lemma declares_builtin c H t m n ls : declares c H t m n ls -> ~ builtin c H t.
Proof. unfold builtin. intros [fs l hk _ | vs hk | k x o n0 d hk hs _]; rewrite hk; auto. Qed.
Lemma own_alias H t q : own H t q -> isAlias H q = false.
Proof. intros [e1 e2]. unfold isAlias. rewrite e1, e2, seqb_refl. reflexivity. Qed.
Lemma not_alias_own H p : isAlias H p = false -> own H (e_type (snd p)) p.
Proof. unfold isAlias. intros h. apply negb_false_iff, seqb_eq in h. split; [reflexivity | assumption]. Qed.

(** C58: with everything that is needed exported, no threshold and no selection, every reference to a declared type is the
    full name of a declaration that comes earlier in the file. *)
Theorem C58_references H r prefix suffix any fuel st :
  reachable H r -> tame_registry H r -> no_colon prefix -> no_colon suffix -> closed_selection H r ->
  let c := make_cfg prefix suffix 0 any [] in
  idl_export fuel c H idl0 r = (st, Ok tt) ->
  exists out doc given typedefs td,
    x_out st = text doc /\ decls doc = given ++ td /\ all_aliased c H [] out typedefs /\ Permutation td typedefs /\
    (forall p, In p out <-> In p (r_global r) /\ e_pers (snd p) = true) /\
    (forall p, In p out -> isAlias H p = false -> ~ builtin c H (e_type (snd p)) ->
       exists m n ls A B, declares c H (e_type (snd p)) m n ls /\ given = A ++ (m, ls) :: B /\
         forall x m' n' d, In x (mentions H (e_type (snd p))) -> named c H x (Some m') n' d ->
           exists t ls', declares c H t m' n' ls' /\ In (m', ls') A) /\
    (forall p, In p out -> isAlias H p = true ->
       forall x m' n' d, In x (alias_mentions H (e_type (snd p))) -> named c H x (Some m') n' d ->
           exists t ls', declares c H t m' n' ls' /\ In (m', ls') given).
Proof.
  intros Hr ht hp hs hcl c he. destruct (export_saves he) as (out0 & st' & h1 & _ & _).
  destruct (export_order Hr h1) as (_ & _ & _ & hmiss & _). clear out0 st' h1.
  destruct (C57_document Hr ht hp hs he) as (out & doc & gs & tds & td & e1 & _ & hnd & hwo & hout & hg & hal & e2 & hperm).
  fold c in hg, hal. exists out, doc, (concat gs), tds, td. repeat (split; [assumption |]).
  assert (I := reachable_Inv Hr).
  assert (hdef : forall p, In p out -> defined H (r_global r) (e_type (snd p))).
  { intros [n e] hi. apply hout in hi. destruct hi as [hi _]. destruct (inv_primary I hi) as (e' & a & b). exists e'. auto. }
  assert (hdep : forall t d, defined H (r_global r) t -> In d (dependsOn H t) -> defined H (r_global r) d).
  { intros t d h1 h2. destruct (In_dec Nat.eq_dec d (map (fun p => e_type (snd p)) (r_global r))) as [hi | hni].
    - apply in_map_iff in hi. destruct hi as ([n e] & <- & hi). destruct (inv_primary I hi) as (e' & a & b). exists e'. auto.
    - exfalso. apply hmiss. exists t, d. split; [assumption |]. split; [assumption |]. intros (e & hi & <-). apply hni.
      apply in_map_iff. exists (o_name (H (e_type e)), e). auto. }
  (* The declaration of what is mentioned. *)
  assert (key : forall p x m' n' d, In p out -> (x = e_type (snd p) \/ needs H (e_type (snd p)) x) -> defined H (r_global r) x ->
            named c H x (Some m') n' d ->
            exists q t ls', In q out /\ own H t q /\ (t = x \/ In t (dependsOn H x)) /\ declares c H t m' n' ls' /\ gives c H q [(m', ls')]).
  { intros p x m' n' d hpo hx hdx hn. destruct (named_declares hn) as (t & h1 & h2 & h3 & h4).
    assert (hdt : defined H (r_global r) t) by (destruct h1 as [-> | h1]; [assumption | eapply hdep; eassumption]).
    destruct hdt as (e & hi & het). set (q := (o_name (H t), e)) in *.
    assert (hown : own H t q) by (split; [exact het | reflexivity]).
    assert (hneed : t = e_type (snd p) \/ needs H (e_type (snd p)) t).
    { destruct h1 as [-> | h1]; [assumption |]. right. destruct hx as [-> | hx]; [apply needs_one; assumption |].
      clear - hx h1. induction hx as [a b hab | a b z hab hbz IH]; [eapply needs_more; [eassumption | apply needs_one; assumption] | eapply needs_more; eauto]. }
    assert (hqp : e_pers (snd q) = true).
    { apply hout in hpo. destruct hpo as [hpo hpp]. exact (hcl p t hpo hpp hneed h2 q hi hown). }
    assert (hqo : In q out) by (apply hout; auto).
    destruct (Forall2_In_l hg hqo) as (y & hy & hgy). exists q, t.
    destruct (gives_plain hgy (own_alias hown)) as [[hb _] | (m2 & n2 & ls2 & hd & ->)]; cbn [snd q] in *; rewrite het in *; [contradiction |].
    destruct (h3 _ _ _ hd) as [-> ->]. exists ls2. auto. }
  split.
  - intros p hpo ha hnb. destruct (in_split _ _ hpo) as (a & b & ->).
    destruct (Forall2_split hg) as (b1 & y & b2 & -> & g1 & g2 & g3).
    destruct (gives_plain g2 ha) as [[hb _] | (m & n & ls & hd & ->)]; [contradiction |].
    exists m, n, ls, (concat b1), (concat b2). split; [assumption |]. split; [rewrite concat_app; reflexivity |].
    intros x m' n' d hx hn.
    assert (hxd : In x (dependsOn H (e_type (snd p)))) by (unfold mentions, dependsOn in *; destruct (o_kind (H (e_type (snd p)))); auto; destruct hx).
    destruct (key p x m' n' d hpo (or_intror (needs_one hxd)) (hdep _ _ (hdef _ hpo) hxd) hn) as (q & t & ls' & k1 & k2 & k3 & k4 & k5).
    exists t, ls'. split; [assumption |].
    assert (hbq : before q p (a ++ p :: b)).
    { apply (proj2 (hwo p q hpo k1)) with t; [| assumption]. destruct k3 as [-> | k3]; [apply needs_one; assumption |].
      eapply needs_more; [eassumption | apply needs_one; assumption]. }
    pose proof (before_split hnd hbq) as hqa. destruct (Forall2_In_l g1 hqa) as (y & hy & hgy).
    destruct (gives_plain hgy (own_alias k2)) as [[hb _] | (m2 & n2 & ls2 & hd2 & ->)].
    + exfalso. rewrite (proj1 k2) in hb. exact (declares_builtin k4 hb).
    + rewrite (proj1 k2) in hd2. destruct (declares_fun k4 hd2) as (-> & -> & ->). apply in_concat. exists [(m', ls')]. split; [assumption | left; reflexivity].
  - intros p hpo ha x m' n' d hx hn.
    assert (hxd : x = e_type (snd p) \/ In x (dependsOn H (e_type (snd p)))).
    { unfold alias_mentions, dependsOn in *. destruct (o_kind (H (e_type (snd p))));
        try (destruct (seqb (o_name (H (e_type (snd p)))) (s_ "/std/string"))); destruct hx as [<- | []]; simpl; auto. }
    assert (hdx : defined H (r_global r) x) by (destruct hxd as [-> | hxd]; [auto | eapply hdep; eauto]).
    assert (hxn : x = e_type (snd p) \/ needs H (e_type (snd p)) x) by (destruct hxd; [auto | right; apply needs_one; assumption]).
    destruct (key p x m' n' d hpo hxn hdx hn) as (q & t & ls' & k1 & k2 & k3 & k4 & k5).
    exists t, ls'. split; [assumption |].
    destruct (Forall2_In_l hg k1) as (y & hy & hgy).
    destruct (gives_plain hgy (own_alias k2)) as [[hb _] | (m2 & n2 & ls2 & hd2 & ->)].
    + exfalso. rewrite (proj1 k2) in hb. exact (declares_builtin k4 hb).
    + rewrite (proj1 k2) in hd2. destruct (declares_fun k4 hd2) as (-> & -> & ->). apply in_concat. exists [(m', ls')]. split; [assumption | left; reflexivity].
Qed.
Print Assumptions C58_references.

(** ** Names *)
#[local] Arguments ceqb : simpl never.
Lemma tok_loop_app a b : forall cur, tok_loop cur (a ++ slash :: b) = tok_loop cur a ++ tok_loop [] b.
Proof.
  induction a as [| x a IH]; intros cur; simpl.
  - destruct cur; reflexivity.
  - destruct (ceqb x slash); [| apply IH]. destruct cur; simpl; rewrite IH; reflexivity.
Qed.
Lemma tok_loop_word w s : forall cur, (forall x, In x w -> x <> slash) -> tok_loop cur (w ++ slash :: s) = match cur ++ w with [] => tok_loop [] s | t => t :: tok_loop [] s end.
Proof.
  induction w as [| x w IH]; intros cur h; simpl.
  - rewrite app_nil_r. destruct cur; reflexivity.
  - assert (e : ceqb x slash = false) by (apply NamesProofs.ceqb_neq, h; left; reflexivity). rewrite e, IH by (intros; apply h; right; assumption).
    rewrite <- app_assoc. reflexivity.
Qed.
Lemma clean_no_slash w : clean w -> forall x, In x w -> x <> slash.
Proof. intros (_ & h & _) x hx ->. rewrite Forall_forall in h. apply (h _ hx). simpl. tauto. Qed.
Lemma clean_id w : clean w -> idl_id w = w.
Proof.
  intros (h1 & h2 & h3). unfold idl_id.
  assert (e : map (fun c => if special c then "_" else c) w = w).
  { rewrite <- (map_id w) at 2. apply map_ext_in. intros x hx. rewrite Forall_forall in h2. specialize (h2 x hx).
    destruct (special x) eqn:es; [| reflexivity]. exfalso. apply h2. unfold special in es. simpl.
    repeat (apply orb_true_iff in es; destruct es as [es | es]); apply Ascii.eqb_eq in es; subst; tauto. }
  rewrite e. destruct w as [| x w]; [congruence |]. simpl. unfold ceqb. destruct (Ascii.eqb_spec x "_"); [congruence | reflexivity].
Qed.
Lemma path_clean c comps : Forall clean comps ->
  path c (sep :: terms comps) = map idl_id (tokens (c_prefix c)) ++ comps ++ map idl_id (tokens (c_suffix c)).
Proof.
  intros h. unfold path, absolute_ns, tokens. change (c_prefix c ++ (sep :: terms comps) ++ c_suffix c) with (c_prefix c ++ slash :: (terms comps ++ c_suffix c)).
  rewrite tok_loop_app, map_app. f_equal. induction h as [| w l hw hl IH]; [reflexivity |].
  unfold terms. cbn [map concat]. rewrite <- !app_assoc. change ([sep] ++ concat (map (fun p => p ++ [sep]) l) ++ c_suffix c) with (slash :: (terms l ++ c_suffix c)).
  rewrite (tok_loop_word (terms l ++ c_suffix c) [] (clean_no_slash hw)). destruct w as [| x w]; [destruct hw; congruence |].
  cbn [app map]. rewrite IH. f_equal. exact (clean_id hw).
Qed.
Definition clean_name (name : str) (comps : list str) (base : str) : Prop := type_path name comps base /\ Forall clean comps /\ clean base.
Definition struct_or_enum (o : tobj) : Prop := match o_kind o with OComp _ | OEnum _ => True | _ => False end.
(** C59: two structs or enums whose names IDL accepts as they are have different declarations. *)
Theorem C59_distinct_partial c H t t' comps base comps' base' m n ls ls' :
  struct_or_enum (H t) -> struct_or_enum (H t') -> clean_name (o_name (H t)) comps base -> clean_name (o_name (H t')) comps' base' ->
  declares c H t m n ls -> declares c H t' m n ls' -> o_name (H t) = o_name (H t').
Proof.
  intros s1 s2 (p1 & q1 & r1) (p2 & q2 & r2) d1 d2.
  assert (g : forall t comps base m n ls, struct_or_enum (H t) -> type_path (o_name (H t)) comps base -> Forall clean comps -> clean base ->
            declares c H t m n ls -> m = map idl_id (tokens (c_prefix c)) ++ comps ++ map idl_id (tokens (c_suffix c)) /\ n = base).
  { clear. intros t comps base m n ls hs hp hc hb hd. destruct (C19_split hp) as (_ & e1 & e2 & _).
    assert (e : m = path c (getNamespace (o_name (H t))) /\ n = idl_id (getTypename (o_name (H t)))).
    { unfold struct_or_enum in hs. inversion hd; subst; auto. match goal with e : o_kind (H t) = Graph.OCont _ _ |- _ => rewrite e in hs end. contradiction. }
    destruct e as [-> ->]. rewrite e1, e2, (clean_id hb). split; [apply path_clean; assumption | reflexivity]. }
  destruct (g _ _ _ _ _ _ s1 p1 q1 r1 d1) as [e1 e2]. destruct (g _ _ _ _ _ _ s2 p2 q2 r2 d2) as [e3 e4].
  subst n. subst base'. rewrite e1 in e3. apply app_inv_head, app_inv_tail in e3. subst comps'.
  rewrite (proj1 p1), (proj1 p2). reflexivity.
Qed.
Print Assumptions C59_distinct_partial.

(** ** Cases *)
Definition hidl : heap := fun t =>
  match t with
  | 0 => Obj (s_ "/int") 4 (ONum SInt)
  | 1 => Obj (s_ "/geo/Point") 8 (OComp [Fld (s_ "x") 0 0; Fld (s_ "_y") 4 0])
  | 2 => Obj (s_ "/geo/Point[3]") 24 (Graph.OArr 3 1)
  | 3 => Obj (s_ "/Path") 64 (OComp [Fld (s_ "pts") 0 2; Fld (s_ "more") 24 4; Fld (s_ "kind") 48 5])
  | 4 => Obj (s_ "/std/vector</geo/Point>") 24 (Graph.OCont KVec 1)
  | 5 => Obj (s_ "/geo/Kind") 4 (OEnum [(s_ "OPEN", 0%Z); (s_ "CLOSED", 1%Z)])
  | 6 => Obj (s_ "/_Foo") 4 (OComp [Fld (s_ "x") 0 0])
  | 7 => Obj (s_ "/Foo") 8 (OComp [Fld (s_ "x") 0 0; Fld (s_ "y") 4 0])
  | 8 => Obj (s_ "/A</int>") 40 (OComp [Fld (s_ "x") 0 0])
  | 9 => Obj (s_ "/A__int_") 8 (OComp [Fld (s_ "y") 0 0])
  | 10 => Obj (s_ "/std/vector</A</int>>") 24 (Graph.OCont KVec 8)
  | _ => Obj [] 0 ONull
  end%nat.
Ltac nc := let h := fresh in intros h; vm_compute in h; repeat destruct h as [h | h]; try discriminate; exact h.
Ltac tame_obj := unfold tame; split; [nc | split; [first [exact I | split; [intros v hv; repeat destruct hv as [<- | hv]; [nc .. | destruct hv] | vm_compute; reflexivity]
  | intros f hf; repeat destruct hf as [<- | hf]; [(split; [discriminate | nc]) .. | destruct hf]] | vm_compute; exact I]].
Lemma hidl_tame t : tame (hidl t).
Proof. do 11 (destruct t as [| t]; [tame_obj |]). tame_obj. Qed.
Ltac tame_reg := split; [exact hidl_tame | intros p hp; vm_compute in hp; repeat destruct hp as [<- | hp]; [nc .. | destruct hp]].
Definition idl_history : list op :=
  [OpAdd 0 true []; OpAdd 1 true []; OpAdd 2 false []; OpAdd 5 true []; OpAdd 4 true []; OpAdd 3 true [];
   OpAlias (s_ "/geo/Point") (s_ "/app/P") true []; OpAlias (s_ "/geo/Point[3]") (s_ "/app/T") true []].
Definition ridl : reg := run hidl reg0 idl_history.
Definition exported (x : idl * res unit) (s : string) : Prop := x_out (fst x) = s_ s /\ snd x = Ok tt.
(** A registry with a struct, an array, a sequence, an enum and aliases, in the namespace /top. *)
Example C57_case : reachable hidl ridl /\ tame_registry hidl ridl /\ closed_selection hidl ridl /\
  exported (idl_export 20 (make_cfg (s_ "top") [] 0 false []) hidl idl0 ridl)
"module top {
    module geo {
        enum Kind { OPEN, CLOSED };
        struct Point {
            long x;
            long y;
        };
        typedef sequence<::top::geo::Point> vector__geo_Point_;

    };
    struct Path {
        ::top::geo::Point pts[3];
        ::top::geo::vector__geo_Point_ more;
        ::top::geo::Kind kind;
    };
    module app {
        typedef ::top::geo::Point P;
        typedef ::top::geo::Point T[3];

    };

};
".
Proof.
  split; [reach idl_history |]. split; [tame_reg |]. split; [| split; vm_compute; reflexivity].
  intros p d _ _ _ hna q hq [e1 e2].
  vm_compute in hq; repeat destruct hq as [<- | hq]; try reflexivity; try destruct hq; cbn [snd e_type fst] in e1, e2; subst d.
  - exfalso. vm_compute in e2. discriminate.
  - exfalso. apply hna. exact I.
  - exfalso. vm_compute in e2. discriminate.
Qed.

(** C57 needs a new exporter: a second export by the same object is not balanced, and repeats the typedefs. *)
Theorem C57_reuse_refuted : exists H r c st st', reachable H r /\ tame_registry H r /\
  idl_export 20 c H idl0 r = (st, Ok tt) /\ idl_export 20 c H st r = (st', Ok tt) /\
  count_occ ascii_dec (x_out st) "{" = count_occ ascii_dec (x_out st) "}" /\
  count_occ ascii_dec (x_out st') "{" <> count_occ ascii_dec (x_out st') "}".
Proof.
  exists hidl, ridl, (make_cfg (s_ "top") [] 0 false []). eexists _, _. split; [reach idl_history |]. split; [tame_reg |].
  split; [vm_compute; reflexivity |]. split; [vm_compute; reflexivity |]. split; vm_compute; [reflexivity | discriminate].
Qed.
Print Assumptions C57_reuse_refuted.

(** C58 needs the needed types to be persistent... *)
Definition hist_np : list op := [OpAdd 0 true []; OpAdd 1 false []; OpAdd 4 true []].
Theorem C58_persistence_refuted : exists H r st, reachable H r /\ tame_registry H r /\
  let c := make_cfg [] [] 0 false [] in
  idl_export 20 c H idl0 r = (st, Ok tt) /\ exported (idl_export 20 c H idl0 r)
"module geo {
    typedef sequence<::geo::Point> vector__geo_Point_;

};
".
Proof.
  exists hidl, (run hidl reg0 hist_np). eexists. split; [reach hist_np |]. split; [tame_reg |]. cbv zeta.
  split; [vm_compute; reflexivity |]. split; vm_compute; reflexivity.
Qed.
Print Assumptions C58_persistence_refuted.
(** ... no threshold: a big type is declared with another name than the one it is referred to by, which is not even an
    identifier; ... *)
Definition hist_blob : list op := [OpAdd 0 true []; OpAdd 8 true []; OpAdd 10 true []].
Theorem C58_threshold_refuted : exists H r st, reachable H r /\ tame_registry H r /\
  let c := make_cfg [] [] 30 false [] in
  idl_export 20 c H idl0 r = (st, Ok tt) /\ exported (idl_export 20 c H idl0 r)
"typedef sequence<octet> A</int>;
typedef sequence<::A__int_> vector__A__int__;
".
Proof.
  exists hidl, (run hidl reg0 hist_blob). eexists. split; [reach hist_blob |]. split; [tame_reg |]. cbv zeta.
  split; [vm_compute; reflexivity |]. split; vm_compute; reflexivity.
Qed.
Print Assumptions C58_threshold_refuted.
(** ... and names that do not start with two underscores: as the elements of an array they lose both. *)
Definition huu : heap := fun t =>
  match t with
  | 0 => Obj (s_ "/int") 4 (ONum SInt)
  | 1 => Obj (s_ "/__Foo") 4 (OComp [Fld (s_ "x") 0 0])
  | 2 => Obj (s_ "/__Foo[3]") 12 (Graph.OArr 3 1)
  | 3 => Obj (s_ "/Bar") 16 (OComp [Fld (s_ "one") 0 1; Fld (s_ "three") 4 2])
  | _ => Obj [] 0 ONull
  end%nat.
Definition hist_uu : list op := [OpAdd 0 true []; OpAdd 1 true []; OpAdd 2 false []; OpAdd 3 true []].
Theorem C58_underscores_refuted : exists H r st, reachable H r /\
  let c := make_cfg [] [] 0 false [] in
  idl_export 20 c H idl0 r = (st, Ok tt) /\ exported (idl_export 20 c H idl0 r)
"struct _Foo {
    long x;
};
struct Bar {
    ::_Foo one;
    ::Foo three[3];
};
".
Proof.
  exists huu, (run huu reg0 hist_uu). eexists. split; [reach hist_uu |]. cbv zeta.
  split; [vm_compute; reflexivity |]. split; vm_compute; reflexivity.
Qed.
Print Assumptions C58_underscores_refuted.

(** C59: types with different names can have the same IDL name. *)
Definition hist_clash : list op := [OpAdd 0 true []; OpAdd 6 true []; OpAdd 7 true []; OpAdd 8 true []; OpAdd 9 true []].
Theorem C59_refuted : exists H r st, reachable H r /\ tame_registry H r /\
  let c := make_cfg [] [] 0 false [] in
  idl_export 20 c H idl0 r = (st, Ok tt) /\ exported (idl_export 20 c H idl0 r)
"struct A__int_ {
    long x;
};
struct A__int_ {
    long y;
};
struct Foo {
    long x;
    long y;
};
struct Foo {
    long x;
};
".
Proof.
  exists hidl, (run hidl reg0 hist_clash). eexists. split; [reach hist_clash |]. split; [tame_reg |]. cbv zeta.
  split; [vm_compute; reflexivity |]. split; vm_compute; reflexivity.
Qed.
Print Assumptions C59_refuted.
Ltac clean_word := split; [discriminate | split; [repeat (constructor; [let h := fresh in intros h; vm_compute in h; repeat destruct h as [h | h]; try discriminate; exact h |]); constructor | discriminate]].
Example C59_case : struct_or_enum (hidl 1) /\ clean_name (o_name (hidl 1)) [s_ "geo"] (s_ "Point") /\
  exists ls, declares (make_cfg (s_ "top") [] 0 false []) hidl 1 [s_ "top"; s_ "geo"] (s_ "Point") ls.
Proof.
  split; [exact I |]. split.
  - split; [| split; [constructor; [clean_word | constructor] | clean_word]].
    assert (nt : forall w, (forall x, In x w -> x <> sep) -> no_top w).
    { intros w h a b -> _. apply (h sep); [| reflexivity]. apply in_or_app. right; left; reflexivity. }
    split; [reflexivity |]. split; [repeat constructor; apply nt; intros x hx ->; revert hx; nc |]. split; [discriminate |].
    apply nt. intros x hx ->. revert hx. nc.
  - eexists. set (c := make_cfg (s_ "top") [] 0 false []).
    replace [s_ "top"; s_ "geo"] with (path c (getNamespace (o_name (hidl 1)))) by (vm_compute; reflexivity).
    replace (s_ "Point") with (idl_id (getTypename (o_name (hidl 1)))) by (vm_compute; reflexivity).
    apply (@declares_comp c hidl 1%nat _ [s_ "    long x;"; s_ "    long y;"] eq_refl).
    repeat constructor; (exists None, (s_ "long"), []; split; [exact (@named_num c hidl 0%nat SInt eq_refl) | reflexivity]).
Qed.
