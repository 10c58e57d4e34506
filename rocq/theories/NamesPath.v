(** * NamesPath: splitting, relative names, minimal paths; ranges of names. *)
From Coq Require Import Sorting.Sorted.
From Verif Require Import Base NamesSpec Names NamesProofs.

(** ** splitTypename *)
Lemma terms_app a b : terms (a ++ b) = terms a ++ terms b.
Proof. unfold terms. rewrite map_app, concat_app. reflexivity. Qed.
Lemma lev_no_top_pre p : no_top p -> forall cur a b, p = cur ++ a ++ slash :: b -> lev (cur ++ a) <> 0%Z.
Proof. intros H cur a b E. eapply H. rewrite E, app_assoc. reflexivity. Qed.
Lemma split_word p s : forall cur level, level = lev cur -> no_top (cur ++ p) ->
  split_loop level cur (p ++ s) = split_loop (lev (cur ++ p)) (cur ++ p) s.
Proof.
  induction p as [|c p IH]; intros cur level -> Hn; [rewrite app_nil_r; reflexivity|].
  assert (Hn' : no_top ((cur ++ [c]) ++ p)) by (rewrite <- app_assoc; assumption).
  assert (Hk : forall lv, lv = lev (cur ++ [c]) -> split_loop lv (cur ++ [c]) (p ++ s) = split_loop (lev (cur ++ c :: p)) (cur ++ c :: p) s).
  { intros lv E. rewrite (IH _ _ E Hn'). rewrite <- app_assoc. reflexivity. }
  cbn [app split_loop]. destruct (ceqb c slash) eqn:E.
  - apply ceqb_eq in E. subst c. assert (X : lev cur <> 0%Z) by (eapply Hn; reflexivity).
    destruct (Z.eqb_spec (lev cur) 0); [contradiction|]. apply Hk. rewrite lev_app. simpl. lia.
  - destruct (ceqb c "<") eqn:E1; [|destruct (ceqb c ">") eqn:E2]; apply Hk; rewrite lev_app, lev_cons; cbn [lev]; rewrite ?E1, ?E2; lia.
Qed.
Lemma split_terms l s : Forall comp l -> split_loop 0 [] (terms l ++ s) = l ++ split_loop 0 [] s.
Proof.
  induction 1 as [|p l [Hn Hp] Hl IH]; [reflexivity|]. unfold terms. cbn [map concat]. rewrite <- !app_assoc. cbn [app].
  rewrite split_word by (try reflexivity; assumption). cbn [app split_loop]. rewrite Hp. change (ceqb sep slash) with true. cbn iota.
  change (0 =? 0)%Z with true. cbn iota. f_equal. exact IH.
Qed.
Lemma split_base x : no_top x -> split_loop 0 [] x = match x with [] => [] | _ => [x] end.
Proof. intros H. rewrite <- (app_nil_r x) at 1. rewrite split_word by (try reflexivity; assumption). cbn [app split_loop]. destruct x; reflexivity. Qed.
Lemma no_top_nil : no_top [].
Proof. intros [|? ?] ?; discriminate. Qed.
Lemma split_spec s : forall cur, no_top cur -> exists l x, Forall comp l /\ no_top x /\ cur ++ s = terms l ++ x.
Proof.
  induction s as [|c s IH]; intros cur Hn.
  - exists [], cur. rewrite app_nil_r. repeat split; auto.
  - destruct (ceqb c slash) eqn:E.
    + apply ceqb_eq in E. subst c. destruct (Z.eq_dec (lev cur) 0) as [Z|Z].
      * destruct (IH [] no_top_nil) as (l & x & Hl & Hx & Es). exists (cur :: l), x. repeat split; auto.
        { constructor; [split; assumption|assumption]. }
        unfold terms. cbn [map concat app] in *. rewrite <- app_assoc. cbn [app]. unfold terms in Es. rewrite <- app_assoc. cbn [app]. rewrite Es. reflexivity.
      * destruct (IH (cur ++ [slash])) as (l & x & Hl & Hx & Es); [apply no_top_snoc; auto|]. exists l, x. rewrite <- app_assoc in Es. auto.
    + destruct (IH (cur ++ [c])) as (l & x & Hl & Hx & Es); [apply no_top_snoc; [assumption|intros ->; rewrite ceqb_refl in E; discriminate]|].
      exists l, x. rewrite <- app_assoc in Es. auto.
Qed.
Lemma slash_terms l : concat (map (fun p => slash :: p) l) ++ [slash] = sep :: terms l.
Proof.
  unfold terms. change slash with sep. induction l as [|p l IH]; [reflexivity|]. cbn [map concat app]. rewrite <- app_assoc, IH. rewrite <- app_assoc. reflexivity.
Qed.
Lemma path_split name comps base : type_path name comps base -> splitTypename name = comps ++ [base].
Proof.
  intros (-> & Hc & Hb & Hn). unfold splitTypename. cbn [isAbsoluteName tl]. change (ceqb sep slash) with true. cbn iota.
  rewrite split_terms, split_base by assumption. destruct base; [contradiction|reflexivity].
Qed.
Lemma path_namespace name comps base : type_path name comps base -> getNamespace name = sep :: terms comps.
Proof.
  intros H. unfold getNamespace. rewrite (path_split H).
  transitivity (concat (map (fun p => slash :: p) (removelast (comps ++ [base]))) ++ [slash]); [destruct comps; reflexivity|]. rewrite removelast_last. apply slash_terms.
Qed.
Lemma path_typename name comps base : type_path name comps base -> getTypename name = base.
Proof. intros H. unfold getTypename. rewrite (path_split H), last_last. reflexivity. Qed.
Lemma lev_terms l : Forall comp l -> lev (terms l) = 0%Z.
Proof. induction 1 as [|p l [_ Hp] _ IH]; [reflexivity|]. unfold terms. cbn [map concat]. rewrite !lev_app. fold (terms l). rewrite IH, Hp. reflexivity. Qed.
Lemma path_exists s : s <> [] -> ~ ends_top (sep :: s) -> exists comps base, type_path (sep :: s) comps base.
Proof.
  intros Hne Ht. destruct (split_spec s no_top_nil) as (l & x & Hl & Hx & E). cbn [app] in E. destruct x as [|c x].
  - exfalso. rewrite app_nil_r in E. destruct l as [|p l _] using rev_ind; [contradiction|]. apply Ht. apply Forall_app in Hl. destruct Hl as [Hl Hp].
    inversion Hp as [|? ? [Hp1 Hp2] _]; subst. exists (sep :: terms l ++ p). split.
    + rewrite terms_app. unfold terms at 2. cbn [map concat app]. rewrite app_nil_r, <- app_assoc. reflexivity.
    + rewrite lev_cons, lev_app, lev_terms by assumption. rewrite Hp2. reflexivity.
  - exists l, (c :: x). split; [rewrite E; reflexivity|]. repeat split; auto. discriminate.
Qed.

(** ** Namespaces *)
Lemma terms_last l : l <> [] -> exists y, terms l = y ++ [sep].
Proof. destruct l as [|p l _] using rev_ind; [contradiction|]. intros _. exists (terms l ++ p). rewrite terms_app. unfold terms at 2. cbn [map concat]. rewrite app_nil_r, <- app_assoc. reflexivity. Qed.
Lemma snoc_cases (s : str) : s = [] \/ exists y c, s = y ++ [c].
Proof. destruct s as [|c y _] using rev_ind; [left; reflexivity|right; eauto]. Qed.
Lemma last_is_slash_snoc y c : last_is_slash (y ++ [c]) = ceqb c slash.
Proof. unfold last_is_slash. rewrite rev_app_distr. reflexivity. Qed.
Lemma terms_sep l : exists y, sep :: terms l = y ++ [sep].
Proof. destruct l as [|p l _] using rev_ind; [exists []; reflexivity|]. destruct (@terms_last (l ++ [p])) as [y E]; [destruct l; discriminate|]. exists (sep :: y). rewrite E. reflexivity. Qed.
Lemma relative_complete name ns : ns <> [] -> isInNamespace name ns true = true ->
  exists r, getRelativeName name ns = Ok r /\ getNormalizedNamespace ns ++ r = name.
Proof.
  intros Hne H. unfold isInNamespace in H. rewrite orb_true_l, andb_true_r in H. apply has_prefix_app in H. destruct H as [r E].
  exists r. split; [|symmetry; assumption]. destruct ns as [|c0 n0] eqn:En; [contradiction|]. rewrite <- En in *. clear Hne.
  unfold getRelativeName. rewrite En at 1. unfold getNormalizedNamespace in E. rewrite En in E at 1.
  destruct (last_is_slash ns).
  - destruct (Nat.ltb_spec (length name) (length ns)) as [L|L]; [rewrite E, app_length in L; lia|]. rewrite E, skipn_app, skipn_all, Nat.sub_diag. reflexivity.
  - destruct (Nat.ltb_spec (length name) (S (length ns))) as [L|L]; [rewrite E, !app_length in L; cbn [length] in L; lia|].
    rewrite E. replace (S (length ns)) with (length (ns ++ [slash])) by (rewrite app_length; cbn [length]; lia). rewrite skipn_app, skipn_all, Nat.sub_diag. reflexivity.
Qed.

(** ** getMinimalPathTo *)
Lemma has_prefix_app_ p r : has_prefix p (p ++ r) = true.
Proof. apply has_prefix_app. eauto. Qed.
Lemma ns_split ns n : ns_path ns n -> splitTypename ns = n /\ getNormalizedNamespace ns = sep :: terms n.
Proof.
  intros (Hne & Hc & Hn & [-> |E]).
  - split.
    + unfold splitTypename. cbn [isAbsoluteName tl]. change (ceqb sep slash) with true. cbn iota. rewrite <- (app_nil_r (terms n)), split_terms by assumption. apply app_nil_r.
    + unfold getNormalizedNamespace. destruct (terms_sep n) as [y Ey]. rewrite Ey, last_is_slash_snoc. rewrite <- Ey. reflexivity.
  - destruct n as [|p n _] using rev_ind; [destruct ns; [contradiction|]; destruct ns; discriminate|].
    rewrite terms_app in E. unfold terms at 2 in E. cbn [map concat] in E. rewrite app_nil_r, app_assoc, app_comm_cons in E. apply app_inj_tail in E. destruct E as [-> _].
    apply Forall_app in Hc. destruct Hc as [Hc Hp]. inversion Hp as [|? ? [Hp1 Hp2] _]; subst. apply Forall_app in Hn. destruct Hn as [_ Hn]. inversion Hn as [|? ? Hp3 _]; subst.
    split.
    + unfold splitTypename. cbn [isAbsoluteName tl]. change (ceqb sep slash) with true. cbn iota. rewrite split_terms, split_base by assumption. destruct p; [contradiction|reflexivity].
    + unfold getNormalizedNamespace. replace (terms (n ++ [p])) with (terms n ++ p ++ [sep]) by (rewrite terms_app; unfold terms at 3; cbn [map concat]; rewrite app_nil_r; reflexivity).
      replace (last_is_slash (sep :: terms n ++ p)) with false; [rewrite app_assoc; reflexivity|].
      symmetry. destruct (snoc_cases p) as [-> |(y & c & ->)]; [contradiction|]. rewrite app_assoc, app_comm_cons, last_is_slash_snoc.
      apply ceqb_neq. intros ->. apply (Hp1 y []); [reflexivity|]. rewrite lev_app in Hp2. simpl in Hp2. lia.
Qed.
Lemma prefix_comps c b n r : Forall comp c -> b <> [] -> no_top b -> Forall comp n -> terms c ++ b = terms n ++ r -> exists c', c = n ++ c'.
Proof.
  intros Hc Hb Hn Hcn E. assert (S1 := f_equal (split_loop 0 []) E). rewrite !split_terms, split_base in S1 by assumption.
  destruct (split_loop 0 [] r) as [|y l _] eqn:Er using rev_ind.
  - exfalso. destruct (split_spec r no_top_nil) as (l & x & Hl & Hx & E2). cbn [app] in E2. subst r. rewrite split_terms, split_base in Er by assumption.
    apply app_eq_nil in Er. destruct Er as [-> Er]. destruct x; [|discriminate]. change (terms [] ++ []) with (@nil ascii) in E. cbn [app] in S1. rewrite !app_nil_r in *. subst n.
    rewrite terms_app in E. apply app_inv_head in E. apply (f_equal (@length ascii)) in E. unfold terms in E. destruct b; [contradiction|]. cbn [map concat] in E. rewrite !app_length in E. cbn [length] in E. lia.
  - destruct b as [|b0 b1]; [contradiction|]. rewrite app_assoc in S1. apply app_inj_tail in S1. destruct S1 as [-> _]. eauto.
Qed.
Lemma common_spec a : forall b c r, common a b = (c, r) -> a = c ++ r /\ exists b2, b = c ++ b2.
Proof.
  induction a as [|x a IH]; intros [|y b] c r E; cbn [common] in E; try (inversion E; subst; cbn [app]; split; [reflexivity|eexists; reflexivity]).
  destruct (str_eqb x y) eqn:Ex.
  - destruct (common a b) as [c0 r0] eqn:E0. inversion E; subst. destruct (IH _ _ _ E0) as [-> [b2 ->]]. apply str_eqb_eq in Ex. subst y. split; [reflexivity|exists b2; reflexivity].
  - inversion E; subst. split; [reflexivity|eexists; reflexivity].
Qed.
Lemma join_tokens_cons x l : l <> [] -> join_tokens (x :: l) = x ++ slash :: join_tokens l.
Proof. destruct l; [contradiction|reflexivity]. Qed.
Lemma join_tokens_terms l : l <> [] -> join_tokens l ++ [slash] = terms l.
Proof.
  induction l as [|x l IH]; [contradiction|]. intros _. destruct l as [|y l]; [unfold terms; cbn [map concat join_tokens]; rewrite app_nil_r; reflexivity|].
  rewrite join_tokens_cons by discriminate. unfold terms. cbn [map concat]. rewrite <- app_assoc. cbn [app]. rewrite IH by discriminate. rewrite <- app_assoc. reflexivity.
Qed.
Lemma disambiguate_spec ns rc : forall l rc' res, l <> [] -> disambiguate ns rc (join_tokens l) = (rc', res) ->
  exists m, rev rc = rev rc' ++ m /\ res = join_tokens (m ++ l).
Proof.
  induction rc as [|c rc IH]; intros l rc' res Hl E; cbn [disambiguate] in E; [inversion E; subst; exists []; split; reflexivity|].
  destruct (contains_str ns (join_tokens l)).
  - rewrite <- join_tokens_cons in E by assumption. destruct (IH (c :: l) rc' res ltac:(discriminate) E) as (m & E1 & E2). exists (m ++ [c]). cbn [rev]. rewrite E1, E2, <- !app_assoc. split; reflexivity.
  - inversion E; subst. exists []. rewrite app_nil_r. split; reflexivity.
Qed.
Lemma contains_prefix p r : contains_str (p ++ r) p = true.
Proof. destruct (p ++ r) eqn:E; cbn [contains_str]; rewrite <- E, has_prefix_app_; reflexivity. Qed.
Theorem minimal_path full ns c b n : type_path full c b -> Forall (fun p => p <> []) c -> ns_path ns n ->
  exists r, getMinimalPathTo full ns = Ok r /\
    (r = sep :: terms c \/ exists k m n2, c = k ++ m /\ n = k ++ n2 /\ r = terms m).
Proof.
  intros Hp Hcn Hns. destruct (ns_split Hns) as [Hs Hno]. assert (Hg := path_namespace Hp). destruct Hp as (Ef & Hc & Hb & Hbn).
  unfold getMinimalPathTo. rewrite Hg. cbv zeta. assert (Hne : ns <> []) by apply Hns. assert (Hnc : Forall comp n) by apply Hns.
  destruct (isInNamespace full ns true) eqn:Hin.
  - assert (Hin2 := Hin). unfold isInNamespace in Hin2. rewrite Hno, orb_true_l, andb_true_r in Hin2. apply has_prefix_app in Hin2. destruct Hin2 as [r Er].
    rewrite Ef in Er. cbn [app] in Er. inversion Er as [E]. destruct (prefix_comps Hc Hb Hbn Hnc E) as [c' ->].
    destruct (@relative_complete (sep :: terms (n ++ c')) ns Hne) as (r' & R1 & R2).
    { unfold isInNamespace. rewrite Hno, orb_true_l, andb_true_r, terms_app, app_comm_cons. apply has_prefix_app_. }
    exists r'. split; [exact R1|]. right. exists n, c', []. rewrite app_nil_r. repeat split; auto. rewrite Hno, terms_app, app_comm_cons in R2. apply app_inv_head in R2. assumption.
  - destruct (contains_str ns (sep :: terms c) || contains_str ns full) eqn:Hcont; [eexists; split; [reflexivity|left; reflexivity]|].
    apply orb_false_iff in Hcont. destruct Hcont as [Hcont _].
    replace (splitTypename (sep :: terms c)) with c.
    2:{ unfold splitTypename. cbn [isAbsoluteName tl]. change (ceqb sep slash) with true. cbn iota. rewrite <- (app_nil_r (terms c)), split_terms by assumption. symmetry. apply app_nil_r. }
    rewrite Hs. destruct (common c n) as [cm rest] eqn:Ec. destruct (common_spec Ec) as [E1 [n2 E2]].
    destruct cm as [|c0 cm0]; [eexists; split; [reflexivity|left; reflexivity]|]. set (cm := c0 :: cm0) in *.
    destruct rest as [|r0 rest0].
    + exfalso. rewrite app_nil_r in E1. rewrite <- E1 in E2. clear Hs. subst n. destruct n2 as [|x n2'].
      * rewrite app_nil_r in Hno. unfold isInNamespace in Hin. rewrite Hno, Ef, orb_true_l, andb_true_r in Hin. rewrite app_comm_cons, has_prefix_app_ in Hin. discriminate.
      * set (n2 := x :: n2') in *. destruct (@terms_last n2) as [y Ey]; [discriminate|].
        destruct Hns as (_ & _ & _ & [E|E]).
        { rewrite E, terms_app, app_comm_cons, contains_prefix in Hcont. discriminate. }
        { rewrite terms_app, Ey, app_assoc, app_comm_cons in E. apply app_inj_tail in E. destruct E as [E _]. rewrite E, app_comm_cons, contains_prefix in Hcont. discriminate. }
    + destruct (disambiguate ns (rev cm) (join_tokens (r0 :: rest0))) as [rc result] eqn:Ed.
      destruct (disambiguate_spec (l := r0 :: rest0) ltac:(discriminate) Ed) as (m & E3 & E4). rewrite rev_involutive in E3.
      destruct rc as [|x rc]; [eexists; split; [reflexivity|left; reflexivity]|].
      assert (Hres : result <> []).
      { intros E. rewrite E in E4. subst c. apply Forall_app in Hcn. destruct Hcn as [Hcm Hcr]. rewrite E3 in Hcm. apply Forall_app in Hcm. destruct Hcm as [_ Hm].
        assert (Hall : Forall (fun p => p <> []) (m ++ r0 :: rest0)) by (apply Forall_app; split; assumption).
        destruct (m ++ r0 :: rest0) as [|z zs] eqn:Ez; [destruct m; discriminate|].
        inversion Hall as [|? ? Hz _]; subst. destruct zs; [cbn [join_tokens] in E4; congruence|]. rewrite join_tokens_cons in E4 by discriminate. destruct z; [congruence|discriminate]. }
      exists (result ++ [slash]). split; [destruct result; [contradiction|reflexivity]|]. right. exists (rev (x :: rc)), (m ++ r0 :: rest0), (m ++ n2).
      split; [rewrite E1, E3, <- app_assoc; reflexivity|]. split; [rewrite E2, E3, <- app_assoc; reflexivity|].
      rewrite E4. apply join_tokens_terms. destruct m; discriminate.
Qed.
(** ** Ranges of names *)
Definition sorted (l : list str) : Prop := StronglySorted (fun a b => nameSort a b = true) l.
Lemma filter_none A (f : A -> bool) l : (forall x, In x l -> f x = false) -> filter f l = [].
Proof. induction l as [|x l IH]; intros H; [reflexivity|]. cbn [filter]. rewrite (H x (or_introl eq_refl)). apply IH. intros; apply H; right; assumption. Qed.
Lemma skip_filter p l : sorted l -> (match l with k :: _ => has_prefix p k = true | [] => True end) -> l = filter (has_prefix p) l ++ skip_prefix p l.
Proof.
  induction 1 as [|k l Hs IH Hk]; intros Hp; [reflexivity|]. cbn [filter skip_prefix]. rewrite Hp. cbn [app]. f_equal.
  destruct l as [|k2 l]; [reflexivity|]. destruct (has_prefix p k2) eqn:E2; [apply IH; reflexivity|].
  rewrite filter_none; [cbn [skip_prefix]; rewrite E2; reflexivity|]. intros x [<- |Hx]; [assumption|].
  destruct (has_prefix p x) eqn:Ex; [|reflexivity]. inversion Hs as [|? ? Hs2 Hk2]; subst. rewrite Forall_forall in Hk2, Hk.
  rewrite <- E2. symmetry. apply (@prefix_contiguous p k k2 x); [apply Hk; left; reflexivity|apply Hk2; exact Hx|exact Hp|exact Ex].
Qed.
Lemma range_spec p l : sorted l -> begin_prefix p l = filter (has_prefix p) l ++ end_prefix p l.
Proof.
  intros H. unfold end_prefix. induction H as [|k l Hs IH Hk]; [reflexivity|]. unfold begin_prefix in *. cbn [lower_bound filter].
  destruct (nameSort k p) eqn:E.
  - destruct (has_prefix p k) eqn:Ep; [|exact IH]. apply prefix_ge in Ep. congruence.
  - destruct (has_prefix p k) eqn:Ep.
    + assert (X := @skip_filter p (k :: l) ltac:(constructor; assumption) Ep). cbn [filter] in X. rewrite Ep in X. exact X.
    + rewrite filter_none; [reflexivity|]. intros x Hx. destruct (has_prefix p x) eqn:Ex; [|reflexivity].
      rewrite Forall_forall in Hk. rewrite (prefix_first (Hk x Hx) Ex Ep) in E. discriminate.
Qed.

(** ** isValidNamespace *)
Lemma tok_ident s : forall cur, forallb isValidIdentifier (tok_loop cur s) = forallb ident_char cur && forallb (fun c => ceqb c slash || ident_char c) s.
Proof.
  induction s as [|c s IH]; intros cur; cbn [tok_loop].
  - rewrite andb_true_r. destruct cur as [|d cur]; [reflexivity|]. cbn [forallb]. rewrite andb_true_r. unfold isValidIdentifier. destruct (str_eqb (d :: cur) []) eqn:E; [apply str_eqb_eq in E; discriminate|reflexivity].
  - destruct (ceqb c slash) eqn:Ec.
    + cbn [forallb]. rewrite Ec. cbn [orb andb]. destruct cur as [|d cur]; [rewrite IH; reflexivity|]. cbn [forallb]. rewrite IH. cbn [forallb andb]. 
      unfold isValidIdentifier. destruct (str_eqb (d :: cur) []) eqn:E; [apply str_eqb_eq in E; discriminate|reflexivity].
    + rewrite IH, forallb_app. cbn [forallb]. rewrite Ec, andb_true_r. cbn [orb]. rewrite andb_assoc. reflexivity.
Qed.
Lemma ident_char_spec c : ident_char c = true <-> word_char c \/ c = "<"%char \/ c = ">"%char.
Proof. unfold ident_char. rewrite <- wchar_spec. unfold wchar. rewrite !orb_true_iff, !ceqb_eq. tauto. Qed.
Lemma isValidNamespace_exact s absolute :
  isValidNamespace s absolute = true <->
  s <> [] /\ (absolute = true -> exists r, s = sep :: r) /\ Forall (fun c => c = sep \/ word_char c \/ c = "<"%char \/ c = ">"%char) s.
Proof.
  unfold isValidNamespace. destruct s as [|c s]; [split; [discriminate|intros [H _]; contradiction]|].
  unfold tokens. assert (Hf : forallb isValidIdentifier (tok_loop [] (c :: s)) = true <-> Forall (fun c => c = sep \/ word_char c \/ c = "<"%char \/ c = ">"%char) (c :: s)).
  { rewrite tok_ident. cbn [forallb andb]. change (forallb ident_char []) with true. cbn [andb].
    change (ceqb c slash || ident_char c) with ((fun c => ceqb c slash || ident_char c) c).
    change ((fun c => ceqb c slash || ident_char c) c && forallb (fun c => ceqb c slash || ident_char c) s) with (forallb (fun c => ceqb c slash || ident_char c) (c :: s)).
    rewrite forallb_forall, Forall_forall. split; intros H x Hx; specialize (H x Hx).
    - rewrite orb_true_iff, ceqb_eq, ident_char_spec in H. exact H.
    - rewrite orb_true_iff, ceqb_eq, ident_char_spec. exact H. }
  cbn [isAbsoluteName]. destruct absolute; cbn [andb].
  - destruct (ceqb c slash) eqn:Ec; cbn [negb].
    + rewrite Hf. apply ceqb_eq in Ec. subst c. split; [intros H; repeat split; try discriminate; eauto|tauto].
    + split; [discriminate|]. intros (_ & H & _). destruct (H eq_refl) as [r E]. inversion E. subst. rewrite ceqb_refl in Ec. discriminate.
  - rewrite Hf. split; [intros H; repeat split; try discriminate; auto|tauto].
Qed.
