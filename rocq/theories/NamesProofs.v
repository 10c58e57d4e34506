(** * NamesProofs: lemmas on the name functions. *)
From Verif Require Import Base NamesSpec Names.

Lemma ceqb_eq a b : ceqb a b = true <-> a = b.
Proof. unfold ceqb. apply Ascii.eqb_eq. Qed.
Lemma ceqb_refl a : ceqb a a = true.
Proof. apply ceqb_eq. reflexivity. Qed.
Lemma ceqb_neq a b : ceqb a b = false <-> a <> b.
Proof. unfold ceqb. apply Ascii.eqb_neq. Qed.
Lemma str_eqb_eq a b : str_eqb a b = true <-> a = b.
Proof. unfold str_eqb. destruct (list_eq_dec ascii_dec a b); split; congruence. Qed.
Lemma str_eqb_refl a : str_eqb a a = true.
Proof. apply str_eqb_eq. reflexivity. Qed.

(** ** nameSort *)
Lemma schar_inj a b : schar a = schar b -> a = b.
Proof.
  unfold schar. intros H. rewrite <- (ascii_nat_embedding a), <- (ascii_nat_embedding b). f_equal.
  assert (Ha : (nat_of_ascii a < 256)%nat) by apply nat_ascii_bounded. assert (Hb : (nat_of_ascii b < 256)%nat) by apply nat_ascii_bounded.
  destruct (Z.ltb_spec (Z.of_nat (nat_of_ascii a)) 128), (Z.ltb_spec (Z.of_nat (nat_of_ascii b)) 128); lia.
Qed.
Lemma nameSort_irrefl a : nameSort a a = false.
Proof. induction a as [|c a IH]; simpl; [reflexivity|]. rewrite ceqb_refl. assumption. Qed.
(** The order on differing characters. *)
Definition clt (a b : ascii) : bool :=
  if ceqb a slash then negb (ceqb b slash) else if ceqb b slash then false else (schar a <? schar b)%Z.
Lemma nameSort_cons c1 c2 a b : nameSort (c1 :: a) (c2 :: b) = if ceqb c1 c2 then nameSort a b else clt c1 c2.
Proof.
  cbn [nameSort]. destruct (ceqb c1 c2) eqn:E; [reflexivity|]. unfold clt. destruct (ceqb c1 slash) eqn:E1; [|reflexivity].
  apply ceqb_eq in E1. subst c1. destruct (ceqb c2 slash) eqn:E2; [|reflexivity]. apply ceqb_eq in E2. subst. rewrite ceqb_refl in E. discriminate.
Qed.
Lemma clt_trans a b c : clt a b = true -> clt b c = true -> clt a c = true.
Proof.
  unfold clt. destruct (ceqb a slash), (ceqb b slash), (ceqb c slash); simpl; try discriminate; auto.
  intros H1 H2. apply Z.ltb_lt in H1, H2. apply Z.ltb_lt. lia.
Qed.
Lemma clt_irrefl a : clt a a = false.
Proof. unfold clt. destruct (ceqb a slash); [reflexivity|]. apply Z.ltb_irrefl. Qed.
Lemma clt_total a b : a <> b -> clt a b = true \/ clt b a = true.
Proof.
  intros H. unfold clt. destruct (ceqb a slash) eqn:Ea, (ceqb b slash) eqn:Eb; auto.
  - apply ceqb_eq in Ea, Eb. congruence.
  - destruct (Z.lt_trichotomy (schar a) (schar b)) as [L|[L|L]].
    + left. apply Z.ltb_lt. assumption.
    + apply schar_inj in L. contradiction.
    + right. apply Z.ltb_lt. assumption.
Qed.
Lemma nameSort_trans a : forall b c, nameSort a b = true -> nameSort b c = true -> nameSort a c = true.
Proof.
  induction a as [|x a IH]; intros [|y b] [|z c]; try (simpl; congruence).
  rewrite !nameSort_cons. destruct (ceqb x y) eqn:E1.
  - apply ceqb_eq in E1. subst y. destruct (ceqb x z); [apply IH|]. intros _; auto.
  - destruct (ceqb y z) eqn:E2.
    + apply ceqb_eq in E2. subst z. rewrite E1. auto.
    + intros H1 H2. destruct (ceqb x z) eqn:E3; [|eapply clt_trans; eauto].
      apply ceqb_eq in E3. subst z. assert (X := clt_trans H1 H2). rewrite clt_irrefl in X. discriminate.
Qed.
Lemma nameSort_total a : forall b, a <> b -> nameSort a b = true \/ nameSort b a = true.
Proof.
  induction a as [|x a IH]; intros [|y b] H; try (simpl; auto; congruence).
  rewrite !nameSort_cons. destruct (ceqb x y) eqn:E.
  - apply ceqb_eq in E. subst y. rewrite ceqb_refl. apply IH. congruence.
  - apply ceqb_neq in E. replace (ceqb y x) with false by (symmetry; apply ceqb_neq; congruence). apply clt_total. assumption.
Qed.
Lemma nameSort_asym a b : nameSort a b = true -> nameSort b a = false.
Proof.
  intros H. destruct (nameSort b a) eqn:E; [|reflexivity]. assert (X := nameSort_trans H E). rewrite nameSort_irrefl in X. discriminate.
Qed.

Lemma has_prefix_app p s : has_prefix p s = true <-> exists r, s = p ++ r.
Proof.
  revert s. induction p as [|c p IH]; intros s; simpl; [split; eauto|]. destruct s as [|d s].
  - split; [discriminate|]. intros [r H]. discriminate.
  - rewrite andb_true_iff, ceqb_eq, IH. split.
    + intros [-> [r ->]]. eauto.
    + intros [r H]. inversion H. eauto.
Qed.
Lemma nameSort_app p a b : nameSort (p ++ a) (p ++ b) = nameSort a b.
Proof. induction p as [|c p IH]; [reflexivity|]. cbn [app]. rewrite nameSort_cons, ceqb_refl. assumption. Qed.
(** Names with a common prefix are contiguous. *)
Lemma prefix_contiguous p : forall a b c, nameSort a b = true -> nameSort b c = true ->
  has_prefix p a = true -> has_prefix p c = true -> has_prefix p b = true.
Proof.
  induction p as [|x p IH]; intros [|y a] [|z b] [|w c]; try (simpl; congruence).
  cbn [has_prefix]. rewrite !andb_true_iff, !nameSort_cons, !ceqb_eq. intros H1 H2 [<- Pa] [<- Pc].
  destruct (ceqb x z) eqn:E.
  - apply ceqb_eq in E. subst z. rewrite ceqb_refl in H2. split; [reflexivity|]. eapply IH; eauto.
  - exfalso. apply ceqb_neq in E. replace (ceqb z x) with false in H2 by (symmetry; apply ceqb_neq; congruence).
    assert (X := clt_trans H1 H2). rewrite clt_irrefl in X. discriminate.
Qed.
Lemma prefix_ge p s : has_prefix p s = true -> nameSort s p = false.
Proof.
  intros H. apply has_prefix_app in H. destruct H as [r ->]. rewrite <- (app_nil_r p) at 2. rewrite nameSort_app. destruct r; reflexivity.
Qed.
(** A name not below [p] but before one below it is before [p]. *)
Lemma prefix_first p : forall a c, nameSort a c = true -> has_prefix p c = true -> has_prefix p a = false -> nameSort a p = true.
Proof.
  induction p as [|x p IH]; intros [|y a] [|w c]; try (simpl; congruence).
  cbn [has_prefix]. rewrite andb_true_iff, !nameSort_cons, ceqb_eq. intros H1 [<- Pc] Pa.
  destruct (ceqb y x) eqn:E.
  - apply ceqb_eq in E. subst y. rewrite ceqb_refl in Pa. eapply IH; eauto.
  - assumption.
Qed.

(** ** splitTypename *)
Lemma lev_cons c r : lev (c :: r) = ((if ceqb c "<" then 1 else if ceqb c ">" then -1 else 0) + lev r)%char%Z.
Proof. reflexivity. Qed.
Lemma lev_app a b : lev (a ++ b) = (lev a + lev b)%Z.
Proof. induction a as [|c a IH]; simpl; [reflexivity|]. rewrite IH. lia. Qed.

Lemma no_top_snoc cur c : no_top cur -> (c = slash -> lev cur <> 0%Z) -> no_top (cur ++ [c]).
Proof.
  intros H Hc a b E. destruct b as [|b0 b] using rev_ind.
  - apply app_inj_tail in E. destruct E as [-> ->]. apply Hc. reflexivity.
  - rewrite app_comm_cons, app_assoc in E. apply app_inj_tail in E. destruct E as [-> ->]. eapply H; eauto.
Qed.
Lemma split_no_top s : forall level cur, lev cur = level -> no_top cur -> Forall no_top (split_loop level cur s).
Proof.
  induction s as [|c s IH]; intros level cur Hl Hn; cbn [split_loop].
  - destruct cur; constructor; auto.
  - destruct (ceqb c slash) eqn:E.
    + apply ceqb_eq in E. subst c. destruct (Z.eqb_spec level 0) as [E0|E0].
      * constructor; [assumption|]. apply IH; [subst; rewrite E0; reflexivity|]. intros [|? ?] ?; discriminate.
      * apply IH; [rewrite lev_app; simpl; lia|]. apply no_top_snoc; [assumption|]. intros _. lia.
    + apply ceqb_neq in E. destruct (ceqb c "<") eqn:E1; [|destruct (ceqb c ">") eqn:E2];
        (apply IH; [rewrite lev_app, lev_cons; cbn [lev]; rewrite ?E1, ?E2; lia|apply no_top_snoc; [assumption|intros ->; contradiction]]).
Qed.
Lemma split_join s : forall level cur, lev cur = level -> cur ++ s <> [] -> ~ ends_top (cur ++ s) ->
  split_loop level cur s <> [] /\ concat (map (cons slash) (split_loop level cur s)) = slash :: cur ++ s.
Proof.
  induction s as [|c s IH]; intros level cur Hl Hne Ht; cbn [split_loop].
  - destruct cur; [contradiction|]. split; [discriminate|]. simpl. rewrite !app_nil_r. reflexivity.
  - assert (Hstep : forall lv, lev (cur ++ [c]) = lv -> split_loop lv (cur ++ [c]) s <> [] /\
        concat (map (cons slash) (split_loop lv (cur ++ [c]) s)) = slash :: cur ++ c :: s).
    { intros lv Hlv. destruct (IH lv (cur ++ [c]) Hlv) as [A B].
      - destruct cur; discriminate.
      - rewrite <- app_assoc. assumption.
      - split; [assumption|]. rewrite B, <- app_assoc. reflexivity. }
    destruct (ceqb c slash) eqn:E.
    + apply ceqb_eq in E. subst c. destruct (Z.eqb_spec level 0) as [E0|E0].
      * split; [discriminate|]. cbn [map concat]. destruct (IH level [] ltac:(simpl; lia)) as [A B].
        -- cbn [app]. intros ->. apply Ht. exists cur. split; [reflexivity|lia].
        -- cbn [app]. intros [q [Eq Lq]]. apply Ht. exists (cur ++ slash :: q). split; [rewrite Eq, <- app_assoc; reflexivity|].
           rewrite lev_app. simpl. lia.
        -- rewrite B. simpl. reflexivity.
      * apply Hstep. rewrite lev_app. simpl. lia.
    + destruct (ceqb c "<") eqn:E1; [|destruct (ceqb c ">") eqn:E2];
        (apply Hstep; rewrite lev_app, lev_cons; cbn [lev]; rewrite ?E1, ?E2; lia).
Qed.

(** ** isValidTypename terminates, for every string *)
Lemma at_out s i : (length s <= i)%nat -> at_ s i = "000"%char.
Proof. intros H. apply nth_overflow. assumption. Qed.
Lemma vt_terminates f :
  (forall s st i a ai, (i <= length s)%nat -> (4 * (length s - i) + 1 <= f)%nat ->
     exists b j, vt_loop f s st i a ai = Ok (b, j) /\ (st <= i -> b = true -> i <= j /\ j <= length s)%nat) /\
  (forall s i, (i < length s)%nat -> (4 * (length s - i) - 1 <= f)%nat ->
     exists b j, vt_args f s i = Ok (b, j) /\ (b = true -> i <= j /\ j < length s)%nat) /\
  (forall s pos a ai, (pos <= length s)%nat -> (4 * (length s - pos) + 2 <= f)%nat ->
     exists b j, vt f s pos a ai = Ok (b, j) /\ (b = true -> pos <= j /\ j <= length s)%nat).
Proof.
  induction f as [|f (IHl & IHa & IHv)]; [repeat split; intros; lia|].
  assert (Hw : forall s st st' i i' a ai, (i <= i')%nat -> (i' <= length s)%nat -> (st' <= i')%nat -> (4 * (length s - i') + 1 <= f)%nat ->
     exists b j, vt_loop f s st' i' a ai = Ok (b, j) /\ (st <= i -> b = true -> i <= j /\ j <= length s)%nat).
  { intros s st st' i i' a ai H1 H2 H3 H4. destruct (IHl s st' i' a ai H2 H4) as (b & j & E & H). exists b, j. split; [assumption|].
    intros _ Hb. destruct (H H3 Hb). lia. }
  split; [|split].
  - intros s st i a ai Hi Hf. cbn [vt_loop]. destruct (Nat.ltb_spec i (length s)) as [L|L].
    2:{ destruct (st =? length s)%nat; eexists _, _; (split; [reflexivity|lia]). }
    destruct (ceqb (at_ s i) "/").
    { destruct (isValidTypeBasename _ _ _); [apply Hw; lia|]. eexists _, _. split; [reflexivity|lia]. }
    destruct (ceqb (at_ s i) "<").
    { destruct (isValidTypeBasename _ _ _); [|eexists _, _; split; [reflexivity|lia]].
      destruct (IHa s i L ltac:(lia)) as (ok & j & E & Hj). rewrite E. cbn [bind]. destruct ok; cbn [negb]; [|eexists _, _; split; [reflexivity|discriminate]].
      specialize (Hj eq_refl). destruct (Nat.ltb_spec (S j) (length s)) as [L2|L2]; [|apply Hw; lia].
      destruct (ceqb (at_ s (S j)) "/"); [apply Hw; lia|].
      destruct (_ && _); [eexists _, _; split; [reflexivity|discriminate]|]. apply Hw; lia. }
    destruct (ceqb (at_ s i) "[").
    { destruct (_ && _); [eexists _, _; split; [reflexivity|discriminate]|]. destruct (S i =? length s)%nat; [eexists _, _; split; [reflexivity|discriminate]|].
      apply Hw; lia. }
    destruct (ceqb (at_ s i) "]").
    { destruct (st =? i)%nat; [eexists _, _; split; [reflexivity|discriminate]|]. destruct (negb _); [eexists _, _; split; [reflexivity|discriminate]|].
      destruct (Nat.ltb_spec (S i) (length s)) as [L2|L2]; [|apply Hw; lia].
      destruct (ceqb (at_ s (S i)) "/"); [apply Hw; lia|].
      destruct (_ && _); [eexists _, _; split; [reflexivity|discriminate]|]. apply Hw; lia. }
    destruct (_ || _); [eexists _, _; split; [reflexivity|lia]|].
    destruct (IHl s st (S i) a ai ltac:(lia) ltac:(lia)) as (b & j & E & H). exists b, j. split; [assumption|]. intros Hs Hb.
    destruct (H ltac:(lia) Hb). lia.
  - intros s i Hi Hf. cbn [vt_args]. destruct (ceqb (at_ s i) ">"); [eexists _, _; split; [reflexivity|lia]|].
    destruct (IHv s (S i) true true ltac:(lia) ltac:(lia)) as (ok & j & E & Hj). rewrite E. cbn [bind].
    destruct ok; cbn [negb]; [|eexists _, _; split; [reflexivity|discriminate]]. specialize (Hj eq_refl).
    destruct (Nat.eqb_spec j (length s)) as [Ej|Ej]; cbn [orb]; [eexists _, _; split; [reflexivity|discriminate]|].
    destruct (_ && _); [eexists _, _; split; [reflexivity|discriminate]|].
    destruct (IHa s j ltac:(lia) ltac:(lia)) as (b & k & E2 & Hk). exists b, k. split; [assumption|]. intros Hb. specialize (Hk Hb). lia.
  - intros s pos a ai Hp Hf. cbn [vt].
    assert (Hs : ceqb (at_ s pos) "/" = true -> (S pos <= length s)%nat).
    { intros H. destruct (Nat.le_gt_cases (S pos) (length s)); [assumption|]. rewrite at_out in H by lia. discriminate. }
    destruct (ceqb (at_ s pos) "/").
    + destruct (IHl s pos (S pos) a ai (Hs eq_refl) ltac:(lia)) as (b & j & E & H). exists b, j. split; [assumption|].
      intros Hb. destruct (H ltac:(lia) Hb). lia.
    + destruct (IHl s pos pos a ai Hp ltac:(lia)) as (b & j & E & H). exists b, j. split; [assumption|]. intros Hb. apply H; auto.
Qed.

(** ** isValidTypename on names without modifiers and template arguments *)
Definition special (c : ascii) : bool :=
  (ceqb c "<" || ceqb c ">" || ceqb c "," || ceqb c "[" || ceqb c "]" || ceqb c "*")%char.
Definition simpleB (s : str) : Prop := Forall (fun c => special c = false) s.
(** A component of a name: a non-empty word of letters, digits, underscores and spaces. *)
Definition wchar (c : ascii) : bool := (isalnum c || ceqb c "_" || ceqb c " ")%char.
Definition wordB (w : str) : Prop := w <> [] /\ Forall (fun c => wchar c = true) w.

Fixpoint vfrom (a : bool) (b r : str) : bool :=
  match r with
  | [] => match b with [] => true | _ => isValidTypeBasename b a false end
  | c :: r' => if ceqb c slash then isValidTypeBasename b a false && vfrom a [c] r' else vfrom a (b ++ [c]) r'
  end.
Lemma at_app p r i : at_ (p ++ r) (length p + i) = at_ r i.
Proof. unfold at_. rewrite app_nth2 by lia. f_equal. lia. Qed.
Lemma substr_app p b r : substr (p ++ b ++ r) (length p) (length b) = b.
Proof. unfold substr. rewrite skipn_app, skipn_all, Nat.sub_diag. cbn [skipn app]. rewrite firstn_app, Nat.sub_diag, firstn_all, firstn_O, app_nil_r. reflexivity. Qed.
Lemma special_neq c : special c = false -> ceqb c "<" = false /\ ceqb c "[" = false /\ ceqb c "]" = false /\ ceqb c ">" = false /\ ceqb c "," = false /\ ceqb c "*" = false.
Proof. unfold special. rewrite !orb_false_iff. tauto. Qed.
Lemma vt_loop_simple a r : forall b p f, simpleB r -> (length r + 1 <= f)%nat ->
  exists j, vt_loop f (p ++ b ++ r) (length p) (length p + length b) a false = Ok (vfrom a b r, j).
Proof.
  induction r as [|c r IH]; intros b p f Hs Hf; (destruct f as [|f]; [cbn [length] in Hf; lia|]); cbn [vt_loop vfrom].
  - rewrite app_nil_r, app_length. rewrite Nat.ltb_irrefl. destruct b as [|b0 b].
    + cbn [length]. rewrite Nat.add_0_r, Nat.eqb_refl. eauto.
    + destruct (Nat.eqb_spec (length p) (length p + length (b0 :: b))) as [E|E]; [cbn [length] in E; lia|].
      assert (X := substr_app p (b0 :: b) []). rewrite app_nil_r in X.
      replace (length p + length (b0 :: b) - length p)%nat with (length (b0 :: b)) by lia. rewrite X. eauto.
  - inversion Hs as [|? ? Hc Hs']; subst. apply special_neq in Hc. destruct Hc as (N1 & N2 & N3 & N4 & N5 & N6).
    destruct (Nat.ltb_spec (length p + length b) (length (p ++ b ++ c :: r))) as [L|L]; [|rewrite !app_length in L; cbn [length] in L; lia].
    replace (at_ (p ++ b ++ c :: r) (length p + length b)) with c.
    2:{ rewrite at_app. rewrite <- (Nat.add_0_r (length b)), at_app. reflexivity. }
    rewrite (Nat.add_comm (length p) (length b)), Nat.add_sub, substr_app. change (ceqb c "/"%char) with (ceqb c slash).
    destruct (ceqb c slash) eqn:E.
    + destruct (isValidTypeBasename b a false); [|eauto]. cbn [andb].
      destruct (IH [c] (p ++ b) f Hs' ltac:(cbn [length] in Hf; lia)) as [j H]. exists j. rewrite <- H. rewrite app_length. cbn [length].
      rewrite <- app_assoc. cbn [app]. f_equal; lia.
    + rewrite N1, N2, N3, N4, N5. cbn [orb]. destruct (IH (b ++ [c]) p f Hs' ltac:(cbn [length] in Hf; lia)) as [j H]. exists j. rewrite <- H.
      rewrite app_length. cbn [length]. rewrite <- app_assoc. cbn [app]. f_equal; lia.
Qed.
Lemma before_simple s : simpleB s -> before_modifiers s = s.
Proof.
  induction 1 as [|c s Hc Hs IH]; cbn [before_modifiers]; [reflexivity|]. apply special_neq in Hc. destruct Hc as (_ & -> & _ & _ & _ & ->).
  cbn [orb]. rewrite IH. reflexivity.
Qed.
Lemma ident_word s : simpleB s -> (isValidIdentifier s = true <-> wordB s).
Proof.
  intros Hs. unfold isValidIdentifier, wordB. rewrite andb_true_iff, negb_true_iff. split; intros [H1 H2]; split.
  - intros ->. discriminate.
  - apply Forall_forall. intros c Hi. rewrite forallb_forall in H2. specialize (H2 c Hi). unfold simpleB in Hs. rewrite Forall_forall in Hs.
    specialize (Hs c Hi). apply special_neq in Hs. destruct Hs as (N1 & _ & _ & N4 & _). unfold ident_char in H2. unfold wchar. rewrite N1, N4 in H2.
    destruct (isalnum c), (ceqb c "_"), (ceqb c " "); simpl in *; auto.
  - destruct s; [contradiction|reflexivity].
  - apply forallb_forall. intros c Hi. rewrite Forall_forall in H2. specialize (H2 c Hi). unfold wchar in H2. unfold ident_char.
    destruct (isalnum c), (ceqb c "_"), (ceqb c " "); simpl in *; auto; discriminate.
Qed.
Definition no_slash (w : str) : Prop := ~ In slash w.
Lemma word_no_slash w : wordB w -> no_slash w.
Proof. intros [_ H] Hi. rewrite Forall_forall in H. specialize (H _ Hi). discriminate. Qed.
Lemma no_slash_abs w : no_slash w -> isAbsoluteName w = false.
Proof. destruct w as [|c w]; [reflexivity|]. intros H. simpl. apply ceqb_neq. intros ->. apply H. left; reflexivity. Qed.
Lemma split_unique w r w' r' : no_slash w -> no_slash w' -> w ++ slash :: r = w' ++ slash :: r' -> w = w' /\ r = r'.
Proof.
  revert w'. induction w as [|c w IH]; intros [|c' w'] H1 H2 E; simpl in E.
  - inversion E. auto.
  - inversion E; subst. exfalso. apply H2. left; reflexivity.
  - inversion E; subst. exfalso. apply H1. left; reflexivity.
  - inversion E; subst. destruct (IH w') as [-> ->]; auto; intros Hi; [apply H1|apply H2]; right; assumption.
Qed.
Lemma join_no_slash w l : l <> [] -> Forall wordB l -> no_slash w -> w = join l -> l = [w].
Proof.
  intros Hl Hw Hn ->. destruct l as [|x [|y l]]; [contradiction|reflexivity|]. exfalso. apply Hn. cbn [join]. apply in_or_app. right; left; reflexivity.
Qed.
Lemma join_split w r l : l <> [] -> Forall wordB l -> no_slash w -> w ++ slash :: r = join l -> exists l', l = w :: l' /\ l' <> [] /\ r = join l'.
Proof.
  intros Hl Hw Hn E. inversion Hw as [|x l0 Hx Hl0]; subst; [contradiction|]. destruct l0 as [|y l].
  - cbn [join] in E. exfalso. apply (word_no_slash Hx). rewrite <- E. apply in_or_app. right; left; reflexivity.
  - change (join (x :: y :: l)) with (x ++ slash :: join (y :: l)) in E. apply split_unique in E; [|assumption|apply word_no_slash; assumption].
    destruct E as [-> ->]. exists (y :: l). repeat split; discriminate.
Qed.
Definition rel_name (x : str) : Prop := exists l, l <> [] /\ x = join l /\ Forall wordB l.
Lemma rel_cons w r : no_slash w -> (rel_name (w ++ slash :: r) <-> wordB w /\ rel_name r).
Proof.
  intros Hn. split.
  - intros (l & H1 & H2 & H3). destruct (join_split H1 H3 Hn H2) as (l' & -> & H4 & H5). inversion H3; subst. split; [assumption|]. exists l'. auto.
  - intros [Hw (l & H1 & -> & H3)]. exists (w :: l). repeat split; [discriminate| |constructor; assumption].
    destruct l; [contradiction|reflexivity].
Qed.
Lemma rel_word w : no_slash w -> (rel_name w <-> wordB w).
Proof.
  intros Hn. split.
  - intros (l & H1 & H2 & H3). rewrite (join_no_slash H1 H3 Hn H2) in H3. inversion H3; assumption.
  - intros Hw. exists [w]. repeat split; [discriminate|constructor; auto].
Qed.
Lemma base_abs a w : no_slash w -> simpleB w -> (isValidTypeBasename (slash :: w) a false = true <-> wordB w).
Proof.
  intros Hn Hs. unfold isValidTypeBasename. cbn [andb isAbsoluteName negb tl]. rewrite ceqb_refl. cbn [negb]. rewrite andb_false_r, before_simple by assumption.
  apply ident_word; assumption.
Qed.
Lemma base_rel w : no_slash w -> simpleB w -> (isValidTypeBasename w false false = true <-> wordB w).
Proof.
  intros Hn Hs. unfold isValidTypeBasename. cbn [andb]. rewrite no_slash_abs, before_simple by assumption. apply ident_word; assumption.
Qed.
Lemma no_slash_snoc w c : no_slash w -> ceqb c slash = false -> no_slash (w ++ [c]).
Proof. intros H E Hi. apply in_app_or in Hi. destruct Hi as [Hi|[-> |[]]]; [contradiction|]. rewrite ceqb_refl in E. discriminate. Qed.
Lemma vfrom_abs a r : forall w, no_slash w -> simpleB w -> simpleB r -> (vfrom a (slash :: w) r = true <-> rel_name (w ++ r)).
Proof.
  induction r as [|c r IH]; intros w Hn Hw Hr; cbn [vfrom].
  - rewrite app_nil_r, base_abs, rel_word by assumption. tauto.
  - inversion Hr; subst. destruct (ceqb c slash) eqn:E.
    + apply ceqb_eq in E. subst c. rewrite andb_true_iff, base_abs, rel_cons by assumption. change [slash] with (slash :: @nil ascii).
      rewrite IH; [reflexivity|intros []|constructor|assumption].
    + cbn [app]. change ((slash :: w ++ [c])) with (slash :: (w ++ [c])). rewrite IH; [rewrite <- app_assoc; reflexivity| |apply Forall_app; auto|assumption].
      apply no_slash_snoc; assumption.
Qed.
Lemma vfrom_rel r : forall w, w ++ r <> [] -> no_slash w -> simpleB w -> simpleB r -> isAbsoluteName (w ++ r) = false -> (vfrom false w r = true <-> rel_name (w ++ r)).
Proof.
  induction r as [|c r IH]; intros w Hne Hn Hw Hr Ha; cbn [vfrom].
  - rewrite app_nil_r in *. destruct w as [|w0 w]; [contradiction|]. rewrite base_rel, rel_word by assumption. tauto.
  - inversion Hr; subst. destruct (ceqb c slash) eqn:E.
    + apply ceqb_eq in E. subst c. rewrite andb_true_iff, base_rel, rel_cons by assumption. change [slash] with (slash :: @nil ascii).
      rewrite vfrom_abs; [reflexivity|intros []|constructor|assumption].
    + rewrite IH; [rewrite <- app_assoc; reflexivity|destruct w; discriminate| |apply Forall_app; auto|assumption|].
      * apply no_slash_snoc; assumption.
      * rewrite <- app_assoc. assumption.
Qed.
Lemma base_true_rel w : isAbsoluteName w = false -> isValidTypeBasename w true false = false.
Proof. intros H. unfold isValidTypeBasename. rewrite H. reflexivity. Qed.
Lemma vfrom_true_rel r : forall w, w ++ r <> [] -> isAbsoluteName (w ++ r) = false -> vfrom true w r = false.
Proof.
  induction r as [|c r IH]; intros w Hne Ha; cbn [vfrom].
  - rewrite app_nil_r in *. destruct w; [contradiction|]. apply base_true_rel; assumption.
  - destruct (ceqb c slash) eqn:E.
    + rewrite base_true_rel; [reflexivity|]. destruct w as [|w0 w]; [reflexivity|exact Ha].
    + apply IH; [destruct w; discriminate|]. rewrite <- app_assoc. assumption.
Qed.
(** Stated in terms of the grammar. *)
Definition all_ascii : list ascii := map ascii_of_nat (seq 0 256).
Lemma ascii_cases (P : ascii -> Prop) (f : ascii -> bool) : (forall c, f c = true -> P c) -> forallb f all_ascii = true -> forall c, P c.
Proof.
  intros Hf H c. apply Hf. rewrite forallb_forall in H. apply H. unfold all_ascii. apply in_map_iff. exists (nat_of_ascii c).
  split; [apply ascii_nat_embedding|]. apply in_seq. assert (X := nat_ascii_bounded c). lia.
Qed.
Definition inb (c : ascii) (l : str) : bool := existsb (Ascii.eqb c) l.
Lemma inb_iff c l : inb c l = true <-> In c l.
Proof. unfold inb. rewrite existsb_exists. split; [intros (x & H & E); apply Ascii.eqb_eq in E; subst; assumption|intros H; exists c; split; [assumption|apply Ascii.eqb_refl]]. Qed.
Lemma wchar_spec c : wchar c = true <-> word_char c.
Proof.
  assert (H : forall c, wchar c = inb c letters || inb c digits || ceqb c "_"%char || ceqb c " "%char).
  { intros d. revert d. apply (@ascii_cases (fun c => wchar c = inb c letters || inb c digits || ceqb c "_"%char || ceqb c " "%char)
      (fun c => Bool.eqb (wchar c) (inb c letters || inb c digits || ceqb c "_"%char || ceqb c " "%char))).
    - intros d E. apply eqb_prop in E. assumption.
    - vm_compute. reflexivity. }
  rewrite H, !orb_true_iff, !inb_iff, !ceqb_eq. unfold word_char. tauto.
Qed.
Lemma digit_spec c : isdigit c = true <-> digit c.
Proof.
  assert (H : forall c, isdigit c = inb c digits).
  { intros d. revert d. apply (@ascii_cases (fun c => isdigit c = inb c digits) (fun c => Bool.eqb (isdigit c) (inb c digits))).
    - intros d E. apply eqb_prop in E. assumption.
    - vm_compute. reflexivity. }
  rewrite H. apply inb_iff.
Qed.
Lemma special_spec c : special c = false <-> ~ In c (list_ascii_of_string "<>,[]*").
Proof.
  assert (H : forall c, special c = inb c (list_ascii_of_string "<>,[]*")).
  { intros d. revert d. apply (@ascii_cases (fun c => special c = inb c (list_ascii_of_string "<>,[]*")) (fun c => Bool.eqb (special c) (inb c (list_ascii_of_string "<>,[]*")))).
    - intros d E. apply eqb_prop in E. assumption.
    - vm_compute. reflexivity. }
  rewrite H, <- inb_iff. destruct (inb c _); split; congruence.
Qed.
Lemma Forall_iff (A : Type) (P Q : A -> Prop) l : (forall x, P x <-> Q x) -> (Forall P l <-> Forall Q l).
Proof. intros H. split; apply Forall_impl; intros; apply H; assumption. Qed.
Lemma word_B w : word w <-> wordB w.
Proof. unfold word, wordB. rewrite (Forall_iff w wchar_spec). tauto. Qed.
Lemma simple_B s : simple s <-> simpleB s.
Proof. unfold simple, simpleB. rewrite (Forall_iff s special_spec). tauto. Qed.

Theorem isValidTypename_simpleB s absolute : simpleB s ->
  (isValidTypename s absolute = true <->
   exists l, l <> [] /\ Forall wordB l /\ (s = slash :: join l \/ (absolute = false /\ s = join l))).
Proof.
  intros Hs. destruct s as [|c s].
  { simpl. split; [discriminate|]. intros (l & H1 & H2 & [H|[_ H]]); [discriminate|]. destruct l as [|x [|y l]]; [contradiction| |].
    - simpl in H. subst. inversion H2 as [|? ? [H _]]; contradiction.
    - destruct x; discriminate. }
  unfold isValidTypename, vt_fuel. remember (4 * S (length (c :: s)))%nat as f eqn:Ef. destruct f as [|f]; [lia|]. cbn [vt].
  change (at_ (c :: s) 0) with c. inversion Hs as [|? ? Hc Hs']; subst. destruct (ceqb c "/") eqn:E.
  - apply ceqb_eq in E. subst c. destruct (@vt_loop_simple absolute s [slash] [] f Hs' ltac:(cbn [length] in Ef; lia)) as [j H].
    cbn [app length Nat.add] in H. change "/"%char with slash. rewrite H.
    rewrite (@vfrom_abs absolute s []); [|intros []|constructor|assumption]. cbn [app]. split.
    + intros (l & H1 & -> & H3). exists l. auto.
    + intros (l & H1 & H2 & [H3|[_ H3]]); [inversion H3; subst; exists l; auto|].
      exfalso. inversion H2 as [|x l0 Hx Hl0]; subst; [contradiction|]. destruct x as [|x0 x]; [destruct Hx as [Hx _]; contradiction|].
      destruct Hx as [_ Hx]. inversion Hx as [|? ? Hx0 _]; subst.
      assert (x0 = slash) by (destruct l0; cbn [join app] in H3; inversion H3; reflexivity). subst. discriminate.
  - destruct (@vt_loop_simple absolute (c :: s) [] [] f Hs ltac:(lia)) as [j H]. cbn [app length Nat.add] in H. rewrite H.
    assert (Ha : isAbsoluteName (c :: s) = false) by exact E.
    destruct absolute.
    + rewrite (@vfrom_true_rel (c :: s) []); [|discriminate|assumption]. split; [discriminate|]. intros (l & _ & _ & [H3|[H3 _]]); [|discriminate].
      inversion H3; subst. discriminate.
    + rewrite (@vfrom_rel (c :: s) []); [|discriminate|intros []|constructor|assumption|assumption]. cbn [app]. split.
      * intros (l & H1 & H2 & H3). exists l. auto.
      * intros (l & H1 & H2 & [H3|[_ H3]]); [|exists l; auto]. inversion H3; subst. discriminate.
Qed.

Theorem isValidTypename_simple s absolute : simple s ->
  (isValidTypename s absolute = true <->
   exists l, l <> [] /\ Forall word l /\ (s = sep :: join l \/ (absolute = false /\ s = join l))).
Proof.
  rewrite simple_B. intros H. rewrite (@isValidTypename_simpleB s absolute H).
  split; intros (l & A & B & C); exists l; (split; [assumption|split; [|exact C]]); revert B; apply (Forall_iff l word_B).
Qed.
