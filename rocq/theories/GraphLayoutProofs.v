(** * GraphLayoutProofs: the layout of a type object is the one of its tree. *)
From Verif Require Import Base Types Layout LayoutSpec WellFormed GraphLayout GraphLayoutSpec.
From Verif Require Import Graph.
Local Open Scope N_scope.

(** ** simplify does not look at addresses *)
Section Words.
Variable R : word -> word -> Prop.
Hypothesis RW : forall n w, R (W n) w <-> w = W n.
Hypothesis RC : forall k s e w, R (WC k s e) w -> exists k' s' e', w = WC k' s' e'.

Definition rrel {A} (P : A -> A -> Prop) (r r' : res A) : Prop :=
  match r, r' with
  | Ok a, Ok b => P a b
  | Throw e, Throw e' => e = e'
  | UB u, UB u' => u = u'
  | Fuel, Fuel => True
  | _, _ => False
  end.
Notation RL := (Forall2 R).
Definition RP (p q : list word * list word) : Prop := RL (fst p) (fst q) /\ RL (snd p) (snd q).

Lemma rrel_bind A B (P : A -> A -> Prop) (Q : B -> B -> Prop) x x' f f' :
  rrel P x x' -> (forall a a', P a a' -> rrel Q (f a) (f' a')) -> rrel Q (bind x f) (bind x' f').
Proof. destruct x, x'; simpl; intros; try contradiction; auto. Qed.

Lemma decode_R w w' : R w w' -> decode w = decode w'.
Proof.
  destruct w as [n | k s e]; intros h.
  - apply RW in h; subst; reflexivity.
  - destruct (RC h) as (k' & s' & e' & ->); reflexivity.
Qed.
Lemma RWW n : R (W n) (W n).
Proof. apply RW; reflexivity. Qed.
Hint Resolve RWW : core.
Lemma RL_app a a' b b' : RL a a' -> RL b b' -> RL (a ++ b) (a' ++ b').
Proof. apply Forall2_app. Qed.
Lemma RL_one n : RL [W n] [W n].
Proof. auto. Qed.
Lemma RL_two n m : RL [W n; W m] [W n; W m].
Proof. auto. Qed.
Hint Resolve RL_app RL_one RL_two : core.
Lemma RL_map (d : list N) : RL (map W d) (map W d).
Proof. induction d; simpl; auto. Qed.
Hint Resolve RL_map : core.
Lemma RL_len a a' : RL a a' -> length a = length a'.
Proof. induction 1; simpl; congruence. Qed.
Lemma RL_firstn n a a' : RL a a' -> RL (firstn n a) (firstn n a').
Proof. intros h; revert n; induction h; intros [| n]; simpl; auto. Qed.
Lemma RL_skipn n a a' : RL a a' -> RL (skipn n a) (skipn n a').
Proof. intros h; revert n; induction h; intros [| n]; simpl; auto. Qed.
Lemma push_if_R c k a a' : RL a a' -> RL (push_if c k a) (push_if c k a').
Proof. unfold push_if; intros; destruct (c =? 0); auto. Qed.
Lemma push_init_opt_R d a a' : RL a a' -> RL (push_init_opt d a) (push_init_opt d a').
Proof. unfold push_init_opt; intros; destruct d; auto. Qed.
Hint Resolve push_if_R push_init_opt_R : core.
Lemma resize_to_R i k a a' : RL a a' -> rrel RL (resize_to i k a) (resize_to i k a').
Proof. unfold resize_to; intros; destruct (i <? k)%nat; simpl; auto using RL_firstn. Qed.

Lemma simp_R : forall f merge rts depth it it' cur cnt skp out out', RL it it' -> RL out out' ->
  rrel RP (simp f merge rts depth it cur cnt skp out) (simp f merge rts depth it' cur cnt skp out').
Proof.
  induction f as [| f IH]; intros merge rts depth it it' cur cnt skp out out' hi ho; [exact I |].
  cbn [simp].
  inversion hi as [| w w' r r' hw hr]; subst; clear hi.
  - destruct (cnt =? 0); [split; simpl; auto |].
    destruct (negb rts || negb (cur =? FLAG_SKIP) || (0 <? depth)%nat); split; simpl; auto.
  - destruct w as [op | k s e]; [| destruct (RC hw) as (k' & s' & e' & ->); reflexivity].
    apply RW in hw; subst w'.
    destruct (op =? FLAG_END).
    { split; simpl; auto. }
    destruct (op =? FLAG_ARRAY).
    { inversion hr as [| w w' r1 r1' hw1 hr1]; subst; [reflexivity |].
      destruct w as [n | k s e]; [| destruct (RC hw1) as (k' & s' & e' & ->); reflexivity].
      apply RW in hw1; subst w'.
      set (o2 := push_if cnt cur out ++ [W FLAG_ARRAY; W n]).
      set (o2' := push_if cnt cur out' ++ [W FLAG_ARRAY; W n]).
      assert (h2 : RL o2 o2') by (unfold o2, o2'; auto).
      cbv zeta. rewrite <- (RL_len h2).
      eapply rrel_bind; [exact (IH _ _ _ _ _ _ _ _ _ _ hr1 h2) |].
      intros [it3 out3] [it3' out3'] [hi3 ho3]; simpl in hi3, ho3; cbv beta iota.
      inversion hi3 as [| e e' r4 r4' he h4]; subst; [reflexivity |].
      rewrite <- (decode_R he). destruct (decode e); try reflexivity.
      rewrite <- (RL_len ho3).
      destruct (length out3 - length o2 =? 2)%nat.
      { pose proof (RL_skipn (length o2) ho3) as hs.
        inversion hs as [| x x' s s' hx h5 e1 e2]; [reflexivity |].
        destruct x as [op' | k0 s0 e0]; [| destruct (RC hx) as (? & ? & ? & ->); reflexivity].
        apply RW in hx; subst x'.
        inversion h5 as [| y y' s1 s1' hy h6]; [reflexivity |].
        destruct y as [c | k0 s0 e0]; [| destruct (RC hy) as (? & ? & ? & ->); destruct s1, s1'; reflexivity].
        apply RW in hy; subst y'.
        inversion h6; [| reflexivity].
        destruct ((op' =? cur) && negb (cnt =? 0)).
        + eapply rrel_bind; [exact (resize_to_R _ _ ho3) |]. intros; apply IH; auto.
        + eapply rrel_bind; [exact (resize_to_R _ _ ho3) |]. intros; apply IH; auto. }
      destruct (length out3 - length o2 =? 0)%nat.
      { eapply rrel_bind; [exact (resize_to_R _ _ ho3) |]. intros; apply IH; auto. }
      apply IH; auto. }
    destruct (op =? FLAG_CONTAINER).
    { inversion hr as [| w w' r1 r1' hw1 hr1]; subst; [reflexivity |].
      assert (h2 : RL (push_if cnt cur out ++ [W FLAG_CONTAINER; w]) (push_if cnt cur out' ++ [W FLAG_CONTAINER; w'])) by
        (apply RL_app; auto).
      eapply rrel_bind; [exact (IH _ _ _ _ _ _ _ _ _ _ hr1 h2) |].
      intros [it3 out3] [it3' out3'] [hi3 ho3]; simpl in hi3, ho3; cbv beta iota.
      inversion hi3 as [| e e' r4 r4' he h4]; subst; [reflexivity |].
      rewrite <- (decode_R he). destruct (decode e); try reflexivity.
      apply IH; auto. }
    inversion hr as [| w w' r1 r1' hw1 hr1]; subst; [reflexivity |].
    destruct w as [n | k s e]; [| destruct (RC hw1) as (k' & s' & e' & ->); reflexivity].
    apply RW in hw1; subst w'.
    destruct (op =? cur); [apply IH; auto |].
    destruct merge; apply IH; auto.
Qed.

Definition RQ (p q : list N * list word) : Prop := fst p = fst q /\ RL (snd p) (snd q).
Lemma take_words_R n : forall a a', RL a a' -> rrel RQ (take_words n a) (take_words n a').
Proof.
  induction n as [| n IH]; intros a a' h; simpl; [split; auto |].
  inversion h as [| w w' r r' hw hr]; subst; [reflexivity |].
  destruct w as [b | k s e]; [| destruct (RC hw) as (k' & s' & e' & ->); reflexivity].
  apply RW in hw; subst w'.
  eapply rrel_bind; [exact (IH _ _ hr) |].
  intros [x y] [x' y'] [h1 h2]; simpl in h1, h2; subst; split; auto.
Qed.

Lemma skip_match A (s s' : list word) (b : bool) (f : N -> A) (g : A) : RL s s' ->
  match b, s with true, [W 3; W c] => f c | _, _ => g end = match b, s' with true, [W 3; W c] => f c | _, _ => g end.
Proof.
  intros h. destruct b; [| reflexivity].
  inversion h as [| x x' t t' hx ht]; subst; [reflexivity |].
  destruct x as [n | k s0 e]; [| destruct (RC hx) as (k' & s' & e' & ->); reflexivity].
  apply RW in hx; subst x'.
  destruct n as [| [[p | p |] | p |]]; try reflexivity.
  inversion ht as [| y y' u u' hy hu]; subst; [reflexivity |].
  destruct y as [m | k s0 e]; [| destruct (RC hy) as (k' & s' & e' & ->); destruct u, u'; reflexivity].
  apply RW in hy; subst y'.
  inversion hu; reflexivity.
Qed.

Lemma simp_init_R : forall f shave it it' cnt data out out', RL it it' -> RL out out' ->
  rrel RP (simp_init f shave it cnt data out) (simp_init f shave it' cnt data out').
Proof.
  induction f as [| f IH]; intros shave it it' cnt data out out' hi ho; [exact I |].
  cbn [simp_init].
  inversion hi as [| w w' r r' hw hr]; subst.
  - destruct (negb (cnt =? 0) && negb shave); split; simpl; auto.
  - rewrite <- (decode_R hw). destruct (decode w).
    + inversion hr as [| v v' r1 r1' hw1 hr1]; subst; [reflexivity |].
      destruct v as [n | k s e]; [| destruct (RC hw1) as (k' & s' & e' & ->); reflexivity].
      apply RW in hw1; subst v'.
      eapply rrel_bind; [exact (take_words_R _ hr1) |].
      intros [x y] [x' y'] [h1 h2]; simpl in h1, h2; subst. apply IH; auto.
    + inversion hr as [| v v' r1 r1' hw1 hr1]; subst; [reflexivity |].
      destruct v as [n | k s e]; [| destruct (RC hw1) as (k' & s' & e' & ->); reflexivity].
      apply RW in hw1; subst v'.
      set (o2 := push_if cnt FLAG_INIT_SKIP (push_init_opt data out) ++ [W FLAG_INIT_REPEAT; W n]).
      set (o2' := push_if cnt FLAG_INIT_SKIP (push_init_opt data out') ++ [W FLAG_INIT_REPEAT; W n]).
      assert (h2 : RL o2 o2') by (unfold o2, o2'; auto).
      cbv zeta. rewrite <- (RL_len h2).
      eapply rrel_bind; [exact (IH _ _ _ _ _ _ _ hr1 h2) |].
      intros [it3 out3] [it3' out3'] [hi3 ho3]; simpl in hi3, ho3; cbv beta iota.
      inversion hi3 as [| e e' r4 r4' he h4]; subst; [reflexivity |].
      rewrite <- (decode_R he). destruct (decode e); try reflexivity.
      rewrite <- (RL_len ho3).
      set (F := fun c => if negb (cnt =? 0)
                then out4 <- resize_to (length o2) 4 out3 ;; simp_init f shave r4 (wadd cnt (wmul c n)) [] out4
                else out4 <- resize_to (length o2) 2 out3 ;; simp_init f shave r4 (wmul c n) [] out4).
      set (G := if (length out3 - length o2 =? 0)%nat
                then out4 <- resize_to (length o2) 4 out3 ;; simp_init f shave r4 cnt [] out4
                else simp_init f shave r4 0 [] (out3 ++ [W FLAG_INIT_END])).
      set (F' := fun c => if negb (cnt =? 0)
                then out4 <- resize_to (length o2) 4 out3' ;; simp_init f shave r4' (wadd cnt (wmul c n)) [] out4
                else out4 <- resize_to (length o2) 2 out3' ;; simp_init f shave r4' (wmul c n) [] out4).
      set (G' := if (length out3 - length o2 =? 0)%nat
                then out4 <- resize_to (length o2) 4 out3' ;; simp_init f shave r4' cnt [] out4
                else simp_init f shave r4' 0 [] (out3' ++ [W FLAG_INIT_END])).
      pose proof (RL_skipn (length o2) ho3) as hs.
      pose proof (@skip_match _ _ _ (length out3 - length o2 =? 2)%nat F' G' hs) as e1.
      assert (HF : forall c, rrel RP (F c) (F' c)).
      { intros c; unfold F, F'. destruct (negb (cnt =? 0)); eapply rrel_bind; try exact (resize_to_R _ _ ho3); intros; apply IH; auto. }
      assert (HG : rrel RP G G').
      { unfold G, G'. destruct (length out3 - length o2 =? 0)%nat; [eapply rrel_bind; [exact (resize_to_R _ _ ho3) |]; intros; apply IH; auto |].
        apply IH; auto. }
      cut (rrel RP (match (length out3 - length o2 =? 2)%nat, skipn (length o2) out3 with true, [W 3; W c] => F c | _, _ => G end)
                   (match (length out3 - length o2 =? 2)%nat, skipn (length o2) out3' with true, [W 3; W c] => F' c | _, _ => G' end)).
      { exact (fun x => x). }
      refine (eq_ind _ (fun z => rrel RP _ z) _ _ e1).
      destruct (length out3 - length o2 =? 2)%nat; [| exact HG].
      destruct (skipn (length o2) out3) as [| [[| [[p | p |] | p |]] | k s e0] [| [c | k1 s1 e2] [| z l]]]; auto.
    + inversion hr as [| v v' r1 r1' hw1 hr1]; subst; [reflexivity |]. apply IH; auto.
    + inversion hr as [| v v' r1 r1' hw1 hr1]; subst; [reflexivity |].
      destruct v as [n | k s e]; [| destruct (RC hw1) as (k' & s' & e' & ->); reflexivity].
      apply RW in hw1; subst v'. apply IH; auto.
    + destruct (negb (cnt =? 0)); split; simpl; auto.
    + reflexivity.
Qed.

Definition RLay (l l' : layout) : Prop := RL (ops l) (ops l') /\ RL (iops l) (iops l').
Lemma simplify_R merge rts l l' : RLay l l' -> rrel RLay (simplify merge rts l) (simplify merge rts l').
Proof.
  intros [ho hi]. unfold simplify. rewrite <- (RL_len ho).
  eapply rrel_bind; [exact (simp_R _ _ _ _ _ _ _ ho (Forall2_nil R)) |].
  intros [it out] [it' out'] [h1 h2]; simpl in h1, h2; cbv beta iota.
  inversion h1; subst; [| reflexivity].
  eapply rrel_bind with (P := RL).
  - unfold simplify_init. rewrite <- (RL_len hi).
    eapply rrel_bind; [exact (simp_init_R _ _ _ _ hi (Forall2_nil R)) |].
    intros [it out0] [it' out0'] [h3 h4]; simpl in h3, h4; cbv beta iota.
    inversion h3; subst; [| reflexivity].
    inversion h4 as [| w w' r r' hw hr]; subst; [simpl; auto |].
    inversion hr as [| v v' r1 r1' hv hr1]; subst; [simpl; auto |].
    inversion hr1; subst; [| simpl; auto].
    rewrite <- (decode_R hw); destruct (decode w); simpl; auto.
  - intros a a' h; split; auto.
Qed.
End Words.

(** ** The visitor *)
Lemma same_word_W H n w : same_word H (W n) w <-> w = W n.
Proof. reflexivity. Qed.
Lemma same_word_C H k s e w : same_word H (WC k s e) w -> exists k' s' e', w = WC k' s' e'.
Proof. intros (c & k' & x & e' & _ & _ & _ & ->); eauto. Qed.

Lemma WWs H n : same_word H (W n) (W n).
Proof. reflexivity. Qed.
#[local] Hint Resolve WWs : core.
Lemma WWl H (d : list N) : Forall2 (same_word H) (map W d) (map W d).
Proof. induction d; simpl; constructor; auto. Qed.
#[local] Hint Resolve WWl Forall2_app : core.
Notation LL H := (same_layout H).
Lemma push_skip_LL H n l l' : LL H l l' -> LL H (push_skip n l) (push_skip n l').
Proof. intros [h1 h2]; split; simpl; apply Forall2_app; auto. Qed.
Lemma push_memcpy_LL H n d l l' : LL H l l' -> rrel (LL H) (push_memcpy n d l) (push_memcpy n d l').
Proof.
  intros [h1 h2]; unfold push_memcpy. destruct d as [| b d].
  - split; simpl; apply Forall2_app; auto.
  - destruct (negb (n =? lenN (b :: d))); [reflexivity |]. split; simpl; apply Forall2_app; auto.
Qed.
Lemma push_array_LL H d s s' l l' : LL H s s' -> LL H l l' -> LL H (push_array d s l) (push_array d s' l').
Proof.
  intros [h1 h2] [h3 h4]; split; simpl; (apply Forall2_app; [assumption |]); (do 2 (constructor; auto)).
Qed.
Lemma empty_LL H : LL H empty_layout empty_layout.
Proof. split; constructor. Qed.

Section Tree.
Variable H : heap.

Lemma tree_size t T : tree_of H t T -> T <> TNull -> sizeof T = o_size (H t).
Proof. destruct 1; intros h; simpl; congruence. Qed.

Lemma visit_tree_all :
  (forall t T, tree_of H t T -> exists n, forall f, (n <= f)%nat -> forall ap ao l l', LL H l l' ->
     rrel (LL H) (gvisit f ap ao H t l) (visit ap ao T l')) /\
  (forall fs gs, fields_of H fs gs -> exists n, forall f, (n <= f)%nat -> forall ap ao l l' cur, LL H l l' ->
     rrel (fun p q => LL H (fst p) (fst q) /\ snd p = snd q)
          (gvisit_fields H (gvisit f ap ao H) fs cur l) (visit_fields ap ao gs cur l')).
Proof.
  apply tree_fields_ind; try (intros t h; exists 1%nat; intros [| f] hf; [lia |]; intros; simpl; rewrite h; simpl; auto).
  - destruct ao; simpl; auto using push_skip_LL.
  - intros t c h; exists 1%nat; intros [| f] hf; [lia |]; intros; cbn [gvisit visit]; rewrite h; apply push_memcpy_LL; auto.
  - intros t v h; exists 1%nat; intros [| f] hf; [lia |]; intros; cbn [gvisit visit]; rewrite h.
    destruct (8 <? o_size (H t)); [reflexivity |]. apply push_memcpy_LL; auto.
  - intros t x h; exists 1%nat; intros [| f] hf; [lia |]; intros; cbn [gvisit visit]; rewrite h.
    destruct ap; [| reflexivity]. apply push_memcpy_LL; auto.
  - intros t d x e h _ [n IH]; exists (S n); intros [| f] hf; [lia |]; intros; cbn [gvisit visit]; rewrite h.
    eapply rrel_bind; [apply (IH f); [lia | apply empty_LL] |].
    intros s s' hs; simpl; apply push_array_LL; auto.
  - intros t k x e h ht [n IH]; exists (S n); intros [| f] hf; [lia |]; intros ap ao l l' hl; cbn [gvisit visit]; rewrite h.
    eapply rrel_bind; [apply (IH f); [lia | apply empty_LL] |].
    intros s s' [hs1 hs2]; destruct hl as [hl1 hl2]; simpl.
    assert (hw : same_word H (addr t) (WC k (o_size (H t)) e)) by (exists t, k, x, e; repeat split; auto).
    split; simpl; (apply Forall2_app; [assumption |]); (do 2 (constructor; auto)).
  - intros t fs gs h _ [n IH]; exists (S n); intros [| f] hf; [lia |]; intros; cbn [gvisit visit]; rewrite h.
    eapply rrel_bind; [apply (IH f); [lia | eassumption] |].
    intros [a c] [a' c'] [h1 h2]; simpl in *; subst. apply push_skip_LL; auto.
  - exists 0%nat; intros; simpl; auto.
  - intros f fs T gs hT [n IH] _ [m IH']; exists (Nat.max n m); intros k hk ap ao l l' cur hl; cbn [gvisit_fields visit_fields].
    pose proof (IH k ltac:(lia) ap ao _ _ (push_skip_LL (wsub (f_off f) cur) hl)) as h1.
    destruct T; [destruct (gvisit k ap ao H (f_type f) _); simpl in h1; try contradiction; simpl; auto | ..];
    (eapply rrel_bind; [exact h1 |]; intros a a' ha; rewrite (tree_size hT) by discriminate; apply IH'; [lia | assumption]).
Qed.

Lemma glayout_tree t T : tree_of H t T -> exists n, forall f, (n <= f)%nat -> forall ap ao merge rts,
  same_result H (glayout_of f ap ao merge rts H t) (layout_of ap ao merge rts T) \/
  (glayout_of f ap ao merge rts H t = Fuel /\ layout_of ap ao merge rts T = Fuel).
Proof.
  intros h. destruct (proj1 visit_tree_all _ _ h) as [n hn]. exists n; intros f hf ap ao merge rts.
  assert (hr : rrel (LL H) (glayout_of f ap ao merge rts H t) (layout_of ap ao merge rts T)).
  { unfold glayout_of, layout_of, raw_layout_of. eapply rrel_bind; [apply (hn f hf); apply empty_LL |].
    intros a a' ha. exact (@simplify_R _ (@same_word_W H) (@same_word_C H) merge rts a a' ha). }
  destruct (glayout_of f ap ao merge rts H t), (layout_of ap ao merge rts T); simpl in *; try contradiction; auto.
Qed.

(** A layout is only computed for objects that have a tree. *)
Lemma visited_tree : forall f ap ao t l l', gvisit f ap ao H t l = Ok l' -> exists T, tree_of H t T.
Proof.
  induction f as [| f IH]; intros ap ao t l l' h; [discriminate |].
  cbn [gvisit] in h. destruct (o_kind (H t)) as [| | c | v | x | d x | k x | fs] eqn:ek.
  - eexists; apply tree_null; eauto.
  - eexists; apply tree_opaque; eauto.
  - eexists; eapply tree_num; eauto.
  - eexists; eapply tree_enum; eauto.
  - eexists; eapply tree_ptr; eauto.
  - destruct (gvisit f false false H x empty_layout) eqn:e; try discriminate.
    destruct (IH _ _ _ _ _ e) as [T hT]. eexists; eapply tree_arr; eauto.
  - destruct (gvisit f false false H x empty_layout) eqn:e; try discriminate.
    destruct (IH _ _ _ _ _ e) as [T hT]. eexists; eapply tree_cont; eauto.
  - destruct (gvisit_fields H (gvisit f ap ao H) fs 0 l) as [[l1 c] | | |] eqn:e; try discriminate.
    assert (hf : exists gs, fields_of H fs gs).
    { clear h ek. revert l l1 c e. generalize 0 as cur.
      induction fs as [| a fs IHf]; intros cur l l1 c e; [exists FNil; constructor |].
      cbn [gvisit_fields] in e.
      destruct (gvisit f ap ao H (f_type a) _) eqn:e1; try discriminate.
      destruct (IH _ _ _ _ _ e1) as [T hT]. destruct (IHf _ _ _ _ e) as [gs hg].
      exists (FCons (f_name a) (f_off a) T gs); constructor; auto. }
    destruct hf as [gs hg]. eexists; eapply tree_comp; eauto.
Qed.

Lemma tree_fun_all :
  (forall t T, tree_of H t T -> forall T', tree_of H t T' -> T = T') /\
  (forall fs gs, fields_of H fs gs -> forall gs', fields_of H fs gs' -> gs = gs').
Proof.
  apply tree_fields_ind; try (intros; match goal with h : tree_of H _ _ |- _ => inversion h; subst; congruence end).
  - intros t d x e h ht IH T' h'. inversion h'; subst; try congruence.
    match goal with h1 : o_kind (H t) = Graph.OArr ?a ?b |- _ => rewrite h in h1; injection h1 as -> -> end.
    f_equal; auto.
  - intros t d x e h ht IH T' h'. inversion h'; subst; try congruence.
    match goal with h1 : o_kind (H t) = Graph.OCont ?a ?b, h2 : o_kind (H t) = Graph.OCont _ _ |- _ => rewrite h1 in h2; injection h2 as -> -> end.
    f_equal; auto.
  - intros t fs gs h ht IH T' h'. inversion h'; subst; try congruence.
    f_equal. apply IH. congruence.
  - intros gs' h; inversion h; reflexivity.
  - intros f fs T gs hT IH hf IHf gs' h; inversion h; subst. f_equal; auto.
Qed.

(** ** Which objects have a tree *)
Lemma tree_inner_all :
  (forall t T, tree_of H t T -> forall b, In b (inner H t) -> exists S, tree_of H b S) /\
  (forall fs gs, fields_of H fs gs -> forall b, In b (map f_type fs) -> exists S, tree_of H b S).
Proof.
  apply tree_fields_ind; unfold inner.
  1-5: intros; match goal with h : o_kind _ = _, h' : In _ _ |- _ => rewrite h in h'; destruct h' end.
  - intros t d x e h hx _ b hb; rewrite h in hb; destruct hb as [<- | []]; eauto.
  - intros t k x e h hx _ b hb; rewrite h in hb; destruct hb as [<- | []]; eauto.
  - intros t fs gs h hx IH b hb; rewrite h in hb; eauto.
  - intros b [].
  - intros f fs T gs hT _ hf IH b [<- | hb]; [eauto | auto].
Qed.

Fixpoint weight (t : ty) : nat :=
  match t with
  | TArray _ _ e | TCont _ _ e => S (weight e)
  | TComp _ fs => S (fweight fs)
  | _ => 1
  end
with fweight (fs : fields) : nat :=
  match fs with
  | FNil => 0
  | FCons _ _ t r => weight t + fweight r
  end%nat.

Lemma tree_smaller t T b S : tree_of H t T -> In b (inner H t) -> tree_of H b S -> (weight S < weight T)%nat.
Proof.
  intros h hb hS. unfold inner in hb. destruct h as [? e | ? e | ? ? e | ? ? e | ? ? e | t d x e ek h | t k x e ek h | t fs gs ek h];
    try (rewrite e in hb; destruct hb); rewrite ek in hb.
  - destruct hb as [<- | []]. rewrite (proj1 tree_fun_all _ _ h _ hS). simpl; lia.
  - destruct hb as [<- | []]. rewrite (proj1 tree_fun_all _ _ h _ hS). simpl; lia.
  - simpl. clear ek. revert gs h. induction fs as [| f fs IH]; intros gs h; [destruct hb |].
    inversion h as [| f' fs' T' gs' hT hf]; subst. destruct hb as [<- | hb].
    + rewrite (proj1 tree_fun_all _ _ hT _ hS). simpl; lia.
    + specialize (IH hb _ hf). simpl; lia.
Qed.
Lemma holds_tree t b : holds H t b -> forall T, tree_of H t T -> exists S, tree_of H b S /\ (weight S < weight T)%nat.
Proof.
  induction 1 as [t b hb | t b c hb _ IH]; intros T h;
    destruct (proj1 tree_inner_all _ _ h _ hb) as [S hS]; pose proof (tree_smaller h hb hS).
  - eauto.
  - destruct (IH _ hS) as (S' & h1 & h2). exists S'; split; [assumption | lia].
Qed.
Lemma tree_sound t T : tree_of H t T -> sound_type H t.
Proof.
  intros h.
  assert (hn : forall b S, tree_of H b S -> ~ holds H b b).
  { intros b S hS hb. destruct (holds_tree hb hS) as (S' & h1 & h2).
    rewrite (proj1 tree_fun_all _ _ hS _ h1) in h2; lia. }
  split; [eauto |]. intros b hb. destruct (holds_tree hb h) as (S & hS & _); eauto.
Qed.

Lemma holds_trans a b c : holds H a b -> holds H b c -> holds H a c.
Proof. induction 1; intros; eauto using holds_one, holds_more. Qed.

Lemma children_tree x : (forall b, In b (inner H x) -> exists T, tree_of H b T) -> exists T, tree_of H x T.
Proof.
  intros child. unfold inner in child. destruct (o_kind (H x)) as [| | c | v | y | d y | k y | fs] eqn:ek.
  - eexists; apply tree_null; eauto.
  - eexists; apply tree_opaque; eauto.
  - eexists; eapply tree_num; eauto.
  - eexists; eapply tree_enum; eauto.
  - eexists; eapply tree_ptr; eauto.
  - destruct (child y (or_introl eq_refl)) as [T hT]; eexists; eapply tree_arr; eauto.
  - destruct (child y (or_introl eq_refl)) as [T hT]; eexists; eapply tree_cont; eauto.
  - assert (hf : exists gs, fields_of H fs gs).
    { clear ek. induction fs as [| f fs IH]; [exists FNil; constructor |].
      destruct IH as [gs hg]; [intros b hb; apply child; right; assumption |].
      destruct (child (f_type f) (or_introl eq_refl)) as [T hT].
      exists (FCons (f_name f) (f_off f) T gs); constructor; auto. }
    destruct hf as [gs hg]. eexists; eapply tree_comp; eauto.
Qed.
Lemma sound_tree dom t : (forall b, holds H t b -> In b dom) -> sound_type H t -> exists T, tree_of H t T.
Proof.
  intros hd hs.
  assert (main : forall n v x, (S (length dom) - length v < n)%nat -> NoDup v -> incl v (t :: dom) ->
            (forall y, In y v -> y = x \/ holds H y x) -> (x = t \/ holds H t x) -> exists T, tree_of H x T).
  { induction n as [| n IH]; intros v x hn nd hv hr hx; [lia |].
    apply children_tree. intros b hb.
    assert (hxb : holds H x b) by (apply holds_one; auto).
    assert (htb : holds H t b) by (destruct hx as [-> | hx]; [assumption | eapply holds_trans; eassumption]).
    assert (hbv : ~ In b v).
    { intros hin. apply (proj2 hs b htb). destruct (hr b hin) as [-> | hbx]; [assumption | eapply holds_trans; eassumption]. }
    assert (hi : incl (b :: v) (t :: dom)) by (intros y [<- | hy]; [right; apply hd; assumption | auto]).
    assert (nd' : NoDup (b :: v)) by (constructor; assumption).
    pose proof (NoDup_incl_length nd' hi) as hl. simpl in hl.
    apply (IH (b :: v)); auto.
    - simpl; lia.
    - intros y [<- | hy]; [left; reflexivity |]. right. destruct (hr y hy) as [-> | ?]; [assumption | eapply holds_trans; eassumption]. }
  apply (main (S (S (length dom))) [] t); [simpl; lia | constructor | intros y [] | intros y [] | left; reflexivity].
Qed.

(** ** Well-formed objects have well-formed trees *)
Lemma wf_all :
  (forall t T, tree_of H t T -> (forall b, b = t \/ holds H t b -> object_ok H b) -> wf T) /\
  (forall fs gs, fields_of H fs gs -> (forall f b, In f fs -> b = f_type f \/ holds H (f_type f) b -> object_ok H b) ->
     forall cur size, fields_fit H fs cur size -> wf_fields gs cur size).
Proof.
  apply tree_fields_ind.
  - intros t h ok. split; [reflexivity | exact I].
  - intros t h ok. pose proof (ok t (or_introl eq_refl)) as [h1 _]. split; [assumption | exact I].
  - intros t c h ok. pose proof (ok t (or_introl eq_refl)) as [h1 _]. split; [assumption | exact I].
  - intros t v h ok. pose proof (ok t (or_introl eq_refl)) as [h1 h2]. rewrite h in h2. split; assumption.
  - intros t x h ok. pose proof (ok t (or_introl eq_refl)) as [h1 _]. split; [assumption | exact I].
  - intros t d x e h hx IH ok. pose proof (ok t (or_introl eq_refl)) as [h1 h2]. rewrite h in h2. destruct h2 as (h2 & h3 & h4).
    assert (hin : In x (inner H t)) by (unfold inner; rewrite h; left; reflexivity).
    assert (hw : wf e) by (apply IH; intros b [-> | hb]; apply ok; right; eauto using holds_one, holds_more).
    assert (hs : sizeof e = o_size (H x)).
    { apply (tree_size hx). intros ->. inversion hx; subst.
      pose proof (ok x (or_intror (holds_one hin))) as [_ h5]. rewrite H0 in h5; cbv iota in h5; lia. }
    simpl. rewrite hs. auto.
  - intros t k x e h hx IH ok. pose proof (ok t (or_introl eq_refl)) as [h1 h2]. rewrite h in h2.
    assert (hin : In x (inner H t)) by (unfold inner; rewrite h; left; reflexivity).
    assert (hw : wf e) by (apply IH; intros b [-> | hb]; apply ok; right; eauto using holds_one, holds_more).
    destruct k.
    + assert (hs : sizeof e = o_size (H x)).
      { apply (tree_size hx). intros ->. inversion hx; subst.
        pose proof (ok x (or_intror (holds_one hin))) as [_ h5]. rewrite H0 in h5; cbv iota in h5; lia. }
      simpl. rewrite hs. tauto.
    + destruct h2 as (h2 & h3 & c & h4). simpl. split; [assumption |]. split; [assumption |].
      exists c. inversion hx; subst; try congruence.
  - intros t fs gs h hf IH ok. pose proof (ok t (or_introl eq_refl)) as [h1 h2]. rewrite h in h2.
    simpl. split; [assumption |]. apply IH; [| assumption].
    intros f b hin hb. apply ok; right.
    assert (hi : In (f_type f) (inner H t)) by (unfold inner; rewrite h; apply in_map; assumption).
    destruct hb as [-> | hb]; eauto using holds_one, holds_more.
  - intros _ cur size h; exact h.
  - intros f fs T gs hT IHT hf IH ok cur size [h1 h2].
    assert (hw : wf T) by (apply IHT; intros b hb; apply (ok f); [left; reflexivity | assumption]).
    simpl. split; [assumption |]. split; [assumption |].
    assert (hs : sizeof T = o_size (H (f_type f))).
    { destruct T; try (apply (tree_size hT); discriminate). inversion hT as [? ek | | | | | | |]; subst.
      pose proof (ok f (f_type f) (or_introl eq_refl) (or_introl eq_refl)) as [_ h5]. rewrite ek in h5. rewrite h5; reflexivity. }
    rewrite hs. apply IH; [| assumption]. intros g b hin; apply ok; right; assumption.
Qed.
End Tree.

(** ** The recursion bounds *)
Lemma take_words_len n : forall it, match take_words n it with Ok (_, r) => (length r <= length it)%nat | Fuel => False | _ => True end.
Proof.
  induction n as [| n IH]; intros it; simpl; [lia |].
  destruct it as [| [b | k s e] r]; auto. specialize (IH r).
  destruct (take_words n r) as [[bs r'] | | |]; simpl; auto; lia.
Qed.
Definition lessres (n : nat) (r : res (list word * list word)) : Prop :=
  match r with Ok (it, _) => (length it <= n)%nat | Fuel => False | _ => True end.
Lemma lessres_mono n m r : (n <= m)%nat -> lessres n r -> lessres m r.
Proof. destruct r as [[? ?] | | |]; simpl; auto; lia. Qed.
Lemma resize_lessres i k o n g : (forall o', lessres n (g o')) -> lessres n (bind (resize_to i k o) g).
Proof. unfold resize_to; intros h; destruct (i <? k)%nat; simpl; auto. Qed.
Lemma simp_bound : forall f merge rts depth it cur cnt skp out, (length it < f)%nat ->
  lessres (length it) (simp f merge rts depth it cur cnt skp out).
Proof.
  induction f as [| f IH]; intros merge rts depth it cur cnt skp out hl; [lia |]. cbn [simp].
  destruct it as [| w r].
  - destruct (cnt =? 0); [simpl; lia |]. destruct (negb rts || negb (cur =? FLAG_SKIP) || (0 <? depth)%nat); simpl; lia.
  - destruct w as [op | k s e]; [| exact I]. simpl length in *.
    destruct (op =? FLAG_END); [simpl; lia |].
    destruct (op =? FLAG_ARRAY).
    { destruct r as [| [n | k s e] r1]; try exact I. simpl length in *. cbv zeta.
      pose proof (IH merge rts (S depth) r1 FLAG_MEMCPY 0 0 (push_if cnt cur out ++ [W FLAG_ARRAY; W n]) ltac:(lia)) as h.
      destruct (simp f merge rts (S depth) r1 _ _ _ _) as [[it3 out3] | | |]; simpl in h |- *; auto.
      destruct it3 as [| e it4]; [exact I |]. simpl length in h.
      destruct (decode e); try exact I.
      assert (g : forall c n s o, lessres (S (S (length r1))) (simp f merge rts depth it4 c n s o)).
      { intros; eapply lessres_mono; [| apply IH; lia]; lia. }
      destruct (length out3 - _ =? 2)%nat.
      { destruct (skipn _ out3) as [| [op' | ? ? ?] [| [c | ? ? ?] [| ? ?]]]; try exact I.
        destruct ((op' =? cur) && negb (cnt =? 0)); apply resize_lessres; auto. }
      destruct (length out3 - _ =? 0)%nat; [apply resize_lessres; auto | apply g]. }
    destruct (op =? FLAG_CONTAINER).
    { destruct r as [| c r1]; try exact I. simpl length in *.
      pose proof (IH merge rts (S depth) r1 FLAG_MEMCPY 0 0 (push_if cnt cur out ++ [W FLAG_CONTAINER; c]) ltac:(lia)) as h.
      destruct (simp f merge rts (S depth) r1 _ _ _ _) as [[it3 out3] | | |]; simpl in h |- *; auto.
      destruct it3 as [| e it4]; [exact I |]. simpl length in h.
      destruct (decode e); try exact I. eapply lessres_mono; [| apply IH; lia]; lia. }
    destruct r as [| [n | k s e] r1]; try exact I. simpl length in *. cbv zeta.
    destruct (op =? cur); [eapply lessres_mono; [| apply IH; lia]; lia |].
    destruct merge; (eapply lessres_mono; [| apply IH; lia]; lia).
Qed.
Lemma simp_init_bound : forall f shave it cnt data out, (length it < f)%nat ->
  lessres (length it) (simp_init f shave it cnt data out).
Proof.
  induction f as [| f IH]; intros shave it cnt data out hl; [lia |]. cbn [simp_init].
  destruct it as [| w r].
  - destruct (negb (cnt =? 0) && negb shave); simpl; lia.
  - simpl length in *. destruct (decode w).
    + destruct r as [| [n | k s e] r1]; try exact I. simpl length in *.
      pose proof (take_words_len (N.to_nat n) r1) as h.
      destruct (take_words (N.to_nat n) r1) as [[bs r2] | | |]; simpl in h |- *; auto.
      eapply lessres_mono; [| apply IH; lia]; lia.
    + destruct r as [| [n | k s e] r1]; try exact I. simpl length in *. cbv zeta.
      pose proof (IH false r1 0 [] (push_if cnt FLAG_INIT_SKIP (push_init_opt data out) ++ [W FLAG_INIT_REPEAT; W n]) ltac:(lia)) as h.
      destruct (simp_init f false r1 _ _ _) as [[it3 out3] | | |]; simpl in h |- *; auto.
      destruct it3 as [| e it4]; [exact I |]. simpl length in h.
      destruct (decode e); try exact I.
      assert (g : forall c n o, lessres (S (S (length r1))) (simp_init f shave it4 c n o)).
      { intros; eapply lessres_mono; [| apply IH; lia]; lia. }
      set (i := length (push_if cnt FLAG_INIT_SKIP (push_init_opt data out) ++ [W FLAG_INIT_REPEAT; W n])).
      assert (g2 : lessres (S (S (length r1)))
        (if (length out3 - i =? 0)%nat then out4 <- resize_to i 4 out3 ;; simp_init f shave it4 cnt [] out4
         else simp_init f shave it4 0 [] (out3 ++ [W FLAG_INIT_END]))).
      { destruct (length out3 - i =? 0)%nat; [apply resize_lessres; auto | apply g]. }
      destruct (length out3 - i =? 2)%nat; [| exact g2].
      destruct (skipn i out3) as [| [[| [[p | p |] | p |]] | k0 s0 e0] [| [c | k1 s1 e1] [| z l]]]; try exact g2.
      destruct (negb (cnt =? 0)); apply resize_lessres; auto.
    + destruct r as [| c r1]; try exact I. simpl length in *. eapply lessres_mono; [| apply IH; lia]; lia.
    + destruct r as [| [n | k s e] r1]; try exact I. simpl length in *. eapply lessres_mono; [| apply IH; lia]; lia.
    + destruct (negb (cnt =? 0)); simpl; lia.
    + exact I.
Qed.
Lemma simplify_bound merge rts l : simplify merge rts l <> Fuel.
Proof.
  unfold simplify. pose proof (@simp_bound (S (length (ops l))) merge rts 0 (ops l) FLAG_MEMCPY 0 0 [] ltac:(lia)) as h.
  destruct (simp _ merge rts 0 (ops l) _ _ _ _) as [[it out] | | |]; simpl in h |- *; try discriminate; [| contradiction].
  destruct it; [| discriminate]. unfold simplify_init.
  pose proof (@simp_init_bound (S (length (iops l))) true (iops l) 0 [] [] ltac:(lia)) as h2.
  destruct (simp_init _ true (iops l) _ _ _) as [[it2 out2] | | |]; simpl in h2 |- *; try discriminate; [| contradiction].
  destruct it2; [| discriminate].
  destruct out2 as [| w [| v [| z r]]]; try discriminate. destruct (decode w); discriminate.
Qed.
Lemma push_memcpy_bound n d l : push_memcpy n d l <> Fuel.
Proof. unfold push_memcpy; destruct d; [discriminate |]. destruct (negb _); discriminate. Qed.
Lemma visit_bound_all : (forall t ap ao l, visit ap ao t l <> Fuel) /\ (forall fs ap ao cur l, visit_fields ap ao fs cur l <> Fuel).
Proof.
  apply ty_fields_ind; intros; cbn [visit visit_fields]; try discriminate; try apply push_memcpy_bound.
  - destruct ao; discriminate.
  - destruct (8 <? size); [discriminate | apply push_memcpy_bound].
  - destruct ap; [apply push_memcpy_bound | discriminate].
  - specialize (H false false empty_layout). destruct (visit false false elt empty_layout); simpl; congruence.
  - specialize (H false false empty_layout). destruct (visit false false elt empty_layout); simpl; congruence.
  - specialize (H ap ao 0 l). destruct (visit_fields ap ao fs 0 l) as [[? ?] | | |]; simpl; congruence.
  - specialize (H ap ao (push_skip (wsub off cur) l)). destruct (visit ap ao t (push_skip (wsub off cur) l)); simpl; congruence.
Qed.
Lemma layout_bound ap ao merge rts T : layout_of ap ao merge rts T <> Fuel.
Proof.
  unfold layout_of, raw_layout_of. pose proof (proj1 visit_bound_all T ap ao empty_layout).
  destruct (visit ap ao T empty_layout); simpl; try congruence. apply simplify_bound.
Qed.

(** ** More fuel does not change a result *)
Lemma gvisit_more H : forall f ap ao t l r, gvisit f ap ao H t l = r -> r <> Fuel -> gvisit (S f) ap ao H t l = r.
Proof.
  induction f as [| f IH]; intros ap ao t l r h hr; [simpl in h; congruence |].
  cbn [gvisit] in h. remember (S f) as g. cbn [gvisit]. destruct (o_kind (H t)) as [| | c | v | x | d x | k x | fs]; auto.
  - subst g. destruct (gvisit f false false H x empty_layout) eqn:e; simpl in h; try congruence;
      rewrite (IH _ _ _ _ _ e) by discriminate; assumption.
  - subst g. destruct (gvisit f false false H x empty_layout) eqn:e; simpl in h; try congruence;
      rewrite (IH _ _ _ _ _ e) by discriminate; assumption.
  - subst g.
    assert (hf : forall fs cur l q, gvisit_fields H (gvisit f ap ao H) fs cur l = q -> q <> Fuel ->
              gvisit_fields H (gvisit (S f) ap ao H) fs cur l = q).
    { clear - IH. induction fs as [| a fs IHf]; intros cur l q h hq; cbn [gvisit_fields] in *; [assumption |].
      destruct (gvisit f ap ao H (f_type a) (push_skip (wsub (f_off a) cur) l)) eqn:e; simpl in h; try congruence;
        rewrite (IH _ _ _ _ _ e) by discriminate; simpl; auto. }
    destruct (gvisit_fields H (gvisit f ap ao H) fs 0 l) eqn:e; simpl in h; try congruence;
      rewrite (hf _ _ _ _ e) by discriminate; assumption.
Qed.
Lemma glayout_more H f ap ao merge rts t r :
  glayout_of f ap ao merge rts H t = r -> r <> Fuel -> forall g, (f <= g)%nat -> glayout_of g ap ao merge rts H t = r.
Proof.
  intros h hr g hg. induction hg as [| g hg IH]; [assumption |]. clear h.
  unfold glayout_of in *. destruct (gvisit g ap ao H t empty_layout) eqn:e; simpl in IH; try congruence;
    rewrite (gvisit_more e) by discriminate; assumption.
Qed.

Lemma glayout_conv H t T ap ao merge rts : tree_of H t T ->
  exists r, conv (fun f => glayout_of f ap ao merge rts H t) r /\ same_result H r (layout_of ap ao merge rts T).
Proof.
  intros h. destruct (glayout_tree h) as [n hn]. exists (glayout_of n ap ao merge rts H t).
  destruct (hn n (Nat.le_refl n) ap ao merge rts) as [hs | [_ hf]]; [| exfalso; apply (layout_bound hf)].
  split; [| assumption]. exists n. intros m hm. apply (glayout_more eq_refl); [| assumption].
  intros e; rewrite e in hs; exact hs.
Qed.

(** ** What is held and what the tree contains *)
Definition kind_is (p : ty -> bool) (k : okind) : Prop :=
  match k with
  | ONull => p TNull = true
  | OOpaque => exists n, p (TOpaque n) = true
  | OPtr _ => exists n, p (TPtr n) = true
  | _ => False
  end.
Lemma contains_all H p : (forall T, p T = true -> is_null T = true \/ is_opaque T = true \/ is_ptr T = true) ->
  (forall n m, p (TOpaque n) = p (TOpaque m)) -> (forall n m, p (TPtr n) = p (TPtr m)) ->
  (forall t T, tree_of H t T -> (contains p T = true <-> exists b, (b = t \/ holds H t b) /\ kind_is p (o_kind (H b)))) /\
  (forall fs gs, fields_of H fs gs -> (contains_fields p gs = true <->
     exists f b, In f fs /\ (b = f_type f \/ holds H (f_type f) b) /\ kind_is p (o_kind (H b)))).
Proof.
  intros hp ho hq.
  assert (leaf : forall t, inner H t = [] -> forall b, b = t \/ holds H t b -> b = t).
  { intros t e b [-> | h]; [reflexivity |]. inversion h; subst; rewrite e in *; simpl in *; contradiction. }
  assert (no : forall T, is_null T = false -> is_opaque T = false -> is_ptr T = false -> p T = false).
  { intros T h1 h2 h3. destruct (p T) eqn:e; [| reflexivity]. apply hp in e. destruct e as [e | [e | e]]; congruence. }
  apply tree_fields_ind.
  - intros t h. assert (ei : inner H t = []) by (unfold inner; rewrite h; reflexivity).
    simpl. rewrite orb_false_r. split.
    + intros hb. exists t; rewrite h; auto.
    + intros (b & hb & hk). rewrite (leaf t ei b hb) in hk. rewrite h in hk. exact hk.
  - intros t h. assert (ei : inner H t = []) by (unfold inner; rewrite h; reflexivity).
    simpl. rewrite orb_false_r. split.
    + intros hb. exists t; rewrite h; simpl; eauto.
    + intros (b & hb & hk). rewrite (leaf t ei b hb) in hk. rewrite h in hk. destruct hk as [n hk]. rewrite (ho _ n); exact hk.
  - intros t c h. assert (ei : inner H t = []) by (unfold inner; rewrite h; reflexivity).
    simpl. rewrite orb_false_r, no by reflexivity. split; [discriminate |].
    intros (b & hb & hk). rewrite (leaf t ei b hb) in hk. rewrite h in hk. destruct hk.
  - intros t v h. assert (ei : inner H t = []) by (unfold inner; rewrite h; reflexivity).
    simpl. rewrite orb_false_r, no by reflexivity. split; [discriminate |].
    intros (b & hb & hk). rewrite (leaf t ei b hb) in hk. rewrite h in hk. destruct hk.
  - intros t x h. assert (ei : inner H t = []) by (unfold inner; rewrite h; reflexivity).
    simpl. rewrite orb_false_r. split.
    + intros hb. exists t; rewrite h; simpl; eauto.
    + intros (b & hb & hk). rewrite (leaf t ei b hb) in hk. rewrite h in hk. destruct hk as [n hk]. rewrite (hq _ n); exact hk.
  - intros t d x e h hx IH. cbn [contains]. rewrite no by reflexivity. simpl. rewrite IH.
    assert (ei : inner H t = [x]) by (unfold inner; rewrite h; reflexivity). split.
    + intros (b & hb & hk). exists b; split; [| assumption]. right.
      destruct hb as [-> | hb]; [apply holds_one | apply (@holds_more H t x)]; rewrite ?ei; simpl; auto.
    + intros (b & [-> | hb] & hk); [rewrite h in hk; destruct hk |]. exists b; split; [| assumption].
      inversion hb as [b' hi | b' c hi hm]; subst; rewrite ei in hi; destruct hi as [<- | []]; auto.
  - intros t d x e h hx IH. cbn [contains]. rewrite no by reflexivity. simpl. rewrite IH.
    assert (ei : inner H t = [x]) by (unfold inner; rewrite h; reflexivity). split.
    + intros (b & hb & hk). exists b; split; [| assumption]. right.
      destruct hb as [-> | hb]; [apply holds_one | apply (@holds_more H t x)]; rewrite ?ei; simpl; auto.
    + intros (b & [-> | hb] & hk); [rewrite h in hk; destruct hk |]. exists b; split; [| assumption].
      inversion hb as [b' hi | b' c hi hm]; subst; rewrite ei in hi; destruct hi as [<- | []]; auto.
  - intros t fs gs h hx IH. cbn [contains]. rewrite no by reflexivity. simpl. rewrite IH.
    assert (ei : inner H t = map f_type fs) by (unfold inner; rewrite h; reflexivity). split.
    + intros (f & b & hf & hb & hk). exists b; split; [| assumption]. right.
      pose proof (in_map f_type _ _ hf) as hi. rewrite <- ei in hi.
      destruct hb as [-> | hb]; [apply holds_one | apply (@holds_more H t (f_type f))]; auto.
    + intros (b & [-> | hb] & hk); [rewrite h in hk; destruct hk |].
      inversion hb as [b' hi | b' c hi hm]; subst; rewrite ei in hi; apply in_map_iff in hi; destruct hi as (f & <- & hf); exists f; eauto.
  - simpl. split; [discriminate |]. intros (f & b & [] & _).
  - intros f fs T gs hT IHT hf IH. cbn [contains_fields]. rewrite orb_true_iff, IHT, IH. split.
    + intros [(b & hb & hk) | (g & b & hg & hb & hk)]; [exists f, b | exists g, b]; simpl; auto.
    + intros (g & b & [<- | hg] & hb & hk); [left; exists b; auto | right; exists g, b; auto].
Qed.

(** ** Types that hold themselves *)
Definition visitable (o : tobj) : Prop :=
  match o_kind o with ONull | OOpaque | OPtr _ => False | OEnum _ => o_size o <= 8 | _ => True end.
Lemma le_bytes_len n : forall v, length (le_bytes n v) = n.
Proof. induction n; intros; simpl; auto. Qed.
Lemma enum_push n vs l : n <= 8 -> exists l', push_memcpy n (enum_init n vs) l = Ok l'.
Proof.
  intros h. unfold push_memcpy, enum_init. destruct vs as [| [s v] vs]; [eauto |].
  pose proof (le_bytes_len (N.to_nat n) (Z.to_N (v mod Z.of_N two64))) as hl.
  destruct (le_bytes (N.to_nat n) (Z.to_N (v mod Z.of_N two64))) as [| b d] eqn:e; [eauto |].
  assert (hn : n = lenN (b :: d)) by (unfold lenN; rewrite hl; lia).
  rewrite <- hn, N.eqb_refl. simpl. eauto.
Qed.
Lemma visit_no_throw H : forall f ap ao t l, (forall b, b = t \/ holds H t b -> visitable (H b)) ->
  gvisit f ap ao H t l = Fuel \/ exists l', gvisit f ap ao H t l = Ok l'.
Proof.
  induction f as [| f IH]; intros ap ao t l hv; [left; reflexivity |].
  pose proof (hv t (or_introl eq_refl)) as ht. unfold visitable in ht. cbn [gvisit].
  destruct (o_kind (H t)) as [| | c | v | x | d x | k x | fs] eqn:ek; try contradiction.
  - right; unfold push_memcpy; eauto.
  - right. destruct (N.ltb_spec 8 (o_size (H t))); [lia |]. apply enum_push; assumption.
  - destruct (IH false false x empty_layout) as [e | [l' e]]; [| rewrite e; left; reflexivity | rewrite e; right; simpl; eauto].
    intros b hb; apply hv; right. assert (ei : In x (inner H t)) by (unfold inner; rewrite ek; left; reflexivity).
    destruct hb as [-> | hb]; [apply holds_one; auto | eapply holds_more; eauto].
  - destruct (IH false false x empty_layout) as [e | [l' e]]; [| rewrite e; left; reflexivity | rewrite e; right; simpl; eauto].
    intros b hb; apply hv; right. assert (ei : In x (inner H t)) by (unfold inner; rewrite ek; left; reflexivity).
    destruct hb as [-> | hb]; [apply holds_one; auto | eapply holds_more; eauto].
  - assert (hf : forall cur l, gvisit_fields H (gvisit f ap ao H) fs cur l = Fuel \/
              exists p, gvisit_fields H (gvisit f ap ao H) fs cur l = Ok p).
    { assert (hi : forall g b, In g fs -> b = f_type g \/ holds H (f_type g) b -> visitable (H b)).
      { intros g b hg hb. apply hv; right.
        assert (ei : In (f_type g) (inner H t)) by (unfold inner; rewrite ek; apply in_map; assumption).
        destruct hb as [-> | hb]; [apply holds_one; auto | eapply holds_more; eauto]. }
      clear - IH hi. induction fs as [| a fs IHf]; intros cur l; cbn [gvisit_fields]; [right; eauto |].
      destruct (IH ap ao (f_type a) (push_skip (wsub (f_off a) cur) l)) as [e | [l' e]];
        [intros b hb; eapply hi; [left; reflexivity | assumption] | rewrite e; left; reflexivity | rewrite e; simpl].
      apply IHf. intros g b hg; apply hi; right; assumption. }
    destruct (hf 0 l) as [e | [[l' c] e]]; rewrite e; simpl; [left; reflexivity | right; eauto].
Qed.
