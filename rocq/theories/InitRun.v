(** * InitRun: Typelib::init computes what ValueSpec.initialised says. *)
From Verif Require Import Base Types WellFormed Layout LayoutProofs LayoutMain InitProofs LayoutFinal
     ValueOps ValueSpec ValueAtoms ValueInst WalkProofs.
Local Open Scope N_scope.

Inductive irel : list iatom -> list cell -> list cell -> Prop :=
| ir_nil : irel [] [] []
| ir_keep c l m m' : irel l m m' -> irel (IKeep :: l) (c :: m) (c :: m')
| ir_set b c l m m' : irel l m m' -> irel (ISet b :: l) (c :: m) (B b :: m')
| ir_new k s e o l m m' : lenN o = s -> irel l m m' -> irel (INew k s e :: l) (o ++ m) (put_obj s (new_obj k) ++ m').

Lemma irel_app l1 l2 a a' b b' : irel l1 a a' -> irel l2 b b' -> irel (l1 ++ l2) (a ++ b) (a' ++ b').
Proof. induction 1; intros; simpl; rewrite <- ?app_assoc; [assumption|constructor; auto..]. Qed.
Lemma irel_inv l1 l2 m m' : irel (l1 ++ l2) m m' ->
  exists a b a' b', m = a ++ b /\ m' = a' ++ b' /\ irel l1 a a' /\ irel l2 b b' /\ lenN a = iasizes l1.
Proof.
  revert m m'; induction l1 as [|x l1 IH]; intros m m' H; simpl in *.
  - exists [], m, [], m'. repeat split; auto. constructor.
  - inversion H as [|c l m0 m0' H2|b c l m0 m0' H2|k s e o l m0 m0' H1 H2]; subst;
      destruct (IH _ _ H2) as (a & b0 & a' & b' & -> & -> & A1 & A2 & A3).
    + exists (c :: a), b0, (c :: a'), b'. repeat split; auto; [constructor; auto|]. rewrite lenN_cons, A3. reflexivity.
    + exists (c :: a), b0, (B b :: a'), b'. repeat split; auto; [constructor; auto|]. rewrite lenN_cons, A3. reflexivity.
    + eexists (o ++ a), b0, (_ ++ a'), b'. rewrite !app_assoc. repeat split; auto; [constructor; auto|]. rewrite lenN_app, A3. reflexivity.
Qed.
Lemma irel_keep n m m' : irel (repN n IKeep) m m' <-> lenN m = n /\ m' = m.
Proof.
  revert m m'; induction n as [|n IH] using N.peano_ind; intros m m'.
  - split; [inversion 1; auto|]. intros [H ->]. apply lenN_0_nil in H. subst. constructor.
  - replace (N.succ n) with (1 + n) by lia. rewrite repN_add. change (repN 1 IKeep ++ repN n IKeep) with (IKeep :: repN n IKeep). split.
    + inversion 1 as [|c l m0 m0' H2| |]; subst. apply IH in H2. destruct H2 as [<- ->]. rewrite lenN_cons. auto.
    + intros [H ->]. destruct m as [|c m]; [change (lenN (@nil cell)) with 0 in H; lia|]. rewrite lenN_cons in H.
      constructor. apply IH. split; [lia|reflexivity].
Qed.
Lemma irel_set bs m : lenN m = lenN bs -> irel (map ISet bs) m (map B bs).
Proof.
  revert m; induction bs as [|b bs IH]; intros m H.
  - apply lenN_0_nil in H. subst. constructor.
  - destruct m as [|c m]; [rewrite lenN_cons in H; change (lenN (@nil cell)) with 0 in H; lia|].
    rewrite !lenN_cons in H. simpl. constructor. apply IH. lia.
Qed.
Lemma irel_set_inv bs m m' : irel (map ISet bs) m m' -> m' = map B bs.
Proof.
  revert m m'; induction bs as [|b bs IH]; intros m m' H; inversion H; subst; [reflexivity|]. simpl. f_equal. eauto.
Qed.
Lemma irel_rep_inv l n m m' : irel (rep_list n l) m m' ->
  exists ms ms', lenN ms = n /\ m = concat ms /\ m' = concat ms' /\ Forall2 (fun a a' => irel l a a' /\ lenN a = iasizes l) ms ms'.
Proof.
  revert m m'; induction n as [|n IH] using N.peano_ind; intros m m' H.
  - inversion H; subst. exists [], []. repeat split; constructor.
  - rewrite rep_list_S in H. destruct (irel_inv H) as (a & b & a' & b' & -> & -> & A1 & A2 & A3).
    destruct (IH _ _ A2) as (ms & ms' & H1 & -> & -> & H4). exists (a :: ms), (a' :: ms').
    rewrite lenN_cons. repeat split; auto. lia.
Qed.

Lemma take_cells_app n (a b : list cell) : lenN a = n -> take_cells n (a ++ b) = Ok (a, b).
Proof.
  intros <-. unfold take_cells. rewrite lenN_app. destruct (N.ltb_spec (lenN a + lenN b) (lenN a)); [lia|].
  rewrite takeN_app_exact, dropN_app_exact by reflexivity. reflexivity.
Qed.
Lemma bytes_all n m : bytes n m -> forallb is_byte m = true.
Proof. intros H. apply bytes_forallb. rewrite (bytes_len H). assumption. Qed.
Lemma write_raw_app bs a b : bytes (lenN bs) a -> write_raw bs (a ++ b) = Ok (map B bs, b).
Proof.
  intros H. unfold write_raw. rewrite take_cells_app by (apply bytes_len; assumption). simpl.
  rewrite (bytes_all H). reflexivity.
Qed.
Lemma cont_init_app k s a b : 1 <= s -> bytes s a -> cont_init k s (a ++ b) = Ok (put_obj s (new_obj k), b).
Proof.
  intros Hs H. unfold cont_init. rewrite take_cells_app by (apply bytes_len; assumption). simpl.
  rewrite (bytes_all H). destruct (N.eqb_spec s 0); [lia|reflexivity].
Qed.

Lemma init_rep (b : sinit) rest' body
  (IHb : forall dn m1 m2, bytes (iasizes (iatoms b)) m1 ->
     exists m1', conv (fun f => init_walk f (dn, m1 ++ m2) body) (Ok ((dn ++ m1', m2), W FLAG_END :: rest')) /\
                 irel (iatoms b) m1 m1') :
  forall n dn m1 m2 it0, bytes (n * iasizes (iatoms b)) m1 ->
  exists m1', (exists N0, forall f c, (N0 <= f)%nat -> (N0 <= c)%nat ->
      loopN c n (fun p => init_walk f (fst p) body) ((dn, m1 ++ m2), it0)
      = Ok ((dn ++ m1', m2), if n =? 0 then it0 else W FLAG_END :: rest')) /\
    irel (rep_list n (iatoms b)) m1 m1'.
Proof.
  induction n as [|n IH] using N.peano_ind; intros dn m1 m2 it0 Hb.
  - apply bytes_0 in Hb. subst m1. exists []. split; [|constructor]. exists 1%nat. intros f [|c] _ Hc; [lia|].
    simpl. rewrite app_nil_r. reflexivity.
  - replace (N.succ n * iasizes (iatoms b)) with (iasizes (iatoms b) + n * iasizes (iatoms b)) in Hb by lia.
    destruct (bytes_split Hb) as (x & y & -> & Hx & Hy).
    destruct (IHb dn x (y ++ m2) Hx) as (x' & [n1 C1] & R1).
    destruct (IH (dn ++ x') y m2 (W FLAG_END :: rest') Hy) as (y' & [n2 C2] & R2).
    exists (x' ++ y'). split; [|rewrite rep_list_S; apply irel_app; assumption].
    exists (S (Nat.max n1 n2)). intros f [|c] Hf Hc; [lia|]. cbn [loopN].
    destruct (N.eqb_spec (N.succ n) 0); [lia|]. cbn [fst]. rewrite <- app_assoc. rewrite C1 by lia. cbn [bind].
    rewrite N.pred_succ, C2 by lia. rewrite app_assoc. destruct (n =? 0); reflexivity.
Qed.

Theorem init_rule o : forall dn m1 m2 rest, wf_i o -> at_end rest -> bytes (iasizes (iatoms o)) m1 ->
  exists m1', conv (fun f => init_walk f (dn, m1 ++ m2) (iflat o ++ rest)) (Ok ((dn ++ m1', m2), rest)) /\
              irel (iatoms o) m1 m1'.
Proof.
  induction o as [|bs r IH|n r IH|n b IHb r IH|k s e r IH]; intros dn m1 m2 rest Hw Hr Hb.
  - apply bytes_0 in Hb. subst m1. exists []. split; [|constructor]. exists 1%nat. intros [|f] Hf; [lia|].
    rewrite app_nil_r. destruct Hr as [-> | [r ->]]; reflexivity.
  - destruct Hw as [Hbs Hw]. cbn [iatoms] in *. rewrite iasizes_app, iasizes_set in Hb.
    destruct (bytes_split Hb) as (x & y & -> & Hx & Hy).
    destruct (IH (dn ++ map B bs) y m2 rest Hw Hr Hy) as (y' & [n1 C1] & R1).
    exists (map B bs ++ y'). split; [|apply irel_app; [apply irel_set; apply bytes_len; assumption|assumption]].
    exists (S n1). intros [|f] Hf; [lia|]. cbn [iflat app init_walk]. change (decode (W FLAG_INIT)) with OMem. cbv iota.
    rewrite <- app_assoc. replace (N.to_nat (lenN bs)) with (length bs) by (unfold lenN; lia).
    rewrite take_words_ok by assumption. cbn [bind]. rewrite <- app_assoc. rewrite write_raw_app by assumption. cbn [bind].
    rewrite C1 by lia. rewrite app_assoc. reflexivity.
  - cbn [wf_i] in Hw. cbn [iatoms] in *. rewrite iasizes_app, iasizes_repN in Hb. cbn [iasize] in Hb. rewrite N.mul_1_r in Hb.
    destruct (bytes_split Hb) as (x & y & -> & Hx & Hy).
    destruct (IH (dn ++ x) y m2 rest Hw Hr Hy) as (y' & [n1 C1] & R1).
    exists (x ++ y'). split; [|apply irel_app; [apply irel_keep; split; [apply bytes_len; assumption|reflexivity]|assumption]].
    exists (S n1). intros [|f] Hf; [lia|]. cbn [iflat app init_walk]. change (decode (W FLAG_INIT_SKIP)) with OSkip. cbv iota.
    rewrite <- app_assoc, take_cells_app by (apply bytes_len; assumption). cbn [bind].
    rewrite C1 by lia. rewrite app_assoc. reflexivity.
  - destruct Hw as (Hn & Hne & Hwb & Hwr). cbn [iatoms] in *. rewrite iasizes_app, iasizes_rep_list in Hb.
    destruct (bytes_split Hb) as (x & y & -> & Hx & Hy).
    set (body := iflat b ++ W FLAG_END :: iflat r ++ rest).
    destruct (@init_rep b (iflat r ++ rest) body) with (n := n) (dn := dn) (m1 := x) (m2 := y ++ m2) (it0 := body) as (x' & [n0 C0] & R0); [|assumption|].
    { intros. apply IHb; [assumption|right; eauto|assumption]. }
    destruct (IH (dn ++ x') y m2 rest Hwr Hr Hy) as (y' & [n1 C1] & R1).
    exists (x' ++ y'). split; [|apply irel_app; assumption].
    exists (S (Nat.max n0 n1)). intros [|f] Hf; [lia|]. cbn [iflat app init_walk]. change (decode (W FLAG_INIT_REPEAT)) with OArr. cbv iota.
    rewrite <- (app_assoc (iflat b)). cbn [app]. change FLAG_INIT_END with FLAG_END. fold body. rewrite <- (app_assoc x).
    rewrite C0 by lia. cbn [bind]. destruct (N.eqb_spec n 0); [lia|]. cbn [expect_end]. change (decode (W FLAG_END)) with OEnd. cbv iota.
    cbn [bind]. rewrite C1 by lia. rewrite app_assoc. reflexivity.
  - destruct Hw as [Hs Hw]. cbn [iatoms iasizes iasize] in *.
    destruct (bytes_split Hb) as (x & y & -> & Hx & Hy).
    destruct (IH (dn ++ put_obj s (new_obj k)) y m2 rest Hw Hr Hy) as (y' & [n1 C1] & R1).
    exists (put_obj s (new_obj k) ++ y'). split; [|constructor; [apply bytes_len; assumption|assumption]].
    exists (S n1). intros [|f] Hf; [lia|]. cbn [iflat app init_walk]. change (decode (W FLAG_INIT_CONTAINER)) with OCont. cbv iota.
    rewrite <- app_assoc, cont_init_app by assumption. cbn [bind]. rewrite C1 by lia. rewrite app_assoc. reflexivity.
Qed.

Lemma irel_initialised :
  (forall t, wf t -> forall ap m m', supported ap t = true -> bytes (sizeof t) m -> irel (tiatoms t) m m' -> initialised t m m') /\
  (forall fs cur s, wf_fields fs cur s -> forall ap m m', supported_fields ap fs = true -> bytes (s - cur) m ->
     irel (iatoms (rifields fs cur s)) m m' -> initialised_fields fs cur s m m').
Proof.
  unfold tiatoms. apply ty_fields_ind; try discriminate.
  - intros n c _ ap m m' _ Hb H. simpl in H. rewrite app_nil_r in H. apply irel_keep in H. simpl. tauto.
  - intros n vs _ ap m m' _ Hb H. cbn [riops] in H. cbn [initialised]. split; [exact Hb|].
    destruct vs as [|[sym v] vs].
    + cbn [enum_init iatoms] in H. rewrite app_nil_r in H. apply irel_keep in H. tauto.
    + exists sym, v. split; [left; reflexivity|]. unfold enum_init in H. fold (enum_bytes n v) in H.
      destruct (enum_bytes n v) as [|x d] eqn:Ed.
      * assert (Hn : n = 0). { apply (f_equal lenN) in Ed. unfold enum_bytes in Ed. rewrite lenN_le_bytes in Ed. change (lenN (@nil N)) with 0 in Ed. lia. }
        subst n. cbn [iatoms] in H. inversion H; reflexivity.
      * cbn [iatoms] in H. rewrite app_nil_r in H. apply irel_set_inv in H. exact H.
  - intros n _ ap m m' _ Hb H. simpl in H. rewrite app_nil_r in H. apply irel_keep in H. simpl. tauto.
  - intros s d e IH (_ & Hs & _ & Hse & He) ap m m' Hsup Hb H. cbn [riops iatoms] in H. rewrite app_nil_r in H.
    destruct (irel_rep_inv H) as (ms & ms' & H1 & -> & -> & H2). cbn [initialised]. exists ms, ms'. repeat split; auto.
    clear H. cbn [sizeof] in Hb. rewrite Hs, <- H1 in Hb. simpl in Hsup. clear Hs H1 d.
    assert (Hsz : iasizes (iatoms (riops e)) = sizeof e) by (apply (proj1 tiatoms_size); assumption). rewrite Hsz in H2.
    induction H2 as [|a a' ms ms' [R L] H2 IHl]; constructor.
    + apply IH with (ap := false); auto. rewrite lenN_cons in Hb. replace ((1 + lenN ms) * sizeof e) with (sizeof e + lenN ms * sizeof e) in Hb by lia.
      destruct (bytes_split Hb) as (x & y & E & Hx & Hy). simpl in E.
      assert (a = x). { apply (f_equal (takeN (sizeof e))) in E. rewrite !takeN_app_exact in E; auto. rewrite (bytes_len Hx); reflexivity. }
      subst; assumption.
    + apply IHl. rewrite lenN_cons in Hb. replace ((1 + lenN ms) * sizeof e) with (sizeof e + lenN ms * sizeof e) in Hb by lia.
      destruct (bytes_split Hb) as (x & y & E & Hx & Hy). simpl in E.
      assert (concat ms = y). { apply (f_equal (dropN (sizeof e))) in E. rewrite !dropN_app_exact in E; auto. rewrite (bytes_len Hx); reflexivity. }
      subst; assumption.
  - intros k s e IH Hw ap m m' Hsup Hb H. simpl in H. inversion H as [| | |? ? ? o l m0 m0' H1 H2]; subst. inversion H2; subst.
    rewrite !app_nil_r in *. destruct k; (split; [exact Hb|reflexivity]).
  - intros s fs IH [_ Hw] ap m m' Hsup Hb H. simpl in *. eapply IH; eauto. replace (s - 0) with s by lia. assumption.
  - intros cur s Hw ap m m' _ Hb H. simpl in H. rewrite app_nil_r in H. apply irel_keep in H. simpl. tauto.
  - intros nm off t IHt fs IHf cur s (H1 & H2 & H3) ap m m' Hsup Hb H. cbn [rifields iatoms] in H. rewrite iatoms_iapp in H.
    cbn [supported_fields] in Hsup. apply andb_true_iff in Hsup. destruct Hsup as [Hs1 Hs2].
    destruct (irel_inv H) as (p & r1 & p' & r1' & -> & -> & R1 & R2 & L1).
    destruct (irel_inv R2) as (a & b & a' & b' & -> & -> & R3 & R4 & L2).
    apply irel_keep in R1. destruct R1 as [Lp ->]. clear L1.
    assert (Hsz : iasizes (iatoms (riops t)) = sizeof t) by (apply (proj1 tiatoms_size); assumption). rewrite Hsz in L2.
    assert (X := wf_fields_le H3).
    assert (Hbp : bytes (off - cur) p /\ bytes (sizeof t) a /\ bytes (s - (off + sizeof t)) b).
    { apply bytes_all in Hb as Hb'. rewrite !forallb_app in Hb'. apply andb_true_iff in Hb'. destruct Hb' as [Q1 Q2].
      apply andb_true_iff in Q2. destruct Q2 as [Q2 Q3]. apply bytes_len in Hb. rewrite !lenN_app in Hb.
      rewrite bytes_forallb in Q1, Q2, Q3. rewrite Lp in Q1. rewrite L2 in Q2.
      replace (s - (off + sizeof t)) with (lenN b) by lia. auto. }
    destruct Hbp as (B1 & B2 & B3). cbn [initialised_fields]. exists p, a, b, a', b'. eauto 10.
Qed.

Lemma initialised_valid :
  (forall t, wf t -> forall m m', initialised t m m' -> valid t m') /\
  (forall fs cur s, wf_fields fs cur s -> forall m m', initialised_fields fs cur s m m' -> valid_fields fs cur s m').
Proof.
  apply ty_fields_ind; try (simpl; intros; contradiction).
  - intros n c _ m m' [H ->]. exact H.
  - intros n vs _ m m' [H1 H2]. simpl. destruct vs as [|p vs]; [subst; assumption|].
    destruct H2 as (sym & v & _ & ->). exists (enum_bytes n v). split; [|reflexivity]. unfold enum_bytes. rewrite lenN_le_bytes. lia.
  - intros n _ m m' [H ->]. exact H.
  - intros s d e IH (_ & _ & _ & _ & He) m m' (ms & ms' & H1 & -> & -> & H2). simpl. exists ms'. repeat split.
    + rewrite <- (F2_lenN H2). assumption.
    + clear -IH He H2. induction H2; constructor; eauto.
  - intros k s e IH Hw m m' H. destruct k; simpl in *.
    + destruct H as [_ ->]. exists 0, []. repeat split; auto. simpl. unfold lenN; simpl; lia. unfold max_size; lia.
    + destruct H as [_ ->]. exists []. split; [reflexivity|]. unfold lenN; simpl; lia.
  - intros s fs IH [_ Hw] m m' H. simpl in *. eauto.
  - intros cur s _ m m' [H ->]. exact H.
  - intros nm off t IHt fs IHf cur s (H1 & H2 & H3) m m' (p & a & b & a' & b' & -> & -> & Hp & Ha & Hb).
    cbn [valid_fields]. exists p, a', b'. eauto 10.
Qed.

Lemma initialised_fresh :
  (forall t, wf t -> forall m m', initialised t m m' -> fresh t m') /\
  (forall fs cur s, wf_fields fs cur s -> forall m m', initialised_fields fs cur s m m' -> fresh_fields fs cur s m').
Proof.
  apply ty_fields_ind; try (simpl; intros; contradiction).
  - intros n c _ m m' [H ->]. exact H.
  - intros n vs _ m m' [H1 H2]. simpl. destruct vs as [|p vs]; [subst; assumption|].
    destruct H2 as (sym & v & _ & ->). exists (enum_bytes n v). split; [|reflexivity]. unfold enum_bytes. rewrite lenN_le_bytes. lia.
  - intros n _ m m' [H ->]. exact H.
  - intros s d e IH (_ & _ & _ & _ & He) m m' (ms & ms' & H1 & -> & -> & H2). simpl. exists ms'. repeat split.
    + rewrite <- (F2_lenN H2). assumption.
    + clear -IH He H2. induction H2; constructor; eauto.
  - intros k s e IH Hw m m' H. destruct k; simpl in *.
    + destruct H as [_ ->]. exists 0. split; [reflexivity|unfold max_size; lia].
    + destruct H as [_ ->]. reflexivity.
  - intros s fs IH [_ Hw] m m' H. simpl in *. eauto.
  - intros cur s _ m m' [H ->]. exact H.
  - intros nm off t IHt fs IHf cur s (H1 & H2 & H3) m m' (p & a & b & a' & b' & -> & -> & Hp & Ha & Hb).
    cbn [fresh_fields]. exists p, a', b'. eauto 10.
Qed.

(** Typelib::init on raw memory. *)
Theorem init_layout_ok ap merge t l : wf t -> supported ap t = true -> layout_of ap false merge true t = Ok l ->
  forall m m2, bytes (sizeof t) m ->
  exists m', conv (fun f => do_init f l (m ++ m2)) (Ok (m' ++ m2)) /\ initialised t m m'.
Proof.
  intros Hw Hs Hl m m2 Hb. destruct (@layout_ok ap merge t Hw Hs) as (l' & oi & k & Hl' & _ & E2 & Hwi & E3).
  rewrite Hl in Hl'. inversion Hl'; subst l'. clear Hl'.
  assert (Hsz := proj1 (proj1 tiatoms_size t Hw)). rewrite <- E3, iasizes_app, iasizes_repN in Hsz. cbn [iasize] in Hsz. rewrite N.mul_1_r in Hsz.
  assert (Hb2 := Hb). rewrite <- Hsz in Hb2. destruct (bytes_split Hb2) as (x & y & -> & Hx & Hy).
  destruct (@init_rule oi [] x (y ++ m2) [] Hwi (or_introl eq_refl) Hx) as (x' & [n C] & R).
  exists (x' ++ y). split.
  - exists n. intros f Hf. unfold do_init. rewrite E2. rewrite <- (app_nil_r (iflat oi)), <- app_assoc, C by assumption.
    cbn [bind fst snd app]. rewrite app_assoc. reflexivity.
  - apply (proj1 irel_initialised t Hw) with (ap := ap); auto. rewrite <- E3. apply irel_app; [assumption|].
    apply irel_keep. split; [apply bytes_len; assumption|reflexivity].
Qed.
