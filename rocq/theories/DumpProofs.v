(** * DumpProofs: dump writes the image of the value, for any output stream. *)
From Verif Require Import Base Types WellFormed Layout LayoutProofs LayoutMain InitProofs LayoutFinal
     ValueOps ValueSpec ValueAtoms ValueInst WalkProofs InitRun EltOps EltProofs CmpProofs.
Local Open Scope N_scope.

Lemma aimage_norm mg l m x : aimage l m x <-> aimage (norm mg l) m x.
Proof. apply arel_norm. Qed.
Lemma image_len_eq e ms bss : wf e -> Forall2 (image e) ms bss -> Forall (valid e) ms.
Proof. intros Hw. induction 1 as [|m x ms bss H]; constructor; auto. eapply (proj1 image_valid); eauto. Qed.

(** The image of a value made of bytes only is its bytes. *)
Lemma hasc_image e m x : wf e -> plain e -> hasc (rops e) = false -> (image e m x <-> lenN x = sizeof e /\ m = map B x).
Proof.
  intros Hw Hp Hh. rewrite (image_atoms m x Hp).
  destruct (hasc_atoms (proj1 rops_wf e Hw) Hh) as [H1 H2]. change (atoms (rops e)) with (tatoms e) in *.
  rewrite <- (proj1 tatoms_size e Hw), H1. clear - H2. unfold aimage.
  revert m x; induction H2 as [|a l [_ Ha] _ IH]; intros m x.
  - rewrite lenN_nil, arel_nil_inv. split.
    + intros [-> ->]; auto.
    + intros [E ->]. apply lenN_0_nil in E. subst; auto.
  - rewrite lenN_cons. change (a :: l) with ([a] ++ l). split.
    + intros H. destruct (arel_inv H) as (m1 & m2 & x1 & x2 & -> & -> & A1 & A2). apply IH in A2. destruct A2 as [L ->].
      change [a] with (repN 1 a) in A1. apply ib_bytes in A1; [|tauto]. destruct A1 as [L1 ->].
      rewrite lenN_app, map_app. split; [lia|reflexivity].
    + intros [L ->]. destruct x as [|b x]; [change (lenN (@nil N)) with 0 in L; lia|].
      change (map B (b :: x)) with ([B b] ++ map B x). change (b :: x) with ([b] ++ x). apply arel_app.
      * change [a] with (repN 1 a). apply ib_bytes; [tauto|]. auto.
      * apply IH. rewrite lenN_cons in L. split; [lia|reflexivity].
Qed.
Lemma hasc_images e ms bss : wf e -> plain e -> hasc (rops e) = false -> Forall2 (image e) ms bss ->
  concat ms = map B (concat bss).
Proof.
  intros Hw Hp Hh. induction 1 as [|m x ms bss H _ IH]; [reflexivity|]. apply (hasc_image m x Hw Hp Hh) in H.
  destruct H as [_ ->]. cbn [concat]. rewrite map_app, IH. reflexivity.
Qed.

(** The image is determined by the memory. *)
Lemma app_inj_len {A} (a b c d : list A) : lenN a = lenN c -> a ++ b = c ++ d -> a = c /\ b = d.
Proof.
  intros L E. assert (E1 := f_equal (takeN (lenN a)) E). rewrite !takeN_app_exact in E1 by auto.
  assert (E2 := f_equal (dropN (lenN a)) E). rewrite !dropN_app_exact in E2 by auto. auto.
Qed.
Lemma F2_fun {A C} (R : A -> C -> Prop) l : (forall a x y, R a x -> R a y -> x = y) -> forall x y, Forall2 R l x -> Forall2 R l y -> x = y.
Proof.
  intros Hf. induction l as [|a l IH]; intros x y H1 H2; inversion H1; inversion H2; subst; auto. f_equal; eauto.
Qed.
Lemma image_fun :
  (forall t, wf t -> forall m x y, image t m x -> image t m y -> x = y) /\
  (forall fs cur s, wf_fields fs cur s -> forall m x y, image_fields fs cur s m x -> image_fields fs cur s m y -> x = y).
Proof.
  apply ty_fields_ind; try (simpl; intros; contradiction).
  - intros n c _ m x y [_ H1] [_ H2]. apply map_B_inj. congruence.
  - intros n c _ m x y [_ H1] [_ H2]. apply map_B_inj. congruence.
  - intros n _ m x y [_ H1] [_ H2]. apply map_B_inj. congruence.
  - intros s d e IH (_ & _ & _ & Hs & He) m x y (ms & bss & _ & -> & -> & F1) (ms' & bss' & _ & E & -> & F2).
    assert (V1 := image_len_eq He F1). assert (V2 := image_len_eq He F2). apply (concat_inj He Hs V1 V2) in E. subst ms'.
    f_equal. eapply F2_fun; eauto.
  - intros k s e IH Hw m x y H1 H2. destruct k; cbn [image] in *.
    + destruct Hw as (_ & _ & Hs & He). destruct H1 as (cap & ms & bss & -> & _ & _ & F1 & ->). destruct H2 as (cap' & ms' & bss' & E & _ & _ & F2 & ->).
      unfold put_obj in E. inversion E as [[E1 E2]].
      assert (V1 := image_len_eq He F1). assert (V2 := image_len_eq He F2). apply (concat_inj He Hs V1 V2) in E2. subst ms'.
      f_equal. f_equal. eapply F2_fun; eauto.
    + destruct H1 as (cs & -> & _ & ->). destruct H2 as (cs' & E & _ & ->). unfold put_obj in E. inversion E; subst. reflexivity.
  - intros s fs IH [_ Hw] m x y. simpl. eauto.
  - intros cur s Hw m x y [_ H1] [_ H2]. apply map_B_inj. congruence.
  - intros nm off t IHt fs IHf cur s (H1 & H2 & H3) m x y
      (p & a & b & bp & ba & bb & -> & -> & (Lp & ->) & Ia & Ib) (p' & a' & b' & bp' & ba' & bb' & E & -> & (Lp' & ->) & Ia' & Ib').
    assert (Lm : lenN (map B bp) = lenN (map B bp')) by (unfold lenN in *; rewrite !map_length; lia).
    destruct (app_inj_len Lm E) as [E1 E2]. apply map_B_inj in E1. subst bp'.
    assert (La : lenN a = lenN a').
    { rewrite !(proj1 valid_len t H2) by (eapply (proj1 image_valid); eauto). reflexivity. }
    destruct (app_inj_len La E2) as [<- <-]. f_equal. f_equal; eauto.
Qed.
Lemma cimage_fun k s e o x y : elt_wf k s e -> cimage k e o x -> cimage k e o y -> x = y.
Proof.
  intros (Hw & Hp & Hs & H1 & Hk) Hx Hy. destruct k, o as [cap cs|cs]; cbn [cimage] in *; try contradiction.
  - destruct Hx as (ms & bss & -> & _ & _ & F1 & ->). destruct Hy as (ms' & bss' & E & _ & _ & F2 & ->).
    assert (V1 := image_len_eq Hw F1). assert (V2 := image_len_eq Hw F2). apply (concat_inj Hw Hs V1 V2) in E. subst ms'.
    f_equal. f_equal. eapply F2_fun; eauto. apply (proj1 image_fun e Hw).
  - destruct Hx as [_ ->]. destruct Hy as [_ ->]. reflexivity.
Qed.
Lemma aimage_fun l m x y : (forall k s e, In (ACont k s e) l -> elt_wf k s e) -> aimage l m x -> aimage l m y -> x = y.
Proof.
  intros Hc Hx. unfold aimage in *. revert y. induction Hx as [|c x l m xs H Hx IH|c x l m xs H Hx IH|k s e o x l m xs H Hx IH]; intros y Hy.
  - apply arel_nil_inv in Hy. destruct Hy; auto.
  - inversion Hy as [|? y' ? ? ys H'| |]; subst. destruct H as (b & -> & ->). destruct H' as (b' & E & ->). inversion E; subst. f_equal.
    apply IH; auto. intros; apply Hc; right; assumption.
  - inversion Hy as [| |? y' ? ? ys H'|]; subst. destruct H as (b & -> & ->). destruct H' as (b' & E & ->). inversion E; subst. f_equal.
    apply IH; auto. intros; apply Hc; right; assumption.
  - change (ACont k s e :: l) with ([ACont k s e] ++ l) in Hy. destruct (arel_inv Hy) as (m1 & m2 & y1 & y2 & E & -> & A1 & A2).
    apply arel_c1 in A1. destruct A1 as (o' & -> & Ho').
    assert (Hw : elt_wf k s e) by (apply Hc; left; reflexivity).
    assert (L : lenN (put_obj s o) = lenN (put_obj s o')) by (rewrite !put_obj_len by apply Hw; reflexivity).
    destruct (app_inj_len L E) as [E1 <-]. unfold put_obj in E1. inversion E1; subst. f_equal.
    + eapply cimage_fun; eauto.
    + apply IH; [intros; apply Hc; right; assumption|assumption].
Qed.

(** What an output stream must do: each write appends, and it fails only by throwing. *)
Record stream_ok {St} (wr Wr : list N -> St -> res St) (I : St -> Prop) : Prop := {
  so_wr : forall bs st, I st -> lenN bs <= max_size -> wr bs st = Wr bs st;
  so_inv : forall bs st st', I st -> Wr bs st = Ok st' -> I st';
  so_nil : forall st, I st -> Wr [] st = Ok st;
  so_app : forall a b st, I st -> Wr (a ++ b) st = bind (Wr a st) (Wr b);
  so_safe : forall bs st, I st -> (exists st', Wr bs st = Ok st') \/ (exists e, Wr bs st = Throw e)
}.

Section DumpProofs.
  Context {St : Type}.
  Variables wr Wr : list N -> St -> res St.
  Variable I : St -> Prop.
  Hypothesis SO : stream_ok wr Wr I.

  (** What dumping one element must provide. *)
  Definition elt_dump (e : ty) : Prop := forall m m2 st bs rest,
    sizeof e <= max_size -> I st -> image e m bs ->
    conv (fun a => dump_at wr a st (m ++ m2) (flat (sblock true (rops e)) ++ W FLAG_END :: rest))
         (bind (Wr bs st) (fun st' => Ok (st', W FLAG_END :: rest))).

  Lemma dump_loop e : wf e -> 1 <= sizeof e -> sizeof e <= max_size -> elt_dump e -> forall rest ms bss i p st it0,
    lenN p = i * sizeof e -> I st -> Forall2 (image e) ms bss ->
    let it := flat (sblock true (rops e)) ++ W FLAG_END :: rest in
    conv2 (fun a f => for_range f i (i + lenN ms) 1
          (fun i '(st, _) =>
             if lenN (p ++ concat ms) <? i * sizeof e then UB UOob
             else dump_at wr a st (dropN (i * sizeof e) (p ++ concat ms)) it) (st, it0))
      (bind (Wr (concat bss) st) (fun st' => Ok (st', if lenN ms =? 0 then it0 else W FLAG_END :: rest))).
  Proof.
    intros Hw Hs Hs2 ED rest. induction ms as [|m ms IH]; intros bss i p st it0 Lp HI F it.
    - inversion F; subst. cbn [concat]. rewrite (so_nil SO) by assumption. cbn [bind]. exists 1%nat. intros a [|f] _ Hf; [lia|]. cbn [for_range].
      change (lenN (@nil (list cell))) with 0. destruct (N.ltb_spec i (i + 0)); [lia|reflexivity].
    - inversion F as [|? x ? bss' Hm Hms]; subst. rewrite lenN_cons. cbn [concat]. rewrite (so_app SO) by assumption.
      assert (Vm := proj1 image_valid _ _ _ Hm). assert (Lm := proj1 valid_len e Hw _ Vm).
      destruct (ED m (concat ms) st x rest Hs2 HI Hm) as [n1 C1].
      assert (Step : forall a f, (n1 <= a)%nat -> for_range (S f) i (i + (1 + lenN ms)) 1
          (fun i '(st, _) =>
             if lenN (p ++ m ++ concat ms) <? i * sizeof e then UB UOob
             else dump_at wr a st (dropN (i * sizeof e) (p ++ m ++ concat ms)) it) (st, it0) =
          bind (bind (Wr x st) (fun st' => Ok (st', W FLAG_END :: rest)))
           (fun q => for_range f (i + 1) (i + (1 + lenN ms)) 1
          (fun i '(st, _) =>
             if lenN (p ++ m ++ concat ms) <? i * sizeof e then UB UOob
             else dump_at wr a st (dropN (i * sizeof e) (p ++ m ++ concat ms)) it) q)).
      { intros a f Ha. cbn [for_range]. destruct (N.ltb_spec i (i + (1 + lenN ms))); [|lia].
        destruct (N.ltb_spec (lenN (p ++ m ++ concat ms)) (i * sizeof e)) as [Hb|Hb]; [rewrite lenN_app in Hb; lia|].
        rewrite (@dropN_app_exact _ p (m ++ concat ms)) by congruence.
        unfold it at 1. rewrite C1 by lia. reflexivity. }
      destruct (so_safe SO x HI) as [[st1 E]|[ex E]]; rewrite E in *; cbn [bind] in *.
      + destruct (IH bss' (i + 1) (p ++ m) st1 (W FLAG_END :: rest)) as [n2 C2].
        { rewrite lenN_app. lia. } { eapply (so_inv SO); eauto. } { assumption. }
        exists (S (Nat.max n1 n2)). intros a [|f] Ha Hf; [lia|]. rewrite Step by lia.
        specialize (C2 a f ltac:(lia) ltac:(lia)). rewrite <- !app_assoc in C2.
        replace (i + 1 + lenN ms) with (i + (1 + lenN ms)) in C2 by lia. fold it in C2. rewrite C2.
        destruct (Wr (concat bss') st1); cbn [bind]; try reflexivity. destruct (lenN ms =? 0); destruct (N.eqb_spec (1 + lenN ms) 0); try lia; reflexivity.
      + exists (S n1). intros a [|f] Ha Hf; [lia|]. rewrite Step by lia. reflexivity.
  Qed.

  Definition dok (a : atom) : Prop :=
    match a with ACont k s e => elt_wf k s e /\ elt_dump e | AByte => True | APad => False end.
  Lemma dok_pos l : Forall dok l -> conts_pos l.
  Proof.
    intros H k s e Hi. assert (H0 := proj1 (Forall_forall _ _) H). apply H0 in Hi. destruct Hi as [(_ & _ & _ & H1 & _) _]. exact H1.
  Qed.
  Lemma dok_norm l : (forall k s e, In (ACont k s e) l -> elt_wf k s e /\ elt_dump e) -> Forall dok (norm true l).
  Proof.
    induction l as [|a l IH]; simpl; intros H; constructor.
    - destruct a; simpl; auto.
    - apply IH. intros; apply H; auto.
  Qed.
  Definition dump_pre (l : list atom) (st : list cell * St) : Prop :=
    Forall dok l /\ asizes l <= max_size /\ I (snd st) /\ exists bs, aimage l (takeN (asizes l) (fst st)) bs.
  Definition dump_post (l : list atom) (st : list cell * St) (r : res (list cell * St)) : Prop :=
    I (snd st) /\ exists bs, aimage l (takeN (asizes l) (fst st)) bs /\
      r = bind (Wr bs (snd st)) (fun st' => Ok (dropN (asizes l) (fst st), st')).

  Lemma le_bytes_8 n : lenN (le_bytes 8 n) = 8.
  Proof. rewrite lenN_le_bytes. reflexivity. Qed.

  Lemma cont_dump_ok k s e o bs st rest : elt_wf k s e -> elt_dump e -> I st -> cimage k e o bs ->
    let it := flat (sblock true (rops e)) ++ W FLAG_END :: rest in
    conv2 (fun a f => count <- cont_count k e o ;;
                      st1 <- wr (le_bytes 8 count) st ;;
                      if count =? 0 then it' <- skip_block it 0 ;; Ok (st1, it')
                      else cont_dump wr f (dump_at wr a) k e o count st1 it)
          (bind (Wr bs st) (fun st' => Ok (st', W FLAG_END :: rest))).
  Proof.
    intros (Hw & Hp & Hs & H1 & Hk) ED HI Him it. destruct k.
    - destruct o as [cap cs|]; cbn [cimage] in Him; [|contradiction]. destruct Him as (ms & bss & -> & C1 & C2 & F & ->).
      assert (Hv := image_len_eq Hw F). assert (Hlen := concat_len Hw Hv).
      assert (Hvc : cont_count KVec e (VecObj cap (concat ms)) = Ok (lenN ms)).
      { cbn [cont_count]. unfold vec_count. destruct (N.eqb_spec (sizeof e) 0); [lia|]. rewrite Hlen, N.div_mul by lia. reflexivity. }
      rewrite Hvc. cbn [bind]. rewrite (so_wr SO) by (auto; rewrite le_bytes_8; unfold max_size; lia).
      rewrite (so_app SO) by assumption.
      destruct (so_safe SO (le_bytes 8 (lenN ms)) HI) as [[st1 E]|[ex E]]; rewrite E; cbn [bind]; [|apply conv2_const].
      assert (HI1 : I st1) by (eapply (so_inv SO); eauto).
      destruct (N.eqb_spec (lenN ms) 0) as [Hz|Hz].
      { unfold it. rewrite skip_block_block. cbn [bind]. apply lenN_0_nil in Hz. subst ms. inversion F; subst. cbn [concat].
        rewrite (so_nil SO) by assumption. apply conv2_const. }
      assert (Hse : sizeof e <= max_size) by nia.
      cbn [cont_dump]. destruct (elt_layout_ok Hw Hp Hs) as (_ & _ & _ & HM). rewrite HM.
      destruct (hasc (rops e)) eqn:Eh; cbn [negb].
      + assert (D := @dump_loop e Hw Hs Hse ED rest ms bss 0 [] st1 it eq_refl HI1 F). cbn [app] in D. rewrite N.add_0_l in D.
        fold it in D. destruct (N.eqb_spec (lenN ms) 0); [lia|]. exact D.
      + assert (ML := memcpy_link Hw Hs). rewrite Eh in ML. destruct ML as [ML _]. unfold it. rewrite ML. cbn [flat app].
        assert (Hc := hasc_images Hw Hp Eh F). assert (Hlb : lenN (concat bss) = lenN ms * sizeof e).
        { rewrite <- Hlen, Hc. unfold lenN. rewrite map_length. reflexivity. }
        assert (M := max_size_lt). rewrite wmul_small by (rewrite N.mul_comm; lia). rewrite Hc.
        replace (sizeof e * lenN ms) with (lenN (concat bss)) by lia. rewrite <- (app_nil_r (map B (concat bss))), take_raw_map. cbn [bind].
        rewrite (so_wr SO) by (auto; lia). apply conv2_const.
    - destruct o as [|cs]; cbn [cimage] in Him; [contradiction|]. destruct Him as [Hl ->].
      assert (Hvc : cont_count KStr e (StrObj cs) = Ok (lenN cs)).
      { cbn [cont_count]. destruct (Hk eq_refl) as [c ->]. cbn [sizeof]. rewrite N.div_1_r. reflexivity. }
      rewrite Hvc. cbn [bind]. rewrite (so_wr SO) by (auto; rewrite le_bytes_8; unfold max_size; lia).
      rewrite (so_app SO) by assumption.
      destruct (so_safe SO (le_bytes 8 (lenN cs)) HI) as [[st1 E]|[ex E]]; rewrite E; cbn [bind]; [|apply conv2_const].
      assert (HI1 : I st1) by (eapply (so_inv SO); eauto).
      destruct (N.eqb_spec (lenN cs) 0) as [Hz|Hz].
      { unfold it. rewrite skip_block_block. cbn [bind]. apply lenN_0_nil in Hz. subst cs.
        rewrite (so_nil SO) by assumption. apply conv2_const. }
      cbn [cont_dump]. destruct (N.ltb_spec (lenN cs) (lenN cs)); [lia|]. rewrite takeN_all by lia.
      rewrite (so_wr SO) by (auto; lia).
      assert (Eh : hasc (rops e) = false).
      { destruct (Hk eq_refl) as [c ->]. reflexivity. }
      assert (ML := memcpy_link Hw Hs). rewrite Eh in ML. destruct ML as [ML _]. unfold it. rewrite ML. cbn [flat app].
      apply conv2_const.
  Qed.

  Lemma aimage_split l1 l2 m bs : conts_pos (l1 ++ l2) -> aimage (l1 ++ l2) (takeN (asizes (l1 ++ l2)) m) bs ->
    exists b1 b2, bs = b1 ++ b2 /\ aimage l1 (takeN (asizes l1) m) b1 /\ aimage l2 (takeN (asizes l2) (dropN (asizes l1) m)) b2.
  Proof. intros Hc H. destruct (arel_split Hc H) as (x1 & x2 & E & A1 & A2). eauto. Qed.

  Lemma dump_walk : walk_spec (fun a => dump_h wr (dump_at wr a)) true dump_pre dump_post
    (h_mem (dump_h wr (dump_at wr 0))) (h_skip (dump_h wr (dump_at wr 0))).
  Proof.
    constructor; try reflexivity.
    - intros [m st] (_ & _ & HI & _). split; [assumption|]. exists []. split; [constructor|]. cbn [snd] in *. rewrite (so_nil SO) by assumption. reflexivity.
    - intros l1 l2 [m st] (Hq & Hsz & HI & bs & Hi). assert (Hc := dok_pos Hq). apply Forall_app in Hq. cbn [fst snd] in *.
      destruct (aimage_split Hc Hi) as (b1 & b2 & -> & A1 & A2). rewrite asizes_app in Hsz.
      split; [repeat split; [tauto|lia|assumption|eauto]|].
      intros s1 (_ & x & _ & E). cbn [fst snd] in *. destruct (Wr x st) as [st1| | |] eqn:Ew; cbn [bind] in E; inversion E; subst.
      repeat split; [tauto|lia| |]; cbn [fst snd]; [eapply (so_inv SO); eauto|eauto].
    - intros l1 l2 [m st] s1 r (Hq & Hsz & HI & bs & Hi) (_ & b1 & A1 & E) P2. cbn [fst snd] in *.
      destruct (Wr b1 st) as [st1| | |] eqn:Ew; cbn [bind] in E; inversion E; subst.
      destruct P2 as (_ & b2 & A2 & ->). cbn [fst snd] in *. split; [assumption|]. exists (b1 ++ b2). cbn [fst snd]. split; [apply (arel_join A1 A2)|].
      rewrite (so_app SO) by assumption. rewrite Ew. cbn [bind]. rewrite drop_app2. reflexivity.
    - intros l1 l2 [m st] e (Hq & Hsz & HI & bs & Hi) (_ & b1 & A1 & E). assert (Hc := dok_pos Hq). cbn [fst snd] in *.
      destruct (aimage_split Hc Hi) as (b1' & b2 & -> & _ & A2). split; [assumption|]. exists (b1 ++ b2). cbn [fst snd]. split; [apply (arel_join A1 A2)|].
      rewrite (so_app SO) by assumption. destruct (Wr b1 st) as [st1| | |] eqn:Ew; cbn [bind] in *; inversion E; reflexivity.
    - intros l [m st] r (HI & bs & A & ->). cbn [snd] in *. destruct (so_safe SO bs HI) as [[st1 ->]|[e ->]]; cbn [bind]; eauto.
    - intros n [m st] (_ & Hsz & HI & bs & Hi). unfold dump_post. cbn [fst snd] in *. rewrite asizes_rep1 in * by reflexivity.
      split; [assumption|]. exists bs. split; [assumption|]. apply ib_bytes in Hi; [|auto]. destruct Hi as [L E].
      cbn [dump_h h_mem]. rewrite <- (takeN_dropN n m) at 1. rewrite E.
      assert (T : take_raw n (map B bs ++ dropN n m) = Ok (bs, dropN n m)) by (rewrite <- L; apply take_raw_map).
      rewrite T. cbn [bind]. rewrite (so_wr SO) by (auto; lia). reflexivity.
    - intros n [m st] (Hq & Hsz & HI & bs & Hi). unfold dump_post. cbn [fst snd] in *. rewrite asizes_rep1 in * by reflexivity.
      split; [assumption|]. destruct (N.eqb_spec n 0) as [->|Hn].
      + exists []. split; [constructor|]. rewrite (so_nil SO) by assumption. cbn [bind dump_h h_skip]. unfold take_cells.
        destruct (N.ltb_spec (lenN m) 0); [lia|]. reflexivity.
      + replace n with (1 + (n - 1)) in Hq by lia. rewrite repN_add in Hq. apply Forall_app in Hq. destruct Hq as [Hq _].
        apply Forall_inv in Hq. destruct Hq.
    - intros k sz e [m st] rest He Hsz (Hq & Hms & HI & bs & Hi). unfold dump_post. cbn [fst snd] in *. rewrite asizes_c1 in *.
      apply Forall_inv in Hq. destruct Hq as [Hew Heo].
      assert (Hi' := Hi). apply arel_c1 in Hi'. destruct Hi' as (o & Eo & Ho).
      destruct (cont_dump_ok rest Hew Heo HI Ho) as [n C].
      exists (bind (Wr bs st) (fun st' => Ok (dropN sz m, st'))). split; [|eauto].
      exists n. intros a f Ha Hf. rewrite <- (takeN_dropN sz m) at 1. rewrite Eo.
      cbn [dump_h h_cont h_cont_end]. rewrite !take_obj_put by assumption. cbn [bind].
      specialize (C a f Ha Hf). destruct (cont_count k e o) as [count| | |]; cbn [bind] in *;
        [|destruct (Wr bs st); cbn [bind lift] in *; inversion C; reflexivity..].
      destruct (wr (le_bytes 8 count) st) as [st1| | |]; cbn [bind] in *;
        [|destruct (Wr bs st); cbn [bind lift] in *; inversion C; reflexivity..].
      destruct (count =? 0).
      + rewrite skip_block_block in *. cbn [bind] in *. destruct (Wr bs st); cbn [bind lift] in *; inversion C; reflexivity.
      + rewrite C. destruct (Wr bs st); cbn [bind lift]; reflexivity.
  Qed.

  Lemma dump_at_ok m m2 st bs o rest : wf_out true o -> at_end rest ->
    Forall dok (atoms o) -> asizes (atoms o) <= max_size -> I st -> aimage (atoms o) m bs ->
    conv (fun a => dump_at wr a st (m ++ m2) (flat o ++ rest)) (bind (Wr bs st) (fun st' => Ok (st', rest))).
  Proof.
    intros Hwo Hr Hq Hsz HI Hi. assert (Lm := arel_len (dok_pos Hq) Hi).
    destruct (walk_rule dump_walk (s := (m ++ m2, st)) Hwo Hr) as (r & C & HI' & bs' & A & ->).
    { repeat split; auto. exists bs. cbn [fst]. rewrite takeN_app_exact by congruence. assumption. }
    cbn [fst snd] in *. rewrite takeN_app_exact in A by congruence.
    assert (bs' = bs).
    { eapply aimage_fun; eauto. intros k s e Hin. assert (H0 := proj1 (Forall_forall _ _) Hq). apply H0 in Hin. apply Hin. }
    subst bs'. destruct C as [n C]. exists (S n). intros [|a] Ha; [lia|]. cbn [dump_at]. rewrite C by lia.
    destruct (Wr bs st); reflexivity.
  Qed.

  Theorem elt_dump_all e : wf e -> plain e -> elt_dump e.
  Proof.
    remember (cdepth e) as n eqn:En. revert e En. induction n as [n IH] using lt_wf_ind. intros e En Hw Hp. subst n.
    intros m m2 st bs rest Hsz HI Him. destruct (sblock_ok true Hw) as [Hwo Ea].
    apply dump_at_ok; auto.
    - right; eauto.
    - rewrite Ea. apply dok_norm. intros k s e' Hi. destruct (proj1 tatoms_conts e false Hw Hp _ _ _ Hi) as [H1 H2].
      split; [assumption|]. apply (IH (cdepth e')); auto; apply H1.
    - rewrite Ea, asizes_norm, (proj1 tatoms_size e Hw). assumption.
    - rewrite Ea. apply aimage_norm. apply (image_atoms _ _ Hp). assumption.
  Qed.

  (** dump of a whole value: everything but the trailing padding. *)
  Theorem dump_stream_ok t v m2 st out pad pre v1 : wf t -> plain t -> sizeof t <= max_size -> I st ->
    tatoms t = pre ++ repN (lenN pad) APad -> atoms (stop true (rops t)) = norm true pre -> v = v1 ++ map B pad -> aimage pre v1 out ->
    exists l, layout_default t = Ok l /\
      conv (fun f => dump_at wr f st (v ++ m2) (ops l)) (bind (Wr out st) (fun st' => Ok (st', []))).
  Proof.
    intros Hw Hp Hsz HI E1 E2 -> Ai. destruct (@layout_ok false true t Hw Hp) as (l & oi & k' & Hl & El & _).
    destruct (stop_ok true Hw) as (Hwo & _).
    exists l. split; [exact Hl|].
    rewrite El, <- (app_nil_r (flat _)), <- app_assoc. apply dump_at_ok; auto.
    - left; reflexivity.
    - rewrite E2. apply dok_norm. intros k s e' Hi2. destruct (proj1 tatoms_conts t false Hw Hp k s e') as [H1 H2].
      { rewrite E1. apply in_app_iff. auto. }
      split; [assumption|]. apply elt_dump_all; apply H1.
    - rewrite E2, asizes_norm. apply (f_equal asizes) in E1. rewrite (proj1 tatoms_size t Hw), asizes_app in E1. lia.
    - rewrite E2. apply aimage_norm. assumption.
  Qed.
End DumpProofs.

(** The part of the value that is dumped, and the trailing padding that is not. *)
Lemma dump_split t v : wf t -> plain t -> valid t v ->
  exists out pad pre v1, image t v (out ++ pad) /\ tatoms t = pre ++ repN (lenN pad) APad /\
    atoms (stop true (rops t)) = norm true pre /\ v = v1 ++ map B pad /\ aimage pre v1 out.
Proof.
  intros Hw Hp Hv. destruct (stop_ok true Hw) as (_ & pre & k & E1 & E2).
  destruct (proj1 valid_image t v Hv) as [bs Hi]. assert (Hi' := Hi). apply (image_atoms _ _ Hp) in Hi. rewrite E1 in Hi.
  destruct (arel_inv Hi) as (v1 & v2 & out & pad & -> & -> & A1 & A2). apply ib_bytes in A2; [|auto]. destruct A2 as [Lk ->]. subst k.
  exists out, pad, pre, v1. auto.
Qed.

(** ** The three streams *)
Lemma vector_stream : stream_ok wr_vector wr_vector (fun _ => True).
Proof.
  constructor; auto.
  - intros st _. unfold wr_vector. rewrite app_nil_r. reflexivity.
  - intros a b st _. unfold wr_vector. cbn [bind]. rewrite app_assoc. reflexivity.
  - intros bs st _. left. eexists; reflexivity.
Qed.
Lemma counter_stream : stream_ok wr_counter wr_counter (fun n => n < two64).
Proof.
  constructor; auto; unfold wr_counter.
  - intros bs st st' _ H. inversion H; subst. unfold wadd. apply N.mod_lt. unfold two64; lia.
  - intros st H. rewrite lenN_nil, wadd_small by lia. f_equal. lia.
  - intros a b st _. cbn [bind]. f_equal. unfold wadd. rewrite lenN_app, N.add_mod_idemp_l by (unfold two64; lia). f_equal. lia.
  - intros bs st _. left. eexists; reflexivity.
Qed.
(** The buffer of ByteArrayOutputStream is a buffer of unsigned int size. *)
Definition Wr_bounded (bs : list N) (st : list N * list N) : res (list N * list N) :=
  let '(wn, rm) := st in if lenN rm <? lenN bs then Throw EStd else Ok (wn ++ bs, dropN (lenN bs) rm).
Lemma bounded_stream sz : sz < 4294967296 ->
  stream_ok wr_bounded Wr_bounded (fun st => lenN (fst st) + lenN (snd st) = sz).
Proof.
  intros Hsz. constructor.
  - intros bs [wn rm] H Hb. cbn [fst snd] in H. unfold wr_bounded, Wr_bounded. rewrite wadd_small by (unfold max_size, two64 in *; lia).
    destruct (N.ltb_spec (lenN wn + lenN rm) (lenN wn + lenN bs)), (N.ltb_spec (lenN rm) (lenN bs)); try lia; reflexivity.
  - intros bs [wn rm] st' H E. cbn [fst snd] in H. unfold Wr_bounded in E. destruct (N.ltb_spec (lenN rm) (lenN bs)); inversion E; subst.
    cbn [fst snd]. rewrite lenN_app, lenN_dropN. lia.
  - intros [wn rm] H. unfold Wr_bounded. rewrite lenN_nil. destruct (N.ltb_spec (lenN rm) 0); [lia|]. rewrite app_nil_r. reflexivity.
  - intros a b [wn rm] H. unfold Wr_bounded. rewrite lenN_app. destruct (N.ltb_spec (lenN rm) (lenN a)); cbn [bind].
    + destruct (N.ltb_spec (lenN rm) (lenN a + lenN b)); [reflexivity|lia].
    + rewrite lenN_dropN. destruct (N.ltb_spec (lenN rm - lenN a) (lenN b)), (N.ltb_spec (lenN rm) (lenN a + lenN b)); try lia; [reflexivity|].
      rewrite <- app_assoc, dropN_dropN. reflexivity.
  - intros bs [wn rm] H. unfold Wr_bounded. destruct (lenN rm <? lenN bs); eauto.
Qed.
