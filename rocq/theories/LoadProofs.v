(** * LoadProofs: load reads back images, and rejects truncated ones. *)
From Verif Require Import Base Types WellFormed Layout LayoutProofs LayoutMain InitProofs LayoutFinal
     ValueOps ValueSpec ValueAtoms ValueInst WalkProofs InitRun EltOps EltProofs CmpProofs DumpProofs.
Local Open Scope N_scope.

Lemma le_val_bytes k n : n < 256 ^ N.of_nat k -> le_val (le_bytes k n) = n.
Proof.
  revert n; induction k as [|k IH]; intros n H.
  - change (256 ^ N.of_nat 0) with 1 in H. simpl. lia.
  - rewrite Nat2N.inj_succ, N.pow_succ_r' in H. cbn [le_bytes le_val]. rewrite N.mod_mod by lia. rewrite IH.
    + rewrite (N.add_comm (n mod 256)). symmetry. apply N.div_mod. lia.
    + apply N.div_lt_upper_bound; lia.
Qed.
Lemma le_val_8 n : n < two64 -> le_val (le_bytes 8 n) = n.
Proof. intros H. apply le_val_bytes. exact H. Qed.

(** ** Streams that agree with an image as far as both go *)
Definition comp (bs x : list N) : Prop := (exists r, x = bs ++ r) \/ (exists tl, tl <> [] /\ bs = x ++ tl).
Definition consumes (bs x : list N) (P : list N -> Prop) (T : Prop) : Prop :=
  (exists r, x = bs ++ r /\ P r) \/ (exists tl, tl <> [] /\ bs = x ++ tl /\ T).
Lemma comp_l b1 b2 x : comp (b1 ++ b2) x -> comp b1 x.
Proof.
  intros [[r ->]|(tl & Ht & E)].
  - left. exists (b2 ++ r). rewrite app_assoc. reflexivity.
  - revert x E. induction b1 as [|b b1 IH]; intros x E.
    + left. exists x. reflexivity.
    + destruct x as [|y x]; [right; exists (b :: b1); split; [discriminate|reflexivity]|].
      simpl in E. inversion E; subst. destruct (IH x H1) as [[r ->]|(t & Ht2 & ->)]; [left; exists r; reflexivity|right; exists t; auto].
Qed.
Lemma comp_r b1 b2 r : comp (b1 ++ b2) (b1 ++ r) -> comp b2 r.
Proof.
  intros [[r' E]|(tl & Ht & E)].
  - rewrite <- app_assoc in E. apply app_inv_head in E. left; eauto.
  - rewrite <- app_assoc in E. apply app_inv_head in E. right; eauto.
Qed.
Lemma consumes_nil x (P : list N -> Prop) T : P x -> consumes [] x P T.
Proof. intros H. left. exists x. auto. Qed.
Lemma consumes_T b1 b2 x P (T' : Prop) tl : tl <> [] -> b1 = x ++ tl -> T' -> consumes (b1 ++ b2) x P T'.
Proof.
  intros Ht -> H. right. exists (tl ++ b2). rewrite app_assoc. repeat split; auto. destruct tl; [contradiction|discriminate].
Qed.
Lemma consumes_seq b1 b2 r0 P T : consumes b2 r0 P T -> consumes (b1 ++ b2) (b1 ++ r0) P T.
Proof.
  intros [[r [-> H]]|(tl & Ht & -> & H)].
  - left. exists r. rewrite app_assoc. auto.
  - right. exists tl. rewrite app_assoc. auto.
Qed.
Lemma consumes_impl bs x (P P' : list N -> Prop) (T T' : Prop) :
  (forall r, x = bs ++ r -> P r -> P' r) -> (T -> T') -> consumes bs x P T -> consumes bs x P' T'.
Proof. intros H1 H2 [[r [E H]]|(tl & Ht & E & H)]; [left|right]; eauto 10. Qed.

Lemma rd_ok idx bs r : idx + lenN (bs ++ r) <= max_size -> rd (lenN bs) (idx, bs ++ r) = Ok (bs, (idx + lenN bs, r)).
Proof.
  intros H. rewrite lenN_app in H. unfold rd. rewrite lenN_app. assert (M := max_size_lt).
  rewrite wadd_small by lia. destruct (N.ltb_spec (idx + (lenN bs + lenN r)) (lenN bs + idx)); [lia|].
  destruct (N.ltb_spec (lenN bs + lenN r) (lenN bs)); [lia|]. rewrite takeN_app_exact, dropN_app_exact by reflexivity. reflexivity.
Qed.
Lemma rd_short n idx x : idx + lenN x <= max_size -> n <= max_size -> lenN x < n -> rd n (idx, x) = Throw ERuntime.
Proof.
  intros H Hn Hx. unfold rd. rewrite wadd_small by (unfold max_size, two64 in *; lia).
  destruct (N.ltb_spec (idx + lenN x) (n + idx)); [reflexivity|lia].
Qed.
Lemma rd_consumes idx bs x : comp bs x -> idx + lenN x <= max_size -> lenN bs <= max_size ->
  consumes bs x (fun r => rd (lenN bs) (idx, x) = Ok (bs, (idx + lenN bs, r))) (rd (lenN bs) (idx, x) = Throw ERuntime).
Proof.
  intros [[r ->]|(tl & Ht & E)] H1 H2.
  - left. exists r. split; [reflexivity|]. apply rd_ok; assumption.
  - right. exists tl. repeat split; auto. apply rd_short; auto. subst bs. rewrite lenN_app.
    destruct tl; [contradiction|]. rewrite lenN_cons. lia.
Qed.

(** ** What loading one element must provide *)
Definition elt_load (e : ty) : Prop := forall d d2 idx x v bs rest,
  sizeof e <= max_size -> idx + lenN x <= max_size -> valid e d -> image e v bs -> comp bs x ->
  exists r, conv (fun a => load_at a (idx, x) (d ++ d2) (flat (sblock true (rops e)) ++ W FLAG_END :: rest)) r /\
    consumes bs x
      (fun r0 => exists d', r = Ok (d' ++ d2, (idx + lenN bs, r0), W FLAG_END :: rest) /\ valid e d' /\
                            (fresh e d \/ full e v -> same e d' v))
      (r = Throw ERuntime).

Lemma Forall_full_valid e ms : Forall (full e) ms -> Forall (valid e) ms.
Proof. intros H. eapply Forall_impl; [|exact H]. apply full_valid. Qed.

Lemma load_loop e : wf e -> 1 <= sizeof e -> sizeof e <= max_size -> elt_load e -> forall rest ds vs bss j p idx x it0,
  lenN p = j * sizeof e -> lenN ds = lenN vs -> Forall (valid e) ds -> Forall2 (image e) vs bss ->
  comp (concat bss) x -> idx + lenN x <= max_size ->
  let it := flat (sblock true (rops e)) ++ W FLAG_END :: rest in
  exists r, conv2 (fun a f => for_range f j (j + lenN ds) 1
          (fun j '(c, i, _) =>
             if lenN c <? j * sizeof e then UB UOob
             else '(c', i', it') <- load_at a i (dropN (j * sizeof e) c) it ;;
                  Ok (takeN (j * sizeof e) c ++ c', i', it')) (p ++ concat ds, (idx, x), it0)) r /\
    consumes (concat bss) x
      (fun r0 => exists ds', r = Ok (p ++ concat ds', (idx + lenN (concat bss), r0), if lenN ds =? 0 then it0 else W FLAG_END :: rest) /\
          lenN ds' = lenN ds /\ Forall (valid e) ds' /\ (Forall (fresh e) ds \/ Forall (full e) vs -> Forall2 (same e) ds' vs))
      (r = Throw ERuntime).
Proof.
  intros Hw Hs Hs2 EL rest. induction ds as [|d ds IH]; intros vs bss j p idx x it0 Lp Ll Vd F Hc Hx it.
  - destruct vs as [|v vs]; [|rewrite lenN_cons in Ll; change (lenN (@nil (list cell))) with 0 in Ll; lia].
    inversion F; subst. cbn [concat]. eexists. split.
    + exists 1%nat. intros a [|f] _ Hf; [lia|]. cbn [for_range]. change (lenN (@nil (list cell))) with 0.
      destruct (N.ltb_spec j (j + 0)); [lia|reflexivity].
    + apply consumes_nil. exists []. change (lenN (@nil N)) with 0. rewrite N.add_0_r. repeat split; auto.
  - destruct vs as [|v vs]; [rewrite lenN_cons in Ll; change (lenN (@nil (list cell))) with 0 in Ll; lia|].
    rewrite !lenN_cons in *. inversion F as [|? b ? bss' Iv Ivs]; subst. inversion Vd as [|? ? Vd1 Vds]; subst. cbn [concat] in *.
    destruct (EL d (concat ds) idx x v b rest Hs2 Hx Vd1 Iv (comp_l Hc)) as (r1 & [n1 C1] & K).
    assert (Ld : lenN d = sizeof e) by (apply (proj1 valid_len); assumption).
    assert (Step : forall a f, (n1 <= a)%nat -> for_range (S f) j (j + (1 + lenN ds)) 1
          (fun j '(c, i, _) =>
             if lenN c <? j * sizeof e then UB UOob
             else '(c', i', it') <- load_at a i (dropN (j * sizeof e) c) it ;;
                  Ok (takeN (j * sizeof e) c ++ c', i', it')) (p ++ d ++ concat ds, (idx, x), it0) =
       bind (bind r1 (fun q => let '(c', i', it') := q in Ok (p ++ c', i', it')))
         (fun q => for_range f (j + 1) (j + (1 + lenN ds)) 1
          (fun j '(c, i, _) =>
             if lenN c <? j * sizeof e then UB UOob
             else '(c', i', it') <- load_at a i (dropN (j * sizeof e) c) it ;;
                  Ok (takeN (j * sizeof e) c ++ c', i', it')) q)).
    { intros a f Ha. cbn [for_range]. destruct (N.ltb_spec j (j + (1 + lenN ds))); [|lia].
      destruct (N.ltb_spec (lenN (p ++ d ++ concat ds)) (j * sizeof e)) as [Hb|Hb]; [rewrite lenN_app in Hb; lia|].
      rewrite dropN_app_exact, takeN_app_exact by congruence. unfold it at 1. rewrite C1 by lia. reflexivity. }
    destruct K as [[r0 [-> (d' & -> & Vd' & Sd)]]|(tl & Ht & Etl & ->)].
    + assert (Ld' : lenN d' = sizeof e) by (apply (proj1 valid_len); assumption).
      destruct (IH vs bss' (j + 1) (p ++ d') (idx + lenN b) r0 (W FLAG_END :: rest)) as (r & [n2 C2] & K); auto.
      { rewrite lenN_app. lia. } { lia. } { eapply comp_r; eauto. } { rewrite lenN_app in Hx. lia. }
      exists r. split.
      * exists (S (Nat.max n1 n2)). intros a [|f] Ha Hf; [lia|]. rewrite Step by lia. cbn [bind].
        specialize (C2 a f ltac:(lia) ltac:(lia)). rewrite <- !app_assoc in C2.
        replace (j + 1 + lenN ds) with (j + (1 + lenN ds)) in C2 by lia. fold it in C2. exact C2.
      * apply consumes_seq. eapply consumes_impl; [| |exact K]; auto.
        intros r' _ (ds' & -> & Lds & Vds' & Sds). exists (d' :: ds'). rewrite lenN_cons. cbn [concat].
        rewrite lenN_app. rewrite <- !app_assoc. repeat split.
        { destruct (N.eqb_spec (1 + lenN ds) 0); [lia|]. rewrite N.add_assoc. destruct (lenN ds =? 0); reflexivity. }
        { lia. } { constructor; assumption. }
        intros [H|H]; inversion H; subst; constructor; auto.
    + exists (Throw ERuntime). split.
      * exists (S n1). intros a [|f] Ha Hf; [lia|]. rewrite Step by lia. reflexivity.
      * apply consumes_T with (tl := tl); auto.
Qed.

Lemma bytes_same e m : wf e -> plain e -> hasc (rops e) = false -> bytes (sizeof e) m -> same e m m.
Proof. intros Hw Hp Hh Hb. eapply hasc_same; eauto. Qed.

Lemma cont_load_ok k s e o idx x ov bs rest : elt_wf k s e -> elt_load e -> cvalid k e o -> cimage k e ov bs -> comp bs x ->
  idx + lenN x <= max_size ->
  let it := flat (sblock true (rops e)) ++ W FLAG_END :: rest in
  exists r, conv2 (fun a f => '(b8, i1) <- rd 8 (idx, x) ;;
                      let count := le_val b8 in
                      if count =? 0 then it' <- skip_block it 0 ;; Ok (o, i1, it')
                      else cont_load f (eops_at a) (load_at a) k e o count i1 it) r /\
    consumes bs x
      (fun r0 => exists o', r = Ok (o', (idx + lenN bs, r0), W FLAG_END :: rest) /\ cvalid k e o' /\
                            (czero k o \/ cfull k e ov -> csame k e o' ov))
      (r = Throw ERuntime).
Proof.
  intros (Hw & Hp & Hs & H1 & Hk) EL Hv Hi Hc Hx it.
  assert (EO := elt_ok_all Hw Hp). assert (M := max_size_lt).
  (* the number of elements *)
  assert (Hcnt : exists count body, bs = le_bytes 8 count ++ body /\ count <= max_size /\ lenN body <= max_size + lenN body).
  { destruct k, ov as [cap cs|cs]; cbn [cimage] in Hi; try contradiction.
    - destruct Hi as (ms & bss & -> & C1 & C2 & F & ->). exists (lenN ms), (concat bss). repeat split; [|lia].
      rewrite (concat_len Hw (image_len_eq Hw F)) in C1. nia.
    - destruct Hi as [Hl ->]. exists (lenN cs), cs. repeat split; [assumption|lia]. }
  destruct Hcnt as (count & body & Ebs & Hcm & _).
  assert (L8 : lenN (le_bytes 8 count) = 8) by apply le_bytes_8.
  assert (K := @rd_consumes idx (le_bytes 8 count) x). rewrite L8 in K.
  destruct K as [[r0 [-> K]]|(tl & Ht & Etl & K)]; auto.
  { rewrite Ebs in Hc. eapply comp_l; eauto. } { unfold max_size; lia. }
  2:{ exists (Throw ERuntime). split; [exists 0%nat; intros; rewrite K; reflexivity|]. rewrite Ebs.
      apply consumes_T with (tl := tl); auto. }
  rewrite K. cbn [bind]. rewrite le_val_8 by lia. clear K. rewrite Ebs in *. apply comp_r in Hc. rewrite !lenN_app, L8 in *.
  destruct k.
  - (* vector *)
    destruct ov as [capv csv|]; cbn [cimage] in Hi; [|contradiction]. destruct Hi as (vs & bss & -> & C1 & C2 & F & E).
    apply app_inj_len in E; [|rewrite !le_bytes_8; reflexivity]. destruct E as [E ->].
    assert (Vv := image_len_eq Hw F). assert (Hlv := concat_len Hw Vv).
    assert (Ec : count = lenN vs).
    { apply (f_equal le_val) in E. rewrite !le_val_8 in E by nia. assumption. }
    subst count. clear E.
    destruct o as [cap cs|]; cbn [cvalid] in Hv; [|contradiction]. destruct Hv as (ms & -> & Vm & Cm1 & Cm2).
    destruct (N.eqb_spec (lenN vs) 0) as [Hz|Hz].
    { apply lenN_0_nil in Hz. subst vs. inversion F; subst. cbn [concat] in *. rewrite app_nil_r in *.
      exists (Ok (VecObj cap (concat ms), (idx + 8, r0), W FLAG_END :: rest)). split.
      - unfold it. rewrite skip_block_block. apply conv2_const.
      - left. exists r0. split; [reflexivity|]. eexists. split; [rewrite lenN_nil, N.add_0_r; reflexivity|]. split; [simpl; eauto|].
        intros [Hz|Hz].
        + destruct Hz as [Hz _]. simpl. exists [], []. rewrite Hz. cbn [concat]. rewrite lenN_nil. repeat split; auto; lia.
        + destruct Hz as (ws & Ew & Hne & Fw & _). destruct ws as [|w ws]; [contradiction|]. inversion Fw as [|? ? Hfw _]; subst.
          apply full_valid in Hfw. apply (f_equal lenN) in Ew. cbn [concat] in Ew. rewrite lenN_app, (proj1 valid_len e Hw _ Hfw) in Ew.
          change (lenN (@nil cell)) with 0 in Ew. lia. }
    assert (Hse : sizeof e <= max_size) by nia.
    destruct (@vec_resize_ok e (lenN vs) cap ms Hw Hp Hs EO Vm Cm1 Cm2) as (cap' & ds & [n C] & Ld & Vd & Cd1 & Cd2 & xs & ys & Exy & Fx & Fy); [lia|].
    cbn [cont_load]. destruct (elt_layout_ok Hw Hp Hs) as (_ & _ & _ & HM). rewrite HM.
    assert (Hcf : forall ds', lenN ds' = lenN vs -> Forall (valid e) ds' ->
        (Forall (fresh e) ds \/ Forall (full e) vs -> Forall2 (same e) ds' vs) ->
        cvalid KVec e (VecObj cap' (concat ds')) /\
        (czero KVec (VecObj cap (concat ms)) \/ cfull KVec e (VecObj capv (concat vs)) -> csame KVec e (VecObj cap' (concat ds')) (VecObj capv (concat vs)))).
    { intros ds' Lds Vds Sds. assert (Hl' : lenN (concat ds') <= cap').
      { rewrite (concat_len Hw Vds), Lds. rewrite (concat_len Hw Vd), Ld in Cd1. assumption. }
      split; [simpl; exists ds'; auto|]. intros Hf. simpl. exists ds', vs. repeat split; auto. apply Sds.
      destruct Hf as [[Hz0 _]|(ws & Ew & _ & Fw & _)].
      - left. destruct ms as [|m ms].
        + destruct xs as [|y' xs]; [|apply F2_lenN in Fx; rewrite lenN_cons in Fx; unfold takeN in Fx; rewrite firstn_nil in Fx; change (lenN (@nil (list cell))) with 0 in Fx; lia].
          rewrite Exy. assumption.
        + inversion Vm; subst. apply (f_equal lenN) in Hz0. cbn [concat] in Hz0. rewrite lenN_app, (proj1 valid_len e Hw m) in Hz0 by assumption.
          change (lenN (@nil cell)) with 0 in Hz0. lia.
      - right. apply (concat_inj Hw Hs Vv (Forall_full_valid Fw)) in Ew. subst ws. assumption. }
    destruct (hasc (rops e)) eqn:Eh; cbn [negb].
    + destruct (@load_loop e Hw Hs Hse EL rest ds vs bss 0 [] (idx + 8) r0 [] eq_refl Ld Vd F Hc) as (r & [n2 C3] & K); [lia|].
      cbn [app] in C3. rewrite N.add_0_l, Ld in C3. fold it in C3.
      exists (bind r (fun q => let '(cs2, i2, it2) := q in Ok (VecObj cap' cs2, i2, it2))). split.
      * exists (Nat.max n n2). intros a f Ha Hf. rewrite C by lia. cbn [bind]. rewrite C3 by lia. reflexivity.
      * apply consumes_seq. eapply consumes_impl; [| |exact K].
        { intros r' _ (ds' & -> & Lds & Vds & Sds). cbn [bind app]. eexists. split.
          - destruct (N.eqb_spec (lenN ds) 0); [lia|]. rewrite N.add_assoc. reflexivity.
          - apply Hcf; [congruence|assumption|assumption]. }
        { intros ->. reflexivity. }
    + assert (ML := memcpy_link Hw Hs). rewrite Eh in ML. destruct ML as [ML _]. unfold it. rewrite ML. cbn [flat app].
      assert (Hcc := hasc_images Hw Hp Eh F). assert (Hlb : lenN (concat bss) = lenN vs * sizeof e).
      { rewrite <- Hlv, Hcc. unfold lenN. rewrite map_length. reflexivity. }
      rewrite wmul_small by (rewrite N.mul_comm; lia). replace (sizeof e * lenN vs) with (lenN (concat bss)) by lia.
      assert (K := @rd_consumes (idx + 8) (concat bss) r0 Hc).
      assert (Bd : Forall (bytes (sizeof e)) ds) by (eapply Forall_impl; [|exact Vd]; intros m; apply (hasc_valid m Hw Hp Eh)).
      assert (Bc := bytes_concat Hw Vd Bd).
      assert (Hwr : write_raw (concat bss) (concat ds) = Ok (map B (concat bss), [])).
      { rewrite <- (app_nil_r (concat ds)). apply write_raw_app. replace (lenN (concat bss)) with (lenN (concat ds)); [assumption|].
        rewrite (concat_len Hw Vd), Ld. lia. }
      destruct K as [[r1 [-> K]]|(tl & Ht & Etl & K)]; [lia|lia| |].
      * exists (Ok (VecObj cap' (concat vs), (idx + 8 + lenN (concat bss), r1), W FLAG_END :: rest)). split.
        { exists n. intros a f Ha Hf. rewrite C by lia. cbn [bind]. rewrite K. cbn [bind]. rewrite Hwr. cbn [bind].
          rewrite app_nil_r, <- Hcc. reflexivity. }
        { left. exists r1. rewrite app_assoc. split; [reflexivity|]. eexists. split; [rewrite N.add_assoc; reflexivity|].
          apply Hcf; auto. intros _. apply Forall2_same_refl. assumption. }
      * exists (Throw ERuntime). split.
        { exists n. intros a f Ha Hf. rewrite C by lia. cbn [bind]. rewrite K. reflexivity. }
        { apply consumes_seq. right. exists tl. auto. }
  - (* string *)
    destruct ov as [|cv]; cbn [cimage] in Hi; [contradiction|]. destruct Hi as [Hlv E].
    apply app_inj_len in E; [|rewrite !le_bytes_8; reflexivity]. destruct E as [E ->].
    assert (Ec : count = lenN cv).
    { apply (f_equal le_val) in E. rewrite !le_val_8 in E by lia. assumption. }
    subst count. clear E. destruct o as [|cs]; cbn [cvalid] in Hv; [contradiction|].
    destruct (N.eqb_spec (lenN cv) 0) as [Hz|Hz].
    { apply lenN_0_nil in Hz. subst cv. rewrite app_nil_r in *.
      exists (Ok (StrObj cs, (idx + 8, r0), W FLAG_END :: rest)). split.
      - unfold it. rewrite skip_block_block. apply conv2_const.
      - left. exists r0. split; [reflexivity|]. eexists. split; [rewrite lenN_nil, N.add_0_r; reflexivity|]. split; [simpl; assumption|].
        intros [Hz|Hz]; [simpl in *; subst; auto|destruct Hz; contradiction]. }
    cbn [cont_load]. destruct (N.ltb_spec max_size (lenN cv)); [lia|].
    assert (K := @rd_consumes (idx + 8) cv r0 Hc).
    assert (Eh : hasc (rops e) = false) by (destruct (Hk eq_refl) as [c ->]; reflexivity).
    assert (ML := memcpy_link Hw Hs). rewrite Eh in ML. destruct ML as [ML _]. unfold it. rewrite ML. cbn [flat app].
    destruct K as [[r1 [-> K]]|(tl & Ht & Etl & K)]; [lia|lia| |].
    + exists (Ok (StrObj cv, (idx + 8 + lenN cv, r1), W FLAG_END :: rest)). split; [rewrite K; apply conv2_const|].
      left. exists r1. rewrite app_assoc. split; [reflexivity|]. eexists. split; [rewrite N.add_assoc; reflexivity|]. simpl; auto.
    + exists (Throw ERuntime). split; [rewrite K; apply conv2_const|]. apply consumes_seq. right. exists tl. auto.
Qed.

(** ** The walk *)
Definition lok (a : atom) : Prop :=
  match a with ACont k s e => elt_wf k s e /\ elt_load e | AByte => True | APad => False end.
Lemma lok_pos l : Forall lok l -> conts_pos l.
Proof.
  intros H k s e Hi. assert (H0 := proj1 (Forall_forall _ _) H). apply H0 in Hi. destruct Hi as [(_ & _ & _ & H1 & _) _]. exact H1.
Qed.
Lemma lok_norm l : (forall k s e, In (ACont k s e) l -> elt_wf k s e /\ elt_load e) -> Forall lok (norm true l).
Proof.
  induction l as [|a l IH]; simpl; intros H; constructor.
  - destruct a; simpl; auto.
  - apply IH. intros; apply H; auto.
Qed.
Definition lstate := (list cell * list cell * istream)%type.
Definition load_pre (l : list atom) (st : lstate) : Prop :=
  let '(dn, m, (idx, x)) := st in
  Forall lok l /\ asizes l <= max_size /\ idx + lenN x <= max_size /\ avalid l (takeN (asizes l) m) /\
  exists v bs, aimage l v bs /\ comp bs x.
Definition load_post (l : list atom) (st : lstate) (r : res lstate) : Prop :=
  let '(dn, m, (idx, x)) := st in
  (exists v bs, aimage l v bs /\ comp bs x) /\
  forall v bs, aimage l v bs -> comp bs x ->
    consumes bs x
      (fun r0 => exists d', r = Ok (dn ++ d', dropN (asizes l) m, (idx + lenN bs, r0)) /\ avalid l d' /\
                            (afresh l (takeN (asizes l) m) \/ afull l v -> asame l d' v))
      (r = Throw ERuntime).

Lemma ulist_split {RC : ckind -> N -> ty -> cobj -> list unit -> Prop} l1 l2 m : arel vb vb RC (l1 ++ l2) m [] ->
  exists m1 m2, m = m1 ++ m2 /\ arel vb vb RC l1 m1 [] /\ arel vb vb RC l2 m2 [].
Proof.
  intros H. destruct (arel_inv H) as (m1 & m2 & x1 & x2 & -> & E & A1 & A2). symmetry in E. apply app_eq_nil in E.
  destruct E as [-> ->]. eauto.
Qed.
Lemma afresh_split l1 l2 m : conts_pos (l1 ++ l2) -> afresh (l1 ++ l2) (takeN (asizes (l1 ++ l2)) m) ->
  afresh l1 (takeN (asizes l1) m) /\ afresh l2 (takeN (asizes l2) (dropN (asizes l1) m)).
Proof.
  intros Hc H. destruct (arel_split Hc H) as (x1 & x2 & E & A1 & A2). symmetry in E. apply app_eq_nil in E.
  destruct E as [-> ->]. auto.
Qed.
Lemma afull_split l1 l2 v1 v2 : conts_pos (l1 ++ l2) -> lenN v1 = asizes l1 -> afull (l1 ++ l2) (v1 ++ v2) -> afull l1 v1 /\ afull l2 v2.
Proof.
  intros Hc L H. destruct (ulist_split H) as (m1 & m2 & E & A1 & A2).
  apply conts_pos_app in Hc. assert (L1 := arel_len (proj1 Hc) A1).
  destruct (app_inj_len (eq_trans L (eq_sym L1)) E) as [-> ->]. auto.
Qed.
Lemma avalid_app l1 l2 m1 m2 : avalid l1 m1 -> avalid l2 m2 -> avalid (l1 ++ l2) (m1 ++ m2).
Proof. intros H1 H2. unfold avalid. change (@nil unit) with (@nil unit ++ @nil unit). apply arel_app; assumption. Qed.

Lemma load_walk : walk_spec (fun a => load_h (eops_at a) (load_at a)) true load_pre load_post
  (h_mem (load_h (eops_at 0) (load_at 0))) (h_skip (load_h (eops_at 0) (load_at 0))).
Proof.
  constructor; try reflexivity.
  - intros [[dn m] [idx x]] (_ & _ & _ & _ & v & bs & Hi & Hc). split; [eauto|]. clear v bs Hi Hc. intros v bs Hi Hc.
    apply arel_nil_inv in Hi. destruct Hi as [-> ->]. apply consumes_nil. exists []. rewrite app_nil_r.
    change (asizes []) with 0. change (lenN (@nil N)) with 0. rewrite N.add_0_r. split; [reflexivity|]. split; [constructor|]. intros; constructor.
  - intros l1 l2 [[dn m] [idx x]] (Hq & Hsz & Hx & Hv & v & bs & Hi & Hc). assert (Hp := lok_pos Hq). apply Forall_app in Hq.
    rewrite asizes_app in Hsz. destruct (avalid_split Hp Hv) as [V1 V2].
    destruct (arel_inv Hi) as (v1 & v2 & b1 & b2 & -> & -> & A1 & A2).
    split; [repeat split; [tauto|lia|assumption|assumption|exists v1, b1; split; [assumption|eapply comp_l; eauto]]|].
    intros [[dn1 m1] [idx1 x1]] (_ & P). destruct (P _ _ A1 (comp_l Hc)) as [[r0 [-> (d' & E & _)]]|(tl & _ & _ & E)]; inversion E; subst.
    rewrite lenN_app in Hx. repeat split; [tauto|lia|lia|assumption|]. exists v2, b2. split; [assumption|eapply comp_r; eauto].
  - intros l1 l2 [[dn m] [idx x]] [[dn1 m1] [idx1 x1]] r (Hq & Hsz & Hx & Hv & v & bs & Hi & Hc) (_ & P1) (_ & P2).
    split; [eauto|]. clear v bs Hi Hc. intros v bs Hi Hc. assert (Hp := lok_pos Hq).
    destruct (arel_inv Hi) as (v1 & v2 & b1 & b2 & -> & -> & A1 & A2).
    destruct (P1 _ _ A1 (comp_l Hc)) as [[r0 [-> (d1 & E & V1 & S1)]]|(tl & _ & _ & E)]; inversion E; subst.
    apply consumes_seq. eapply consumes_impl; [| |apply (P2 _ _ A2 (comp_r Hc))]; [|auto].
    intros r' _ (d2 & -> & V2 & S2). exists (d1 ++ d2). rewrite app_assoc, drop_app2, lenN_app, N.add_assoc. split; [reflexivity|].
    split; [apply avalid_app; assumption|]. intros H. assert (Lv1 := arel_len (proj1 (proj1 (conts_pos_app _ _) Hp)) A1). apply arel_app.
    + apply S1. destruct H as [H|H]; [left; exact (proj1 (afresh_split Hp H))|right].
      exact (proj1 (afull_split Hp Lv1 H)).
    + apply S2. destruct H as [H|H]; [left; exact (proj2 (afresh_split Hp H))|right].
      exact (proj2 (afull_split Hp Lv1 H)).
  - intros l1 l2 [[dn m] [idx x]] ex (Hq & Hsz & Hx & Hv & v & bs & Hi & Hc) (_ & P1).
    split; [eauto|]. clear v bs Hi Hc. intros v bs Hi Hc.
    destruct (arel_inv Hi) as (v1 & v2 & b1 & b2 & -> & -> & A1 & A2).
    destruct (P1 _ _ A1 (comp_l Hc)) as [[r0 [-> (d1 & E & V1 & S1)]]|(tl & Ht & Etl & E)]; inversion E; subst.
    apply consumes_T with (tl := tl); auto.
  - intros l [[dn m] [idx x]] r ((v & bs & Hi & Hc) & P). destruct (P _ _ Hi Hc) as [[r0 [_ (d1 & -> & _)]]|(tl & Ht & Etl & ->)]; eauto.
  - intros n [[dn m] [idx x]] (_ & Hsz & Hx & Hv & v & bs & Hi & Hc). unfold load_post. rewrite asizes_rep1 in * by reflexivity.
    split; [eauto|]. clear v bs Hi Hc. intros v bs Hi Hc. apply ib_bytes in Hi; [|auto]. destruct Hi as [L ->].
    apply vb_bytes in Hv; [|auto]. destruct Hv as [Hv _]. cbn [load_h h_mem]. subst n.
    destruct (rd_consumes Hc Hx Hsz) as [[r0 [-> K]]|(tl & Ht & Etl & K)].
    + left. exists r0. split; [reflexivity|]. rewrite K. cbn [bind].
      destruct (split_at (lenN bs) m) as (m1 & m2 & Em & Et & Ed). rewrite Et in Hv. rewrite Ed. rewrite Em.
      rewrite write_raw_app by assumption. cbn [bind]. exists (map B bs). split; [reflexivity|]. split.
      * apply vb_bytes; [auto|]. split; [exists bs; auto|reflexivity].
      * intros _. apply sb_bytes. split; [exists bs; auto|reflexivity].
    + right. exists tl. rewrite K. auto.
  - intros n [[dn m] [idx x]] (Hq & Hsz & Hx & Hv & v & bs & Hi & Hc). unfold load_post. rewrite asizes_rep1 in * by reflexivity.
    destruct (N.eqb_spec n 0) as [->|Hn].
    + split; [eauto|]. clear v bs Hi Hc. intros v bs Hi Hc. apply arel_nil_inv in Hi. destruct Hi as [-> ->].
      apply consumes_nil. exists []. cbn [load_h h_skip]. unfold take_cells. destruct (N.ltb_spec (lenN m) 0); [lia|].
      cbn [bind]. rewrite takeN_0, !app_nil_r. change (lenN (@nil N)) with 0. rewrite N.add_0_r. split; [reflexivity|].
      split; [constructor|]. intros; constructor.
    + replace n with (1 + (n - 1)) in Hq by lia. rewrite repN_add in Hq. apply Forall_app in Hq. destruct Hq as [Hq _].
      apply Forall_inv in Hq. destruct Hq.
  - intros k sz e [[dn m] [idx x]] rest He Hsz (Hq & Hms & Hx & Hv & v0 & bs0 & Hi0 & Hc0). unfold load_post. rewrite asizes_c1 in *.
    apply Forall_inv in Hq. destruct Hq as [Hew Hel].
    apply arel_c1 in Hv. destruct Hv as (od & Ed & Hd & _).
    assert (Hi' := Hi0). apply arel_c1 in Hi'. destruct Hi' as (ov & Ev & Ho).
    destruct (@cont_load_ok k sz e od idx x ov bs0 rest Hew Hel Hd Ho Hc0 Hx) as (r & [n C] & K).
    exists (bind r (fun q => let '(o', i2, _) := q in Ok (dn ++ put_obj sz o', dropN sz m, i2))). split.
    + exists n. intros a f Ha Hf. rewrite <- (takeN_dropN sz m) at 1. rewrite Ed.
      cbn [load_h h_cont h_cont_end]. rewrite take_obj_put by assumption. cbn [bind].
      specialize (C a f Ha Hf). rewrite skip_block_block in *.
      destruct (rd 8 (idx, x)) as [[b8 i1]| | |]; cbn [bind] in *; [|subst r; reflexivity..].
      destruct (le_val b8 =? 0).
      * cbn [bind] in *. subst r. reflexivity.
      * rewrite C. destruct K as [[r0 [_ (o' & -> & _)]]|(tl & _ & _ & ->)]; reflexivity.
    + split; [eauto|]. intros v bs Hi Hc. apply arel_c1 in Hi. destruct Hi as (ov' & -> & Ho').
      destruct (@cont_load_ok k sz e od idx x ov' bs rest Hew Hel Hd Ho' Hc Hx) as (r' & [n' C'] & K').
      assert (r' = r) by (specialize (C (Nat.max n n') (Nat.max n n') ltac:(lia) ltac:(lia)); rewrite C' in C by lia; assumption). subst r'.
      eapply consumes_impl; [| |exact K'].
      * intros r0 _ (o' & -> & Vo & So). exists (put_obj sz o'). split; [reflexivity|]. split.
        { apply arel_c1. exists o'. split; [reflexivity|split; auto]. }
        intros H. apply arel_c1. exists o'. split; [reflexivity|]. exists ov'. split; [reflexivity|]. apply So.
        destruct H as [H|H].
        { left. rewrite Ed in H. apply arel_c1 in H. destruct H as (o2 & E2 & Hz & _). unfold put_obj in E2. inversion E2; subst. assumption. }
        { right. apply arel_c1 in H. destruct H as (o2 & E2 & Hz & _). unfold put_obj in E2. inversion E2; subst. assumption. }
      * intros ->. reflexivity.
Qed.

Lemma load_at_ok d d2 idx x v bs o rest : wf_out true o -> at_end rest -> Forall lok (atoms o) -> asizes (atoms o) <= max_size ->
  idx + lenN x <= max_size -> avalid (atoms o) d -> aimage (atoms o) v bs -> comp bs x ->
  exists r, conv (fun a => load_at a (idx, x) (d ++ d2) (flat o ++ rest)) r /\
    consumes bs x
      (fun r0 => exists d', r = Ok (d' ++ d2, (idx + lenN bs, r0), rest) /\ avalid (atoms o) d' /\
                            (afresh (atoms o) d \/ afull (atoms o) v -> asame (atoms o) d' v))
      (r = Throw ERuntime).
Proof.
  intros Hwo Hr Hq Hsz Hx Vd Hi Hc. assert (Ld := arel_len (lok_pos Hq) Vd).
  destruct (walk_rule load_walk (s := ([], d ++ d2, (idx, x))) Hwo Hr) as (r & C & _ & P).
  { repeat split; auto; [|eauto]. rewrite takeN_app_exact by congruence. assumption. }
  specialize (P _ _ Hi Hc). rewrite dropN_app_exact in P by congruence. rewrite takeN_app_exact in P by congruence.
  exists (bind (lift rest r) (fun q => let '(s, it') := q in let '(dn, m', i') := s in Ok (dn ++ m', i', it'))). split.
  - destruct C as [n C]. exists (S n). intros [|a] Ha; [lia|]. cbn [load_at]. rewrite C by lia. reflexivity.
  - eapply consumes_impl; [| |exact P].
    + intros r0 _ (d' & -> & H). exists d'. split; [reflexivity|assumption].
    + intros ->. reflexivity.
Qed.

Lemma afresh_norm mg l m : afresh l m <-> afresh (norm mg l) m.
Proof. apply arel_norm. Qed.
Lemma afull_norm mg l m : afull l m <-> afull (norm mg l) m.
Proof. apply arel_norm. Qed.

Theorem elt_load_all e : wf e -> plain e -> elt_load e.
Proof.
  remember (cdepth e) as n eqn:En. revert e En. induction n as [n IH] using lt_wf_ind. intros e En Hw Hp. subst n.
  intros d d2 idx x v bs rest Hsz Hx Vd Hi Hc. destruct (sblock_ok true Hw) as [Hwo Ea].
  destruct (@load_at_ok d d2 idx x v bs (sblock true (rops e)) (W FLAG_END :: rest)) as (r & C & K); auto.
  - right; eauto.
  - rewrite Ea. apply lok_norm. intros k s e' Hin. destruct (proj1 tatoms_conts e false Hw Hp _ _ _ Hin) as [H1 H2].
    split; [assumption|]. apply (IH (cdepth e')); auto; apply H1.
  - rewrite Ea, asizes_norm, (proj1 tatoms_size e Hw). assumption.
  - rewrite Ea. apply avalid_norm. apply (valid_atoms _ Hp). assumption.
  - rewrite Ea. apply aimage_norm. apply (image_atoms _ _ Hp). assumption.
  - exists r. split; [assumption|]. eapply consumes_impl; [| |exact K]; [|auto].
    intros r0 _ (d' & -> & Vd' & Sd). rewrite Ea in *. exists d'. split; [reflexivity|].
    split; [apply (valid_atoms _ Hp); apply avalid_norm in Vd'; assumption|].
    intros H. apply (same_atoms _ _ Hp). apply (asame_norm (mg := true)). apply Sd.
    destruct H as [H|H]; [left|right].
    + apply afresh_norm. apply (fresh_atoms _ Hp). assumption.
    + apply afull_norm. apply (full_atoms _ Hp). assumption.
Qed.

(** Load of a whole value: [out] is the image of [v] without its trailing padding [pad]. *)
Theorem load_stream_ok t d d2 idx x v out pad pre v1 : wf t -> plain t -> sizeof t <= max_size -> idx + lenN x <= max_size -> valid t d ->
  tatoms t = pre ++ repN (lenN pad) APad -> atoms (stop true (rops t)) = norm true pre -> v = v1 ++ map B pad -> aimage pre v1 out -> comp out x ->
  exists l r, layout_default t = Ok l /\ conv (fun a => load_at a (idx, x) (d ++ d2) (ops l)) r /\
    consumes out x
      (fun r0 => exists d', r = Ok (d' ++ d2, (idx + lenN out, r0), []) /\ valid t d' /\
                            (fresh t d \/ full t v -> same t d' v))
      (r = Throw ERuntime).
Proof.
  intros Hw Hp Hsz Hx Vd E1 E2 -> Hi Hc.
  assert (Hok := tatoms_ok Hw Hp). assert (Hpos := aoks_pos Hok). rewrite E1 in Hpos. apply conts_pos_app in Hpos. destruct Hpos as [Hpos _].
  destruct (@layout_ok false true t Hw Hp) as (l & oi & k' & Hl & El & _).
  destruct (stop_ok true Hw) as (Hwo & _).
  assert (Vd' := Vd). apply (valid_atoms _ Hp) in Vd. rewrite E1 in Vd. destruct (ulist_split Vd) as (d1 & dk & -> & A1 & A2).
  apply vb_bytes in A2; [|auto]. destruct A2 as [Bk _]. assert (L1 := arel_len Hpos A1). assert (Lv := arel_len Hpos Hi).
  destruct (@load_at_ok d1 (dk ++ d2) idx x v1 out (stop true (rops t)) []) as (r & C & K); auto.
  - left; reflexivity.
  - rewrite E2. apply lok_norm. intros k s e' Hin. destruct (proj1 tatoms_conts t false Hw Hp k s e') as [H1 H2].
    { rewrite E1. apply in_app_iff. auto. }
    split; [assumption|]. apply elt_load_all; apply H1.
  - rewrite E2, asizes_norm. apply (f_equal asizes) in E1. rewrite (proj1 tatoms_size t Hw), asizes_app in E1. lia.
  - rewrite E2. apply avalid_norm. assumption.
  - rewrite E2. apply aimage_norm. assumption.
  - exists l, r. split; [exact Hl|]. split.
    + rewrite El. rewrite app_nil_r, app_assoc in C. exact C.
    + eapply consumes_impl; [| |exact K]; [|auto]. intros r0 _ (d' & -> & V' & S'). rewrite E2 in *.
      exists (d' ++ dk). split; [rewrite <- app_assoc; reflexivity|]. split.
      * apply (valid_atoms _ Hp). rewrite E1. apply avalid_app; [apply avalid_norm in V'; assumption|apply vb_bytes; auto].
      * intros H. apply (same_atoms _ _ Hp). rewrite E1. apply arel_app.
        { apply (asame_norm (mg := true)). apply S'. destruct H as [H|H]; [left|right].
          - apply afresh_norm. apply (fresh_atoms _ Hp) in H. rewrite E1 in H. destruct (ulist_split H) as (m1 & m2 & E & F1 & F2).
            assert (Lm := arel_len Hpos F1). rewrite (proj1 (app_inj_len (eq_trans L1 (eq_sym Lm)) E)). assumption.
          - apply afull_norm. apply (full_atoms _ Hp) in H. rewrite E1 in H. destruct (ulist_split H) as (m1 & m2 & E & F1 & F2).
            assert (Lm := arel_len Hpos F1). rewrite (proj1 (app_inj_len (eq_trans Lv (eq_sym Lm)) E)). assumption. }
        { apply sp_bytes. split; [assumption|]. exists pad. auto. }
Qed.
