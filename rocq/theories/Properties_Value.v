(** * Properties_Value: the properties C01-C12 of the value operations.

    Notions used in the statements: [wf], [plain], [supported], ... (WellFormed.v), [valid], [same], [image],
    [dumped], [initialised], [zeroed], [fresh], [full] (ValueSpec.v). [conv f r] (Base.v): the C++ function
    modelled by [f] terminates with outcome [r]. [max_size] is what a std::vector<uint8_t> can hold (2^63-1). *)
From Verif Require Import Base Types WellFormed Layout LayoutProofs LayoutMain InitProofs LayoutFinal
     ValueOps ValueSpec ValueAtoms ValueInst WalkProofs InitRun EltOps EltProofs CmpProofs DumpProofs LoadProofs LoadSafe ValueMain.
Local Open Scope N_scope.

Lemma get_parts t v : wf t -> plain t -> valid t v -> exists out pad pre v1, parts t v out pad pre v1.
Proof. intros Hw Hp Hv. destruct (dump_split Hw Hp Hv) as (o & p & pr & v1 & A & B & C & D & E). exists o, p, pr, v1. constructor; assumption. Qed.
Lemma get_default t : wf t -> plain t -> exists l, layout_default t = Ok l.
Proof. intros Hw Hp. destruct (@layout_ok false true t Hw Hp) as (l & _ & _ & H & _). eauto. Qed.
Lemma supported_true t : plain t -> supported true t = true.
Proof. apply supported_mono. Qed.

(** ** C01: dump/load round trip *)
Theorem C01_dump_load_roundtrip t v :
  wf t -> plain t -> sizeof t <= max_size -> valid t v ->
  exists out, conv (fun f => do_dump f t v) (Ok out) /\
    (lenN out <= max_size -> forall d, fresh t d ->
       exists d', conv (fun f => do_load f t d out) (Ok d') /\ same t d' v).
Proof.
  intros Hw Hp Hsz Hv. destruct (get_parts Hw Hp Hv) as (out & pad & pre & v1 & P). exists out. split.
  - eapply dump_conv; eauto.
  - intros Lo d Fd. assert (Vd := proj1 fresh_valid _ _ Fd).
    destruct (@load_conv t d v out pad pre v1 (out ++ []) Hw Hp Hsz P Vd ltac:(rewrite app_nil_r; assumption) (comp_app _ _)) as (r & C & K).
    apply consumes_app in K. change (lenN (@nil N)) with 0 in K. cbn [N.eqb orb] in K. destruct K as (d' & -> & Vd' & S).
    rewrite app_nil_r in C. exists d'. split; [assumption|]. apply S. left; assumption.
Qed.
(** The destination as a program gets it: raw memory, then init. *)
Theorem C01_dump_init_load t v raw :
  wf t -> plain t -> sizeof t <= max_size -> valid t v -> bytes (sizeof t) raw ->
  exists out d, conv (fun f => do_dump f t v) (Ok out) /\ conv (fun f => init_value f t raw) (Ok d) /\
    (lenN out <= max_size -> exists d', conv (fun f => do_load f t d out) (Ok d') /\ same t d' v).
Proof.
  intros Hw Hp Hsz Hv Hb. destruct (@C01_dump_load_roundtrip t v Hw Hp Hsz Hv) as (out & D & L).
  destruct (get_default Hw Hp) as (l & Hl). destruct (@init_layout_ok false true t l Hw Hp Hl raw [] Hb) as (m' & [n C] & I).
  rewrite !app_nil_r in C. exists out, m'. split; [assumption|]. split.
  - exists n. intros f Hf. unfold init_value. rewrite Hl. cbn [bind]. apply C; assumption.
  - intros Lo. apply L; auto. apply (proj1 initialised_fresh t Hw raw). assumption.
Qed.
(** The dumped bytes are the marshalled form of the value, up to padding at the very end. *)
Theorem C01_dump_format t v :
  wf t -> plain t -> sizeof t <= max_size -> valid t v ->
  exists out, conv (fun f => do_dump f t v) (Ok out) /\ dumped t v out.
Proof.
  intros Hw Hp Hsz Hv. destruct (get_parts Hw Hp Hv) as (out & pad & pre & v1 & P). exists out. split.
  - eapply dump_conv; eauto.
  - eapply parts_dumped; eauto.
Qed.

(** ** C02: getDumpSize is exact *)
Theorem C02_dump_size_exact t v :
  wf t -> plain t -> sizeof t <= max_size -> valid t v ->
  exists out, conv (fun f => do_dump f t v) (Ok out) /\
    (lenN out < two64 -> conv (fun f => do_dump_size f t v) (Ok (lenN out))).
Proof.
  intros Hw Hp Hsz Hv. destruct (get_parts Hw Hp Hv) as (out & pad & pre & v1 & P). exists out. split.
  - eapply dump_conv; eauto.
  - intros L. rewrite <- (N.mod_small (lenN out) two64) by assumption. eapply dump_size_conv; eauto.
Qed.

(** ** C03: the bounded dump *)
Theorem C03_bounded_dump t v buf :
  wf t -> plain t -> sizeof t <= max_size -> valid t v -> lenN buf < 2147483648 ->
  exists out, conv (fun f => do_dump f t v) (Ok out) /\
    ( (* it fits: the bytes of the unbounded dump, the rest of the buffer untouched *)
      (lenN out <= lenN buf /\ conv (fun f => do_dump_bounded f t v buf)
          (Ok (Z.of_N (lenN out), Some (out ++ dropN (lenN out) buf)))) \/
      (* it does not: 0 *)
      (lenN buf < lenN out /\ conv (fun f => do_dump_bounded f t v buf) (Ok (0%Z, None)))).
Proof.
  intros Hw Hp Hsz Hv Hb. destruct (get_parts Hw Hp Hv) as (out & pad & pre & v1 & P). exists out. split.
  - eapply dump_conv; eauto.
  - assert (C := @dump_bounded_conv t v out pad pre v1 buf Hw Hp Hsz P ltac:(lia)).
    destruct (N.ltb_spec (lenN buf) (lenN out)) as [H|H]; [right; auto|]. left. split; [lia|].
    replace (Z.of_N (lenN out)) with (to_int (lenN out)); [exact C|].
    unfold to_int. rewrite N.mod_small by lia. destruct (Z.ltb_spec (Z.of_N (lenN out)) 2147483648); [reflexivity|lia].
Qed.
(** For buffers of 2^31 bytes and more (the size parameter is an unsigned int) the returned int is wrong: it is
    negative although the value was dumped. *)
Theorem C03_returned_count_refuted t v buf :
  wf t -> plain t -> sizeof t <= max_size -> valid t v -> lenN buf < 4294967296 ->
  exists out, conv (fun f => do_dump f t v) (Ok out) /\
    (2147483648 <= lenN out -> lenN out <= lenN buf ->
     exists n b, conv (fun f => do_dump_bounded f t v buf) (Ok (n, b)) /\ (n < 0)%Z).
Proof.
  intros Hw Hp Hsz Hv Hb. destruct (get_parts Hw Hp Hv) as (out & pad & pre & v1 & P). exists out. split.
  - eapply dump_conv; eauto.
  - intros H1 H2. assert (C := @dump_bounded_conv t v out pad pre v1 buf Hw Hp Hsz P Hb).
    destruct (N.ltb_spec (lenN buf) (lenN out)) as [H|H]; [lia|]. eexists _, _. split; [exact C|].
    unfold to_int. rewrite N.mod_small by lia. destruct (Z.ltb_spec (Z.of_N (lenN out)) 2147483648); lia.
Qed.

(** ** C04: truncated input is rejected *)
Theorem C04_truncated_rejected t v :
  wf t -> plain t -> sizeof t <= max_size -> valid t v ->
  exists out, conv (fun f => do_dump f t v) (Ok out) /\
    (lenN out <= max_size -> forall d x cut, valid t d -> cut <> [] -> out = x ++ cut ->
       conv (fun f => do_load f t d x) (Throw ERuntime)).
Proof.
  intros Hw Hp Hsz Hv. destruct (get_parts Hw Hp Hv) as (out & pad & pre & v1 & P). exists out. split.
  - eapply dump_conv; eauto.
  - intros Lo d x cut Vd Hc E.
    destruct (@load_conv t d v out pad pre v1 x Hw Hp Hsz P Vd) as (r & C & K).
    + subst out. rewrite lenN_app in Lo. lia.
    + right. eauto.
    + apply (consumes_short Hc E) in K. subst r. assumption.
Qed.

(** ** C05: load on arbitrary bytes. True when no container is inside of a container. *)
Theorem C05_load_safe_partial t d x :
  wf t -> plain t -> unnested t = true -> sizeof t <= max_size -> lenN x <= max_size -> valid t d ->
  exists r, conv (fun f => do_load f t d x) r /\
    ((exists d', r = Ok d' /\ lenN d' = sizeof t /\ (elts_pow2 t -> valid t d')) \/ (exists e, r = Throw e)).
Proof.
  intros Hw Hp Hu Hsz Hx Vd.
  destruct (@load_safe t d [] 0 x Hw Hp Hu Hsz ltac:(lia) Vd) as (l & r & Hl & [n C] & K). rewrite app_nil_r in C.
  exists ('(m', i, it) <- r ;; match it with
    | _ :: _ => Throw ERuntime
    | [] => if negb (fst i =? lenN x) && negb (fst i + trailing_padding t =? lenN x) then Throw ERuntime else Ok m' end). split.
  - exists n. intros f Hf. unfold do_load. rewrite Hl. cbn [bind]. rewrite C by assumption. reflexivity.
  - destruct K as [(d' & i & x' & -> & L & V & _)|[e ->]]; cbn [bind].
    + rewrite app_nil_r. destruct (_ && _); [right; eauto|left; eauto].
    + right; eauto.
Qed.
(** With nested containers it is false: a vector of structures with a 24 byte vector inside, count 2^61: the size
    of the new buffer overflows to 0 and the first element is loaded out of bounds. *)
Definition vec_of_vec : ty := TCont KVec 24 (TCont KVec 24 (TNum 1 UInt)).
Theorem C05_load_safe_refuted :
  wf vec_of_vec /\ plain vec_of_vec /\ fresh vec_of_vec (put_obj 24 (VecObj 0 [])) /\
  conv (fun f => do_load f vec_of_vec (put_obj 24 (VecObj 0 [])) (le_bytes 8 (2 ^ 61))) (UB UOob).
Proof.
  split; [|split; [reflexivity|split]].
  - repeat split; unfold two64; simpl; lia.
  - exists 0. split; [reflexivity|unfold max_size; lia].
  - exists 40%nat. intros m Hm. replace m with (40 + (m - 40))%nat by lia. generalize (m - 40)%nat. intros k. vm_compute. reflexivity.
Qed.

(** ** C06: load overwrites the previous contents. True for a destination whose containers are empty, or a stream
    none of whose containers is empty. *)
Theorem C06_load_overwrites_partial t v :
  wf t -> plain t -> sizeof t <= max_size -> valid t v ->
  exists out, conv (fun f => do_dump f t v) (Ok out) /\
    (lenN out <= max_size -> forall d, valid t d ->
       exists d', conv (fun f => do_load f t d out) (Ok d') /\ valid t d' /\ (fresh t d \/ full t v -> same t d' v)).
Proof.
  intros Hw Hp Hsz Hv. destruct (get_parts Hw Hp Hv) as (out & pad & pre & v1 & P). exists out. split.
  - eapply dump_conv; eauto.
  - intros Lo d Vd.
    destruct (@load_conv t d v out pad pre v1 (out ++ []) Hw Hp Hsz P Vd ltac:(rewrite app_nil_r; assumption) (comp_app _ _)) as (r & C & K).
    apply consumes_app in K. change (lenN (@nil N)) with 0 in K. cbn [N.eqb orb] in K. destruct K as (d' & -> & Vd' & S).
    rewrite app_nil_r in C. exists d'. auto.
Qed.
(** In general it is false: an empty container in the stream leaves the old elements in place. *)
Definition vec_u8 : ty := TCont KVec 24 (TNum 1 UInt).
Theorem C06_load_overwrites_refuted :
  let v := put_obj 24 (VecObj 0 []) in let d := put_obj 24 (VecObj 1 [B 7]) in
  wf vec_u8 /\ plain vec_u8 /\ valid vec_u8 v /\ valid vec_u8 d /\
  exists out d', conv (fun f => do_dump f vec_u8 v) (Ok out) /\ conv (fun f => do_load f vec_u8 d out) (Ok d') /\ ~ same vec_u8 d' v.
Proof.
  split; [repeat split; unfold two64; simpl; lia|]. split; [reflexivity|]. split; [|split].
  - exists 0, []. repeat split; [constructor|unfold lenN; simpl; lia|unfold max_size; lia].
  - exists 1, [[B 7]]. repeat split; [repeat constructor; exists [7]; auto|unfold lenN; simpl; lia|unfold max_size; lia].
  - exists (le_bytes 8 0), (put_obj 24 (VecObj 1 [B 7])). split; [|split].
    + exists 40%nat. intros m Hm. replace m with (40 + (m - 40))%nat by lia. generalize (m - 40)%nat. intros k. vm_compute. reflexivity.
    + exists 40%nat. intros m Hm. replace m with (40 + (m - 40))%nat by lia. generalize (m - 40)%nat. intros k. vm_compute. reflexivity.
    + intros (ca & cb & xs & ys & E1 & E2 & F & _). unfold put_obj in E1, E2. inversion E1 as [[Ea Eb]]. inversion E2 as [[Ec Ed]].
      destruct F as [|x y xs ys S F]; [discriminate|]. cbn [concat] in Ed. destruct S as [(bs & L & ->) <-].
      destruct bs; [discriminate|]. discriminate.
Qed.

(** ** C07: unused input is rejected *)
Lemma max_end_spec fs : forall acc, acc <= max_end fs acc /\ (forall e, In e (field_ends fs) -> e <= max_end fs acc) /\ (max_end fs acc = acc \/ In (max_end fs acc) (field_ends fs)).
Proof.
  induction fs as [|n o t fs IH]; intros acc; cbn [max_end field_ends].
  - split; [lia|]. split; [intros e []|left; reflexivity].
  - destruct (N.ltb_spec acc (o + sizeof t)) as [L|L].
    + destruct (IH (o + sizeof t)) as (A & B & C). split; [lia|]. split; [intros e [<- |He]; [assumption|apply B; assumption]|].
      right. destruct C as [C|C]; [left; symmetry; assumption|right; assumption].
    + destruct (IH acc) as (A & B & C). split; [lia|]. split; [intros e [<- |He]; [lia|apply B; assumption]|].
      destruct C as [C|C]; [left; assumption|right; right; assumption].
Qed.
Lemma declared_unique t p : declared_padding t p -> p = trailing_padding t.
Proof.
  destruct t; try (intros H; exact H). match goal with f : fields |- _ => rename f into FS end. destruct FS as [|n o ft fs]; [intros H; exact H|]. cbn [declared_padding trailing_padding].
  set (F := FCons n o ft fs). intros ((e & He & E) & Hle). destruct (max_end_spec F 0) as (_ & B & C).
  assert (Hm : max_end F 0 = e); [|rewrite Hm; lia]. assert (X := B e He). destruct C as [C|C]; [lia|]. specialize (Hle _ C). lia.
Qed.
(** There is such a padding for every well-formed type. *)
Lemma wf_field_ends fs : forall cur s, wf_fields fs cur s -> cur <= s /\ forall e, In e (field_ends fs) -> e <= s.
Proof.
  induction fs as [|n o t fs IH]; intros cur s Hw; cbn [wf_fields field_ends] in *; [split; [assumption|intros e []]|].
  destruct Hw as (Hc & _ & Hw). destruct (IH _ _ Hw) as [A B]. split; [lia|]. intros e [<- |He]; [lia|auto].
Qed.
Lemma declared_exists t : wf t -> exists p, declared_padding t p.
Proof.
  destruct t; try (intros _; exists 0; reflexivity). match goal with f : fields |- _ => rename f into FS end. destruct FS as [|n o ft fs]; [intros _; eexists; reflexivity|].
  set (F := FCons n o ft fs). cbn [wf]. intros [_ Hw]. destruct (wf_field_ends Hw) as [_ Hle]. destruct (max_end_spec F 0) as (_ & B & C).
  assert (Hin : exists e, In e (field_ends F) /\ max_end F 0 = e).
  { destruct C as [C|C]; [|eauto]. exists (o + sizeof ft). split; [left; reflexivity|]. assert (X := B _ (or_introl eq_refl : In (o + sizeof ft) (field_ends F))). lia. }
  destruct Hin as (e & He & Em). assert (X := Hle e He). exists (size - e). split; [exists e; split; [assumption|lia]|]. intros e2 He2. specialize (B e2 He2). lia.
Qed.
Theorem C07_unused_input_rejected t v p :
  wf t -> plain t -> sizeof t <= max_size -> valid t v -> declared_padding t p ->
  exists out, conv (fun f => do_dump f t v) (Ok out) /\
    forall d extra, valid t d -> lenN (out ++ extra) <= max_size ->
      (lenN extra = 0 \/ lenN extra = p ->
         exists d', conv (fun f => do_load f t d (out ++ extra)) (Ok d') /\ (fresh t d \/ full t v -> same t d' v)) /\
      (lenN extra <> 0 -> lenN extra <> p ->
         conv (fun f => do_load f t d (out ++ extra)) (Throw ERuntime)).
Proof.
  intros Hw Hp Hsz Hv Hpad. apply declared_unique in Hpad. subst p. destruct (get_parts Hw Hp Hv) as (out & pad & pre & v1 & P). exists out. split.
  - eapply dump_conv; eauto.
  - intros d extra Vd Lo.
    destruct (@load_conv t d v out pad pre v1 (out ++ extra) Hw Hp Hsz P Vd Lo (comp_app _ _)) as (r & C & K).
    apply consumes_app in K. split.
    + intros H. replace ((lenN extra =? 0) || (lenN extra =? trailing_padding t)) with true in K by (destruct H as [-> | ->]; [reflexivity|rewrite N.eqb_refl, orb_true_r; reflexivity]).
      destruct K as (d' & -> & _ & S). eauto.
    + intros H1 H2. apply N.eqb_neq in H1, H2. rewrite H1, H2 in K. cbn [orb] in K. subst r. assumption.
Qed.
(** The raw memory image of a container-free value: accepted exactly when the dump leaves out nothing, or exactly
    the declared trailing padding. *)
Lemma cont_free_image :
  (forall t, wf t -> cont_free t = true -> forall m bs, image t m bs -> m = map B bs) /\
  (forall fs cur s, wf_fields fs cur s -> cont_free_fields fs = true -> forall m bs, image_fields fs cur s m bs -> m = map B bs).
Proof.
  apply ty_fields_ind; try (simpl; intros; contradiction); try (simpl; intros; tauto).
  - intros s d e IH (_ & _ & _ & _ & He) Hc m bs (ms & bss & _ & -> & -> & F). cbn [cont_free] in Hc.
    rewrite concat_map. f_equal. clear - IH He Hc F. induction F; simpl; [reflexivity|]. f_equal; auto.
  - intros k s e _ _ H. discriminate.
  - intros s fs IH [_ Hw] Hc m bs H. eapply IH; eauto.
  - intros nm o t IHt fs IHf cur s (_ & H1 & H2) Hc m bs (p & a & b & bp & ba & bb & -> & -> & [_ ->] & I1 & I2).
    cbn [cont_free_fields] in Hc. apply andb_true_iff in Hc. destruct Hc as [C1 C2].
    rewrite !map_app. rewrite <- (IHt H1 C1 _ _ I1), <- (IHf _ _ H2 C2 _ _ I2). reflexivity.
Qed.
Theorem C07_raw_image t bs d p :
  wf t -> plain t -> cont_free t = true -> sizeof t <= max_size -> valid t (map B bs) -> valid t d -> declared_padding t p ->
  exists out, conv (fun f => do_dump f t (map B bs)) (Ok out) /\
    (lenN out = sizeof t \/ lenN out + p = sizeof t ->
       exists d', conv (fun f => do_load f t d bs) (Ok d') /\ (fresh t d -> same t d' (map B bs))) /\
    (lenN out <> sizeof t -> lenN out + p <> sizeof t ->
       conv (fun f => do_load f t d bs) (Throw ERuntime)).
Proof.
  intros Hw Hp Hcf Hsz Hv Vd Hpad. apply declared_unique in Hpad. subst p. destruct (get_parts Hw Hp Hv) as (out & pad & pre & v1 & P). exists out. split; [eapply dump_conv; eauto|].
  assert (E : bs = out ++ pad) by (apply map_B_inj; apply (proj1 cont_free_image t Hw Hcf); apply (pt_image P)).
  assert (Ls : lenN out + lenN pad = sizeof t) by (rewrite <- lenN_app, <- E, <- (proj1 valid_len t Hw _ Hv); unfold lenN; rewrite map_length; reflexivity).
  subst bs.
  destruct (@load_conv t d _ out pad pre v1 (out ++ pad) Hw Hp Hsz P Vd ltac:(rewrite lenN_app; lia) (comp_app _ _)) as (r & C & K).
  apply consumes_app in K. split.
  - intros H. replace ((lenN pad =? 0) || (lenN pad =? trailing_padding t)) with true in K.
    2:{ symmetry. apply orb_true_iff. destruct H; [left|right]; apply N.eqb_eq; lia. }
    destruct K as (d' & -> & _ & S). eauto.
  - intros H1 H2. replace ((lenN pad =? 0) || (lenN pad =? trailing_padding t)) with false in K.
    2:{ symmetry. apply orb_false_iff. split; apply N.eqb_neq; lia. }
    subst r. assumption.
Qed.
(** ... hence not always: padding at the end of the last field is not counted. *)
Definition nested_pad : ty := TComp 8 (FCons (s_ "in") 0 (TComp 8 (FCons (s_ "i") 0 (TNum 4 SInt) (FCons (s_ "c") 4 (TNum 1 SInt) FNil))) FNil).
Theorem C07_raw_image_refuted :
  let raw := [1;2;3;4;5;6;7;8] in
  wf nested_pad /\ plain nested_pad /\ cont_free nested_pad = true /\ valid nested_pad (map B raw) /\
  conv (fun f => do_load f nested_pad (map B raw) raw) (Throw ERuntime).
Proof.
  split; [repeat split; unfold two64; simpl; lia|]. split; [reflexivity|]. split; [reflexivity|]. split.
  - exists [], (map B [1;2;3;4;5;6;7;8]), []. repeat split; [exists []; auto| |exists []; auto].
    exists [], (map B [1;2;3;4]), (map B [5;6;7;8]). repeat split; [exists []; auto|eexists; split; [|reflexivity]; reflexivity|].
    exists [], (map B [5]), (map B [6;7;8]). repeat split; [exists []; auto|eexists; split; [|reflexivity]; reflexivity|].
    eexists; split; [|reflexivity]; reflexivity.
  - exists 40%nat. intros m Hm. replace m with (40 + (m - 40))%nat by lia. generalize (m - 40)%nat. intros k. vm_compute. reflexivity.
Qed.

(** ** C08: compare is logical equality *)
Theorem C08_compare_logical t a b :
  wf t -> supported true t = true -> valid t a -> valid t b ->
  exists r, conv (fun f => do_compare f t a b) (Ok r) /\ (r = true <-> same t a b).
Proof.
  intros Hw Hs Va Vb. destruct (@compare_ok t Hw Hs a b [] [] Va Vb) as (r & C & E). rewrite !app_nil_r in C. eauto.
Qed.
Theorem C08_compare_equivalence t :
  wf t -> supported true t = true ->
  (forall a, valid t a -> conv (fun f => do_compare f t a a) (Ok true)) /\
  (forall a b r, valid t a -> valid t b -> conv (fun f => do_compare f t a b) (Ok r) -> conv (fun f => do_compare f t b a) (Ok r)) /\
  (forall a b c, valid t a -> valid t b -> valid t c -> conv (fun f => do_compare f t a b) (Ok true) ->
     conv (fun f => do_compare f t b c) (Ok true) -> conv (fun f => do_compare f t a c) (Ok true)).
Proof.
  intros Hw Hs. repeat split.
  - intros a Va. destruct (@C08_compare_logical t a a Hw Hs Va Va) as (r & C & E). replace true with r; [assumption|].
    apply E. apply same_refl. assumption.
  - intros a b r Va Vb C. destruct (@C08_compare_logical t a b Hw Hs Va Vb) as (r1 & C1 & E1).
    destruct (@C08_compare_logical t b a Hw Hs Vb Va) as (r2 & C2 & E2).
    assert (X := conv_fun C C1). inversion X; subst r1. replace r with r2; [assumption|].
    apply eq_true_iff_eq. rewrite E1, E2. split; apply same_sym.
  - intros a b c Va Vb Vc C1 C2. destruct (@C08_compare_logical t a b Hw Hs Va Vb) as (r1 & C1' & E1).
    destruct (@C08_compare_logical t b c Hw Hs Vb Vc) as (r2 & C2' & E2).
    destruct (@C08_compare_logical t a c Hw Hs Va Vc) as (r3 & C3 & E3).
    assert (X := conv_fun C1 C1'). inversion X; subst r1. assert (Y := conv_fun C2 C2'). inversion Y; subst r2.
    replace true with r3; [assumption|]. apply E3. apply (proj1 same_trans t Hw a b c); [apply E1|apply E2]; reflexivity.
Qed.

(** ** C09: copy duplicates the value *)
Theorem C09_copy_duplicates t d s d2 s2 :
  wf t -> plain t -> valid t d -> valid t s ->
  exists d', conv (fun f => copy_value f t (d ++ d2) (s ++ s2)) (Ok (d' ++ d2)) /\ same t d' s.
Proof.
  intros Hw Hp Vd Vs. destruct (get_default Hw Hp) as (l & Hl).
  destruct (eo_copy (elt_ok_all Hw Hp) d2 s2 Vd Vs) as (d' & [n C] & S). exists d'. split; [|assumption].
  exists n. intros f Hf. specialize (C f Hf). unfold elt_layout in C. rewrite Hl in C.
  unfold copy_value, do_copy. rewrite Hl. exact C.
Qed.

(** ** C10: zero clears the value *)
Theorem C10_zero_clears t m m2 :
  wf t -> plain t -> valid t m ->
  exists m', conv (fun f => zero_value f t (m ++ m2)) (Ok (m' ++ m2)) /\ zeroed t m' /\ valid t m'.
Proof.
  intros Hw Hp Vm. destruct (get_default Hw Hp) as (l & Hl).
  destruct (@zero_ok false true t l Hw Hp Hl m m2 Vm) as (m' & [n C] & Z). exists m'. split; [|split; [assumption|]].
  - exists n. intros f Hf. unfold zero_value. rewrite Hl. cbn [bind]. apply C; assumption.
  - apply zeroed_valid. assumption.
Qed.

(** ** C11: init produces a valid value *)
Theorem C11_init_valid t m m2 :
  wf t -> plain t -> bytes (sizeof t) m ->
  exists m', conv (fun f => init_value f t (m ++ m2)) (Ok (m' ++ m2)) /\ initialised t m m' /\ valid t m' /\ fresh t m'.
Proof.
  intros Hw Hp Hb. destruct (get_default Hw Hp) as (l & Hl).
  destruct (@init_layout_ok false true t l Hw Hp Hl m m2 Hb) as (m' & [n C] & I). exists m'. split; [|split; [assumption|]].
  - exists n. intros f Hf. unfold init_value. rewrite Hl. cbn [bind]. apply C; assumption.
  - split; [exact (proj1 initialised_valid t Hw _ _ I)|exact (proj1 initialised_fresh t Hw _ _ I)].
Qed.

(** ** C12: destroy releases everything: no live container is left (the model's outcome is UB if one is overwritten or
    dropped without having been destroyed, or destroyed twice). *)
Theorem C12_destroy_releases t m m2 :
  wf t -> plain t -> valid t m ->
  exists m', conv (fun f => destroy_value f t (m ++ m2)) (Ok (m' ++ m2)) /\ bytes (sizeof t) m'.
Proof.
  intros Hw Hp Vm. destruct (get_default Hw Hp) as (l & Hl).
  destruct (eo_destroy (elt_ok_all Hw Hp) m2 Vm) as (m' & [n C] & S). exists m'. split; [|assumption].
  exists n. intros f Hf. specialize (C f Hf). unfold elt_layout in C. rewrite Hl in C.
  unfold destroy_value, do_destroy. rewrite Hl. exact C.
Qed.
Theorem C12_init_destroy_balanced t m m2 :
  wf t -> plain t -> bytes (sizeof t) m ->
  exists m1 m', conv (fun f => init_value f t (m ++ m2)) (Ok (m1 ++ m2)) /\
                conv (fun f => destroy_value f t (m1 ++ m2)) (Ok (m' ++ m2)) /\ bytes (sizeof t) m'.
Proof.
  intros Hw Hp Hb. destruct (@C11_init_valid t m m2 Hw Hp Hb) as (m1 & C & _ & V & _).
  destruct (@C12_destroy_releases t m1 m2 Hw Hp V) as (m' & C' & B). exists m1, m'. auto.
Qed.

(** ** The hypotheses are met: a structure with a vector of structures with strings, an array, an enum and padding. *)
Definition ex_inner : ty := TComp 40 (FCons (s_ "name") 0 (TCont KStr 32 (TNum 1 SInt)) (FCons (s_ "id") 32 (TNum 2 UInt) FNil)).
Definition ex_t : ty := TComp 48
  (FCons (s_ "i") 0 (TNum 4 SInt) (FCons (s_ "c") 4 (TNum 1 SInt) (FCons (s_ "v") 8 (TCont KVec 24 ex_inner)
  (FCons (s_ "a") 32 (TArray 6 3 (TNum 2 SInt)) (FCons (s_ "e") 40 (TEnum 4 [(s_ "A", 5%Z); (s_ "B", (-1)%Z)]) FNil))))).
Definition ex_elt : list cell := put_obj 32 (StrObj [104; 105]) ++ map B [1; 2] ++ map B [0;0;0;0;0;0].
Definition ex_v : list cell :=
  map B [1;2;3;4] ++ map B [5] ++ map B [9;9;9] ++ put_obj 24 (VecObj 100 (ex_elt ++ ex_elt)) ++
  map B [1;0;2;0;3;0] ++ map B [8;8] ++ map B [5;0;0;0] ++ map B [7;7;7;7].
Lemma bytes_map bs n : lenN bs = n -> bytes n (map B bs).
Proof. intros H. exists bs. auto. Qed.
Example ex_wf : wf ex_t /\ plain ex_t /\ sizeof ex_t <= max_size /\ supported true ex_t = true.
Proof. repeat split; try (eexists; reflexivity); unfold two64, max_size; simpl; lia. Qed.
Example ex_elt_valid : valid ex_inner ex_elt.
Proof.
  exists [], (put_obj 32 (StrObj [104; 105])), (map B [1; 2] ++ map B [0;0;0;0;0;0]).
  repeat split; [exists []; auto|exists [104;105]; split; [reflexivity|unfold lenN, max_size; simpl; lia]|].
  exists [], (map B [1; 2]), (map B [0;0;0;0;0;0]). repeat split; [exists []; auto|apply bytes_map; reflexivity|apply bytes_map; reflexivity].
Qed.
Example ex_valid : valid ex_t ex_v.
Proof.
  exists [], (map B [1;2;3;4]). eexists. split; [reflexivity|]. split; [exists []; auto|]. split; [apply bytes_map; reflexivity|].
  exists [], (map B [5]). eexists. split; [reflexivity|]. split; [exists []; auto|]. split; [apply bytes_map; reflexivity|].
  exists (map B [9;9;9]), (put_obj 24 (VecObj 100 (ex_elt ++ ex_elt))). eexists. split; [reflexivity|].
  split; [apply bytes_map; reflexivity|]. split.
  { exists 100, [ex_elt; ex_elt]. split; [reflexivity|]. split; [repeat constructor; apply ex_elt_valid|]. split; vm_compute; discriminate. }
  exists [], (map B [1;0;2;0;3;0]). eexists. split; [reflexivity|]. split; [exists []; auto|]. split.
  { exists [map B [1;0]; map B [2;0]; map B [3;0]]. split; [reflexivity|]. split; [reflexivity|]. repeat constructor; apply bytes_map; reflexivity. }
  exists (map B [8;8]), (map B [5;0;0;0]), (map B [7;7;7;7]). split; [reflexivity|]. repeat split; apply bytes_map; reflexivity.
Qed.
(** All the modelled operations, run on it. *)
Definition ex_fuel := 200%nat.
Example ex_run_dump : do_dump ex_fuel ex_t ex_v = Ok (
  [1;2;3;4;5;9;9;9; 2;0;0;0;0;0;0;0; 2;0;0;0;0;0;0;0;104;105;1;2;0;0;0;0;0;0; 2;0;0;0;0;0;0;0;104;105;1;2;0;0;0;0;0;0;
   1;0;2;0;3;0;8;8;5;0;0;0]).
Proof. vm_compute. reflexivity. Qed.
Example ex_run_load : exists d d' out, init_value ex_fuel ex_t (repN 48 (B 3)) = Ok d /\ do_dump ex_fuel ex_t ex_v = Ok out /\
  do_load ex_fuel ex_t d out = Ok d' /\ do_compare ex_fuel ex_t d' ex_v = Ok true /\ do_compare ex_fuel ex_t d ex_v = Ok false.
Proof. eexists _, _, _. split; [vm_compute; reflexivity|]. split; [vm_compute; reflexivity|]. split; [vm_compute; reflexivity|]. split; vm_compute; reflexivity. Qed.
Example ex_run_rest : exists d c z, init_value ex_fuel ex_t (repN 48 (B 3)) = Ok d /\ copy_value ex_fuel ex_t d ex_v = Ok c /\
  do_compare ex_fuel ex_t c ex_v = Ok true /\ zero_value ex_fuel ex_t c = Ok z /\ do_compare ex_fuel ex_t z ex_v = Ok false /\
  (exists b, destroy_value ex_fuel ex_t c = Ok b).
Proof.
  eexists _, _, _. split; [vm_compute; reflexivity|]. split; [vm_compute; reflexivity|]. split; [vm_compute; reflexivity|].
  split; [vm_compute; reflexivity|]. split; [vm_compute; reflexivity|]. eexists; vm_compute; reflexivity.
Qed.
Example ex_padding : declared_padding (TComp 8 (FCons (s_ "i") 0 (TNum 4 SInt) (FCons (s_ "c") 4 (TNum 1 SInt) FNil))) 3.
Proof. split; [exists 5; split; [right; left; reflexivity|reflexivity]|]. intros e [<- |[<- |[]]]; simpl; lia. Qed.
(** ... and a type without nested containers for C05, a container-free one for C07, a pointer for C08. *)
Example ex_unnested : unnested vec_u8 = true /\ elts_pow2 vec_u8.
Proof. split; [reflexivity|]. split; [exists two64; reflexivity|exact I]. Qed.
Example ex_c05_run : do_load ex_fuel vec_u8 (put_obj 24 (VecObj 0 [])) [3;0;0;0;0;0;0;0;7;8;9] = Ok (put_obj 24 (VecObj 3 [B 7; B 8; B 9])).
Proof. vm_compute. reflexivity. Qed.

Print Assumptions C01_dump_load_roundtrip.
Print Assumptions C01_dump_init_load.
Print Assumptions C01_dump_format.
Print Assumptions C02_dump_size_exact.
Print Assumptions C03_bounded_dump.
Print Assumptions C03_returned_count_refuted.
Print Assumptions C04_truncated_rejected.
Print Assumptions C05_load_safe_partial.
Print Assumptions C05_load_safe_refuted.
Print Assumptions C06_load_overwrites_partial.
Print Assumptions C06_load_overwrites_refuted.
Print Assumptions C07_unused_input_rejected.
Print Assumptions C07_raw_image.
Print Assumptions C07_raw_image_refuted.
Print Assumptions C08_compare_logical.
Print Assumptions C08_compare_equivalence.
Print Assumptions C09_copy_duplicates.
Print Assumptions C10_zero_clears.
Print Assumptions C11_init_valid.
Print Assumptions C12_destroy_releases.
Print Assumptions C12_init_destroy_balanced.
