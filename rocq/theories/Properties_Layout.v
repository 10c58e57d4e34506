(** * Properties_Layout: the properties C13-C16 of layout_of.

    Notions used in the statements: [wf], [supported] (WellFormed.v); [contains], [places], [merged], [describes]
    (LayoutSpec.v). [layout_of accept_pointers accept_opaques merge_skip_copy remove_trailing_skips type]. *)
From Verif Require Import Base Types WellFormed Layout LayoutSpec LayoutSpecProofs LayoutKeep ValueOps ValueSpec Properties_Value.
Local Open Scope N_scope.

(** ** C13: layout_of fails exactly on unsupported types *)
Theorem C13_default_flags merge t : wf t -> contains is_null t = false ->
  if contains is_opaque t || contains is_ptr t
  then layout_of false false merge true t = Throw ENoLayout
  else exists l, layout_of false false merge true t = Ok l.
Proof.
  intros Hw Hn. destruct (contains is_opaque t || contains is_ptr t) eqn:E; [apply layout_fails; assumption|].
  apply layout_exists; [assumption|]. apply (proj1 plain_contains t). apply orb_false_iff in E. tauto.
Qed.
(** With accept_pointers: it succeeds exactly when there is no null type, no opaque, and no pointer below an array
    or a container. *)
Theorem C13_accept_pointers_partial merge t : wf t ->
  ((exists l, layout_of true false merge true t = Ok l) <-> supported true t = true).
Proof. intros Hw. apply layout_exists; assumption. Qed.
(** ... so it does fail because of pointers: an array of two pointers. *)
Theorem C13_accept_pointers_refuted merge :
  let t := TArray 16 2 (TPtr 8) in
  wf t /\ contains is_null t = false /\ contains is_opaque t = false /\ layout_of true false merge true t = Throw ENoLayout.
Proof. simpl. repeat split; try (unfold two64; simpl; lia); destruct merge; reflexivity. Qed.

(** ** C14: the layout describes the type byte for byte *)
Theorem C14_layout_describes merge t : wf t -> supported true t = true ->
  exists l pre k, layout_of true false merge true t = Ok l /\
    places t = pre ++ repN k Pad /\ describes merge (ops l) (map (merged merge) pre) /\
    places_size (places t) = sizeof t.
Proof.
  intros Hw Hs. destruct (@layout_describes true merge t Hw Hs) as (l & pre & k & H1 & H2 & H3).
  exists l, pre, k. repeat split; auto. apply places_total; assumption.
Qed.
Theorem C14_layout_describes_default merge t : wf t -> plain t ->
  exists l pre k, layout_of false false merge true t = Ok l /\
    places t = pre ++ repN k Pad /\ describes merge (ops l) (map (merged merge) pre) /\
    places_size (places t) = sizeof t.
Proof.
  intros Hw Hs. destruct (@layout_describes false merge t Hw Hs) as (l & pre & k & H1 & H2 & H3).
  exists l, pre, k. repeat split; auto. apply places_total; assumption.
Qed.
Theorem C14_layout_validates ap merge t l : wf t -> supported ap t = true ->
  layout_of ap false merge true t = Ok l -> validate l = Ok tt.
Proof. exact (@layout_validate ap merge t l). Qed.

(** ** C15: empty elements. struct { Empty a[10]; int b; }: std::length_error. *)
Definition empty_first : ty :=
  TComp 4 (FCons (s_ "a") 0 (TArray 0 10 (TComp 0 FNil)) (FCons (s_ "b") 0 (TNum 4 SInt) FNil)).
Theorem C15_empty_elements_refuted :
  contains is_null empty_first = false /\ contains is_opaque empty_first = false /\ contains is_ptr empty_first = false /\
  layout_of false false true true empty_first = Throw ELength.
Proof. repeat split. Qed.
(** struct { std::vector<int> v; Empty a[10]; int b; }: there is a layout but it is wrong: init does not construct
    the vector. *)
Definition empty_after : ty :=
  TComp 28 (FCons (s_ "v") 0 (TCont KVec 24 (TNum 4 SInt)) (FCons (s_ "a") 24 (TArray 0 10 (TComp 0 FNil)) (FCons (s_ "b") 24 (TNum 4 SInt) FNil))).
Theorem C15_empty_elements_wrong_layout_refuted :
  let raw := repN 28 (B 0) in
  bytes (sizeof empty_after) raw /\ conv (fun f => init_value f empty_after raw) (Ok raw) /\ ~ valid empty_after raw.
Proof.
  split; [exists (repN 28 0); split; reflexivity|]. split.
  - exists 40%nat. intros m Hm. replace m with (40 + (m - 40))%nat by lia. generalize (m - 40)%nat. intros k. vm_compute. reflexivity.
  - intros (p & a & b & E & (bs & L & ->) & (cap & ms & -> & _) & _). destruct bs; [|discriminate]. discriminate.
Qed.
(** What holds: C14 above covers empty structures everywhere but in arrays and containers, and arrays of dimension 0 (like the
    flexible arrays at the end of C structures) when the elements are numbers, pointers or arrays of these: *)
Theorem C15_empty_arrays_partial merge n off e s fs : solid e = true -> plain e -> wf e -> 1 <= sizeof e ->
  s < two64 -> wf_fields fs off s -> plain (TComp s fs) ->
  let t := TComp s (FCons n off (TArray 0 0 e) fs) in
  exists l pre k, layout_of false false merge true t = Ok l /\ validate l = Ok tt /\
    places t = pre ++ repN k Pad /\ describes merge (ops l) (map (merged merge) pre) /\ places_size (places t) = sizeof t.
Proof.
  intros Hso Hpe Hwe He Hs Hf Hp t.
  assert (Hw : wf t). { split; [exact Hs|]. cbn [wf_fields sizeof]. rewrite N.add_0_r. split; [lia|]. split; [|exact Hf]. split; [unfold two64; cbn [sizeof]; lia|]. cbn [sizeof]. repeat split; auto. }
  assert (Hpl : plain t). { unfold plain, t in *. cbn [supported supported_fields] in *. rewrite Hpe. exact Hp. }
  destruct (@C14_layout_describes_default merge t Hw Hpl) as (l & pre & k & H1 & H2 & H3 & H4). exists l, pre, k.
  split; [exact H1|]. split; [exact (@C14_layout_validates false merge t l Hw Hpl H1)|]. auto.
Qed.
(** For other elements the layout is right, but only dump and load can follow it. An array of no vectors: init, copy, zero and
    destroy throw. *)
Definition no_vectors : ty := TArray 0 0 (TCont KVec 24 (TNum 4 SInt)).
Theorem C15_empty_array_of_containers_refuted :
  conv (fun f => init_value f no_vectors []) (Throw ERuntime) /\ conv (fun f => copy_value f no_vectors [] []) (Throw ERuntime) /\
  conv (fun f => zero_value f no_vectors []) (Throw ERuntime) /\ conv (fun f => destroy_value f no_vectors []) (Throw ERuntime) /\
  conv (fun f => do_dump f no_vectors []) (Ok []) /\ conv (fun f => do_load f no_vectors [] []) (Ok []).
Proof. repeat split; exists 40%nat; intros m Hm; replace m with (40 + (m - 40))%nat by lia; generalize (m - 40)%nat; intros k; vm_compute; reflexivity. Qed.
(** An array of no structures of two numbers: compare throws, whatever else is in the value (here nothing). An array of no enums:
    init throws. *)
Definition no_structs : ty := TArray 0 0 (TComp 8 (FCons (s_ "a") 0 (TNum 4 SInt) (FCons (s_ "b") 4 (TNum 4 SInt) FNil))).
Definition no_enums : ty := TArray 0 0 (TEnum 4 [(s_ "A", 1%Z)]).
Theorem C15_empty_array_of_structs_refuted :
  conv (fun f => do_compare f no_structs [] []) (Throw ERuntime) /\ conv (fun f => init_value f no_enums []) (Throw ERuntime).
Proof. repeat split; exists 40%nat; intros m Hm; replace m with (40 + (m - 40))%nat by lia; generalize (m - 40)%nat; intros k; vm_compute; reflexivity. Qed.
(** Empty structures: *)
Theorem C15_empty_fields_partial n1 n2 o : let t := TComp 8 (FCons n1 0 (TNum 4 SInt) (FCons n2 o (TComp 0 FNil) FNil)) in
  4 <= o -> o <= 8 -> exists l, layout_of false false true true t = Ok l /\ validate l = Ok tt.
Proof.
  intros t H1 H2. assert (Hw : wf t) by (repeat split; unfold two64; simpl; lia).
  destruct (proj2 (@layout_exists false true t Hw) eq_refl) as [l Hl]. exists l. split; [assumption|].
  exact (@layout_validate false true t l Hw eq_refl Hl).
Qed.

(** ** C16: remove_trailing_skips = false does not keep the trailing padding: struct { int b; char a; } (8 bytes) is
    described by 5 bytes. *)
Definition int_char : ty := TComp 8 (FCons (s_ "b") 0 (TNum 4 SInt) (FCons (s_ "a") 4 (TNum 1 SInt) FNil)).
Lemma describes_copy merge n l : describes merge [W 0; W n] l -> l = repN n Data.
Proof. intros H. inversion H as [|? ? ? H1| | |]; subst. inversion H1; subst. apply app_nil_r. Qed.
Theorem C16_trailing_skips_refuted :
  wf int_char /\ plain int_char /\
  exists l, layout_of false false true false int_char = Ok l /\ ~ describes true (ops l) (map (merged true) (places int_char)).
Proof.
  split; [repeat split; unfold two64; simpl; lia|]. split; [reflexivity|]. eexists. split; [vm_compute; reflexivity|].
  cbn [ops]. intros H. apply describes_copy in H. vm_compute in H. discriminate.
Qed.

(** What holds: the layout describes a prefix of the value and only padding is left after it; so it describes the whole value when
    the type does not end with padding. *)
Theorem C16_prefix_partial ap merge t : wf t -> supported ap t = true ->
  exists l pre k, layout_of ap false merge false t = Ok l /\ places t = pre ++ repN k Pad /\ describes merge (ops l) (map (merged merge) pre).
Proof. exact (@layout_keep ap merge t). Qed.
Theorem C16_no_trailing_padding_partial ap merge t : wf t -> supported ap t = true -> (forall l, places t <> l ++ [Pad]) ->
  exists l, layout_of ap false merge false t = Ok l /\ describes merge (ops l) (map (merged merge) (places t)).
Proof.
  intros Hw Hs Hn. destruct (@layout_keep ap merge t Hw Hs) as (l & pre & k & H1 & H2 & H3). exists l. split; [exact H1|].
  destruct (N.eq_dec k 0) as [->|Hk]; [rewrite H2, repN_0, app_nil_r; exact H3|]. exfalso.
  apply (Hn (pre ++ repN (k - 1) Pad)). rewrite H2, <- app_assoc. f_equal. change [Pad] with (repN 1 Pad). rewrite <- repN_add. f_equal. lia.
Qed.
(** With merge_skip_copy, as the default is, the argument changes nothing for any type. *)
Theorem C16_flag_without_effect_refuted ap t : wf t -> supported ap t = true -> layout_of ap false true false t = layout_of ap false true true t.
Proof. exact (@layout_keep_merge ap t). Qed.
(** struct { char a; int b; }: padding inside, none at the end. *)
Definition char_int : ty := TComp 8 (FCons (s_ "a") 0 (TNum 1 SInt) (FCons (s_ "b") 4 (TNum 4 SInt) FNil)).
Example C16_case : wf char_int /\ supported false char_int = true /\ (forall l, places char_int <> l ++ [Pad]).
Proof.
  split; [repeat split; unfold two64; simpl; lia|]. split; [reflexivity|]. intros l H. apply (f_equal (@rev place)) in H.
  rewrite rev_app_distr in H. vm_compute in H. discriminate.
Qed.

(** ** The hypotheses are met (ex_t: Properties_Value.v): *)
Example ex_places : places ex_t = repN 5 Data ++ repN 3 Pad ++ [Cnt KVec 24 ex_inner] ++ repN 6 Data ++ repN 2 Pad ++ repN 4 Data ++ repN 4 Pad.
Proof. reflexivity. Qed.
Example ex_layout : option_map ops (match layout_of false false false true ex_t with Ok l => Some l | _ => None end) = Some
  [W 0; W 4; W 0; W 1; W 3; W 3; W 2; WC KVec 24 ex_inner; W 2; WC KStr 32 (TNum 1 SInt); W 0; W 1; W 4; W 0; W 2; W 3; W 6; W 4;
   W 0; W 6; W 3; W 2; W 0; W 4].
Proof. vm_compute. reflexivity. Qed.
Example ex_ptr : supported true (TComp 16 (FCons (s_ "p") 0 (TPtr 8) (FCons (s_ "a") 8 (TArray 8 2 (TNum 4 Float)) FNil))) = true.
Proof. reflexivity. Qed.

Print Assumptions C13_default_flags.
Print Assumptions C13_accept_pointers_partial.
Print Assumptions C13_accept_pointers_refuted.
Print Assumptions C14_layout_describes.
Print Assumptions C14_layout_describes_default.
Print Assumptions C14_layout_validates.
Print Assumptions C15_empty_elements_refuted.
Print Assumptions C15_empty_elements_wrong_layout_refuted.
Print Assumptions C15_empty_fields_partial.
Print Assumptions C15_empty_arrays_partial.
Print Assumptions C15_empty_array_of_containers_refuted.
Print Assumptions C15_empty_array_of_structs_refuted.
Print Assumptions C16_trailing_skips_refuted.
Print Assumptions C16_prefix_partial.
Print Assumptions C16_no_trailing_padding_partial.
Print Assumptions C16_flag_without_effect_refuted.
