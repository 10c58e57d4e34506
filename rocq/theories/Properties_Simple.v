(** * C78: values as simple Ruby objects (to_simple_value, to_json_value)

    The English claim: for every value without pointers and opaques, to_simple_value returns numbers, texts, arrays and hashes that
    show the value: numbers as numbers, enums as their symbols, strings as strings, arrays and containers as arrays of their
    elements, compounds as hashes of their fields; with pack_simple_arrays, arrays of numbers are packed, and decoding them
    with the pack_code gives the same arrays; the option special_float_values replaces NaN and infinities. Values that differ are shown differently.
    SimpleSpec.v defines numbers in memory, String#unpack, Base64 and the relation [shows]. *)
From Coq Require Import Lia ZArith.
From Verif Require Import Base Types WellFormed Layout ValueOps Visitor ValueSpec ValueInst ValueMain SimpleSpec Simple SimpleProofs.
Local Open Scope N_scope.

(** The result shows the value, packed or not: a packed result expands to the array of its numbers. Missing: unsigned numbers of
    4 bytes from 2^31 on (unless packed), enums with a value that has no symbol. *)
Theorem C78_shows_partial o t v : sp o <> OInvalid -> wf t -> showable t -> valid t v -> octets v -> every (pack o) low32 known t v ->
  exists s s', conv (fun f => simple o f t v) (Ok s) /\ expand s = Some s' /\ shows (pack o) (sp o) t v s' /\ (pack o = false -> s' = s).
Proof.
  intros Ho Hw Hs Hv Hc He. destruct (proj1 (main_case Ho) t Hw Hs v v (proj1 same_refl _ _ Hv) Hc He) as (s & s' & A & _ & E & S & P).
  exists s, s'. specialize (A []). rewrite app_nil_r in A. auto.
Qed.
(** Equal values (same numbers and elements; padding and capacities do not count) have equal results. *)
Theorem C78_same_values_same_result_partial o t a b s : sp o <> OInvalid -> wf t -> showable t -> same t a b -> octets a -> every (pack o) low32 known t a ->
  conv (fun f => simple o f t a) (Ok s) -> conv (fun f => simple o f t b) (Ok s).
Proof.
  intros Ho Hw Hs Hv Hc He C. destruct (proj1 (main_case Ho) t Hw Hs a b Hv Hc He) as (s1 & s' & A & Bb & _).
  specialize (A []). specialize (Bb []). rewrite app_nil_r in A, Bb. assert (E := conv_fun A C). injection E as ->. exact Bb.
Qed.
(** Equal results come from equal values, unless these have NaNs (which have many bit patterns) or special floats become nil. *)
Theorem C78_same_result_same_values_partial o t a b s : sp o = OAsIs \/ sp o = OString -> wf t -> showable t -> valid t a -> valid t b -> octets a -> octets b ->
  every (pack o) low32 known t a -> every (pack o) low32 known t b -> every false no_nan any_enum t a ->
  conv (fun f => simple o f t a) (Ok s) -> conv (fun f => simple o f t b) (Ok s) -> same t a b.
Proof.
  intros O Hw Hs Va Vb Oa Ob Ea Eb Nn Ca Cb. assert (O1 : sp o <> OInvalid) by (destruct O as [-> | ->]; discriminate).
  assert (O2 : sp o <> ONil) by (destruct O as [-> | ->]; discriminate).
  destruct (C78_shows_partial O1 Hw Hs Va Oa Ea) as (sa & sa' & A1 & A2 & A3 & _). destruct (C78_shows_partial O1 Hw Hs Vb Ob Eb) as (sb & sb' & B1 & B2 & B3 & _).
  assert (E := conv_fun A1 Ca). injection E as ->. assert (E := conv_fun B1 Cb). injection E as ->. rewrite A2 in B2. injection B2 as <-.
  exact (proj1 (inj_case (pack o)) t Hw Hs (sp o) a b sa' O2 Va Vb Oa Ob Nn A3 B3).
Qed.
(** to_json_value without packing has no NaN and no infinity. *)
Theorem C78_json_partial t v given : (given = None \/ given = Some ONil \/ given = Some OString) -> wf t -> showable t -> valid t v -> octets v -> every false low32 known t v ->
  exists s, conv (fun f => to_json false given f t v) (Ok s) /\ finite s.
Proof.
  intros G Hw Hs Hv Hc He. set (x := match given with Some x => x | None => ONil end).
  assert (O : x = ONil \/ x = OString) by (subst x; destruct G as [-> |[-> | ->]]; auto).
  destruct (@C78_shows_partial (Opts false x) t v ltac:(cbn [sp]; destruct O as [-> | ->]; discriminate) Hw Hs Hv Hc He) as (s & s' & C & _ & S & P).
  specialize (P eq_refl). subst s'. exists s. split; [exact C|]. exact (proj1 shows_finite _ _ _ _ O S).
Qed.
(** Packed arrays: the code is String#unpack's directive for the numbers of the type, on both kinds of machines; the data decodes to the
    bytes of the elements in order, the size is their number. No hypothesis on the numbers. *)
Theorem C78_pack_code be n c : showable (TNum n c) -> exists code e, pack_code be n c = Some code /\ directive code = Some (n, c, e) /\ (n <> 1 -> e = be).
Proof.
  intros H. destruct (showable_num H eq_refl) as [Sn _]. destruct (@pack_code_directive be n c Sn) as (code & A & D). exists code, (if n =? 1 then false else be).
  repeat split; [assumption|assumption|]. intros N1. destruct (N.eqb_spec n 1); [contradiction|reflexivity].
Qed.
Theorem C78_packed_array o s d n c v : pack o = true -> wf (TArray s d (TNum n c)) -> s <= max_size -> valid (TArray s d (TNum n c)) v -> octets v ->
  exists data bs, conv (fun f => simple o f (TArray s d (TNum n c)) v) (Ok (SPacked (pack_code false n c) d data)) /\ decode64 data = Some bs /\ v = map B bs.
Proof.
  intros Pk Hw Hs Hv Oc. destruct (dump_array Hw Hs Hv) as (bs & Eb & L & D). assert (Lv := proj1 valid_len _ Hw _ Hv). cbn [sizeof] in Lv.
  exists (encode64 bs), bs. rewrite Eb in Oc. apply oct_bytes in Oc. split; [|split; [apply decode_encode; exact Oc|exact Eb]].
  cbn [simple]. rewrite packs_eq, Pk. cbn [numeric andb]. assert (X := take_cells_app [] Lv). rewrite app_nil_r in X. rewrite X. cbn [bind].
  eapply conv_bind; [exact D|]. apply conv_ok.
Qed.
Theorem C78_packed_vector o s n c cap ms : pack o = true -> wf (TCont KVec s (TNum n c)) -> s <= max_size ->
  valid (TCont KVec s (TNum n c)) (put_obj s (VecObj cap (concat ms))) -> Forall (valid (TNum n c)) ms -> octets (concat ms) ->
  exists data bs, conv (fun f => simple o f (TCont KVec s (TNum n c)) (put_obj s (VecObj cap (concat ms)))) (Ok (SPacked (pack_code false n c) (lenN ms) data)) /\
    decode64 data = Some bs /\ concat ms = map B bs.
Proof.
  intros Pk Hw Hs Hv Fm Oc. destruct (dump_vec Hw Hs Hv Fm) as (bs & Eb & L & D). assert (H1 := wf_cont_size Hw). assert (Hw' := Hw). destruct Hw' as (_ & _ & Hn & We). cbn [sizeof] in Hn.
  exists (encode64 bs), bs. assert (Ob := Oc). rewrite Eb in Ob. apply oct_bytes in Ob. split; [|split; [apply decode_encode; exact Ob|exact Eb]].
  cbn [simple]. assert (X := @take_obj_app s (VecObj cap (concat ms)) [] H1). rewrite app_nil_r in X. rewrite X. cbn [bind].
  unfold vec_count. cbn [sizeof]. replace (n =? 0) with false by (symmetry; apply N.eqb_neq; lia). cbn [bind].
  replace (lenN (concat ms) / n) with (lenN ms).
  2: { symmetry. rewrite Eb. unfold lenN at 1. rewrite map_length. fold (lenN bs). rewrite L. apply N.div_mul. lia. }
  rewrite packs_eq, Pk. cbn [numeric andb]. assert (Y := @take_cells_app s (put_obj s (VecObj cap (concat ms))) [] (put_obj_len _ H1)). rewrite app_nil_r in Y. rewrite Y. cbn [bind].
  eapply conv_bind; [exact D|]. cbn beta. rewrite (@dropN_app_exact _ (le_bytes 8 (lenN ms))) by reflexivity. apply conv_ok.
Qed.

(** ** Refutations: the code violates the claim *)
(** An unsigned number of 4 bytes is shown negative from 2^31 on, unless it is in a packed array. *)
Theorem C78_uint32_refuted : ~ (forall t v, wf t -> showable t -> valid t v -> octets v -> every false any_num known t v ->
  exists s, conv (fun f => simple (Opts false OAsIs) f t v) (Ok s) /\ shows false OAsIs t v s).
Proof.
  intros H. destruct (H (TNum 4 UInt) [B 255; B 255; B 255; B 255]) as (s & [n C] & bs & E & _ & S).
  - split; [reflexivity|exact I].
  - split; [vm_compute; discriminate|]. right; right; left; reflexivity.
  - exists [255; 255; 255; 255]. split; reflexivity.
  - repeat constructor; lia.
  - intros bs _. exact I.
  - specialize (C n (le_n n)). assert (bs = [255; 255; 255; 255]) as -> by (apply map_B_inj; symmetry; exact E). subst s. vm_compute in C. discriminate C.
Qed.
(** ... and packing changes what is shown. *)
Theorem C78_packing_refuted : ~ (forall t v s s' s'', wf t -> showable t -> valid t v -> octets v ->
  conv (fun f => simple (Opts false OAsIs) f t v) (Ok s) -> conv (fun f => simple (Opts true OAsIs) f t v) (Ok s') -> expand s' = Some s'' -> s = s'').
Proof.
  intros H. assert (X := H (TArray 4 1 (TNum 4 UInt)) [B 255; B 255; B 255; B 255] (SArr [SNum (-1)]) (SPacked (Some (s_ "L<")) 1 (encode64 [255; 255; 255; 255])) (SArr [SNum 4294967295])).
  assert (Y : SArr [SNum (-1)] = SArr [SNum 4294967295]); [|discriminate Y]. apply X; clear X H.
  - repeat split; try reflexivity; try (left; reflexivity); vm_compute; congruence.
  - repeat split; try (vm_compute; discriminate). right; right; left; reflexivity.
  - exists [[B 255; B 255; B 255; B 255]]. repeat split. constructor; [|constructor]. exists [255; 255; 255; 255]. split; reflexivity.
  - repeat constructor; lia.
  - exists 50%nat. intros m Hm. do 50 (destruct m as [|m]; [lia|]). vm_compute. reflexivity.
  - exists 50%nat. intros m Hm. do 50 (destruct m as [|m]; [lia|]). vm_compute. reflexivity.
  - vm_compute. reflexivity.
Qed.
(** With packing, special floats are not replaced. *)
Theorem C78_packed_special_refuted : ~ (forall t v s s', wf t -> showable t -> valid t v -> octets v ->
  conv (fun f => to_json true None f t v) (Ok s) -> expand s = Some s' -> finite s').
Proof.
  intros H. assert (X := H (TArray 4 1 (TNum 4 Float)) [B 0; B 0; B 192; B 127] (SPacked (Some (s_ "e")) 1 (encode64 [0; 0; 192; 127])) (SArr [SFlo FNaN])).
  assert (Y : finite (SArr [SFlo FNaN])); [|destruct Y as [Y _]; discriminate Y]. apply X; clear X H.
  - repeat split; try reflexivity; try (left; reflexivity); vm_compute; congruence.
  - repeat split; try (vm_compute; discriminate). left; reflexivity.
  - exists [[B 0; B 0; B 192; B 127]]. repeat split. constructor; [|constructor]. exists [0; 0; 192; 127]. split; reflexivity.
  - repeat constructor; lia.
  - exists 50%nat. intros m Hm. do 50 (destruct m as [|m]; [lia|]). vm_compute. reflexivity.
  - vm_compute. reflexivity.
Qed.
(** Enums that hold different numbers without symbol are all shown as the empty text. *)
Theorem C78_unknown_enum_refuted : ~ (forall t a b s, wf t -> showable t -> valid t a -> valid t b -> octets a -> octets b -> every false no_nan any_enum t a ->
  conv (fun f => simple (Opts false OAsIs) f t a) (Ok s) -> conv (fun f => simple (Opts false OAsIs) f t b) (Ok s) -> same t a b).
Proof.
  intros H. assert (X := H (TEnum 4 [(s_ "A", 0%Z)]) [B 1; B 0; B 0; B 0] [B 2; B 0; B 0; B 0] (SStr [])).
  assert (Y : same (TEnum 4 [(s_ "A", 0%Z)]) [B 1; B 0; B 0; B 0] [B 2; B 0; B 0; B 0]); [|destruct Y as [_ Y]; discriminate Y]. apply X; clear X H.
  - split; [reflexivity|]. vm_compute. discriminate.
  - split; [vm_compute; discriminate|]. split; [reflexivity|]. repeat constructor; intros [].
  - exists [1; 0; 0; 0]. split; reflexivity.
  - exists [2; 0; 0; 0]. split; reflexivity.
  - repeat constructor; lia.
  - repeat constructor; lia.
  - intros bs _. exact I.
  - exists 0%nat. intros m _. vm_compute. reflexivity.
  - exists 0%nat. intros m _. vm_compute. reflexivity.
Qed.
(** Arrays of numbers of another size (long double has 16 bytes) are packed without a code; without packing they raise an exception. *)
Theorem C78_other_sizes_refuted : ~ (forall n c d v s, wf (TArray (d * n) d (TNum n c)) -> valid (TArray (d * n) d (TNum n c)) v ->
  conv (fun f => simple (Opts true OAsIs) f (TArray (d * n) d (TNum n c)) v) (Ok s) -> exists s', expand s = Some s').
Proof.
  intros H. destruct (H 16 Float 1 (repN 16 (B 0)) (SPacked None 1 (encode64 (repN 16 0)))) as [s' E].
  - repeat split; try reflexivity; try (left; reflexivity); vm_compute; congruence.
  - exists [repN 16 (B 0)]. repeat split. constructor; [|constructor]. exists (repN 16 0). split; reflexivity.
  - exists 50%nat. intros m Hm. do 50 (destruct m as [|m]; [lia|]). vm_compute. reflexivity.
  - discriminate E.
Qed.

(** ** Hypotheses are met: a compound with a padding hole, an enum, a vector of doubles, a string and an array of compounds *)
Definition point : ty := TComp 8 (FCons (s_ "tag") 0 (TNum 1 SInt) (FCons (s_ "x") 4 (TNum 4 Float) FNil)).
Definition record : ty := TComp 88 (FCons (s_ "kind") 0 (TEnum 4 [(s_ "A", 0%Z); (s_ "B", 7%Z)])
  (FCons (s_ "data") 8 (TCont KVec 24 (TNum 2 UInt)) (FCons (s_ "name") 32 (TCont KStr 32 (TNum 1 SInt)) (FCons (s_ "points") 64 (TArray 16 2 point) FNil)))).
Definition point_v (k : N) : list cell := map B [255; 9; 9; 9; 0; 0; k; 63].
Definition record_v : list cell :=
  map B [7; 0; 0; 0; 1; 2; 3; 4] ++ put_obj 24 (VecObj 6 (map B [1; 2; 3; 4])) ++ put_obj 32 (StrObj [104; 105]) ++ (point_v 128 ++ point_v 0) ++ map B (repN 8 5).
Example record_unpacked : simple (Opts false ONil) 60 record record_v =
  Ok (SHash [(s_ "kind", SStr [66]); (s_ "data", SArr [SNum 513; SNum 1027]); (s_ "name", SStr [104; 105]);
             (s_ "points", SArr [SHash [(s_ "tag", SNum (-1)); (s_ "x", SFlo (FFin false (2 ^ 1074)))]; SHash [(s_ "tag", SNum (-1)); (s_ "x", SFlo (FFin false (2 ^ 1073)))]])]).
Proof. vm_compute. reflexivity. Qed.
Example record_packed : simple (Opts true ONil) 60 record record_v =
  Ok (SHash [(s_ "kind", SStr [66]); (s_ "data", SPacked (Some (s_ "S<")) 2 (s_ "AQIDBA==")); (s_ "name", SStr [104; 105]);
             (s_ "points", SArr [SHash [(s_ "tag", SNum (-1)); (s_ "x", SFlo (FFin false (2 ^ 1074)))]; SHash [(s_ "tag", SNum (-1)); (s_ "x", SFlo (FFin false (2 ^ 1073)))]])]).
Proof. vm_compute. reflexivity. Qed.
Example record_wf : wf record /\ showable record.
Proof.
  split.
  - vm_compute. repeat split; try congruence; eauto; left; congruence.
  - cbn [showable showable_fields record point fields_list map fst sizeof]. repeat split; try (vm_compute; congruence); try tauto;
      repeat constructor; cbn [In]; intros X; repeat (destruct X as [X|X]; [discriminate X|]); destruct X.
Qed.
Example record_valid : valid record record_v.
Proof.
  exists [], (map B [7; 0; 0; 0]), (map B [1; 2; 3; 4] ++ put_obj 24 (VecObj 6 (map B [1; 2; 3; 4])) ++ put_obj 32 (StrObj [104; 105]) ++ (point_v 128 ++ point_v 0) ++ map B (repN 8 5)).
  split; [reflexivity|]. split; [exists []; split; reflexivity|]. split; [exists [7; 0; 0; 0]; split; reflexivity|].
  eexists (map B [1; 2; 3; 4]), (put_obj 24 (VecObj 6 (map B [1; 2; 3; 4]))), _. split; [reflexivity|]. split; [exists [1; 2; 3; 4]; split; reflexivity|]. split.
  { exists 6, [map B [1; 2]; map B [3; 4]]. split; [reflexivity|]. split; [constructor; [exists [1; 2]; split; reflexivity|constructor; [exists [3; 4]; split; reflexivity|constructor]]|]. vm_compute. split; congruence. }
  eexists [], (put_obj 32 (StrObj [104; 105])), _. split; [reflexivity|]. split; [exists []; split; reflexivity|]. split.
  { exists [104; 105]. split; [reflexivity|]. vm_compute. congruence. }
  eexists [], (point_v 128 ++ point_v 0), _. split; [reflexivity|]. split; [exists []; split; reflexivity|]. split; [|exists (repN 8 5); split; reflexivity].
  exists [point_v 128; point_v 0]. split; [reflexivity|]. split; [reflexivity|].
  assert (P : forall k, valid point (point_v k)).
  { intros k. exists [], [B 255], (map B [9; 9; 9; 0; 0; k; 63]). split; [reflexivity|]. split; [exists []; split; reflexivity|]. split; [exists [255]; split; reflexivity|].
    exists (map B [9; 9; 9]), (map B [0; 0; k; 63]), []. split; [reflexivity|]. split; [exists [9; 9; 9]; split; reflexivity|]. split; [exists [0; 0; k; 63]; split; reflexivity|]. exists []. split; reflexivity. }
  constructor; [apply P|constructor; [apply P|constructor]].
Qed.
