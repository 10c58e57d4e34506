(** * Properties_Ruby: conversions between Ruby and C++ values (C60 to C63). *)
From Verif Require Import Base Types WellFormed Layout LayoutProofs LayoutMain InitProofs LayoutFinal
     ValueOps ValueSpec ValueAtoms ValueInst WalkProofs InitRun EltOps EltProofs CmpProofs DumpProofs LoadProofs.
From Verif Require Import Visitor EndianProofs Csv CsvSpec CsvProofs RubyConv RubyConvSpec RubyConvProofs.
From Verif Require Import LoadSafe.
From Verif Require Smap GraphProofs.
Local Open Scope Z_scope.

(** ** C60: integers *)

(** Assigning an integer to a field of an integer type: RangeError exactly if the number is not accepted. Otherwise the
    field afterwards reads as a number that is equal modulo 2^(8n), in the range that fields of this type read as. *)
Theorem C60_assign fl ic fuel n c m z : num_supported n c = true -> c <> Float -> bytes n m ->
  (accepted n c z -> exists m' y k, typelib_from_ruby fl ic fuel (TNum n c) m (RbInt z) = Ok m' /\ bytes n m' /\
     typelib_to_ruby fl (TNum n c) m' = Ok (RbInt y) /\ y = z + k * 2 ^ (8 * Z.of_N n) /\ shown n c y) /\
  (~ accepted n c z -> typelib_from_ruby fl ic fuel (TNum n c) m (RbInt z) = Throw ERange).
Proof.
  intros Hs Hc Hb. assert (Hn := four_sizes Hs Hc). cbn [typelib_from_ruby typelib_to_ruby]. rewrite Hs, set_int by assumption. split; intros H.
  - destruct (range_accepted Hn Hc H) as (k & ->). cbn [bind]. rewrite int_bytes_shift. rewrite (@put_raw_exact _ n) by (try apply int_bytes_len; assumption).
    destruct (@get_int fl n c z Hn Hc) as (y & k2 & G & Y & S). exists (map B (int_bytes n z)), y, k2. split; [reflexivity|]. split; [eexists; split; [apply int_bytes_len|reflexivity]|].
    rewrite take_raw_exact by apply int_bytes_len. cbn [bind]. rewrite G. auto.
  - rewrite (range_refused Hn Hc H). reflexivity.
Qed.
(** In particular the number is read back if the type can represent it, except above 2^31 for unsigned fields of 4 bytes
    and above 2^63 for those of 8 bytes ([faithful] says just this: C60_faithful). *)
Theorem C60_round_trip_partial fl ic fuel n c m z : num_supported n c = true -> c <> Float -> bytes n m -> faithful n c z ->
  exists m', typelib_from_ruby fl ic fuel (TNum n c) m (RbInt z) = Ok m' /\ typelib_to_ruby fl (TNum n c) m' = Ok (RbInt z).
Proof.
  intros Hs Hc Hb (R & A & S). destruct (@C60_assign fl ic fuel n c m z Hs Hc Hb) as [H _]. destruct (H A) as (m' & y & k & E & _ & G & Y & S'). exists m'. split; [exact E|].
  rewrite G. do 2 f_equal. exact (shown_unique (four_sizes Hs Hc) S S' Y).
Qed.
Theorem C60_faithful n c z : num_supported n c = true -> representable n c z ->
  faithful n c z <-> ~ (c = UInt /\ ((n = 4%N /\ 2 ^ 31 <= z) \/ (n = 8%N /\ 2 ^ 63 <= z))).
Proof.
  intros Hs R. assert (Hc : c <> Float) by (intros ->; exact R). assert (Hn := four_sizes Hs Hc).
  unfold faithful, accepted, shown, representable in *. destruct c; try contradiction.
  - split; [intros _ [X _]; discriminate|intros _]. destruct Hn as [-> |[-> |[-> | ->]]]; cbn in *; lia.
  - destruct Hn as [-> |[-> |[-> | ->]]]; cbn in R |- *.
    + split; [intros _ [_ [[X _]|[X _]]]; discriminate|lia].
    + split; [intros _ [_ [[X _]|[X _]]]; discriminate|lia].
    + split; [intros H [_ [[_ X]|[X _]]]; [lia|discriminate]|intros H]. assert (z < 2147483648); [|lia]. apply Z.nle_gt. intros X. apply H. auto.
    + split; [intros H [_ [[X _]|[_ X]]]; [discriminate|lia]|intros H]. assert (z < 9223372036854775808); [|lia]. apply Z.nle_gt. intros X. apply H. auto.
Qed.
(** What is read from a field can be assigned to another field of the type, whose bytes become the same; not so for 8 byte
    unsigned fields with the highest bit set. *)
Theorem C60_copy fl ic fuel n c bs m : num_supported n c = true -> c <> Float -> Forall (fun b => b < 256)%N bs -> lenN bs = n -> bytes n m ->
  exists y, typelib_to_ruby fl (TNum n c) (map B bs) = Ok (RbInt y) /\
    (~ (c = UInt /\ n = 8%N /\ 2 ^ 63 <= y) -> typelib_from_ruby fl ic fuel (TNum n c) m (RbInt y) = Ok (map B bs)).
Proof.
  intros Hs Hc H8 L Hb. assert (Hn := four_sizes Hs Hc). destruct (@get_is8 fl n c bs Hn Hc H8 L) as (y & G & S & E). exists y.
  cbn [typelib_to_ruby typelib_from_ruby]. rewrite Hs, take_raw_exact by assumption. cbn [bind]. rewrite G. split; [reflexivity|]. intros H.
  rewrite set_int by assumption. assert (A : accepted n c y).
  { clear - Hn Hc S H. unfold accepted, shown, representable in *. destruct c; try contradiction; destruct Hn as [-> |[-> |[-> | ->]]]; cbn in *; try lia.
    split; [lia|]. apply Z.nle_gt. intros X. apply H. auto. }
  destruct (range_accepted Hn Hc A) as (k & ->). cbn [bind]. rewrite int_bytes_shift, E. apply put_raw_exact with n; assumption.
Qed.
(** Objects that are not numbers are refused. *)
Theorem C60_not_a_number fl ic fuel n c m o : num_supported n c = true ->
  (match o with RbStr _ _ | RbSym _ | RbOther => True | _ => False end) -> typelib_from_ruby fl ic fuel (TNum n c) m o = Throw EType.
Proof. intros Hs H. destruct o; try contradiction; cbn [typelib_from_ruby]; rewrite Hs; destruct c; reflexivity. Qed.
Definition no_floats : floats := Floats (fun _ => []) (fun x => x) (fun x => x) (fun _ _ _ => Throw EType).
Example C60_case : faithful 2 UInt 65535 /\ faithful 4 SInt (-5) /\
  typelib_from_ruby no_floats false 0 (TNum 2 UInt) [B 1; B 2] (RbInt 65535) = Ok [B 255; B 255].
Proof. split; [|split]; try reflexivity; unfold faithful, representable, accepted, shown; cbn; lia. Qed.
(** The claim for all representable numbers is false: 3000000000 in a uint32_t reads as -1294967296, 2^63 cannot be assigned to
    a uint64_t, and numbers that cannot be represented are not refused: 300 in a uint8_t becomes 44. *)
Theorem C60_uint32_refuted : representable 4 UInt 3000000000 /\ exists m', typelib_from_ruby no_floats false 0 (TNum 4 UInt) [B 0; B 0; B 0; B 0] (RbInt 3000000000) = Ok m' /\
  typelib_to_ruby no_floats (TNum 4 UInt) m' = Ok (RbInt (-1294967296)).
Proof. split; [cbn; lia|]. eexists. split; [vm_compute; reflexivity|vm_compute; reflexivity]. Qed.
Theorem C60_uint64_refuted fl ic fuel m : bytes 8 m -> representable 8 UInt (2 ^ 63) /\ typelib_from_ruby fl ic fuel (TNum 8 UInt) m (RbInt (2 ^ 63)) = Throw ERange.
Proof. intros H. split; [cbn; lia|]. apply C60_assign; [reflexivity|discriminate|exact H|]. unfold accepted. cbn. lia. Qed.
Theorem C60_truncation_refuted : ~ representable 1 UInt 300 /\ exists m', typelib_from_ruby no_floats false 0 (TNum 1 UInt) [B 0] (RbInt 300) = Ok m' /\
  typelib_to_ruby no_floats (TNum 1 UInt) m' = Ok (RbInt 44).
Proof. split; [cbn; lia|]. eexists. split; vm_compute; reflexivity. Qed.

(** ** C61: texts *)

(** Type.from_string on a char array of [d] bytes, whatever it contained: a String that has no NUL and is shorter than the
    array is stored with a NUL behind it, and to_string gives it back; any other String is refused with ArgumentError. *)
Theorem C61_char_array d m bs chars : (1 <= d < two64)%N -> bytes d m ->
  (~ In 0%N bs -> (lenN bs < d)%N -> exists content, value_from_string true (DArray d) m (RbStr bs chars) = Ok (map B content) /\ lenN content = d /\ holds_text content bs /\
     value_to_string true (DArray d) (map B content) = Ok (RbStr bs (lenN bs))) /\
  (In 0%N bs \/ (d <= lenN bs)%N -> value_from_string true (DArray d) m (RbStr bs chars) = Throw EArg).
Proof.
  intros Hd Hb. split.
  - intros Hz L. exists (padded d bs). assert (Lp : lenN (padded d bs) = d) by (apply padded_len; lia). destruct (padded_text Hz L) as [_ (r & E)].
    split; [apply from_string_ok; assumption|]. split; [exact Lp|]. split; [apply padded_text; assumption|]. rewrite to_string_array by exact Lp. rewrite E, c_str_app by exact Hz. reflexivity.
  - intros H. unfold value_from_string. cbn [buffer_size]. rewrite wsub_1 by assumption. destruct (N.ltb_spec (d - 1) (lenN bs)) as [X|X]; [reflexivity|]. destruct H as [H|H]; [|lia].
    assert (C := c_str_short H). destruct (N.ltb_spec (lenN (c_str bs)) (lenN bs)); [reflexivity|lia].
Qed.
(** to_string on any content: the bytes before the first NUL, or all of them. *)
Theorem C61_to_string d content : lenN content = d -> exists s rest, value_to_string true (DArray d) (map B content) = Ok (RbStr s (lenN s)) /\
  content = s ++ rest /\ ~ In 0%N s /\ (rest = [] \/ exists r, rest = 0%N :: r).
Proof. intros L. rewrite to_string_array by exact L. destruct (c_str_split content) as [H (rest & E & R)]. exists (c_str content), rest. auto. Qed.
(** Assigning a String to a char array (typelib_from_ruby): the part before its first NUL is stored if it is shorter than the
    array; the bytes behind the NUL stay what they were. *)
Theorem C61_assign fl fuel sz d e old bs chars : lenN old = d ->
  exists s, (bs = s \/ exists r, bs = s ++ 0%N :: r) /\ ~ In 0%N s /\
    ((lenN s < d)%N -> exists tail, lenN (s ++ 0%N :: tail) = d /\ dropN (lenN s + 1) old = tail /\
        typelib_from_ruby fl true fuel (TArray sz d e) (map B old) (RbStr bs chars) = Ok (map B (s ++ 0%N :: tail))) /\
    ((d <= lenN s)%N -> typelib_from_ruby fl true fuel (TArray sz d e) (map B old) (RbStr bs chars) = Throw EType).
Proof.
  intros L. destruct (c_str_split bs) as [Hz (rest & E & R)]. exists (c_str bs). split; [destruct R as [-> |(r & ->)]; [left; rewrite app_nil_r in E; exact E|right; exists r; exact E]|].
  split; [exact Hz|]. cbn [typelib_from_ruby]. cbv zeta. split; intros H.
  - exists (dropN (lenN (c_str bs) + 1) old). split; [rewrite lenN_app, lenN_cons, lenN_dropN; lia|]. split; [reflexivity|].
    destruct (N.ltb_spec (lenN (c_str bs)) d); [|lia]. unfold put_raw. rewrite <- (takeN_dropN (lenN (c_str bs) + 1) old) at 1. rewrite map_app.
    rewrite write_raw_app; [cbn [bind]; rewrite <- map_app, <- app_assoc; reflexivity|]. eexists. split; [|reflexivity]. rewrite lenN_takeN, lenN_app, lenN_cons. change (lenN (@nil N)) with 0%N. lia.
  - destruct (N.ltb_spec (lenN (c_str bs)) d); [lia|]. reflexivity.
Qed.
(** A Ruby String converted to a new /std/string and back: as many bytes as the String has characters. *)
Theorem C61_std_string sz bs chars : (1 <= sz)%N -> (lenN bs <= max_size)%N -> (chars <= lenN bs)%N ->
  exists m, conv (fun f => std_string_from_ruby f sz (put_obj sz (StrObj [])) (RbStr bs chars)) (Ok m) /\
    conv (fun f => std_string_to_ruby f sz m) (Ok (takeN chars bs)).
Proof.
  intros Hs Hm Hc. exists (put_obj sz (StrObj (takeN chars bs))). assert (L : lenN (takeN chars bs) = chars) by (rewrite lenN_takeN; lia). split.
  - exists 3%nat. intros [|[|[|f]]] Hf; try lia. unfold std_string_from_ruby, pack_string. replace (chars - lenN bs)%N with 0%N by lia. change (repN 0 32%N) with (@nil N). rewrite app_nil_r.
    rewrite <- L at 1. apply std_load; [exact Hs|lia].
  - exists 3%nat. intros [|[|[|f]]] Hf; try lia. unfold std_string_to_ruby. rewrite std_dump by (try exact Hs; lia). cbn [bind]. rewrite dropN_app_exact; [reflexivity|]. symmetry. apply lenN_le_bytes.
Qed.
(** So it comes back whole if every character is one byte. *)
Corollary C61_std_string_round_trip_partial sz bs : (1 <= sz)%N -> (lenN bs <= max_size)%N ->
  exists m, conv (fun f => std_string_from_ruby f sz (put_obj sz (StrObj [])) (RbStr bs (lenN bs))) (Ok m) /\ conv (fun f => std_string_to_ruby f sz m) (Ok bs).
Proof. intros Hs Hm. destruct (@C61_std_string sz bs (lenN bs) Hs Hm ltac:(lia)) as (m & A & B). exists m. split; [exact A|]. rewrite takeN_all in B by lia. exact B. Qed.
Example C61_case : exists content, value_from_string true (DArray 4) [B 1; B 2; B 3; B 4] (RbStr [97%N; 98%N] 2) = Ok (map B content) /\
  value_to_string true (DArray 4) (map B content) = Ok (RbStr [97%N; 98%N] 2).
Proof. exists [97; 98; 0; 0]%N. split; reflexivity. Qed.
(** Refuted: a String of two bytes and one character loses its second byte; a String with a NUL inside is cut without an error when
    it is assigned to a char array; an array of dimension 0 and a char* make from_string write out of bounds. *)
Theorem C61_multibyte_refuted : exists m, conv (fun f => std_string_from_ruby f 32 (put_obj 32 (StrObj [])) (RbStr [195%N; 169%N] 1)) (Ok m) /\
  conv (fun f => std_string_to_ruby f 32 m) (Ok [195%N]).
Proof. apply (@C61_std_string 32 [195; 169]%N 1); unfold max_size; cbn; lia. Qed.
Theorem C61_nul_refuted fl fuel : exists m, typelib_from_ruby fl true fuel (TArray 4 4 (TNum 1 SInt)) (map B [9; 9; 9; 9]%N) (RbStr [97; 0; 98]%N 3) = Ok m /\
  value_to_string true (DArray 4) m = Ok (RbStr [97]%N 1).
Proof. eexists. split; reflexivity. Qed.
Theorem C61_empty_array_refuted bs chars : ~ In 0%N bs -> (lenN bs < two64)%N -> value_from_string true (DArray 0) [] (RbStr bs chars) = UB UOob.
Proof.
  intros Hz L. unfold value_from_string. cbn [buffer_size]. change (wsub 0 1) with 18446744073709551615%N. unfold two64 in L. destruct (N.ltb_spec 18446744073709551615 (lenN bs)); [lia|].
  rewrite c_str_none by exact Hz. rewrite N.ltb_irrefl. unfold strncpy. rewrite c_str_none by exact Hz. reflexivity.
Qed.
Theorem C61_pointer_refuted m bs chars : ~ In 0%N bs -> (lenN bs < 2 ^ 63)%N -> (lenN m < 2 ^ 63)%N -> value_from_string true DPointer m (RbStr bs chars) = UB UOob.
Proof.
  intros Hz L Lm. unfold value_from_string. cbn [buffer_size]. change (wsub npos 1) with 18446744073709551614%N. destruct (N.ltb_spec 18446744073709551614 (lenN bs)); [lia|].
  rewrite c_str_none by exact Hz. rewrite N.ltb_irrefl. unfold strncpy. rewrite c_str_none by exact Hz. rewrite takeN_all by (unfold npos, two64; lia). cbv zeta.
  unfold put_raw, write_raw, take_cells. rewrite lenN_app, lenN_repN. destruct (N.ltb_spec (lenN m) (lenN bs + (npos - lenN bs))) as [X|X]; [reflexivity|]. unfold npos, two64 in X. lia.
Qed.

(** ** C62: elements of arrays. The elements have [es] bytes, so element [i] is at offset i * es. *)

Theorem C62_element d es i : (0 < d < 2 ^ 63)%N -> (d * es < two64)%N ->
  (0 <= i < Z.of_N d -> i < 2 ^ 31 -> array_element d es i = Ok (Z.to_N i * es)%N /\ forall f, array_get f d es [i] = Ok (GElement (Z.to_N i * es)%N)) /\
  (- 2 ^ 31 <= i < 2 ^ 31 -> ~ (0 <= i < Z.of_N d) -> array_element d es i = Throw EIndex /\ forall f, array_get f d es [i] = Throw EIndex) /\
  (~ (- 2 ^ 31 <= i < 2 ^ 31) -> array_element d es i = Throw ERange /\ forall f, array_get f d es [i] = Throw ERange).
Proof.
  intros [H0 Hd] Hs. unfold array_element, array_get. destruct (N.eqb_spec d 0); [lia|]. rewrite !NUM2INT_spec.
  split; [|split]; intros Hi; [intros Hj|intros Hj|].
  - assert (R : in_range (- 2 ^ 31) (2 ^ 31) i = true) by (apply in_range_spec; lia). rewrite R. cbn [bind]. cbv zeta. rewrite index_test by assumption.
    destruct (Z.leb_spec 0 i); [|lia]. destruct (Z.ltb_spec i (Z.of_N d)); [|lia]. cbn [negb andb]. rewrite (@wmul_index d) by lia. split; reflexivity.
  - assert (R : in_range (- 2 ^ 31) (2 ^ 31) i = true) by (apply in_range_spec; lia). rewrite R. cbn [bind]. cbv zeta. rewrite index_test by assumption.
    destruct (Z.leb_spec 0 i); destruct (Z.ltb_spec i (Z.of_N d)); cbn [negb andb]; try lia; split; reflexivity.
  - destruct (in_range (- 2 ^ 31) (2 ^ 31) i) eqn:R; [apply in_range_spec in R; lia|]. cbn [bind]. split; reflexivity.
Qed.
(** do_get with a count: the elements [i], ..., [i + s - 1] if they exist, IndexError otherwise. (A negative count gives no
    element as long as i + s is not negative.) *)
Theorem C62_slice d es i s : (0 < d < 2 ^ 63)%N -> (d * es < two64)%N -> 0 <= i < Z.of_N d -> i < 2 ^ 31 -> - 2 ^ 31 <= s < 2 ^ 31 ->
  (0 <= i + s <= Z.of_N d -> exists l, conv (fun f => array_get f d es [i; s]) (Ok (GSlice l)) /\ length l = Z.to_nat s /\
     (forall k, (k < length l)%nat -> nth_error l k = Some ((Z.to_N i + N.of_nat k) * es)%N) /\ Forall (fun off => off + es <= d * es)%N l) /\
  (~ (0 <= i + s <= Z.of_N d) -> forall f, array_get f d es [i; s] = Throw EIndex).
Proof.
  intros [H0 Hd] Hs Hi Hi31 Hr. assert (Ri : in_range (- 2 ^ 31) (2 ^ 31) i = true) by (apply in_range_spec; lia). assert (Rs : in_range (- 2 ^ 31) (2 ^ 31) s = true) by (apply in_range_spec; lia).
  assert (G : forall f, array_get f d es [i; s] = if (d <? wadd (to_size i) (to_size s))%N then Throw EIndex else l <- offsets f es (to_size i) (wadd (to_size i) (to_size s)) ;; Ok (GSlice l)).
  { intros f. unfold array_get. destruct (N.eqb_spec d 0); [lia|]. rewrite !NUM2INT_spec, Ri. cbn [bind]. cbv zeta. rewrite index_test by assumption.
    destruct (Z.leb_spec 0 i); [|lia]. destruct (Z.ltb_spec i (Z.of_N d)); [|lia]. cbn [negb andb]. rewrite Rs. reflexivity. }
  assert (Ti : to_size i = Z.to_N i) by (apply to_size_nonneg; unfold two64; lia).
  assert (W : wadd (to_size i) (to_size s) = if 0 <=? i + s then Z.to_N (i + s) else Z.to_N (i + s + Z.of_N two64)).
  { rewrite Ti. unfold wadd. destruct (Z.leb_spec 0 s).
    - rewrite to_size_nonneg by (unfold two64; lia). destruct (Z.leb_spec 0 (i + s)); [|lia]. rewrite N.mod_small by (unfold two64; lia). lia.
    - rewrite to_size_neg by (unfold two64; lia). destruct (Z.leb_spec 0 (i + s)).
      + replace (Z.to_N i + Z.to_N (s + Z.of_N two64))%N with (Z.to_N (i + s) + 1 * two64)%N by (unfold two64; lia). rewrite N.mod_add by discriminate. apply N.mod_small. unfold two64. lia.
      + rewrite N.mod_small by (unfold two64; lia). unfold two64; lia. }
  split; intros H.
  - destruct (Z.leb_spec 0 (i + s)); [|lia]. exists (map (fun k => (k * es)%N) (seqN (Z.to_N i) (Z.to_nat s))).
    rewrite map_length, seqN_len. split; [|split; [reflexivity|split]].
    + exists (Datatypes.S (Z.to_nat s)). intros f Hf. rewrite G, W, Ti. assert (Hle : (Z.to_N (i + s) <= d)%N) by lia. destruct (N.ltb_spec d (Z.to_N (i + s))); [exfalso; lia|].
      destruct (Z.leb_spec 0 s) as [Ps|Ps].
      * rewrite (@offsets_ok es (Z.to_nat s) (Z.to_N i) (Z.to_N (i + s)) f); [reflexivity|lia|unfold two64; lia|nia|lia].
      * replace (Z.to_nat s) with 0%nat by lia. destruct f as [|f]; [lia|]. cbn [offsets seqN map]. destruct (N.ltb_spec (Z.to_N i) (Z.to_N (i + s))); [lia|]. reflexivity.
    + intros k Hk. rewrite nth_error_map, seqN_nth by exact Hk. reflexivity.
    + apply Forall_forall. intros off Ho. apply in_map_iff in Ho. destruct Ho as (k & <- & Hk). apply In_nth_error in Hk. destruct Hk as (j & Hj).
      assert (Lj : (j < Z.to_nat s)%nat) by (rewrite <- (@seqN_len (Z.to_nat s) (Z.to_N i)); apply nth_error_Some; congruence). rewrite seqN_nth in Hj by exact Lj. injection Hj as <-. nia.
  - intros f. rewrite G, W. destruct (Z.leb_spec 0 (i + s)).
    + destruct (N.ltb_spec d (Z.to_N (i + s))); [reflexivity|lia].
    + destruct (N.ltb_spec d (Z.to_N (i + s + Z.of_N two64))) as [X|X]; [reflexivity|]. unfold two64 in X. lia.
Qed.
(** The wrapper of the array keeps those of the elements: after any sequence of reads with indexes that are not negative, reading
    element [i] gives element [i]. *)
Inductive reads (d es : N) : elements -> Prop :=
| R_new : reads d es []
| R_get c i f : reads d es c -> 0 <= i -> reads d es (fst (raw_get f d es c i)).
Theorem C62_history_partial d es c i f : (0 < d < 2 ^ 63)%N -> (d * es < two64)%N -> reads d es c -> 0 <= i < Z.of_N d -> i < 2 ^ 31 ->
  snd (raw_get f d es c i) = Ok (Z.to_N i * es)%N.
Proof.
  intros [H0 Hd] Hs Hc Hi H31. assert (C : cached es c).
  { clear Hi H31 i f. induction Hc as [|c i f Hc IH Hi]; [intros k off; destruct k; discriminate|]. apply raw_get_cached; assumption. }
  apply raw_get_cached; try assumption; lia.
Qed.
Example C62_case : array_get 5 3 4 [1] = Ok (GElement 4) /\ array_get 5 3 4 [1; 2] = Ok (GSlice [4; 8]%N) /\ array_get 5 3 4 [1; 3] = Throw EIndex /\ array_get 5 3 4 [-1] = Throw EIndex.
Proof. repeat split; vm_compute; reflexivity. Qed.
(** Refuted: a negative index raises IndexError or not, depending on what was read before: after a[0], a[-1] is the element 0 of an
    array of three; elements above 2^31 cannot be read; any index of an empty array is accepted. *)
Theorem C62_negative_refuted : snd (raw_get 1 3 4 [] (-1)) = Throw EIndex /\
  exists c, reads 3 4 c /\ snd (raw_get 1 3 4 c (-1)) = Ok 0%N.
Proof. split; [reflexivity|]. exists (fst (raw_get 1 3 4 [] 0)). split; [apply R_get; [constructor|lia]|reflexivity]. Qed.
Theorem C62_large_refuted es : (es <= 1000)%N -> forall f, array_get f 3000000000 es [2999999999] = Throw ERange.
Proof. intros H f. apply C62_element; [lia|unfold two64; nia|lia]. Qed.
Theorem C62_empty_refuted f es i : array_get f 0 es [i] = Ok GSelf.
Proof. reflexivity. Qed.

(** ** C63: enums *)
Lemma enum_get_first vs v k : Csv.enum_get vs v = Some k -> In (k, v) vs.
Proof. induction vs as [|[s x] r IH]; intros H; [discriminate|]. cbn [Csv.enum_get] in H. destruct (Z.eqb_spec x v) as [-> |]; [injection H as ->; left; reflexivity|right; auto]. Qed.
Lemma enum_get_none vs v : Csv.enum_get vs v = None -> forall k, ~ In (k, v) vs.
Proof. induction vs as [|[s x] r IH]; intros H k X; [destruct X|]. destruct X as [E|X]; cbn [Csv.enum_get] in H; destruct (Z.eqb_spec x v); try discriminate; [congruence|exact (IH H k X)]. Qed.
Lemma seqb_iff (a b : str) : Graph.seqb a b = true <-> a = b.
Proof. apply GraphProofs.seqb_eq. Qed.
Lemma find_in (vs : list (str * Z)) k v : Smap.m_find k vs = Some v -> In (k, v) vs.
Proof. induction vs as [|[s x] r IH]; intros H; [discriminate|]. cbn [Smap.m_find] in H. destruct (Graph.seqb s k) eqn:E; [apply seqb_iff in E; subst; injection H as ->; left; reflexivity|right; auto]. Qed.
Lemma find_none (vs : list (str * Z)) k : Smap.m_find k vs = None -> forall v, ~ In (k, v) vs.
Proof. induction vs as [|[s x] r IH]; intros H v X; [destruct X|]. destruct X as [E|X]; cbn [Smap.m_find] in H; destruct (Graph.seqb s k) eqn:Q; try discriminate; [|exact (IH H v X)]. assert (Graph.seqb s k = true) by (apply seqb_iff; congruence). congruence. Qed.
Lemma in_unique (vs : list (str * Z)) k v w : NoDup (map fst vs) -> In (k, v) vs -> In (k, w) vs -> v = w.
Proof.
  induction vs as [|[s x] r IH]; intros N H1 H2; [destruct H1|]. inversion N as [|? ? A Bn]; subst. destruct H1 as [H1|H1]; destruct H2 as [H2|H2]; try congruence; try (apply IH; assumption).
  - exfalso. apply A. injection H1 as -> ->. apply (in_map fst) in H2. exact H2.
  - exfalso. apply A. injection H2 as -> ->. apply (in_map fst) in H1. exact H1.
Qed.
Definition c_int (v : Z) : Prop := - 2 ^ 31 <= v < 2 ^ 31.
Lemma signed_int v : c_int v -> signed 4 (int_bytes 4 v) = v.
Proof.
  intros H. destruct (@signed_wrap 4 v ltac:(lia)) as (k & E & R). cbn [representable] in R. change (8 * Z.of_N 4 - 1) with 31 in R. change (8 * Z.of_N 4) with 32 in E. unfold c_int in H. lia.
Qed.
(** Assigning a symbol, or the String of its name, to an enum: the field reads as a symbol with the same value, which is the symbol
    itself if no other has this value; other symbols are refused with ArgumentError. *)
Theorem C63_symbols fl ic fuel sz vs m name o : NoDup (map fst vs) -> Forall (fun x => c_int (snd x)) vs -> bytes 4 m ->
  o = RbSym name \/ (exists n, o = RbStr (map N_of_ascii name) n /\ ~ In zero name) ->
  (forall v, In (name, v) vs -> exists m' name', typelib_from_ruby fl ic fuel (TEnum sz vs) m o = Ok m' /\ bytes 4 m' /\
     typelib_to_ruby fl (TEnum sz vs) m' = Ok (RbSym name') /\ In (name', v) vs /\ ((forall k, In (k, v) vs -> k = name) -> name' = name)) /\
  ((forall v, ~ In (name, v) vs) -> typelib_from_ruby fl ic fuel (TEnum sz vs) m o = Throw EArg).
Proof.
  intros N F Hb Ho. assert (E : typelib_from_ruby fl ic fuel (TEnum sz vs) m o = (v <- match Smap.m_find name vs with Some v => Ok v | None => Throw EArg end ;; put_raw (int_bytes 4 v) m)).
  { destruct Ho as [-> |(n & -> & Z0)]; [reflexivity|]. cbn [typelib_from_ruby enum_of_ruby]. unfold enum_size. assert (C : c_str (map N_of_ascii name) = map N_of_ascii name).
    { apply c_str_none. intros X. apply in_map_iff in X. destruct X as (a & Ea & Ia). apply Z0. replace zero with a; [exact Ia|]. rewrite <- (ascii_N_embedding a), Ea. reflexivity. }
    rewrite C. assert (S : str_of_bytes (map N_of_ascii name) = name). { unfold str_of_bytes. rewrite map_map. rewrite <- (map_id name) at 2. apply map_ext. apply ascii_N_embedding. } rewrite S. reflexivity. }
  rewrite E. split.
  - intros v Hv. destruct (Smap.m_find name vs) as [w|] eqn:Q; [|exfalso; exact (find_none Q Hv)]. assert (w = v) by (apply (@in_unique vs name); [exact N|apply find_in; exact Q|exact Hv]). subst w. cbn [bind].
    assert (Hi : c_int v) by (rewrite Forall_forall in F; apply (F _ Hv)). rewrite (@put_raw_exact _ 4) by (try apply int_bytes_len; exact Hb).
    destruct (Csv.enum_get vs v) as [k|] eqn:G; [|exfalso; exact (enum_get_none G Hv)]. exists (map B (int_bytes 4 v)), k. split; [reflexivity|]. split; [eexists; split; [apply int_bytes_len|reflexivity]|].
    cbn [typelib_to_ruby]. unfold enum_size. rewrite take_raw_exact by apply int_bytes_len. cbn [bind]. rewrite signed_int by exact Hi. unfold enum_to_ruby. rewrite G.
    split; [reflexivity|]. apply enum_get_first in G. split; [exact G|]. intros U. apply U. exact G.
  - intros H. destruct (Smap.m_find name vs) as [w|] eqn:Q; [exfalso; exact (H w (find_in Q))|reflexivity].
Qed.
(** Assigning an integer: accepted exactly if it is the value of a symbol, and stored. *)
Theorem C63_integers fl ic fuel sz vs m z : Forall (fun x => c_int (snd x)) vs -> bytes 4 m ->
  ((exists k, In (k, z) vs) -> exists m' k', typelib_from_ruby fl ic fuel (TEnum sz vs) m (RbInt z) = Ok m' /\ bytes 4 m' /\ typelib_to_ruby fl (TEnum sz vs) m' = Ok (RbSym k') /\ In (k', z) vs) /\
  ((forall k, ~ In (k, z) vs) -> exists e, typelib_from_ruby fl ic fuel (TEnum sz vs) m (RbInt z) = Throw e /\ (c_int z -> e = EArg)).
Proof.
  intros F Hb. cbn [typelib_from_ruby enum_of_ruby]. split.
  - intros (k & Hk). assert (Hi : c_int z) by (rewrite Forall_forall in F; apply (F _ Hk)). unfold c_int in Hi. assert (R1 : in_range (- 2 ^ 62) (2 ^ 62) z = true) by (apply in_range_spec; lia). assert (R2 : in_range (- 2 ^ 31) (2 ^ 31) z = true) by (apply in_range_spec; lia).
    rewrite R1. unfold NUM2INT. rewrite R2. cbn [bind]. destruct (Csv.enum_get vs z) as [k'|] eqn:G; [|exfalso; exact (enum_get_none G Hk)]. cbn [bind]. unfold enum_size. rewrite (@put_raw_exact _ 4) by (try apply int_bytes_len; exact Hb).
    exists (map B (int_bytes 4 z)), k'. split; [reflexivity|]. split; [eexists; split; [apply int_bytes_len|reflexivity]|]. cbn [typelib_to_ruby]. unfold enum_size. rewrite take_raw_exact by apply int_bytes_len. cbn [bind]. rewrite signed_int by exact Hi. unfold enum_to_ruby. rewrite G.
    split; [reflexivity|]. apply enum_get_first. exact G.
  - intros H. destruct (in_range (- 2 ^ 62) (2 ^ 62) z) eqn:R1.
    + unfold NUM2INT. destruct (in_range (- 2 ^ 31) (2 ^ 31) z) eqn:R2.
      * cbn [bind]. destruct (Csv.enum_get vs z) as [k'|] eqn:G; [exfalso; exact (H k' (enum_get_first G))|]. exists EArg. split; [reflexivity|auto].
      * exists ERange. split; [reflexivity|]. intros X. unfold c_int in X. assert (in_range (- 2 ^ 31) (2 ^ 31) z = true) by (apply in_range_spec; lia). congruence.
    + exists EType. split; [reflexivity|]. intros X. unfold c_int in X. assert (in_range (- 2 ^ 62) (2 ^ 62) z = true) by (apply in_range_spec; lia). congruence.
Qed.
(** Reading an enum never fails, whatever its bytes: a symbol that has the value, or nil if there is none. *)
Theorem C63_read fl sz vs bs : Forall (fun b => b < 256)%N bs -> lenN bs = 4%N -> exists v, holds_int 4 bs v /\
  ((exists k, In (k, v) vs /\ typelib_to_ruby fl (TEnum sz vs) (map B bs) = Ok (RbSym k)) \/ ((forall k, ~ In (k, v) vs) /\ typelib_to_ruby fl (TEnum sz vs) (map B bs) = Ok RbOther)).
Proof.
  intros H8 L. exists (signed 4 bs). split; [apply signed_holds; [lia|exact H8|exact L]|]. cbn [typelib_to_ruby]. unfold enum_size. rewrite take_raw_exact by exact L. cbn [bind]. unfold enum_to_ruby.
  destruct (Csv.enum_get vs (signed 4 bs)) as [k|] eqn:G; [left; exists k; split; [apply enum_get_first; exact G|reflexivity]|right; split; [apply enum_get_none; exact G|reflexivity]].
Qed.
Example C63_case : let vs := [(s_ "A", 1); (s_ "B", 5); (s_ "C", 1)] in
  typelib_from_ruby no_floats false 0 (TEnum 4 vs) [B 0; B 0; B 0; B 0] (RbSym (s_ "C")) = Ok [B 1; B 0; B 0; B 0] /\
  typelib_to_ruby no_floats (TEnum 4 vs) [B 1; B 0; B 0; B 0] = Ok (RbSym (s_ "A")) /\
  typelib_from_ruby no_floats false 0 (TEnum 4 vs) [B 0; B 0; B 0; B 0] (RbInt 7) = Throw EArg.
Proof. repeat split; vm_compute; reflexivity. Qed.

(** ** C64: raw_memcpy on vectors. [cs]: the buffer of the vector before, [mem]: what is at the source address. *)
Theorem C64_raw_memcpy_partial e cap cs mem s : bytes (lenN cs) cs -> (lenN cs <= cap)%N -> (cap <= max_size)%N -> (0 < sizeof e < 2 ^ 32)%N -> 0 < s < 2 ^ 32 -> (Z.to_N s <= lenN mem)%N ->
  ((exists k, s = k * Z.of_N (sizeof e)) -> exists cap' content rest, mem = content ++ rest /\ lenN content = Z.to_N s /\ vector_raw_memcpy (Some true) e cap cs mem s = Ok (cap', map B content) /\ (lenN content <= cap' <= max_size)%N) /\
  ((forall k, s <> k * Z.of_N (sizeof e)) -> vector_raw_memcpy (Some true) e cap cs mem s = Throw EArg).
Proof.
  intros HB H1 H2 He Hs Hm. assert (E32 : (sizeof e mod 2 ^ 32 = sizeof e)%N) by (apply N.mod_small; lia).
  assert (U : NUM2UINT s = Ok s). { unfold NUM2UINT. assert (R : in_range (- 2 ^ 31) (2 ^ 32) s = true) by (apply in_range_spec; lia). rewrite R, Z.mod_small by lia. reflexivity. }
  unfold vector_raw_memcpy. rewrite E32, U. cbv zeta. cbn [bind]. destruct (N.eqb_spec (sizeof e) 0) as [|_]; [lia|].
  assert (D : (Z.to_N s mod sizeof e = 0)%N <-> exists k, s = k * Z.of_N (sizeof e)).
  { split.
    - intros M. apply N.mod_divide in M; [|lia]. destruct M as [k M]. exists (Z.of_N k). lia.
    - intros [k K]. apply N.mod_divide; [lia|]. exists (Z.to_N k). nia. }
  split; intros H.
  - apply D in H. rewrite H, N.eqb_refl. cbn [negb]. destruct (@raw_resize_safe (Z.to_N s) cap cs HB H1 H2) as [(cap' & cs' & R & L & Bc & C1 & C2)|R].
    + rewrite R. cbn [bind]. destruct (N.ltb_spec (lenN mem) (Z.to_N s)); [lia|]. destruct (N.eqb_spec (Z.to_N s) 0); [lia|].
      assert (Lt : lenN (takeN (Z.to_N s) mem) = Z.to_N s) by (rewrite lenN_takeN; lia). rewrite (put_raw_exact Lt Bc). cbn [bind].
      exists cap', (takeN (Z.to_N s) mem), (dropN (Z.to_N s) mem). rewrite Lt. repeat split; try lia. symmetry. apply takeN_dropN.
    + exfalso. unfold vec_raw_resize in R. destruct (N.leb_spec (Z.to_N s) (lenN cs)); [destruct (forallb is_byte _); discriminate|].
      destruct (N.leb_spec (Z.to_N s) cap); [discriminate|]. destruct (N.ltb_spec max_size (Z.to_N s)) as [X|]; [unfold max_size in X; lia|]. destruct (forallb is_byte cs); discriminate.
  - destruct (N.eqb_spec (Z.to_N s mod sizeof e) 0) as [X|X]; [|reflexivity]. apply D in X. destruct X as [k K]. exfalso. exact (H k K).
Qed.
(** Elements whose layout does not exist or is not a plain copy: TypeError. *)
Theorem C64_not_flat flat e cap cs mem s : flat <> Some true -> vector_raw_memcpy flat e cap cs mem s = Throw EType.
Proof. destruct flat as [[|]|]; [congruence|reflexivity|reflexivity]. Qed.
Example C64_case : vector_raw_memcpy (Some true) (TNum 4 SInt) 0 [] [1; 2; 3; 4; 5; 6; 7; 8; 9]%N 8 = Ok (8%N, map B [1; 2; 3; 4; 5; 6; 7; 8]%N) /\ vector_raw_memcpy (Some true) (TNum 4 SInt) 0 [] [1; 2; 3; 4; 5; 6; 7; 8; 9]%N 6 = Throw EArg.
Proof. split; vm_compute; reflexivity. Qed.
(** Refuted: a negative size is not refused, 2^32 bytes less it are read; 0 bytes take the address of an element of an empty
    vector; elements of a multiple of 2^32 bytes divide by zero. *)
Theorem C64_negative_refuted e cap cs mem s : bytes (lenN cs) cs -> (lenN cs <= cap)%N -> (cap <= max_size)%N -> (0 < sizeof e < 2 ^ 32)%N -> - 2 ^ 31 <= s < 0 -> (exists k, 2 ^ 32 + s = k * Z.of_N (sizeof e)) -> (lenN mem < 2 ^ 31)%N ->
  vector_raw_memcpy (Some true) e cap cs mem s = UB UOob.
Proof.
  intros HB H1 H2 He Hs [k K] Hm. assert (E32 : (sizeof e mod 2 ^ 32 = sizeof e)%N) by (apply N.mod_small; lia).
  assert (U : NUM2UINT s = Ok (2 ^ 32 + s)). { unfold NUM2UINT. assert (R : in_range (- 2 ^ 31) (2 ^ 32) s = true) by (apply in_range_spec; lia). rewrite R. f_equal. rewrite <- (@Z.mod_small (2 ^ 32 + s) (2 ^ 32)) by lia. rewrite <- (Z_mod_plus_full s 1 (2 ^ 32)). f_equal. lia. }
  unfold vector_raw_memcpy. rewrite E32, U. cbv zeta. cbn [bind]. destruct (N.eqb_spec (sizeof e) 0) as [|_]; [lia|].
  assert (D : (Z.to_N (2 ^ 32 + s) mod sizeof e = 0)%N). { apply N.mod_divide; [lia|]. exists (Z.to_N k). nia. }
  rewrite D, N.eqb_refl. cbn [negb]. destruct (@raw_resize_safe (Z.to_N (2 ^ 32 + s)) cap cs HB H1 H2) as [(cap' & cs' & R & L & Bc & C1 & C2)|R].
  - rewrite R. cbn [bind]. destruct (N.ltb_spec (lenN mem) (Z.to_N (2 ^ 32 + s))); [reflexivity|lia].
  - exfalso. unfold vec_raw_resize in R. destruct (N.leb_spec (Z.to_N (2 ^ 32 + s)) (lenN cs)); [destruct (forallb is_byte _); discriminate|].
    destruct (N.leb_spec (Z.to_N (2 ^ 32 + s)) cap); [discriminate|]. destruct (N.ltb_spec max_size (Z.to_N (2 ^ 32 + s))) as [X|]; [unfold max_size in X; lia|]. destruct (forallb is_byte cs); discriminate.
Qed.
Theorem C64_empty_refuted e cap cs mem : bytes (lenN cs) cs -> (0 < sizeof e < 2 ^ 32)%N -> vector_raw_memcpy (Some true) e cap cs mem 0 = UB UOther.
Proof.
  intros HB He. unfold vector_raw_memcpy. rewrite N.mod_small by lia. cbv zeta. change (NUM2UINT 0) with (Ok 0%Z). cbn [bind]. change (Z.to_N 0) with 0%N. destruct (N.eqb_spec (sizeof e) 0); [lia|]. rewrite N.mod_0_l by lia. cbn [N.eqb negb].
  unfold vec_raw_resize. destruct (N.leb_spec 0 (lenN cs)); [|lia]. replace (dropN 0 cs) with cs by (destruct cs; reflexivity). rewrite (bytes_all HB). cbn [bind]. destruct (N.ltb_spec (lenN mem) 0); [lia|]. reflexivity.
Qed.
