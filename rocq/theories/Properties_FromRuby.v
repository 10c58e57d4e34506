(** * C82: typed values from plain Ruby objects (Typelib.from_ruby)

    The English claim: for every type without pointers and opaques and every object made of Integers, Floats, Strings, Symbols, Arrays and
    Hashes, from_ruby either raises an exception, or returns a value of the type that holds exactly what the object says; what to_simple_value
    returns is accepted, and gives an equal value. FromRubySpec.v defines [acceptable] and [holds]. *)
From Coq Require Import Lia ZArith.
From Verif Require Import Base Types WellFormed Layout ValueOps Visitor Csv InitProofs LayoutProofs LoadProofs ValueSpec ValueInst ValueMain RubyConvSpec RubyConv RubyConvProofs SimpleSpec Simple SimpleProofs Properties_Simple FromRubySpec FromRuby FromRubyProofs.
Local Open Scope N_scope.

(** ** A machine that meets the hypotheses: new values are zero, Strings have one byte per character, Floats are cut to the mantissa. *)
Fixpoint zeros (t : ty) : list cell :=
  match t with
  | TNull | TOpaque _ => []
  | TNum n _ | TEnum n _ | TPtr n => repN n (B 0)
  | TArray _ d e => concat (repN d (zeros e))
  | TCont KVec s _ => put_obj s (VecObj 0 [])
  | TCont KStr s _ => put_obj s (StrObj [])
  | TComp s fs => zeros_fields fs 0 s
  end
with zeros_fields (fs : fields) (cur s : N) : list cell :=
  match fs with
  | FNil => repN (s - cur) (B 0)
  | FCons _ off t r => repN (off - cur) (B 0) ++ zeros t ++ zeros_fields r (off + sizeof t) s
  end.
Definition encode (eb mb sh : N) (x : fval) : N :=
  match x with
  | FNaN => (2 ^ eb - 1) * 2 ^ mb + 1
  | FInf neg => (if neg then 2 ^ eb * 2 ^ mb else 0) + (2 ^ eb - 1) * 2 ^ mb
  | FFin neg y =>
    (if neg then 2 ^ eb * 2 ^ mb else 0) +
    (if y <? 2 ^ (mb + sh) then y / 2 ^ sh
     else (N.log2 y + 1 - mb - sh) * 2 ^ mb + (y / 2 ^ (N.log2 y - mb) - 2 ^ mb))
  end.
Definition float_bytes (n : N) (x : fval) : list N := le_bytes (N.to_nat n) (if n =? 4 then encode 8 23 925 x else encode 11 52 0 x).
Definition first_char (b : list N) : Z := match b with [] => 0%Z | c :: _ => Z.of_N c end.
Definition int_of (x : fval) : option Z := match x with FFin neg y => Some (let z := Z.of_N (y / 2 ^ 1074) in if neg then (- z)%Z else z) | _ => None end.
Definition machine : env :=
  Env zeros lenN first_char float_bytes
    (fun n z => float_bytes n (FFin (z <? 0)%Z (Z.abs_N z * 2 ^ 1074)))
    (fun n c x => match int_of x with Some z => match set_num no_fl n c (RbInt z) with Ok bs => if lenN bs =? n then Some bs else None | _ => None end | None => None end).

Lemma bytes_repN n : bytes n (repN n (B 0)).
Proof. exists (repN n 0). split; [apply lenN_repN|]. unfold repN. induction (N.to_nat n); [reflexivity|]. cbn [repeat map]. f_equal. assumption. Qed.
Lemma zeros_fresh : (forall t, wf t -> plain t -> fresh t (zeros t)) /\ (forall fs cur s, wf_fields fs cur s -> supported_fields false fs = true -> fresh_fields fs cur s (zeros_fields fs cur s)).
Proof.
  unfold plain. apply ty_fields_ind; try (intros; cbn [supported] in *; discriminate).
  - intros n c _ _. apply bytes_repN.
  - intros n c _ _. apply bytes_repN.
  - intros s d e IH (_ & _ & _ & _ & W) H. cbn [supported fresh zeros] in *. exists (repN d (zeros e)). split; [apply lenN_repN|]. split; [reflexivity|]. apply Forall_forall. intros x X. unfold repN in X. apply repeat_spec in X. subst x. auto.
  - intros k s e IH W H. destruct k; cbn [fresh zeros]; [exists 0; split; [reflexivity|unfold max_size; lia]|reflexivity].
  - intros s fs IH [_ W] H. cbn [supported fresh zeros] in *. auto.
  - intros cur s _ _. apply bytes_repN.
  - intros k off t IHt r IHr cur s (_ & Wt & Wr) H. cbn [supported_fields fresh_fields zeros_fields] in *. apply andb_prop in H. destruct H as [Ht Hr]. exists (repN (off - cur) (B 0)), (zeros t), (zeros_fields r (off + sizeof t) s). repeat split; [apply bytes_repN|auto|auto].
Qed.
Lemma pow_pos k : 0 < 2 ^ k.
Proof. apply N.neq_0_lt_0, N.pow_nonzero. lia. Qed.
Lemma encode_ieee eb mb sh v : 1 <= eb -> v < 2 ^ (1 + eb + mb) -> ieee eb mb sh v <> FNaN -> encode eb mb sh (ieee eb mb sh v) = v.
Proof.
  intros He Hv Hn.
  assert (P1 : 2 ^ (1 + eb + mb) = 2 * (2 ^ eb * 2 ^ mb)) by (rewrite <- N.pow_add_r, <- N.pow_succ_r by lia; f_equal; lia).
  assert (P2 : 2 ^ (eb + mb) = 2 ^ eb * 2 ^ mb) by (apply N.pow_add_r). assert (Z1 := pow_pos eb). assert (Z2 := pow_pos mb).
  assert (Zs := pow_pos sh). unfold ieee in *. rewrite P2 in *. rewrite P1 in *. clear P1 P2.
  set (A := 2 ^ eb) in *. set (M := 2 ^ mb) in *.
  assert (D : v = (if A * M <=? v then A * M else 0) + ((v / M) mod A * M + v mod M)).
  { assert (D1 := N.div_mod v M ltac:(lia)). assert (D2 := N.div_mod (v / M) A ltac:(lia)).
    assert (M1 := N.mod_lt v M ltac:(lia)). assert (M2 := N.mod_lt (v / M) A ltac:(lia)).
    set (q := v / M) in *. set (r := v mod M) in *. set (k := q / A) in *. set (e := q mod A) in *.
    assert (k = if A * M <=? v then 1 else 0).
    { destruct (N.leb_spec (A * M) v) as [G|G]; [assert (k < 2) by nia; assert (0 < k) by nia; lia|assert (k < 1) by nia; lia]. }
    destruct (N.leb_spec (A * M) v); nia. }
  assert (Mv := N.mod_lt v M ltac:(lia)). etransitivity; [|symmetry; exact D]. clear D.
  set (ev := (v / M) mod A) in *. set (mv := v mod M) in *. set (sv := A * M <=? v) in *. clearbody ev mv sv. clear Hv.
  destruct (N.eqb_spec ev (A - 1)) as [E1|E1]; [|destruct (N.eqb_spec ev 0) as [E2|E2]].
  - destruct (N.eqb_spec mv 0) as [Q|Q]; [|congruence]. unfold encode. fold A M. subst. destruct sv; lia.
  - unfold encode. fold A M. rewrite N.pow_add_r. fold M. assert (X : mv * 2 ^ sh < M * 2 ^ sh) by (apply N.mul_lt_mono_pos_r; assumption).
    destruct (N.ltb_spec (mv * 2 ^ sh) (M * 2 ^ sh)) as [_|Y]; [|lia]. rewrite N.div_mul by lia. subst ev. destruct sv; lia.
  - unfold encode. fold A M. assert (Zk := pow_pos (ev - 1)). set (k := ev - 1 + sh). assert (Zk2 := pow_pos k).
    assert (L : N.log2 ((M + mv) * 2 ^ k) = mb + k).
    { rewrite N.log2_mul_pow2 by lia. rewrite (@N.log2_unique (M + mv) mb); [lia|lia|]. fold M. split; [lia|]. rewrite N.pow_succ_r by lia. fold M. lia. }
    rewrite N.pow_add_r. fold M. assert (X : M * 2 ^ sh <= (M + mv) * 2 ^ k).
    { subst k. rewrite N.pow_add_r. apply N.mul_le_mono; [lia|nia]. }
    destruct (N.ltb_spec ((M + mv) * 2 ^ k) (M * 2 ^ sh)) as [Y|_]; [lia|]. rewrite L. replace (mb + k - mb) with k by lia. rewrite N.div_mul by lia.
    replace (mb + k + 1 - mb - sh) with ev by (subst k; lia). destruct sv; lia.
Qed.
Lemma machine_exact : exact_floats machine.
Proof.
  intros n bs x Hn [L O] E. cbn [fl_set machine]. assert (Bd := num_bound O). rewrite L in Bd. cbn [number] in *. injection E as E. f_equal.
  assert (G : forall eb mb sh, 1 <= eb -> 1 + eb + mb = 8 * n -> (ieee eb mb sh (encode eb mb sh FNaN) = FNaN /\ encode eb mb sh FNaN < 2 ^ (8 * n)) -> ieee eb mb sh (num_of bs) = x ->
    ieee eb mb sh (num_of (le_bytes (N.to_nat n) (encode eb mb sh x))) = x).
  { intros eb mb sh He Hm [Nn Nb] Ex. assert (B2 : encode eb mb sh x < 2 ^ (8 * n) /\ ieee eb mb sh (encode eb mb sh x) = x).
    { destruct x as [|neg|neg y]; [split; assumption| |]; (assert (Q : encode eb mb sh (ieee eb mb sh (num_of bs)) = num_of bs) by (apply encode_ieee; [exact He|rewrite Hm; exact Bd|rewrite Ex; discriminate]));
        rewrite Ex in Q; rewrite Q; auto. }
    destruct B2 as [B2 B3]. rewrite <- num_le_val by (apply le_bytes_is8). rewrite le_val_bytes; [exact B3|]. rewrite N2Nat.id. change 256 with (2 ^ 8). rewrite <- N.pow_mul_r. exact B2. }
  unfold float_bytes. destruct Hn as [-> | ->].
  - change (4 =? 4) with true in *. cbn iota in *. apply G; [lia|reflexivity|split; vm_compute; reflexivity|exact E].
  - change (8 =? 4) with false in *. cbn iota in *. apply G; [lia|reflexivity|split; vm_compute; reflexivity|exact E].
Qed.
Lemma float_number n x : number_bytes n (float_bytes n x).
Proof. split; [unfold float_bytes; rewrite lenN_le_bytes; lia|apply le_bytes_is8]. Qed.
Lemma set_num_oct n c z bs : set_num no_fl n c (RbInt z) = Ok bs -> Forall oct bs.
Proof.
  destruct c; [| |cbn [set_num no_fl fl_narrow RubyConv.fl_of_int]; destruct (n =? 4); intros E; injection E as <-; constructor].
  - rewrite set_int by discriminate. destruct (range_of n SInt z); try discriminate. intros E. injection E as <-. apply int_bytes_is8.
  - rewrite set_int by discriminate. destruct (range_of n UInt z); try discriminate. intros E. injection E as <-. apply int_bytes_is8.
Qed.
Lemma machine_ok : env_ok machine.
Proof.
  constructor; cbn.
  - apply (proj1 zeros_fresh).
  - intros; lia.
  - intros; apply float_number.
  - intros; apply float_number.
  - intros n c x bs H. destruct (int_of x) as [z|]; [|discriminate]. destruct (set_num no_fl n c (RbInt z)) as [b| | |] eqn:E; try discriminate. destruct (N.eqb_spec (lenN b) n) as [L|]; [|discriminate]. injection H as <-. split; [exact L|exact (set_num_oct E)].
Qed.

(** ** The theorems *)
(** from_ruby returns a value exactly if the object is acceptable; it is a valid value of the type and holds what was given: numbers, symbols,
    elements in order, fields by name or by position; fields that are not given are as in a new value. Otherwise there is an exception.
    There is no undefined behaviour and no endless loop. *)
Theorem C82_exact P t s : env_ok P -> wf t -> showable t -> loadable t -> ruby_ok s ->
  (acceptable P t s /\ exists m, conv (fun f => from_ruby P f t s) (Ok m) /\ valid t m /\ holds P t s m) \/
  (~ acceptable P t s /\ exists e, conv (fun f => from_ruby P f t s) (Throw e)).
Proof.
  intros HP W S L R. destruct (proj1 (main HP) t W S L s R) as (r & C & O). destruct r as [m|e| |]; cbn [outcome] in O; try contradiction.
  - destruct O as (V & H & A). left. eauto.
  - right. eauto.
Qed.
(** Integers in the range of the type are stored as they are. Not the others: C82_truncated_refuted. *)
Theorem C82_integers_partial P n c z : env_ok P -> wf (TNum n c) -> showable (TNum n c) -> c <> Float -> representable n c z -> accepted n c z ->
  exists bs, conv (fun f => from_ruby P f (TNum n c) (SNum z)) (Ok (map B bs)) /\ number n c bs = SNum z.
Proof.
  intros HP W S Hc Hr Ha. destruct (showable_num S eq_refl) as [Sn _].
  destruct (@C82_exact P (TNum n c) (SNum z) HP W S I I) as [(_ & m & C & _ & H)|(A & _)].
  - destruct H as (bs & -> & (L & O) & G). exists bs. split; [exact C|]. assert (Bd := num_bound O). rewrite L in Bd.
    assert (Pw : (2 ^ (8 * Z.of_N n) = Z.of_N (2 ^ (8 * n)))%Z) by (rewrite N2Z.inj_pow, N2Z.inj_mul; reflexivity).
    assert (Hn : n = 1 \/ n = 2 \/ n = 4 \/ n = 8) by (destruct c; try contradiction; exact Sn).
    assert (G' : congruent n bs z) by (destruct c; try contradiction; exact G). destruct G' as (k & G'). rewrite Pw in G'.
    clear G Sn W S Ha C Hc HP. destruct c; cbn [number representable] in *.
    + f_equal. rewrite <- Pw in G'. destruct Hn as [-> |[-> |[-> | ->]]];
      repeat match goal with H : context [2 ^ ?x] |- _ => let v := eval vm_compute in (2 ^ x) in change (2 ^ x) with v in H end;
      repeat match goal with H : context [(2 ^ ?x)%Z] |- _ => let v := eval vm_compute in (2 ^ x)%Z in change (2 ^ x)%Z with v in H end;
      repeat match goal with |- context [2 ^ ?x] => let v := eval vm_compute in (2 ^ x) in change (2 ^ x) with v end;
      repeat match goal with |- context [(2 ^ ?x)%Z] => let v := eval vm_compute in (2 ^ x)%Z in change (2 ^ x)%Z with v end;
      match goal with |- context [?a <? ?b] => destruct (N.ltb_spec a b) end; lia.
    + f_equal. rewrite Pw in Hr. set (M := 2 ^ (8 * n)) in *. assert (k = 0)%Z by nia. subst k. lia.
    + destruct Hr.
  - destruct A. cbn [acceptable]. unfold number_accepted. destruct c; try contradiction; exact Ha.
Qed.
(** What to_simple_value returns for a value (C78) is accepted, and gives an equal value. Missing: what C78 misses, vectors of enums, unsigned
    numbers of 8 bytes from 2^63 on, NaNs, Strings with characters of several bytes or with NULs. *)
Theorem C82_round_trip_partial P t v s : env_ok P -> exact_floats P -> wf t -> showable t -> loadable t -> no_enum_vectors t ->
  valid t v -> octets v -> every false low32 known t v -> every false good any_enum t v ->
  conv (fun f => simple (Opts false OAsIs) f t v) (Ok s) -> ruby_ok s -> single_byte P s ->
  exists m, conv (fun f => from_ruby P f t s) (Ok m) /\ same t v m.
Proof.
  intros HP XF W S L Nv V O E1 E2 C R Sb. destruct (@C78_shows_partial (Opts false OAsIs) t v ltac:(discriminate) W S V O E1) as (s1 & s2 & C1 & _ & Sh & Eq). specialize (Eq eq_refl). subst s2.
  assert (X := conv_fun C1 C). injection X as ->. destruct (proj1 (back_all XF) t W S Nv v s V O E2 Sh Sb) as [A B].
  destruct (@C82_exact P t s HP W S L R) as [(_ & m & C2 & Vm & H)|(N & _)]; [|destruct (N A)]. exists m. split; [exact C2|]. apply B; assumption.
Qed.

(** ** Cases that meet the hypotheses *)
Definition modes : list (str * Z) := [(s_ "OFF", 0); (s_ "ON", 5)]%Z.
Definition u8 := TNum 1 UInt. Definition u64 := TNum 8 UInt. Definition dbl := TNum 8 Float. Definition chr := TNum 1 SInt.
Definition sample : ty := TComp 72 (FCons (s_ "a") 0 u8 (FCons (s_ "m") 4 (TEnum 4 modes) (FCons (s_ "v") 8 (TCont KVec 24 dbl) (FCons (s_ "n") 32 (TArray 4 4 chr) (FCons (s_ "t") 40 (TCont KStr 32 chr) FNil))))).
Definition one : fval := FFin false (2 ^ 1074).
Definition sample_obj : sval := SHash [(s_ "a", SNum 7); (s_ "m", SStr (map N_of_ascii (s_ "ON"))); (s_ "v", SArr [SFlo one; SFlo (FInf true)]); (s_ "n", SArr [SNum 1; SNum (-1); SNum 0; SNum 3]); (s_ "t", SStr [104; 105])].
Definition sample_val : list cell :=
  map B [7; 0; 0; 0; 5; 0; 0; 0] ++ put_obj 24 (VecObj 16 (map B [0; 0; 0; 0; 0; 0; 240; 63; 0; 0; 0; 0; 0; 0; 240; 255])) ++ map B [1; 255; 0; 3; 0; 0; 0; 0] ++ put_obj 32 (StrObj [104; 105]).
Lemma sample_wf : wf sample.
Proof. cbn -[N.pow two64]. unfold two64. repeat split; try lia; try (left; lia); exists SInt; reflexivity. Qed.
Lemma nodup_names : NoDup [s_ "a"; s_ "m"; s_ "v"; s_ "n"; s_ "t"] /\ NoDup [s_ "OFF"; s_ "ON"].
Proof. split; repeat (constructor; [cbn; intuition discriminate|]); constructor. Qed.
Lemma sample_showable : showable sample.
Proof. cbn -[N.le s_]. unfold max_size. repeat split; try lia; try apply nodup_names; auto. Qed.
Lemma sample_loadable : loadable sample.
Proof. cbn -[N.le Z.le]. repeat split; try lia; repeat constructor; cbn; lia. Qed.
Lemma sample_ruby : ruby_ok sample_obj.
Proof. cbn -[N.le]. unfold oct, max_size. repeat split; try lia; try (repeat constructor; unfold oct; lia). Qed.
Ltac witness := match goal with |- exists m, ?a = Ok m /\ _ => let r := eval vm_compute in a in match r with Ok ?m => exists m end end; split; vm_compute; reflexivity.
Example C82_case : env_ok machine /\ exact_floats machine /\ wf sample /\ showable sample /\ loadable sample /\ no_enum_vectors sample /\ ruby_ok sample_obj /\ single_byte machine sample_obj /\
  (exists m, from_ruby machine 60 sample sample_obj = Ok m /\ simple (Opts false OAsIs) 60 sample m = Ok sample_obj) /\
  simple (Opts false OAsIs) 60 sample sample_val = Ok sample_obj /\
  (exists m, from_ruby machine 60 sample (SHash [(s_ "n", SStr [97; 98])]) = Ok m /\ takeN 8 (dropN 32 m) = map B [97; 98; 0; 0; 0; 0; 0; 0]) /\
  from_ruby machine 60 sample (SHash [(s_ "x", SNum 1)]) = Throw EArg /\ from_ruby machine 60 sample (SArr [SNum 1; SStr [88]]) = Throw EArg.
Proof.
  split; [apply machine_ok|]. split; [apply machine_exact|]. split; [apply sample_wf|]. split; [apply sample_showable|]. split; [apply sample_loadable|]. split; [cbn; repeat split|]. split; [apply sample_ruby|].
  split; [cbn; repeat split; intuition discriminate|]. split; [witness|]. split; [vm_compute; reflexivity|]. split; [witness|].
  split; vm_compute; reflexivity.
Qed.
(** ** Refuted *)
(** Integers outside the range of the type are cut silently. *)
Theorem C82_truncated_refuted P : env_ok P -> ~ (forall z bs, conv (fun f => from_ruby P f u8 (SNum z)) (Ok (map B bs)) -> number 1 UInt bs = SNum z).
Proof.
  intros HP H. assert (W : wf u8) by (cbn; split; [reflexivity|exact I]). assert (S : showable u8) by (cbn; unfold max_size; split; [lia|auto]).
  destruct (@C82_exact P u8 (SNum 300) HP W S I I) as [(_ & m & C & _ & (bs & -> & (L & O) & _))|(A & _)].
  - specialize (H _ _ C). cbn [number] in H. injection H as H. assert (Bd := num_bound O). rewrite L in Bd. change (2 ^ (8 * 1)) with 256 in Bd. lia.
  - apply A. cbn. unfold accepted. cbn. lia.
Qed.
(** The simple value of an unsigned number of 8 bytes from 2^63 on is refused. *)
Theorem C82_uint64_refuted P : env_ok P -> exists v s, valid u64 v /\ conv (fun f => simple (Opts false OAsIs) f u64 v) (Ok s) /\ conv (fun f => from_ruby P f u64 s) (Throw ERange).
Proof.
  intros HP. exists (map B [0; 0; 0; 0; 0; 0; 0; 128]), (SNum (2 ^ 63)). split; [eexists; split; [|reflexivity]; reflexivity|]. split; [exists 3%nat; intros [|[|[|f]]] Hf; try lia; vm_compute; reflexivity|].
  exists 0%nat. intros f _. reflexivity.
Qed.
(** Vectors of enums cannot be made from symbols, their simple values are refused with TypeError. *)
Theorem C82_enum_vector_refuted P : env_ok P -> exists v s, valid (TCont KVec 24 (TEnum 4 modes)) v /\ conv (fun f => simple (Opts false OAsIs) f (TCont KVec 24 (TEnum 4 modes)) v) (Ok s) /\
  s = SArr [SStr (map N_of_ascii (s_ "ON"))] /\ conv (fun f => from_ruby P f (TEnum 4 modes) (SStr (map N_of_ascii (s_ "ON")))) (Ok (map B [5; 0; 0; 0])) /\
  conv (fun f => from_ruby P f (TCont KVec 24 (TEnum 4 modes)) s) (Throw EType).
Proof.
  intros HP. exists (put_obj 24 (VecObj 4 (map B [5; 0; 0; 0]))), (SArr [SStr (map N_of_ascii (s_ "ON"))]). split; [exists 4, [map B [5; 0; 0; 0]]; repeat split; [|cbn; lia|unfold max_size; lia]; constructor; [eexists; split; [|reflexivity]; reflexivity|constructor]|].
  split; [exists 10%nat; intros f Hf; do 10 (destruct f as [|f]; [lia|]); vm_compute; reflexivity|]. split; [reflexivity|]. split.
  - exists 0%nat. intros f _. assert (Hb : bytes 4 (new_of P (TEnum 4 modes))) by (refine (@eo_new P HP (TEnum 4 modes) _ eq_refl); cbn; unfold two64; split; lia).
    change (put_raw (int_bytes 4 5) (new_of P (TEnum 4 modes)) = Ok (map B [5; 0; 0; 0])). rewrite (@put_raw_exact _ 4); [reflexivity|reflexivity|exact Hb].
  - exists 0%nat. intros f _. reflexivity.
Qed.
(** Packed arrays are refused. *)
Theorem C82_packed_refuted P : exists v s, valid (TArray 2 2 u8) v /\ conv (fun f => simple (Opts true OAsIs) f (TArray 2 2 u8) v) (Ok s) /\ conv (fun f => from_ruby P f (TArray 2 2 u8) s) (Throw EArg).
Proof.
  exists (map B [1; 2]), (SPacked (Some (s_ "C")) 2 (encode64 [1; 2])). split; [exists [[B 1]; [B 2]]; split; [reflexivity|]; split; [reflexivity|]; constructor; [exists [1]; auto|constructor; [exists [2]; auto|constructor]]|].
  split; [exists 20%nat; intros f Hf; do 20 (destruct f as [|f]; [lia|]); vm_compute; reflexivity|]. exists 0%nat. intros f _. reflexivity.
Qed.
(** With a multi byte encoding (here UTF-8) Strings with other than ASCII characters are cut. *)
Definition utf8_chars (b : list N) : N := lenN (filter (fun c => (c <? 128) || (192 <=? c)) b).
Definition utf8_machine : env := Env zeros utf8_chars first_char float_bytes (fl_int machine) (FromRubySpec.fl_to_int machine).
Theorem C82_multibyte_refuted : env_ok utf8_machine /\ exists v s m, valid (TCont KStr 32 chr) v /\ conv (fun f => simple (Opts false OAsIs) f (TCont KStr 32 chr) v) (Ok s) /\
  conv (fun f => from_ruby utf8_machine f (TCont KStr 32 chr) s) (Ok m) /\ ~ same (TCont KStr 32 chr) v m.
Proof.
  split.
  - destruct machine_ok as [A B C D E]. constructor; try assumption. intros bs. cbn. unfold utf8_chars. induction bs as [|x r IH]; [cbn; lia|]. cbn [filter]. destruct ((x <? 128) || (192 <=? x)); rewrite ?lenN_cons; lia.
  - exists (put_obj 32 (StrObj [195; 169])), (SStr [195; 169]), (put_obj 32 (StrObj [195])). split; [exists [195; 169]; split; [reflexivity|cbn; unfold max_size; lia]|]. split; [exists 10%nat; intros f Hf; do 10 (destruct f as [|f]; [lia|]); vm_compute; reflexivity|].
    split; [exists 10%nat; intros f Hf; do 10 (destruct f as [|f]; [lia|]); vm_compute; reflexivity|]. intros (bs & E1 & E2 & _). apply put_obj_inj in E1, E2. congruence.
Qed.
