(** * SimpleProofs: to_simple_value shows the value. *)
From Coq Require Import Lia ZArith.
From Verif Require Import Base Types WellFormed Layout LayoutMain ValueOps Visitor Csv ValueSpec ValueAtoms ValueInst CmpProofs LoadProofs ValueMain Properties_Value SimpleSpec Simple.
From Verif Require RubyConv CsvProofs.
Local Open Scope N_scope.

(** ** Base 64 *)
Lemma char64_digit x : x < 64 -> digit64 (char64 x) = Some x /\ char64 x <> "="%char.
Proof.
  intros H.
  assert (A : forallb (fun k => let y := N.of_nat k in
    match digit64 (char64 y) with Some z => z =? y | None => false end && (negb (N_of_ascii (char64 y) =? 61))) (seq 0 64) = true) by (vm_compute; reflexivity).
  rewrite forallb_forall in A. specialize (A (N.to_nat x) ltac:(apply in_seq; lia)). rewrite N2Nat.id in A. cbv zeta in A.
  apply andb_prop in A. destruct A as [A C]. destruct (digit64 (char64 x)) as [z|]; [|discriminate]. apply N.eqb_eq in A. subst z. split; [reflexivity|].
  intros E. rewrite E in C. discriminate C.
Qed.
Lemma decode_cons a b c d r x y z w l : digit64 a = Some x -> digit64 b = Some y -> digit64 c = Some z -> digit64 d = Some w ->
  d <> "="%char -> decode64 r = Some l ->
  decode64 (a :: b :: c :: d :: r) = Some (x * 4 + y / 16 :: y mod 16 * 16 + z / 4 :: z mod 4 * 64 + w :: l).
Proof.
  intros A Bb C D Nd R. cbn [decode64]. apply Ascii.eqb_neq in Nd. rewrite Nd, A, Bb, C, D, R. reflexivity.
Qed.
Ltac dm := zify; Z.div_mod_to_equations; lia.
Lemma decode_encode bs : Forall (fun b => b < 256) bs -> decode64 (encode64 bs) = Some bs.
Proof.
  remember (length bs) as k eqn:K. revert bs K. induction k as [k IH] using (well_founded_induction lt_wf). intros bs -> H.
  destruct bs as [|a [|b [|c r]]]; [reflexivity| | |].
  - inversion_clear H. cbn [encode64 decode64]. rewrite !Ascii.eqb_refl.
    destruct (@char64_digit (a / 4) ltac:(dm)) as [-> _]. destruct (@char64_digit (a mod 4 * 16) ltac:(dm)) as [-> _].
    replace (a mod 4 * 16 mod 16 =? 0) with true by (symmetry; apply N.eqb_eq; dm). do 2 f_equal. dm.
  - inversion_clear H. inversion_clear H1. cbn [encode64].
    assert (D1 := @char64_digit (a / 4) ltac:(dm)). assert (D2 := @char64_digit (a mod 4 * 16 + b / 16) ltac:(dm)).
    assert (D3 := @char64_digit (b mod 16 * 4) ltac:(dm)).
    destruct D3 as [D3 N3]. apply Ascii.eqb_neq in N3. cbn [decode64]. rewrite Ascii.eqb_refl, N3, D3.
    destruct D1 as [-> _], D2 as [-> _].
    replace (b mod 16 * 4 mod 4 =? 0) with true by (symmetry; apply N.eqb_eq; dm). do 2 f_equal; [dm|]. f_equal. dm.
  - inversion_clear H. inversion_clear H1. inversion_clear H2. cbn [encode64].
    destruct (@char64_digit (a / 4) ltac:(dm)) as [D1 _]. destruct (@char64_digit (a mod 4 * 16 + b / 16) ltac:(dm)) as [D2 _].
    destruct (@char64_digit (b mod 16 * 4 + c / 64) ltac:(dm)) as [D3 _]. destruct (@char64_digit (c mod 64) ltac:(dm)) as [D4 N4].
    rewrite (@decode_cons _ _ _ _ _ _ _ _ _ _ D1 D2 D3 D4 N4 (IH (length r) ltac:(cbn [length]; lia) r eq_refl H3)).
    f_equal. f_equal; [dm|]. f_equal; [dm|]. f_equal. dm.
Qed.

(** ** Numbers *)
Notation oct := (fun b : N => b < 256).
Lemma num_le_val bs : Forall oct bs -> le_val bs = num_of bs.
Proof. induction 1 as [|b bs Hb H IH]; [reflexivity|]. cbn [le_val num_of]. rewrite N.mod_small by assumption. rewrite IH. reflexivity. Qed.
Lemma num_bound bs : Forall oct bs -> num_of bs < 2 ^ (8 * lenN bs).
Proof.
  induction 1 as [|b bs Hb H IH]; [reflexivity|]. cbn [num_of]. rewrite lenN_cons.
  replace (8 * (1 + lenN bs)) with (8 + 8 * lenN bs) by lia. rewrite N.pow_add_r. change (2 ^ 8) with 256. nia.
Qed.
Lemma num_inj a b : Forall oct a -> Forall oct b -> length a = length b -> num_of a = num_of b -> a = b.
Proof.
  intros H. revert b. induction H as [|x a Hx H IH]; intros [|y b] Hb L E; try discriminate; [reflexivity|].
  inversion_clear Hb. cbn [num_of] in E. cbn [length] in L.
  assert (x = y) by dm. subst y. f_equal. apply IH; [assumption|lia|lia].
Qed.
Lemma signed_number n bs : 1 <= n -> Forall oct bs -> SNum (signed n bs) = number n SInt bs.
Proof.
  intros Hn H. cbn [number]. unfold signed. rewrite (num_le_val H). f_equal.
  assert (E : (2 ^ (8 * Z.of_N n - 1) = Z.of_N (2 ^ (8 * n - 1)))%Z).
  { rewrite N2Z.inj_pow. f_equal. lia. }
  rewrite E. replace (8 * Z.of_N n)%Z with (Z.of_N (8 * n)) by lia.
  destruct (N.ltb_spec (num_of bs) (2 ^ (8 * n - 1))); destruct (Z.ltb_spec (Z.of_N (num_of bs)) (Z.of_N (2 ^ (8 * n - 1)))); try reflexivity; lia.
Qed.
Lemma simple_num_ok o n c bs : num_supported n c = true -> Forall oct bs -> lenN bs = n -> low32 n c bs -> o <> OInvalid ->
  simple_num o n c bs = Ok (shown o (number n c bs)).
Proof.
  intros S H L Lo O. unfold simple_num. destruct c.
  - cbn [ruby_num]. rewrite signed_number; [|unfold num_supported in S; repeat (apply orb_prop in S; destruct S as [S|S]); apply N.eqb_eq in S; lia|assumption].
    cbn [number shown]. reflexivity.
  - cbn [ruby_num number shown]. rewrite (num_le_val H). destruct (N.eqb_spec n 4) as [E|E]; [|reflexivity].
    unfold low32 in Lo. specialize (Lo E eq_refl). unfold RubyConv.cast_int.
    rewrite Z.mod_small; [do 2 f_equal; lia|]. change (2 ^ 31) with 2147483648 in Lo. lia.
  - cbn [ruby_num number]. set (v := if n =? 4 then ieee 8 23 925 (num_of bs) else ieee 11 52 0 (num_of bs)).
    destruct o; [| | |congruence]; destruct v as [|[]|]; reflexivity.
Qed.
(** Finite floats determine their bytes. *)
Lemma scaled_inj mb a b x y : x < 2 ^ mb -> y < 2 ^ mb -> (2 ^ mb + x) * 2 ^ a = (2 ^ mb + y) * 2 ^ b -> a = b /\ x = y.
Proof.
  intros Hx Hy E.
  assert (L : forall z k, z < 2 ^ mb -> N.log2 ((2 ^ mb + z) * 2 ^ k) = mb + k).
  { intros z k Hz. rewrite N.log2_mul_pow2; [|assert (0 < 2 ^ mb) by (apply N.neq_0_lt_0; apply N.pow_nonzero; lia); lia|lia].
    rewrite (@N.log2_unique (2 ^ mb + z) mb); [lia|lia|]. split; [lia|]. rewrite N.pow_succ_r by lia. lia. }
  assert (A := L x a Hx). assert (C := L y b Hy). rewrite E, C in A. assert (a = b) by lia. subst b. split; [reflexivity|].
  apply N.mul_cancel_r in E; [lia|apply N.pow_nonzero; lia].
Qed.
Lemma ieee_inj eb mb sh v w : 1 <= eb -> v < 2 ^ (1 + eb + mb) -> w < 2 ^ (1 + eb + mb) ->
  ieee eb mb sh v <> FNaN -> ieee eb mb sh v = ieee eb mb sh w -> v = w.
Proof.
  intros He Hv Hw Hn E.
  assert (P1 : 2 ^ (1 + eb + mb) = 2 * (2 ^ eb * 2 ^ mb)).
  { rewrite <- N.pow_add_r, <- N.pow_succ_r by lia. f_equal. lia. }
  assert (P2 : 2 ^ (eb + mb) = 2 ^ eb * 2 ^ mb) by (apply N.pow_add_r).
  assert (Z1 : 0 < 2 ^ eb) by (apply N.neq_0_lt_0; apply N.pow_nonzero; lia).
  assert (Z2 : 0 < 2 ^ mb) by (apply N.neq_0_lt_0; apply N.pow_nonzero; lia).
  assert (Z3 : 2 ^ 1 <= 2 ^ eb) by (apply N.pow_le_mono_r; lia). change (2 ^ 1) with 2 in Z3.
  unfold ieee in *. rewrite P2 in *. rewrite P1 in *. clear P1 P2.
  set (A := 2 ^ eb) in *. set (M := 2 ^ mb) in *.
  (* every number is sign, exponent, mantissa *)
  assert (D : forall x, x < 2 * (A * M) -> x = (if A * M <=? x then A * M else 0) + (x / M) mod A * M + x mod M).
  { intros x Hx. assert (D1 := N.div_mod x M ltac:(lia)). assert (D2 := N.div_mod (x / M) A ltac:(lia)).
    assert (M1 := N.mod_lt x M ltac:(lia)). assert (M2 := N.mod_lt (x / M) A ltac:(lia)).
    set (q := x / M) in *. set (r := x mod M) in *. set (k := q / A) in *. set (e := q mod A) in *.
    assert (k = if A * M <=? x then 1 else 0).
    { destruct (N.leb_spec (A * M) x) as [G|G]; [assert (k < 2) by nia; assert (0 < k) by nia; lia|assert (k < 1) by nia; lia]. }
    destruct (N.leb_spec (A * M) x); nia. }
  rewrite (D v Hv), (D w Hw). clear D.
  assert (Mv := N.mod_lt v M ltac:(lia)). assert (Mw := N.mod_lt w M ltac:(lia)).
  set (ev := (v / M) mod A) in *. set (ew := (w / M) mod A) in *. set (mv := v mod M) in *. set (mw := w mod M) in *.
  set (sv := A * M <=? v) in *. set (sw := A * M <=? w) in *. clearbody ev ew mv mw sv sw.
  assert (Zs : 0 < 2 ^ sh) by (apply N.neq_0_lt_0; apply N.pow_nonzero; lia).
  assert (LT : forall m m' k, m < M -> m * 2 ^ sh <> (M + m') * 2 ^ (k + sh)).
  { intros m m' k Hm Q. rewrite N.pow_add_r in Q. assert (0 < 2 ^ k) by (apply N.neq_0_lt_0; apply N.pow_nonzero; lia).
    assert (X1 : m * 2 ^ sh < M * 2 ^ sh) by (apply N.mul_lt_mono_pos_r; assumption).
    assert (X2 : M * 2 ^ sh <= (M + m') * (2 ^ k * 2 ^ sh)) by (apply N.mul_le_mono; [lia|nia]). lia. }
  destruct (N.eqb_spec ev (A - 1)) as [E1|E1]; destruct (N.eqb_spec ew (A - 1)) as [E2|E2].
  - destruct (N.eqb_spec mv 0) as [Q1|Q1]; [|congruence]. destruct (N.eqb_spec mw 0) as [Q2|Q2]; [|discriminate]. injection E as ->. subst. lia.
  - destruct (mv =? 0); [|congruence]. destruct (ew =? 0); discriminate E.
  - destruct (ev =? 0), (mw =? 0); discriminate E.
  - destruct (N.eqb_spec ev 0) as [Q1|Q1]; destruct (N.eqb_spec ew 0) as [Q2|Q2].
    + injection E as -> E. apply N.mul_cancel_r in E; [|lia]. subst. lia.
    + injection E as _ E. exfalso. exact (LT _ _ _ Mv E).
    + injection E as _ E. exfalso. symmetry in E. exact (LT _ _ _ Mw E).
    + injection E as -> E. apply scaled_inj in E; [|assumption|assumption]. destruct E as [E ->]. assert (ev = ew) by lia. subst. lia.
Qed.
Definition std_num (n : N) (c : ncat) : Prop := match c with Float => n = 4 \/ n = 8 | _ => n = 1 \/ n = 2 \/ n = 4 \/ n = 8 end.
Lemma SNum_inj z w : SNum z = SNum w -> z = w.
Proof. congruence. Qed.
Lemma number_inj n c a b : std_num n c -> Forall oct a -> Forall oct b -> lenN a = n -> lenN b = n -> no_nan n c a ->
  number n c a = number n c b -> a = b.
Proof.
  intros Sn Ha Hb La Lb Nn E. apply num_inj; [assumption|assumption|unfold lenN in *; lia|].
  assert (Ba := num_bound Ha). assert (Bb := num_bound Hb). rewrite La in Ba. rewrite Lb in Bb. unfold no_nan in Nn.
  destruct c; cbn [number] in *.
  - assert (P : (2 ^ Z.of_N (8 * n) = Z.of_N (2 ^ (8 * n)))%Z) by (rewrite N2Z.inj_pow; reflexivity). rewrite P in E.
    assert (P2 : 2 ^ (8 * n) = 2 * 2 ^ (8 * n - 1)).
    { rewrite <- N.pow_succ_r by lia. f_equal. destruct Sn as [-> |[-> |[-> | ->]]]; reflexivity. }
    rewrite P2 in E, Ba, Bb. clear P P2 Nn. set (K := 2 ^ (8 * n - 1)) in *. clearbody K.
    destruct (N.ltb_spec (num_of a) K); destruct (N.ltb_spec (num_of b) K); apply SNum_inj in E; lia.
  - apply SNum_inj in E. lia.
  - destruct Sn as [-> | ->].
    + change (4 =? 4) with true in *. cbn iota in *. apply (@ieee_inj 8 23 925); [lia|exact Ba|exact Bb|congruence|congruence].
    + change (8 =? 4) with false in *. cbn iota in *. apply (@ieee_inj 11 52 0); [lia|exact Ba|exact Bb|congruence|congruence].
Qed.
Lemma shown_inj o n c a b : o <> ONil -> no_nan n c a -> shown o (number n c a) = shown o (number n c b) -> number n c a = number n c b.
Proof.
  intros O Nn. unfold no_nan in Nn. destruct c; cbn [number] in *; try (destruct o; intros E; exact E).
  destruct (if n =? 4 then ieee 8 23 925 (num_of a) else ieee 11 52 0 (num_of a)) as [|[]|]; [congruence| | |];
    destruct (if n =? 4 then ieee 8 23 925 (num_of b) else ieee 11 52 0 (num_of b)) as [|[]|]; destruct o; intros E; try reflexivity; try (discriminate E); try congruence; exact E.
Qed.

(** ** Marshalled arrays, vectors and strings *)
Lemma map_B_inj a b : map B a = map B b -> a = b.
Proof. revert b. induction a as [|x a IH]; intros [|y b] E; try discriminate; [reflexivity|]. injection E as -> E. f_equal. auto. Qed.
Lemma images_bytes n c ms bss : Forall2 (image (TNum n c)) ms bss -> concat ms = map B (concat bss) /\ lenN (concat bss) = n * lenN ms.
Proof.
  induction 1 as [|m x ms bss [L ->] H [E L2]]; [split; [reflexivity|]; change (0 = n * 0); lia|].
  cbn [concat]. rewrite map_app, lenN_app, lenN_cons, E, L2, L. split; [reflexivity|lia].
Qed.
Lemma sames_eq n c xs ys : Forall2 (same (TNum n c)) xs ys -> xs = ys.
Proof. induction 1 as [|a b xs ys [_ E] H IH]; [reflexivity|]. congruence. Qed.
Lemma dump_array s d n c m : wf (TArray s d (TNum n c)) -> s <= max_size -> valid (TArray s d (TNum n c)) m ->
  exists bs, m = map B bs /\ lenN bs = d * n /\ conv (fun f => do_dump f (TArray s d (TNum n c)) m) (Ok bs).
Proof.
  intros Hw Hs Hv. destruct (@C01_dump_format _ _ Hw eq_refl Hs Hv) as (out & D & pad & I & F).
  assert (L := proj1 valid_len _ Hw _ Hv). cbn [sizeof] in L. destruct I as (ms & bss & L1 & E1 & E2 & I).
  destruct (images_bytes I) as [Q1 Q2]. rewrite <- E2 in Q1, Q2. rewrite <- E1 in Q1.
  destruct pad as [|x pad].
  - rewrite app_nil_r in Q1, Q2. exists out. repeat split; [exact Q1|lia|exact D].
  - exfalso. specialize (F ((x + 1) :: pad)). rewrite !lenN_cons in F. specialize (F eq_refl). destruct F as (xs & ys & _ & Ea & Eb & Fs).
    apply sames_eq in Fs. subst ys. rewrite <- Ea in Eb. rewrite map_app in Q1.
    assert (Lo : sizeof (TArray s d (TNum n c)) - (1 + lenN pad) = lenN (map B out)).
    { cbn [sizeof]. rewrite Q1, lenN_app in L. unfold lenN in *. rewrite !map_length in *. cbn [length] in L. lia. }
    rewrite Q1 in Eb. rewrite (takeN_app_exact _ Lo) in Eb. apply app_inv_head in Eb. injection Eb as Eb. lia.
Qed.
Lemma put_obj_no_byte s o x : ~ In (B x) (put_obj s o).
Proof. unfold put_obj. intros [E|E]; [discriminate E|]. apply repeat_spec in E. discriminate E. Qed.
Lemma no_pad k s e v (out pad : list N) : valid (TCont k s e) v ->
  (forall q, lenN q = lenN pad -> same (TCont k s e) (takeN (s - lenN pad) v ++ map B q) v) -> out ++ pad = out.
Proof.
  intros Hv F. destruct pad as [|x pad]; [apply app_nil_r|]. exfalso. specialize (F (x :: pad) eq_refl).
  assert (I : In (B x) (takeN (s - lenN (x :: pad)) v ++ map B (x :: pad))) by (apply in_or_app; right; left; reflexivity).
  destruct k.
  - destruct F as (ca & cb & xs & ys & E & _). rewrite E in I. exact (put_obj_no_byte I).
  - destruct F as (bs & E & _). rewrite E in I. exact (put_obj_no_byte I).
Qed.
Lemma put_obj_inj s o o' : put_obj s o = put_obj s o' -> o = o'.
Proof. intros E. injection E as E. exact E. Qed.
Lemma dump_vec s n c cap ms : wf (TCont KVec s (TNum n c)) -> s <= max_size -> valid (TCont KVec s (TNum n c)) (put_obj s (VecObj cap (concat ms))) ->
  Forall (valid (TNum n c)) ms ->
  exists bs, concat ms = map B bs /\ lenN bs = lenN ms * n /\
    conv (fun f => do_dump f (TCont KVec s (TNum n c)) (put_obj s (VecObj cap (concat ms)))) (Ok (le_bytes 8 (lenN ms) ++ bs)).
Proof.
  intros Hw Hs Hv Fv. destruct (@C01_dump_format _ _ Hw eq_refl Hs Hv) as (out & D & pad & I & F).
  assert (P := @no_pad _ _ _ _ out _ Hv F). rewrite P in I. destruct I as (cap' & ms' & bss & E & _ & _ & I & ->).
  apply put_obj_inj in E. injection E as _ E.
  assert (ms = ms').
  { destruct Hw as (_ & _ & Hn & We). refine (@concat_inj (TNum n c) ms ms' We Hn Fv _ E).
    clear - I. induction I as [|m x ms bss H I IH]; constructor; [|assumption]. exact (proj1 image_valid (TNum n c) _ _ H). }
  subst ms'. destruct (images_bytes I) as [Q1 Q2]. exists (concat bss). repeat split; [exact Q1|lia|exact D].
Qed.
Lemma dump_str s e bs : wf (TCont KStr s e) -> s <= max_size -> valid (TCont KStr s e) (put_obj s (StrObj bs)) ->
  conv (fun f => do_dump f (TCont KStr s e) (put_obj s (StrObj bs))) (Ok (le_bytes 8 (lenN bs) ++ bs)).
Proof.
  intros Hw Hs Hv. assert (Pl : plain (TCont KStr s e)) by (destruct Hw as (_ & _ & c & ->); reflexivity).
  destruct (@C01_dump_format _ _ Hw Pl Hs Hv) as (out & D & pad & I & F).
  assert (P := @no_pad _ _ _ _ out _ Hv F). rewrite P in I. destruct I as (cs & E & _ & ->). apply put_obj_inj in E. injection E as <-. exact D.
Qed.
Lemma chunks_concat n xs : 1 <= n -> Forall (fun x => lenN x = n) xs -> forall f, (length (concat xs) <= f)%nat -> chunks f n (concat xs) = xs.
Proof.
  intros Hn. induction 1 as [|x xs L F IH]; intros f Hf.
  - destruct f; [reflexivity|]. cbn [concat chunks]. replace (n =? 0) with false by (symmetry; apply N.eqb_neq; lia).
    replace (lenN (@nil N) <? n) with true by (symmetry; apply N.ltb_lt; rewrite lenN_nil; lia). reflexivity.
  - cbn [concat] in *. rewrite app_length in Hf. assert (length x <> 0)%nat by (unfold lenN in L; lia). destruct f; [lia|]. cbn [chunks].
    replace (n =? 0) with false by (symmetry; apply N.eqb_neq; lia).
    replace (lenN (x ++ concat xs) <? n) with false by (symmetry; apply N.ltb_ge; rewrite lenN_app; lia). cbn [orb].
    rewrite (takeN_app_exact _ (eq_sym L)), (dropN_app_exact _ (eq_sym L)). f_equal. apply IH. lia.
Qed.
(** The code of a numeric type is the directive for its numbers. *)
Lemma pack_code_directive be n c : std_num n c -> exists code, pack_code be n c = Some code /\
  directive code = Some (n, c, if n =? 1 then false else be).
Proof.
  intros Sn. destruct c; [destruct Sn as [-> |[-> |[-> | ->]]]|destruct Sn as [-> |[-> |[-> | ->]]]|destruct Sn as [-> | ->]];
    destruct be; eexists; split; reflexivity.
Qed.
(** A packed array of numbers expands to its numbers. *)
Lemma expand_packed n c bss size : std_num n c -> Forall (fun x => lenN x = n) bss -> Forall oct (concat bss) -> size = lenN bss ->
  expand (SPacked (pack_code false n c) size (encode64 (concat bss))) = Some (SArr (map (number n c) bss)).
Proof.
  intros Sn L O ->. destruct (@pack_code_directive false n c Sn) as (code & -> & D). cbn [expand]. rewrite (decode_encode O). unfold unpack. rewrite D.
  replace (if n =? 1 then false else false) with false by (destruct (n =? 1); reflexivity).
  rewrite chunks_concat; [|destruct c; simpl in Sn; lia|assumption|lia].
  replace (lenN _ =? lenN bss) with true; [reflexivity|]. symmetry. apply N.eqb_eq. unfold lenN. rewrite map_length. reflexivity.
Qed.

(** ** The walk over a value *)
Lemma take_cells_app n a b : lenN a = n -> take_cells n (a ++ b) = Ok (a, b).
Proof.
  intros L. unfold take_cells. replace (lenN (a ++ b) <? n) with false by (symmetry; apply N.ltb_ge; rewrite lenN_app; lia).
  rewrite (takeN_app_exact _ (eq_sym L)), (dropN_app_exact _ (eq_sym L)). reflexivity.
Qed.
Lemma take_raw_app n bs m2 : lenN bs = n -> take_raw n (map B bs ++ m2) = Ok (bs, m2).
Proof.
  intros L. unfold take_raw. rewrite take_cells_app by (unfold lenN in *; rewrite map_length; exact L). cbn [bind].
  replace (forallb is_byte (map B bs)) with true by (symmetry; clear; induction bs; [reflexivity|assumption]).
  rewrite map_map. cbn [byte_of]. rewrite map_id. reflexivity.
Qed.
Lemma take_obj_app s o m2 : 1 <= s -> take_obj s (put_obj s o ++ m2) = Ok (o, m2).
Proof.
  intros L. unfold take_obj. rewrite take_cells_app by (apply put_obj_len; assumption). cbn [bind put_obj].
  replace (forallb is_cont (repN (N.pred s) Cont)) with true; [reflexivity|]. symmetry. apply forallb_forall. intros x H. apply repeat_spec in H. subst x. reflexivity.
Qed.
Lemma oct_bytes bs : octets (map B bs) <-> Forall oct bs.
Proof.
  unfold octets. split; intros H.
  - induction bs as [|b bs IH]; constructor; inversion_clear H; [assumption|auto].
  - induction H; constructor; assumption.
Qed.
Lemma octets_app a b : octets (a ++ b) <-> octets a /\ octets b.
Proof. apply Forall_app. Qed.
Lemma octets_concat ms : octets (concat ms) <-> Forall octets ms.
Proof.
  induction ms as [|m ms IH]; cbn [concat]; [split; constructor|]. rewrite octets_app, IH. split; [intros []; constructor; assumption|intros H; inversion H; auto].
Qed.
Lemma octets_vec s cap cs : octets (put_obj s (VecObj cap cs)) -> octets cs.
Proof.
  intros H. inversion_clear H. cbn [octet] in H0. induction cs as [|c cs IH]; [constructor|]. destruct H0. constructor; [assumption|]. apply IH; assumption.
Qed.
Lemma octets_str s bs : octets (put_obj s (StrObj bs)) -> Forall oct bs.
Proof. intros H. inversion_clear H. exact H0. Qed.
Lemma conv_ok {A} (x : A) : conv (fun _ => Ok x) (Ok x).
Proof. apply conv_const. Qed.
Lemma each_ok (F : nat -> list cell -> res sval) es ms ss :
  Forall2 (fun m s => lenN m = es /\ forall m2, conv (fun f => F f (m ++ m2)) (Ok s)) ms ss ->
  forall m2, conv (fun f => each_elt (F f) es (length ms) (concat ms ++ m2)) (Ok ss).
Proof.
  induction 1 as [|m s ms ss [L H] F2 IH]; intros m2; [apply conv_ok|]. cbn [length concat each_elt]. rewrite <- app_assoc.
  replace (lenN (m ++ concat ms ++ m2) <? es) with false by (symmetry; apply N.ltb_ge; rewrite lenN_app; lia).
  eapply conv_bind; [apply H|]. cbn beta. rewrite (dropN_app_exact _ (eq_sym L)). fold (each_elt). eapply conv_bind; [apply IH|]. apply conv_ok.
Qed.
Lemma opt_map_ok {A C} (f : A -> option C) l r : Forall2 (fun x y => f x = Some y) l r -> opt_map f l = Some r.
Proof. induction 1 as [|x y l r E H IH]; [reflexivity|]. cbn [opt_map]. rewrite E. fold (opt_map f). rewrite IH. reflexivity. Qed.
Lemma hash_new h k v : ~ In k (map fst h) -> hash_set h k v = h ++ [(k, v)].
Proof.
  induction h as [|[k' v'] h IH]; intros H; [reflexivity|]. cbn [hash_set]. destruct (list_eq_dec ascii_dec k' k) as [E|E].
  - exfalso. apply H. left. exact E.
  - rewrite IH; [reflexivity|]. intros I. apply H. right. exact I.
Qed.
Lemma showable_num t : showable t -> forall n c, t = TNum n c -> std_num n c /\ num_supported n c = true.
Proof.
  intros H n c ->. destruct H as [_ H]. destruct c; cbn [std_num]; (split; [assumption|]).
  - destruct H as [-> |[-> |[-> | ->]]]; reflexivity.
  - destruct H as [-> |[-> |[-> | ->]]]; reflexivity.
  - destruct H as [-> | ->]; reflexivity.
Qed.
Lemma enum_get_in vs z : forall k, enum_get vs z = Some k -> In (k, z) vs.
Proof.
  induction vs as [|[k x] vs IH]; intros k' E; [discriminate E|]. cbn [enum_get] in E. destruct (Z.eqb_spec x z) as [-> |]; [injection E as ->; left; reflexivity|right; auto].
Qed.
Lemma enum_get_some vs z k : In (k, z) vs -> exists k', enum_get vs z = Some k'.
Proof.
  induction vs as [|[k' x] vs IH]; intros H; [destruct H|]. cbn [enum_get]. destruct (Z.eqb_spec x z) as [-> |N]; [eauto|]. apply IH. destruct H as [E|H]; [congruence|assumption].
Qed.

Section Main.
Variable o : opts.
Hypothesis Ho : sp o <> OInvalid.
Definition result (t : ty) (a b : list cell) : Prop :=
  exists s s', (forall m2, conv (fun f => simple o f t (a ++ m2)) (Ok s)) /\ (forall m2, conv (fun f => simple o f t (b ++ m2)) (Ok s)) /\
    expand s = Some s' /\ shows (pack o) (sp o) t a s' /\ (pack o = false -> s' = s).
Definition Pt (t : ty) : Prop := wf t -> showable t -> forall a b, same t a b -> octets a -> every (pack o) low32 known t a -> result t a b.
Definition Pf (fs : fields) : Prop := forall cur sz pre pre' h a b, wf_fields fs cur sz -> showable_fields fs -> same_fields fs cur sz a b -> octets a ->
  every_fields (pack o) low32 known fs cur a -> lenN pre = cur -> lenN pre' = cur ->
  NoDup (map (fun f => fst (fst f)) (fields_list fs)) -> (forall k, In k (map fst h) -> ~ In k (map (fun f => fst (fst f)) (fields_list fs))) ->
  exists l l', (forall m2, conv (fun f => simple_fields o f fs (pre ++ a ++ m2) h) (Ok (h ++ l))) /\
    (forall m2, conv (fun f => simple_fields o f fs (pre' ++ b ++ m2) h) (Ok (h ++ l))) /\
    Forall2 (fun x y => fst x = fst y /\ expand (snd x) = Some (snd y)) l l' /\ shows_fields (pack o) (sp o) fs cur a l' /\ (pack o = false -> l' = l).

(** the results of the elements of two lists *)
Lemma elements_ok e xs ys : wf e -> showable e -> Pt e -> Forall2 (same e) xs ys -> Forall octets xs -> Forall (every (pack o) low32 known e) xs ->
  exists ss ss', Forall2 (fun m s => lenN m = sizeof e /\ forall m2, conv (fun f => simple o f e (m ++ m2)) (Ok s)) xs ss /\
    Forall2 (fun m s => lenN m = sizeof e /\ forall m2, conv (fun f => simple o f e (m ++ m2)) (Ok s)) ys ss /\
    Forall2 (fun s s' => expand s = Some s') ss ss' /\ Forall2 (shows (pack o) (sp o) e) xs ss' /\ (pack o = false -> ss' = ss).
Proof.
  intros We Se IH F. induction F as [|x y xs ys Sxy F IHF]; intros Ox Ex.
  - exists [], []. repeat split; constructor.
  - inversion_clear Ox. inversion_clear Ex. destruct (IHF H0 H2) as (ss & ss' & A1 & A2 & A3 & A4 & A5).
    destruct (IH We Se _ _ Sxy H H1) as (s & s' & B1 & B2 & B3 & B4 & B5). destruct (same_valid Sxy) as [Vx Vy].
    exists (s :: ss), (s' :: ss'). repeat split; try (constructor; auto).
    + split; [exact (proj1 valid_len _ We _ Vx)|exact B1].
    + split; [exact (proj1 valid_len _ We _ Vy)|exact B2].
    + intros Pk. rewrite (A5 Pk), (B5 Pk). reflexivity.
Qed.
Lemma packs_eq e : packs o e = pack o && numeric e.
Proof. destruct e; reflexivity. Qed.
Lemma packed_elements n c xs : std_num n c -> Forall (valid (TNum n c)) xs -> exists bss, xs = map (map B) bss /\ Forall (fun x => lenN x = n) bss /\ concat xs = map B (concat bss).
Proof.
  intros _. induction 1 as [|x xs [bs [L ->]] F (bss & -> & L2 & E)].
  - exists []. repeat split; constructor.
  - exists (bs :: bss). repeat split; [constructor; assumption|]. cbn [concat map]. rewrite map_app. congruence.
Qed.
Lemma shows_numbers p n c bss : Forall (fun x => lenN x = n) bss -> Forall2 (shows p OAsIs (TNum n c)) (map (map B) bss) (map (number n c) bss).
Proof.
  induction 1 as [|x bss L F IH]; constructor; [|assumption]. exists x. repeat split; [assumption|]. destruct (number n c x) as [|[|[]|]| | | | |]; reflexivity.
Qed.
Lemma main_case : (forall t, Pt t) /\ (forall fs, Pf fs).
Proof.
  apply ty_fields_ind.
  - intros _ [_ []].
  - intros n _ [_ []].
  - (* number *) intros n c Hw Hs a b S Oa Ev. destruct S as [[bs [L ->]] <-]. destruct (showable_num Hs eq_refl) as [Sn Su]. apply oct_bytes in Oa.
    specialize (Ev bs eq_refl). assert (Q := simple_num_ok Su Oa L Ev Ho). exists (shown (sp o) (number n c bs)), (shown (sp o) (number n c bs)).
    assert (C : forall m2, conv (fun f => simple o f (TNum n c) (map B bs ++ m2)) (Ok (shown (sp o) (number n c bs)))).
    { intros m2. cbn [simple]. rewrite Su, (take_raw_app _ L). cbn [bind]. rewrite Q. apply conv_ok. }
    repeat split; [exact C|exact C| |exists bs; auto].
    clear. destruct c; cbn [number]; try (destruct (sp o); reflexivity).
    destruct (if n =? 4 then ieee 8 23 925 (num_of bs) else ieee 11 52 0 (num_of bs)) as [|[]|]; destruct (sp o); reflexivity.
  - (* enum *) intros n vs Hw Hs a b S Oa Ev. destruct S as [[bs [L ->]] <-]. destruct Hs as (_ & -> & Nd). apply oct_bytes in Oa.
    destruct (Ev bs eq_refl) as (k & z & E & I). destruct (enum_get_some I) as (k' & G). assert (I' := enum_get_in G).
    exists (SStr (map N_of_ascii k')), (SStr (map N_of_ascii k')).
    assert (C : forall m2, conv (fun f => simple o f (TEnum 4 vs) (map B bs ++ m2)) (Ok (SStr (map N_of_ascii k')))).
    { intros m2. cbn [simple]. rewrite (take_raw_app (n := enum_size) _ L). cbn [bind]. rewrite <- signed_number in E by (assumption || lia). injection E as ->. rewrite G. apply conv_ok. }
    repeat split; [exact C|exact C|]. exists bs, k', z. auto.
  - intros n _ [_ []].
  - (* array *) intros s d e IH Hw Hs a b S Oa Ev. assert (Hw' := Hw). destruct Hw' as (_ & Es & _ & He & We). destruct Hs as [Hs Se]. cbn [sizeof] in Hs.
    destruct (same_valid S) as [Va Vb]. assert (La := proj1 valid_len _ Hw _ Va). assert (Lb := proj1 valid_len _ Hw _ Vb). cbn [sizeof] in La, Lb.
    destruct S as (xs & ys & Lx & -> & -> & F). cbn [every] in Ev.
    assert (Fx := F2_valid_l F).
    destruct (pack o && numeric e) eqn:Pk.
    + destruct e as [| |n c| | | | |]; try (destruct (pack o); discriminate Pk). apply sames_eq in F. subst ys.
      destruct (showable_num Se eq_refl) as [Sn Su].
      destruct (dump_array Hw Hs Va) as (bs & Eb & Lbs & D). destruct (packed_elements Sn Fx) as (bss & -> & Ln & Ec). rewrite Eb in Ec. apply map_B_inj in Ec. subst bs.
      rewrite Eb in Oa. apply oct_bytes in Oa.
      exists (SPacked (pack_code false n c) d (encode64 (concat bss))), (SArr (map (number n c) bss)).
      assert (C : forall m2, conv (fun f => simple o f (TArray s d (TNum n c)) (concat (map (map B) bss) ++ m2)) (Ok (SPacked (pack_code false n c) d (encode64 (concat bss))))).
      { intros m2. cbn [simple]. rewrite packs_eq, Pk. rewrite (take_cells_app _ La). cbn [bind]. eapply conv_bind; [exact D|]. apply conv_ok. }
      split; [exact C|]. split; [exact C|]. split; [|split].
      * apply expand_packed; [assumption|assumption|assumption|]. unfold lenN in *. rewrite map_length in Lx. lia.
      * cbn [shows]. rewrite Pk. exists (map (map B) bss), (map (number n c) bss). repeat split; [exact Lx|]. exact (@shows_numbers (pack o) n c bss Ln).
      * intros Q. rewrite Q in Pk. discriminate Pk.
    + assert (Lens : Forall (fun x => lenN x = sizeof e) xs) by (eapply Forall_impl; [|exact Fx]; intros x Hx; exact (proj1 valid_len _ We _ Hx)).
      destruct (elements_ok We Se IH F (proj1 (octets_concat _) Oa) (Ev _ Lx Lens eq_refl)) as (ss & ss' & A1 & A2 & A3 & A4 & A5).
      exists (SArr ss), (SArr ss'). split; [|split; [|split; [|split]]].
      * intros m2. cbn [simple]. rewrite packs_eq, Pk. replace (N.to_nat d) with (length xs) by (unfold lenN in Lx; lia).
        eapply conv_bind; [apply (@each_ok (fun f => simple o f e)); exact A1|]. apply conv_ok.
      * intros m2. cbn [simple]. rewrite packs_eq, Pk. replace (N.to_nat d) with (length ys) by (unfold lenN in Lx; assert (X := F2_lenN F); unfold lenN in X; lia).
        eapply conv_bind; [apply (@each_ok (fun f => simple o f e)); exact A2|]. apply conv_ok.
      * cbn [expand]. rewrite (opt_map_ok A3). reflexivity.
      * cbn [shows]. rewrite Pk. exists xs, ss'. auto.
      * intros Q. rewrite (A5 Q). reflexivity.
  - (* container *) intros k s e IH Hw Hs a b S Oa Ev. destruct (same_valid S) as [Va Vb]. assert (Hs1 := wf_cont_size Hw). destruct Hs as [Hs Se]. cbn [sizeof] in Hs.
    destruct k.
    + assert (Hw' := Hw). destruct Hw' as (_ & _ & He & We).
      destruct S as (ca & cb & xs & ys & -> & -> & F & _). assert (Fx := F2_valid_l F). assert (Fy := F2_valid_r F). cbn [every] in Ev. apply octets_vec in Oa.
      assert (Lens : forall zs, Forall (valid e) zs -> Forall (fun x => lenN x = sizeof e) zs) by (intros zs Fz; eapply Forall_impl; [|exact Fz]; intros x Hx; exact (proj1 valid_len _ We _ Hx)).
      assert (Cnt : forall zs, Forall (valid e) zs -> vec_count e (concat zs) = Ok (lenN zs)).
      { intros zs Fz. unfold vec_count. replace (sizeof e =? 0) with false by (symmetry; apply N.eqb_neq; lia). f_equal.
        replace (lenN (concat zs)) with (lenN zs * sizeof e); [apply N.div_mul; lia|]. apply Lens in Fz. clear - Fz.
        induction Fz as [|z zs L Fz IHz]; [reflexivity|]. cbn [concat]. rewrite lenN_app, lenN_cons. lia. }
      destruct (pack o && numeric e) eqn:Pk.
      * destruct e as [| |n c| | | | |]; try (destruct (pack o); discriminate Pk). apply sames_eq in F. subst ys.
        destruct (showable_num Se eq_refl) as [Sn Su].
        destruct (dump_vec Hw Hs Va Fx) as (bs & Eb & Lbs & D). destruct (dump_vec Hw Hs Vb Fy) as (bs' & Eb' & _ & D').
        destruct (packed_elements Sn Fx) as (bss & Ex & Ln & Ec). rewrite Eb in Ec, Eb'. apply map_B_inj in Ec, Eb'. subst bs bs'. subst xs.
        rewrite Eb in Oa. apply oct_bytes in Oa.
        exists (SPacked (pack_code false n c) (lenN bss) (encode64 (concat bss))), (SArr (map (number n c) bss)).
        assert (Lm : lenN (map (map B) bss) = lenN bss) by (unfold lenN; rewrite map_length; reflexivity).
        assert (C : forall cp m2, conv (fun f => do_dump f (TCont KVec s (TNum n c)) (put_obj s (VecObj cp (concat (map (map B) bss))))) (Ok (le_bytes 8 (lenN (map (map B) bss)) ++ concat bss)) ->
          conv (fun f => simple o f (TCont KVec s (TNum n c)) (put_obj s (VecObj cp (concat (map (map B) bss))) ++ m2)) (Ok (SPacked (pack_code false n c) (lenN bss) (encode64 (concat bss))))).
        { intros cp m2 Dc. cbn [simple]. rewrite (take_obj_app _ _ Hs1). cbn [bind]. rewrite (Cnt _ Fx). cbn [bind]. rewrite packs_eq, Pk.
          rewrite take_cells_app by (apply put_obj_len; assumption). cbn [bind]. eapply conv_bind; [exact Dc|]. cbn beta. rewrite Lm.
          rewrite (@dropN_app_exact _ (le_bytes 8 (lenN bss))) by reflexivity. apply conv_ok. }
        split; [intros m2; apply C; exact D|]. split; [intros m2; apply C; exact D'|]. split; [|split].
        -- apply expand_packed; auto.
        -- cbn [shows]. rewrite Pk. exists ca, (map (map B) bss), (map (number n c) bss). repeat split. exact (@shows_numbers (pack o) n c bss Ln).
        -- intros Q. rewrite Q in Pk. discriminate Pk.
      * destruct (elements_ok We Se IH F (proj1 (octets_concat _) Oa) (Ev _ _ eq_refl (Lens _ Fx))) as (ss & ss' & A1 & A2 & A3 & A4 & A5).
        exists (SArr ss), (SArr ss'). split; [|split; [|split; [|split]]].
        -- intros m2. cbn [simple]. rewrite (take_obj_app _ _ Hs1). cbn [bind]. rewrite (Cnt _ Fx). cbn [bind]. rewrite packs_eq, Pk.
           replace (N.to_nat (lenN xs)) with (length xs) by (unfold lenN; lia). assert (X := @each_ok (fun f => simple o f e) _ _ _ A1 []). rewrite app_nil_r in X.
           eapply conv_bind; [exact X|]. apply conv_ok.
        -- intros m2. cbn [simple]. rewrite (take_obj_app _ _ Hs1). cbn [bind]. rewrite (Cnt _ Fy). cbn [bind]. rewrite packs_eq, Pk.
           replace (N.to_nat (lenN ys)) with (length ys) by (unfold lenN; lia). assert (X := @each_ok (fun f => simple o f e) _ _ _ A2 []). rewrite app_nil_r in X.
           eapply conv_bind; [exact X|]. apply conv_ok.
        -- cbn [expand]. rewrite (opt_map_ok A3). reflexivity.
        -- cbn [shows]. rewrite Pk. exists ca, xs, ss'. auto.
        -- intros Q. rewrite (A5 Q). reflexivity.
    + destruct S as (bs & -> & -> & _). assert (D := dump_str Hw Hs Va).
      assert (C : forall m2, conv (fun f => simple o f (TCont KStr s e) (put_obj s (StrObj bs) ++ m2)) (Ok (SStr bs))).
      { intros m2. cbn [simple]. rewrite take_cells_app by (apply put_obj_len; assumption). cbn [bind]. eapply conv_bind; [exact D|]. cbn beta.
        rewrite (@dropN_app_exact _ (le_bytes 8 (lenN bs))) by reflexivity. apply conv_ok. }
      exists (SStr bs), (SStr bs). repeat split; [exact C|exact C|]. exists bs. auto.
  - (* compound *) intros sz fs IH [_ Hw] [_ [Nd Sf]] a b S Oa Ev. cbn [same every] in S, Ev.
    destruct (IH 0 sz [] [] [] a b Hw Sf S Oa Ev eq_refl eq_refl Nd ltac:(intros ? [])) as (l & l' & A1 & A2 & A3 & A4 & A5).
    exists (SHash l), (SHash l'). split; [|split; [|split; [|split]]].
    + intros m2. cbn [simple]. eapply conv_bind; [exact (A1 m2)|]. apply conv_ok.
    + intros m2. cbn [simple]. eapply conv_bind; [exact (A2 m2)|]. apply conv_ok.
    + cbn [expand]. rewrite (@opt_map_ok _ _ _ l l'); [reflexivity|]. eapply F2_impl; [|exact A3]. intros [k x] [k' y] [E1 E2]. cbn [fst snd] in *. rewrite E2. congruence.
    + exists l'. split; [reflexivity|]. split; [|exact A4]. assert (V := proj2 same_valid_l _ _ _ _ _ S). rewrite (proj2 valid_len _ _ _ Hw _ V). lia.
    + intros Q. rewrite (A5 Q). reflexivity.
  - intros cur sz pre pre' h a b _ _ _ _ _ _ _ _ _. exists [], []. repeat split; try constructor; intros m2; cbn [simple_fields]; rewrite app_nil_r; apply conv_ok.
  - intros k off t IHt fs IHf cur sz pre pre' h a b (Ho1 & Wt & Wf) [St Sf] S Oa Ev Lp Lp' Nd Nh.
    destruct S as (p & x & y & q & z & w & -> & -> & Bp & Bq & Sxz & Syw). apply octets_app in Oa. destruct Oa as [_ Oa]. apply octets_app in Oa. destruct Oa as [Ox Oy].
    assert (Lbp := bytes_len Bp). assert (Lbq := bytes_len Bq). destruct (same_valid Sxz) as [Vx Vz]. assert (Lx := proj1 valid_len _ Wt _ Vx). assert (Lz := proj1 valid_len _ Wt _ Vz).
    cbn [every_fields] in Ev. destruct (Ev _ _ _ eq_refl Lbp Lx) as [E1 E2].
    destruct (IHt Wt St _ _ Sxz Ox E1) as (s & s' & B1 & B2 & B3 & B4 & B5).
    cbn [fields_list map] in Nd, Nh. inversion_clear Nd. cbn [fst] in *.
    destruct (IHf (off + sizeof t) sz (pre ++ p ++ x) (pre' ++ q ++ z) (h ++ [(k, s)]) y w Wf Sf Syw Oy E2) as (l & l' & A1 & A2 & A3 & A4 & A5).
    + rewrite !lenN_app. lia.
    + rewrite !lenN_app. lia.
    + assumption.
    + intros k' I. rewrite map_app in I. apply in_app_or in I. destruct I as [I|[<- |[]]]; [|exact H]. intros J. apply (Nh _ I). right. exact J.
    + assert (Nk : ~ In k (map fst h)) by (intros I; apply (Nh _ I); left; reflexivity).
      exists ((k, s) :: l), ((k, s') :: l').
      assert (G : forall pr pd v rest m2, lenN pr = cur -> lenN pd = off - cur -> (forall m2, conv (fun f => simple o f t (v ++ m2)) (Ok s)) ->
        (forall m2, conv (fun f => simple_fields o f fs ((pr ++ pd ++ v) ++ rest ++ m2) (h ++ [(k, s)])) (Ok ((h ++ [(k, s)]) ++ l))) ->
        conv (fun f => simple_fields o f (FCons k off t fs) (pr ++ (pd ++ v ++ rest) ++ m2) h) (Ok (h ++ (k, s) :: l))).
      { intros pr pd v rest m2 L1 L2 Cv Cr. cbn [simple_fields]. rewrite <- !app_assoc. rewrite (app_assoc pr pd).
        replace (lenN ((pr ++ pd) ++ v ++ rest ++ m2) <? off) with false by (symmetry; apply N.ltb_ge; rewrite !lenN_app; lia).
        rewrite (@dropN_app_exact _ (pr ++ pd)) by (rewrite lenN_app; lia). eapply conv_bind; [apply Cv|]. cbn beta. rewrite (hash_new _ Nk).
        specialize (Cr m2). rewrite <- !app_assoc in Cr. cbn [app] in Cr. rewrite <- !app_assoc. exact Cr. }
      split; [intros m2; apply G; auto|]. split; [intros m2; apply G; auto|]. split; [|split].
      * constructor; [cbn [fst snd]; auto|assumption].
      * exists p, x, y, s', l'. repeat split; assumption.
      * intros Q. rewrite (A5 Q), (B5 Q). reflexivity.
Qed.
End Main.

(** ** What is shown determines the value *)
Lemma shows_len p : (forall t, wf t -> forall o m s, shows p o t m s -> lenN m = sizeof t) /\ (forall fs : fields, True).
Proof.
  apply ty_fields_ind; try (simpl; intros; solve [contradiction|exact I]).
  - intros n c _ o m s (bs & -> & L & _). cbn [sizeof]. unfold lenN in *. rewrite map_length. exact L.
  - intros n vs _ o m s (bs & k & z & -> & L & _). cbn [sizeof]. unfold lenN in *. rewrite map_length. exact L.
  - intros sz d e IH (_ & -> & _ & _ & We) o m s (ms & ss & L & -> & _ & F). cbn [sizeof]. subst d. clear - IH We F.
    induction F as [|x y ms ss H F IHF]; [reflexivity|]. cbn [concat]. rewrite lenN_app, lenN_cons, IHF, (IH We _ _ _ H). lia.
  - intros k sz e IH Hw o m s H. assert (L := wf_cont_size Hw). destruct k.
    + destruct H as (cap & ms & ss & -> & _). apply put_obj_len; assumption.
    + destruct H as (bs & -> & _). apply put_obj_len; assumption.
  - intros sz fs _ _ o m s (l & _ & L & _). exact L.
Qed.
Lemma app_lens {A} n (a b c d : list A) : lenN a = n -> lenN c = n -> a ++ b = c ++ d -> a = c /\ b = d.
Proof.
  intros La Lc E. split.
  - rewrite <- (takeN_app_exact b (eq_sym La)), E. apply takeN_app_exact. auto.
  - rewrite <- (dropN_app_exact b (eq_sym La)), E. apply dropN_app_exact. auto.
Qed.
Lemma concat_lens {A} n (xs ys : list (list A)) : 1 <= n -> Forall (fun x => lenN x = n) xs -> Forall (fun x => lenN x = n) ys -> concat xs = concat ys -> xs = ys.
Proof.
  intros Hn H. revert ys. induction H as [|x xs L H IH]; intros ys Fy E.
  - destruct Fy as [|y ys Ly Fy]; [reflexivity|]. apply (f_equal (@lenN A)) in E. cbn [concat] in E. rewrite lenN_app, lenN_nil in E. lia.
  - destruct Fy as [|y ys Ly Fy].
    + apply (f_equal (@lenN A)) in E. cbn [concat] in E. rewrite lenN_app, lenN_nil in E. lia.
    + cbn [concat] in E. destruct (app_lens L Ly E) as [-> E2].
      f_equal. apply IH; assumption.
Qed.
Lemma ascii_list_inj (a b : str) : map N_of_ascii a = map N_of_ascii b -> a = b.
Proof.
  revert b. induction a as [|x a IH]; intros [|y b] E; try discriminate; [reflexivity|]. injection E as E1 E2.
  apply (f_equal ascii_of_N) in E1. rewrite !ascii_N_embedding in E1. subst y. f_equal. auto.
Qed.
Lemma nodup_fst {A C} (l : list (A * C)) k x y : NoDup (map fst l) -> In (k, x) l -> In (k, y) l -> x = y.
Proof.
  induction l as [|[k' z] l IH]; intros N H1 H2; [destruct H1|]. cbn [map fst] in N. inversion_clear N.
  destruct H1 as [E1|H1], H2 as [E2|H2]; try congruence.
  - exfalso. apply H. injection E1 as -> ->. change k with (fst (k, y)). apply in_map. assumption.
  - exfalso. apply H. injection E2 as -> ->. change k with (fst (k, x)). apply in_map. assumption.
  - apply IH; assumption.
Qed.
Lemma shows_lens p e o ms ss : wf e -> Forall2 (shows p o e) ms ss -> Forall (fun x => lenN x = sizeof e) ms.
Proof. intros We. induction 1; constructor; [eapply (proj1 (shows_len p)); eassumption|assumption]. Qed.
Section Inj.
Variable p : bool.
Definition It (t : ty) : Prop := wf t -> showable t -> forall o a b s, o <> ONil -> valid t a -> valid t b -> octets a -> octets b ->
  every false no_nan any_enum t a -> shows p o t a s -> shows p o t b s -> same t a b.
Definition If (fs : fields) : Prop := forall o cur sz a b l, wf_fields fs cur sz -> showable_fields fs -> o <> ONil -> valid_fields fs cur sz a -> valid_fields fs cur sz b ->
  octets a -> octets b -> every_fields false no_nan any_enum fs cur a -> shows_fields p o fs cur a l -> shows_fields p o fs cur b l -> same_fields fs cur sz a b.
Lemma inj_elements e o ss : wf e -> showable e -> It e -> o <> ONil -> forall xs ys, Forall (valid e) xs -> Forall (valid e) ys -> Forall octets xs -> Forall octets ys ->
  Forall (every false no_nan any_enum e) xs -> Forall2 (shows p o e) xs ss -> Forall2 (shows p o e) ys ss -> Forall2 (same e) xs ys.
Proof.
  intros We Se IH Ho. induction ss as [|s ss IHs]; intros xs ys Vx Vy Ox Oy Ex Fx Fy; inversion Fx; subst; inversion Fy; subst; [constructor|].
  inversion_clear Vx. inversion_clear Vy. inversion_clear Ox. inversion_clear Oy. inversion_clear Ex. constructor; [|apply IHs; assumption].
  eapply (IH We Se); eassumption.
Qed.
Lemma inj_case : (forall t, It t) /\ (forall fs, If fs).
Proof.
  apply ty_fields_ind.
  - intros _ [_ []].
  - intros n _ [_ []].
  - intros n c Hw Hs o a b s Ho Va Vb Oa Ob Ev (bs & -> & L & ->) (bs' & -> & L' & E). apply oct_bytes in Oa, Ob.
    destruct (showable_num Hs eq_refl) as [Sn _]. specialize (Ev bs eq_refl).
    assert (bs = bs') as <- by (apply (number_inj Sn Oa Ob L L' Ev); apply (shown_inj Ho Ev E)). split; [exists bs; auto|reflexivity].
  - intros n vs Hw (_ & -> & Nd) o a b s Ho Va Vb Oa Ob Ev (bs & k & z & -> & L & Nb & I1 & ->) (bs' & k' & z' & -> & L' & Nb' & I2 & E). apply oct_bytes in Oa, Ob.
    injection E as E. apply ascii_list_inj in E. subst k'. rewrite (nodup_fst Nd I1 I2) in Nb. rewrite <- Nb' in Nb.
    assert (bs = bs') as <- by (apply (@number_inj 4 SInt); auto; [simpl; auto|discriminate]). split; [exists bs; auto|reflexivity].
  - intros n _ [_ []].
  - intros sz d e IH (_ & Es & _ & He & We) [_ Se] o a b s Ho Va Vb Oa Ob Ev (ms & ss & L & Ea & -> & F) (ms' & ss' & L' & Eb & E & F').
    injection E as <-. destruct Va as (xs & Lx & Ex & Vx), Vb as (ys & Ly & Ey & Vy).
    assert (Lens : forall zs, Forall (valid e) zs -> Forall (fun x => lenN x = sizeof e) zs) by (intros zs Fz; eapply Forall_impl; [|exact Fz]; intros x Hx; exact (proj1 valid_len _ We _ Hx)).
    assert (xs = ms) as -> by (apply (concat_lens He (Lens _ Vx) (shows_lens We F)); congruence).
    assert (ys = ms') as -> by (apply (concat_lens He (Lens _ Vy) (shows_lens We F')); congruence).
    subst a b. apply octets_concat in Oa, Ob. cbn [every] in Ev. cbn [andb] in Ev. specialize (Ev _ Lx (Lens _ Vx) eq_refl).
    exists ms, ms'. repeat split; [assumption|].
    refine (@inj_elements e _ ss We Se IH _ ms ms' Vx Vy Oa Ob Ev F F'). destruct (p && numeric e); [discriminate|assumption].
  - intros k sz e IH Hw [_ Se] o a b s Ho Va Vb Oa Ob Ev Sa Sb. destruct k.
    + destruct Hw as (_ & _ & He & We).
      destruct Sa as (ca & ms & ss & Ea & -> & F), Sb as (cb & ms' & ss' & Eb & E & F'). injection E as <-.
      destruct Va as (ca' & xs & Ea' & Vx & C1 & C2), Vb as (cb' & ys & Eb' & Vy & C3 & C4).
      assert (Lens : forall zs, Forall (valid e) zs -> Forall (fun x => lenN x = sizeof e) zs) by (intros zs Fz; eapply Forall_impl; [|exact Fz]; intros x Hx; exact (proj1 valid_len _ We _ Hx)).
      rewrite Ea in Ea'. rewrite Eb in Eb'. apply put_obj_inj in Ea', Eb'. injection Ea' as <- Ea'. injection Eb' as <- Eb'.
      assert (xs = ms) as -> by (apply (concat_lens He (Lens _ Vx) (shows_lens We F)); congruence).
      assert (ys = ms') as -> by (apply (concat_lens He (Lens _ Vy) (shows_lens We F')); congruence).
      subst a b. apply octets_vec in Oa, Ob. apply octets_concat in Oa, Ob. cbn [every] in Ev. cbn [andb] in Ev. specialize (Ev _ _ eq_refl (Lens _ Vx)).
      exists ca, cb, ms, ms'. repeat split; try assumption.
      refine (@inj_elements e _ ss We Se IH _ ms ms' Vx Vy Oa Ob Ev F F'). destruct (p && numeric e); [discriminate|assumption].
    + destruct Sa as (bs & -> & ->), Sb as (bs' & -> & E). injection E as <-. destruct Va as (bs' & E & L). apply put_obj_inj in E. injection E as <-. exists bs. auto.
  - intros sz fs IH [_ Hw] [_ [_ Sf]] o a b s Ho Va Vb Oa Ob Ev (l & -> & _ & F) (l' & E & _ & F'). injection E as <-.
    exact (IH o 0 sz a b l Hw Sf Ho Va Vb Oa Ob Ev F F').
  - intros o cur sz a b l _ _ _ Va Vb _ _ _ _ _. split; assumption.
  - intros k off t IHt fs IHf o cur sz a b l (Ho1 & Wt & Wf) [St Sf] Ho Va Vb Oa Ob Ev F F'.
    destruct F as (p1 & x & y & s & l1 & -> & L1 & Lx & Sx & -> & Sy). destruct F' as (p2 & z & w & s' & l2 & -> & L2 & Lz & Sz & E & Sw).
    injection E as <- <-.
    destruct Va as (p1' & x' & y' & E1 & B1 & V1 & V2). destruct Vb as (p2' & z' & w' & E2 & B2 & V3 & V4).
    apply (app_lens L1 (bytes_len B1)) in E1. destruct E1 as [-> E1]. apply (app_lens Lx (proj1 valid_len _ Wt _ V1)) in E1. destruct E1 as [-> ->].
    apply (app_lens L2 (bytes_len B2)) in E2. destruct E2 as [-> E2]. apply (app_lens Lz (proj1 valid_len _ Wt _ V3)) in E2. destruct E2 as [-> ->].
    cbn [every_fields] in Ev. destruct (Ev _ _ _ eq_refl L1 Lx) as [E1 E2].
    apply octets_app in Oa, Ob. destruct Oa as [_ Oa], Ob as [_ Ob]. apply octets_app in Oa, Ob. destruct Oa as [Ox Oy], Ob as [Oz Ow].
    exists p1', x', y', p2', z', w'. split; [reflexivity|]. split; [reflexivity|]. split; [assumption|]. split; [assumption|]. split.
    + exact (IHt Wt St o _ _ s Ho V1 V3 Ox Oz E1 Sx Sz).
    + exact (IHf o _ sz _ _ l1 Wf Sf Ho V2 V4 Oy Ow E2 Sy Sw).
Qed.
End Inj.

(** ** Special floats *)
Lemma finite_arr l : finite (SArr l) <-> Forall finite l.
Proof. split; [intros H; induction l; constructor; destruct H; auto|induction 1; [exact I|split; assumption]]. Qed.
Lemma finite_hash l : finite (SHash l) <-> Forall (fun x => finite (snd x)) l.
Proof. split; [intros H; induction l as [|[] l]; constructor; destruct H; auto|induction 1 as [|[] l]; [exact I|split; assumption]]. Qed.
Lemma shown_finite o n c bs : (o = ONil \/ o = OString) -> finite (shown o (number n c bs)).
Proof.
  intros O. destruct c; cbn [number]; try (destruct O as [-> | ->]; exact I).
  destruct (if n =? 4 then ieee 8 23 925 (num_of bs) else ieee 11 52 0 (num_of bs)) as [|[]|]; destruct O as [-> | ->]; try exact I; reflexivity.
Qed.
Lemma shows_finite : (forall t o m s, (o = ONil \/ o = OString) -> shows false o t m s -> finite s) /\
  (forall fs o cur m l, (o = ONil \/ o = OString) -> shows_fields false o fs cur m l -> Forall (fun x => finite (snd x)) l).
Proof.
  apply ty_fields_ind; try (simpl; intros; contradiction).
  - intros n c o m s O (bs & _ & _ & ->). apply shown_finite; assumption.
  - intros n vs o m s O (bs & k & z & _ & _ & _ & _ & ->). exact I.
  - intros sz d e IH o m s O (ms & ss & _ & _ & -> & F). apply finite_arr. cbn [andb] in F. clear - IH O F. induction F; constructor; eauto.
  - intros k sz e IH o m s O H. destruct k.
    + destruct H as (cap & ms & ss & _ & -> & F). apply finite_arr. cbn [andb] in F. clear - IH O F. induction F; constructor; eauto.
    + destruct H as (bs & _ & ->). exact I.
  - intros sz fs IH o m s O (l & -> & _ & F). apply finite_hash. eapply IH; eauto.
  - intros o cur m l O H. simpl in H. subst l. constructor.
  - intros k off t IHt fs IHf o cur m l O (pad & a & b & s & l' & _ & _ & _ & H1 & -> & H2). constructor; [eapply IHt; eauto|eapply IHf; eauto].
Qed.
