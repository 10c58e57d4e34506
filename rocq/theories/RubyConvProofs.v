(** * RubyConvProofs: numbers, texts and indexes. *)
From Verif Require Import Base Types WellFormed Layout LayoutProofs LayoutMain InitProofs LayoutFinal
     ValueOps ValueSpec ValueAtoms ValueInst WalkProofs InitRun EltOps EltProofs CmpProofs DumpProofs LoadProofs.
From Verif Require Import Visitor EndianProofs Csv CsvSpec CsvProofs RubyConv RubyConvSpec.
Local Open Scope Z_scope.

Lemma four_sizes n c : num_supported n c = true -> c <> Float -> (n = 1 \/ n = 2 \/ n = 4 \/ n = 8)%N.
Proof. unfold num_supported. intros H K. destruct c; try contradiction; lia. Qed.

Lemma int_bytes_len n z : lenN (int_bytes n z) = n.
Proof. unfold int_bytes. rewrite lenN_le_bytes. lia. Qed.
Lemma int_bytes_is8 n z : Forall is8 (int_bytes n z).
Proof. unfold int_bytes. generalize (Z.to_N (z mod 2 ^ (8 * Z.of_N n))). induction (N.to_nat n) as [|k IH]; intros v; constructor; [unfold is8; apply N.mod_lt; discriminate|apply IH]. Qed.
Lemma int_bytes_val n z : Z.of_N (le_val (int_bytes n z)) = z mod 2 ^ (8 * Z.of_N n).
Proof.
  unfold int_bytes. assert (P : 0 < 2 ^ (8 * Z.of_N n)) by (apply Z.pow_pos_nonneg; lia). assert (M := Z.mod_pos_bound z _ P).
  rewrite le_val_bytes; [apply Z2N.id; lia|]. rewrite N2Nat.id. apply N2Z.inj_lt. rewrite Z2N.id by lia. rewrite N2Z.inj_pow. change (Z.of_N 256) with (2 ^ 8). rewrite <- Z.pow_mul_r by lia. lia.
Qed.
Lemma put_raw_exact bs n m : lenN bs = n -> bytes n m -> put_raw bs m = Ok (map B bs).
Proof.
  intros L H. unfold put_raw. rewrite <- (app_nil_r m) at 1. rewrite write_raw_app by (rewrite L; exact H). cbn [bind]. rewrite app_nil_r. reflexivity.
Qed.
Lemma take_raw_exact bs n : lenN bs = n -> take_raw n (map B bs) = Ok (bs, []).
Proof. intros <-. rewrite <- (app_nil_r (map B bs)). apply take_raw_map. Qed.

(** The number that is read from the bytes of [z]. *)
Lemma signed_wrap n z : (1 <= n)%N -> exists k, signed n (int_bytes n z) = z + k * 2 ^ (8 * Z.of_N n) /\ representable n SInt (signed n (int_bytes n z)).
Proof.
  intros Hn. unfold signed. rewrite int_bytes_val. cbn [representable].
  assert (E : 2 ^ (8 * Z.of_N n) = 2 * 2 ^ (8 * Z.of_N n - 1)) by (rewrite <- Z.pow_succ_r by lia; f_equal; lia).
  set (P := 2 ^ (8 * Z.of_N n - 1)) in *. rewrite E. assert (0 < P) by (apply Z.pow_pos_nonneg; lia).
  assert (M := Z.mod_pos_bound z (2 * P) ltac:(lia)). assert (D := Z.div_mod z (2 * P) ltac:(lia)).
  destruct (Z.ltb_spec (z mod (2 * P)) P).
  - exists (- (z / (2 * P))). split; lia.
  - exists (- (z / (2 * P)) - 1). split; lia.
Qed.
Lemma unsigned_wrap n z : exists k, Z.of_N (le_val (int_bytes n z)) = z + k * 2 ^ (8 * Z.of_N n) /\ representable n UInt (Z.of_N (le_val (int_bytes n z))).
Proof.
  rewrite int_bytes_val. cbn [representable]. assert (0 < 2 ^ (8 * Z.of_N n)) by (apply Z.pow_pos_nonneg; lia).
  exists (- (z / 2 ^ (8 * Z.of_N n))). split; [|apply Z.mod_pos_bound; assumption]. rewrite Z.mod_eq by lia. lia.
Qed.
Lemma cast_wrap z : exists k, cast_int z = z + k * 2 ^ 32 /\ - 2 ^ 31 <= cast_int z < 2 ^ 31.
Proof.
  unfold cast_int. assert (M := Z.mod_pos_bound (z + 2 ^ 31) (2 ^ 32) ltac:(lia)). assert (D := Z.div_mod (z + 2 ^ 31) (2 ^ 32) ltac:(lia)).
  exists (- ((z + 2 ^ 31) / 2 ^ 32)). lia.
Qed.
Lemma int_bytes_shift n z k : int_bytes n (z + k * 2 ^ (8 * Z.of_N n)) = int_bytes n z.
Proof. unfold int_bytes. rewrite Z.mod_add; [reflexivity|]. apply Z.pow_nonzero; lia. Qed.

Definition range_of (n : N) (c : ncat) (z : Z) : res Z :=
  if (n =? 8)%N then NUM2LL z else match c with SInt => NUM2INT z | _ => if (n =? 1)%N then NUM2INT z else NUM2UINT z end.
Lemma in_range_spec lo hi z : in_range lo hi z = true <-> lo <= z < hi.
Proof. unfold in_range. lia. Qed.
Lemma range_accepted n c z : (n = 1 \/ n = 2 \/ n = 4 \/ n = 8)%N -> c <> Float -> accepted n c z -> exists k, range_of n c z = Ok (z + k * 2 ^ (8 * Z.of_N n)).
Proof.
  intros Hn Hc H. unfold range_of, accepted, NUM2LL, NUM2INT, NUM2UINT in *.
  assert (K : forall lo hi, lo <= z < hi -> in_range lo hi z = true) by (intros; apply in_range_spec; assumption).
  destruct (N.eqb_spec n 8); [rewrite K by assumption; exists 0; f_equal; lia|].
  destruct c; [rewrite K by assumption; exists 0; f_equal; lia| |contradiction].
  destruct (N.eqb_spec n 1); [rewrite K by assumption; exists 0; f_equal; lia|]. rewrite K by assumption.
  rewrite Z.mod_eq by lia. destruct Hn as [-> |[-> |[-> | ->]]]; try contradiction.
  - exists (- (z / 2 ^ 32) * 2 ^ 16). f_equal. change (8 * Z.of_N 2) with 16. lia.
  - exists (- (z / 2 ^ 32)). f_equal. change (8 * Z.of_N 4) with 32. lia.
Qed.
Lemma range_refused n c z : (n = 1 \/ n = 2 \/ n = 4 \/ n = 8)%N -> c <> Float -> ~ accepted n c z -> range_of n c z = Throw ERange.
Proof.
  intros Hn Hc H. unfold range_of, accepted, NUM2LL, NUM2INT, NUM2UINT in *.
  assert (K : forall lo hi, ~ (lo <= z < hi) -> in_range lo hi z = false) by (intros lo hi X; apply not_true_is_false; rewrite in_range_spec; assumption).
  destruct (N.eqb_spec n 8); [rewrite K by assumption; reflexivity|].
  destruct c; [rewrite K by assumption; reflexivity| |contradiction].
  destruct (N.eqb_spec n 1); rewrite K by assumption; reflexivity.
Qed.
Lemma set_int fl n c z : c <> Float -> set_num fl n c (RbInt z) = (v <- range_of n c z ;; Ok (int_bytes n v)).
Proof. intros H. unfold set_num, range_of. destruct c; try contradiction; reflexivity. Qed.
Lemma get_int fl n c z : (n = 1 \/ n = 2 \/ n = 4 \/ n = 8)%N -> c <> Float ->
  exists y k, get_num fl n c (int_bytes n z) = RbInt y /\ y = z + k * 2 ^ (8 * Z.of_N n) /\ shown n c y.
Proof.
  intros Hn Hc. unfold get_num, shown. destruct c; try contradiction.
  - destruct (@signed_wrap n z ltac:(lia)) as (k & E & R). exists (signed n (int_bytes n z)), k. split; [reflexivity|]. split; [exact E|].
    destruct (N.eqb_spec n 4) as [-> |]; exact R.
  - destruct (unsigned_wrap n z) as (k & E & R). destruct (N.eqb_spec n 4) as [-> |].
    + unfold INT2NUM. destruct (cast_wrap (Z.of_N (le_val (int_bytes 4 z)))) as (k2 & E2 & R2). exists (cast_int (Z.of_N (le_val (int_bytes 4 z)))), (k + k2). split; [reflexivity|]. split; [|exact R2].
      rewrite E2, E. change (8 * Z.of_N 4) with 32. lia.
    + eexists _, k. split; [reflexivity|]. split; [exact E|exact R].
Qed.
Lemma get_is8 fl n c bs : (n = 1 \/ n = 2 \/ n = 4 \/ n = 8)%N -> c <> Float -> Forall is8 bs -> lenN bs = n ->
  exists y, get_num fl n c bs = RbInt y /\ shown n c y /\ int_bytes n y = bs.
Proof.
  intros Hn Hc H8 L. assert (E : int_bytes n (Z.of_N (le_val bs)) = bs).
  { unfold int_bytes. assert (Bd := le_val_bound H8 L). rewrite Z.mod_small; [rewrite N2Z.id; rewrite <- L; unfold lenN; rewrite Nat2N.id; apply le_bytes_val; assumption|].
    split; [lia|]. apply N2Z.inj_lt in Bd. rewrite N2Z.inj_pow, N2Z.inj_mul in Bd. exact Bd. }
  destruct (@get_int fl n c (Z.of_N (le_val bs)) Hn Hc) as (y & k & G & Y & S). rewrite E in G. exists y. split; [exact G|]. split; [exact S|]. rewrite Y, int_bytes_shift. exact E.
Qed.
(** A number modulo 2^(8n) in a range of that size is unique. *)
Lemma unique_mod P lo z y k : 0 < P -> lo <= z < lo + P -> lo <= y < lo + P -> y = z + k * P -> y = z.
Proof. intros. assert (k = 0) by nia. subst. lia. Qed.
Lemma shown_unique n c z y k : (n = 1 \/ n = 2 \/ n = 4 \/ n = 8)%N -> shown n c z -> shown n c y -> y = z + k * 2 ^ (8 * Z.of_N n) -> y = z.
Proof.
  intros Hn S1 S2 E. unfold shown in *. destruct (N.eqb_spec n 4) as [-> |].
  - change (8 * Z.of_N 4) with 32 in E. apply (@unique_mod (2 ^ 32) (- 2 ^ 31) z y k); lia.
  - unfold representable in *. assert (E2 : 2 ^ (8 * Z.of_N n) = 2 * 2 ^ (8 * Z.of_N n - 1)) by (rewrite <- Z.pow_succ_r by lia; f_equal; lia).
    assert (0 < 2 ^ (8 * Z.of_N n - 1)) by (apply Z.pow_pos_nonneg; lia). destruct c; try contradiction.
    + apply (@unique_mod (2 ^ (8 * Z.of_N n)) (- 2 ^ (8 * Z.of_N n - 1)) z y k); lia.
    + apply (@unique_mod (2 ^ (8 * Z.of_N n)) 0 z y k); lia.
Qed.

(** ** Texts *)
Lemma c_str_none bs : ~ In 0%N bs -> c_str bs = bs.
Proof. induction bs as [|b r IH]; intros H; [reflexivity|]. cbn [c_str]. destruct (N.eqb_spec b 0) as [-> |]; [exfalso; apply H; left; reflexivity|]. f_equal. apply IH. intros X. apply H. right. exact X. Qed.
Lemma c_str_split bs : ~ In 0%N (c_str bs) /\ exists rest, bs = c_str bs ++ rest /\ (rest = [] \/ exists r, rest = 0%N :: r).
Proof.
  induction bs as [|b r [IH1 (rest & E & IH2)]]; [split; [intros []|exists []; auto]|]. cbn [c_str]. destruct (N.eqb_spec b 0) as [-> |Hb].
  - split; [intros []|]. exists (0%N :: r). eauto.
  - split; [intros [X|X]; auto|]. exists rest. split; [cbn; f_equal; exact E|exact IH2].
Qed.
Lemma c_str_short bs : In 0%N bs -> (lenN (c_str bs) < lenN bs)%N.
Proof.
  induction bs as [|b r IH]; intros H; [destruct H|]. cbn [c_str]. rewrite lenN_cons. destruct (N.eqb_spec b 0); [change (lenN (@nil N)) with 0%N; lia|].
  rewrite lenN_cons. destruct H as [-> |H]; [contradiction|]. specialize (IH H). lia.
Qed.
Lemma scan_c_str bs : scan bs = c_str bs.
Proof. reflexivity. Qed.
Lemma c_str_app s r : ~ In 0%N s -> c_str (s ++ 0%N :: r) = s.
Proof. induction s as [|b s IH]; intros H; [reflexivity|]. cbn [app c_str]. destruct (N.eqb_spec b 0) as [-> |]; [exfalso; apply H; left; reflexivity|]. f_equal. apply IH. intros X. apply H. right. exact X. Qed.
Lemma map_B_app a b : map B (a ++ b) = map B a ++ map B b.
Proof. apply map_app. Qed.
Lemma lenN_mapB (bs : list N) : lenN (map B bs) = lenN bs.
Proof. unfold lenN. rewrite map_length. reflexivity. Qed.
Lemma in_dec_0 (bs : list N) : {In 0%N bs} + {~ In 0%N bs}.
Proof. apply in_dec. apply N.eq_dec. Qed.
Lemma wsub_1 d : (1 <= d < two64)%N -> wsub d 1 = (d - 1)%N.
Proof. intros H. unfold wsub, two64 in *. rewrite N.mod_small with (a := 1%N) by reflexivity. replace (d + (18446744073709551616 - 1))%N with (d - 1 + 1 * 18446744073709551616)%N by lia. rewrite N.mod_add by lia. apply N.mod_small. lia. Qed.
Lemma repN_snoc (A : Type) (x : A) n : (1 <= n)%N -> repN n x = repN (n - 1) x ++ [x].
Proof. intros H. unfold repN. replace (N.to_nat n) with (Datatypes.S (N.to_nat (n - 1))) by lia. generalize (N.to_nat (n - 1)). induction n0 as [|k IH]; [reflexivity|]. cbn [repeat app] in *. f_equal. exact IH. Qed.

(** The bytes strncpy leaves. *)
Definition padded (d : N) (s : list N) : list N := s ++ repN (d - lenN s) 0%N.
Lemma padded_len d s : (lenN s <= d)%N -> lenN (padded d s) = d.
Proof. intros H. unfold padded. rewrite lenN_app, lenN_repN. lia. Qed.
Lemma padded_text d s : ~ In 0%N s -> (lenN s < d)%N -> holds_text (padded d s) s.
Proof.
  intros H L. split; [exact H|]. exists (repN (d - lenN s - 1) 0%N). unfold padded. f_equal. unfold repN. replace (N.to_nat (d - lenN s)) with (Datatypes.S (N.to_nat (d - lenN s - 1))) by lia. reflexivity.
Qed.
Lemma poke_padded d s : (lenN s < d)%N -> poke (d - 1) (map B (padded d s)) = Ok (map B (padded d s)).
Proof.
  intros L. assert (E : padded d s = (s ++ repN (d - lenN s - 1) 0%N) ++ [0%N]) by (unfold padded; rewrite (@repN_snoc N 0%N (d - lenN s)) by lia; apply app_assoc).
  assert (Le : lenN (map B (s ++ repN (d - lenN s - 1) 0%N)) = (d - 1)%N) by (rewrite lenN_mapB, lenN_app, lenN_repN; lia).
  unfold poke. rewrite lenN_mapB, padded_len by lia. destruct (N.leb_spec d (d - 1)); [lia|].
  rewrite E, map_B_app. rewrite takeN_app_exact, dropN_app_exact by (symmetry; exact Le). change (map B [0%N]) with [B 0]. reflexivity.
Qed.
Lemma from_string_ok d m bs chars : (1 <= d < two64)%N -> bytes d m -> ~ In 0%N bs -> (lenN bs < d)%N ->
  value_from_string true (DArray d) m (RbStr bs chars) = Ok (map B (padded d bs)).
Proof.
  intros Hd Hb Hz L. unfold value_from_string. cbn [buffer_size]. rewrite wsub_1 by assumption. destruct (N.ltb_spec (d - 1) (lenN bs)); [lia|].
  rewrite c_str_none by assumption. rewrite N.ltb_irrefl. unfold strncpy. rewrite c_str_none by assumption. cbv zeta.
  assert (T : takeN d bs = bs) by (unfold takeN; apply firstn_all2; unfold lenN in L; lia). rewrite T. fold (padded d bs).
  rewrite (@put_raw_exact _ d) by (try apply padded_len; try assumption; lia). cbn [bind]. apply poke_padded. exact L.
Qed.
Lemma to_string_array bs d : lenN bs = d -> value_to_string true (DArray d) (map B bs) = Ok (RbStr (c_str bs) (lenN (c_str bs))).
Proof. intros L. unfold value_to_string. rewrite take_raw_exact by exact L. reflexivity. Qed.

(** ** /std/string *)
Lemma std_layout sz : layout_default (std_string sz) = Ok {| ops := [W 2; WC KStr sz (TNum 1 SInt); W 0; W 1; W 4]; iops := [W 2; WC KStr sz (TNum 1 SInt)] |}.
Proof. reflexivity. Qed.
Lemma walk_cont S f (h : handlers S) s w k sz e it : decode w = OCont ->
  walk (Datatypes.S f) h s (w :: WC k sz e :: it) = ('(s', it') <- h_cont h f k sz e s it ;; it'' <- h_cont_end h it' ;; walk f h s' it'').
Proof. intros H. cbn [walk]. rewrite H. reflexivity. Qed.
Lemma std_load f sz bs : (1 <= sz)%N -> (lenN bs <= max_size)%N ->
  do_load (Datatypes.S (Datatypes.S (Datatypes.S f))) (std_string sz) (put_obj sz (StrObj [])) (le_bytes 8 (lenN bs) ++ bs) = Ok (put_obj sz (StrObj bs)).
Proof.
  intros Hs Hm. unfold do_load. rewrite std_layout. cbn [bind ops]. set (g := Datatypes.S (Datatypes.S f)). 
  assert (M : (max_size < two64)%N) by reflexivity. assert (L8 : lenN (le_bytes 8 (lenN bs)) = 8%N) by apply lenN_le_bytes.
  assert (R8 : rd 8 (0%N, le_bytes 8 (lenN bs) ++ bs) = Ok (le_bytes 8 (lenN bs), (8%N, bs))).
  { unfold rd. rewrite lenN_app, L8. change (wadd 8 0) with 8%N. destruct (N.ltb_spec (0 + (8 + lenN bs)) 8); [lia|]. destruct (N.ltb_spec (8 + lenN bs) 8); [lia|].
    rewrite takeN_app_exact, dropN_app_exact by (symmetry; exact L8). reflexivity. }
  assert (V : le_val (le_bytes 8 (lenN bs)) = lenN bs) by (apply le_val_8; lia).
  assert (T : take_obj sz (put_obj sz (StrObj [])) = Ok (StrObj [], [])) by (rewrite <- (app_nil_r (put_obj sz (StrObj []))); apply take_obj_put; assumption).
  cbn [load_at]. unfold g at 1. rewrite walk_cont by reflexivity. unfold load_h at 1 2. cbn [h_cont h_cont_end].
  rewrite T. cbn [bind]. rewrite R8. cbn [bind]. rewrite V. destruct (N.eqb_spec (lenN bs) 0) as [E|E].
  - assert (bs = []) by (destruct bs; [reflexivity|rewrite lenN_cons in E; lia]). subst bs. cbn. rewrite app_nil_r. reflexivity.
  - cbn [cont_load]. destruct (N.ltb_spec max_size (lenN bs)); [lia|]. unfold rd. unfold wadd. rewrite N.mod_small by (unfold max_size, two64 in *; lia).
    destruct (N.ltb_spec (8 + lenN bs) (lenN bs + 8)); [lia|]. rewrite N.ltb_irrefl. cbn [bind]. rewrite takeN_all, dropN_all by lia. cbn [bind expect_end]. cbn [fst]. cbn [app]. unfold g. change (decode (W 4)) with OEnd. cbn [walk bind fst snd app]. rewrite app_nil_r, lenN_app, L8.  rewrite N.eqb_refl. reflexivity.
Qed.
Lemma std_dump f sz bs : (1 <= sz)%N -> (lenN bs <= max_size)%N ->
  do_dump (Datatypes.S (Datatypes.S (Datatypes.S f))) (std_string sz) (put_obj sz (StrObj bs)) = Ok (le_bytes 8 (lenN bs) ++ bs).
Proof.
  intros Hs Hm. unfold do_dump. rewrite std_layout. cbn [bind]. unfold do_dump_stream. cbn [ops]. set (g := Datatypes.S (Datatypes.S f)).
  assert (T : take_obj sz (put_obj sz (StrObj bs)) = Ok (StrObj bs, [])) by (rewrite <- (app_nil_r (put_obj sz (StrObj bs))); apply take_obj_put; assumption).
  cbn [dump_at]. unfold g at 1. rewrite walk_cont by reflexivity. unfold dump_h at 1 2. cbn [h_cont h_cont_end]. rewrite T. cbn [bind cont_count sizeof].
  change (1 =? 0)%N with false. cbv iota. cbn [bind]. rewrite N.div_1_r. cbn [wr_vector bind app]. destruct (N.eqb_spec (lenN bs) 0) as [E|E].
  - assert (bs = []) by (destruct bs; [reflexivity|rewrite lenN_cons in E; lia]). subst bs. cbn. reflexivity.
  - cbn [cont_dump]. rewrite N.ltb_irrefl, takeN_all by lia. cbn [bind wr_vector]. change (expect_end [W 4]) with (@Ok (list word) []). cbn [bind]. unfold g. cbn [walk bind snd]. reflexivity.
Qed.

(** ** Indexes *)
Lemma to_size_nonneg z : 0 <= z < Z.of_N two64 -> to_size z = Z.to_N z.
Proof. intros H. unfold to_size. rewrite Z.mod_small by assumption. reflexivity. Qed.
Lemma to_size_neg z : - Z.of_N two64 <= z < 0 -> to_size z = Z.to_N (z + Z.of_N two64).
Proof. intros H. unfold to_size. f_equal. symmetry. apply Z.mod_unique with (-1); [left; lia|lia]. Qed.
Definition small_dim (d : N) : Prop := (d < 2 ^ 63)%N.
Lemma NUM2INT_spec z : NUM2INT z = if in_range (- 2 ^ 31) (2 ^ 31) z then Ok z else Throw ERange.
Proof. reflexivity. Qed.
Lemma index_test d i : small_dim d -> in_range (- 2 ^ 31) (2 ^ 31) i = true -> (d <=? to_size i)%N = negb ((0 <=? i) && (i <? Z.of_N d)).
Proof.
  unfold small_dim. intros Hd H. apply in_range_spec in H. destruct (Z.leb_spec 0 i).
  - rewrite to_size_nonneg by (unfold two64; lia). destruct (Z.ltb_spec i (Z.of_N d)); cbn; lia.
  - rewrite to_size_neg by (unfold two64; lia). cbn. unfold two64 in *. lia.
Qed.
Lemma wmul_index d es i : (d * es < two64)%N -> 0 <= i < Z.of_N d -> wmul es (to_size i) = (Z.to_N i * es)%N.
Proof.
  intros Hs Hi. assert (Hd : (es = 0 \/ d < two64)%N) by (destruct (N.eq_dec es 0); [left; assumption|right; nia]). unfold wmul.
  destruct Hd as [-> |Hd]; [rewrite N.mul_0_l, N.mul_0_r; reflexivity|]. rewrite to_size_nonneg by lia. rewrite N.mul_comm. apply N.mod_small. nia.
Qed.
Fixpoint seqN (i : N) (n : nat) : list N := match n with O => [] | Datatypes.S k => i :: seqN (i + 1) k end.
Lemma offsets_ok es n : forall i hi f, hi = (i + N.of_nat n)%N -> (hi < two64)%N -> (hi * es < two64)%N -> (n < f)%nat ->
  offsets f es i hi = Ok (map (fun k => (k * es)%N) (seqN i n)).
Proof.
  induction n as [|n IH]; intros i hi f Hh H1 H2 Hf; destruct f as [|f]; try lia; cbn [offsets seqN map].
  - destruct (N.ltb_spec i hi); [lia|]. reflexivity.
  - destruct (N.ltb_spec i hi); [|lia]. assert (W1 : wadd i 1 = (i + 1)%N) by (unfold wadd; apply N.mod_small; lia). rewrite W1. rewrite (IH (i + 1)%N hi f) by lia. cbn [bind]. do 2 f_equal. unfold wmul. rewrite N.mul_comm. apply N.mod_small. nia.
Qed.
Lemma seqN_nth n : forall i k, (k < n)%nat -> nth_error (seqN i n) k = Some (i + N.of_nat k)%N.
Proof. induction n as [|n IH]; intros i k H; [lia|]. destruct k as [|k]; cbn [seqN nth_error]; [f_equal; lia|]. rewrite IH by lia. f_equal. lia. Qed.
Lemma seqN_len n : forall i, length (seqN i n) = n.
Proof. induction n as [|n IH]; intros i; cbn; [reflexivity|]. rewrite IH. reflexivity. Qed.

(** The cache of the wrappers: entry [k] refers to element [k]. *)
Definition cached (es : N) (c : elements) : Prop := forall k off, nth k c None = Some off -> off = (N.of_nat k * es)%N.
Lemma nth_set_nth (A : Type) (l : list (option A)) : forall k v j, nth j (nth_set l k v) None = if Nat.eqb j k then Some v else nth j l None.
Proof.
  intros k. revert l. induction k as [|k IH]; intros l v j; destruct l as [|x r]; cbn [nth_set]; destruct j as [|j]; cbn [nth Nat.eqb]; try reflexivity.
  - destruct j; reflexivity.
  - rewrite IH. destruct (Nat.eqb j k); [reflexivity|]. destruct j; reflexivity.
  - apply IH.
Qed.
Lemma raw_get_cached f d es c i : small_dim d -> (0 < d)%N -> (d * es < two64)%N -> cached es c -> 0 <= i ->
  cached es (fst (raw_get f d es c i)) /\
  (i < Z.of_N d -> i < 2 ^ 31 -> snd (raw_get f d es c i) = Ok (Z.to_N i * es)%N).
Proof.
  intros Hd H0 Hs Hc Hi. unfold raw_get, rb_aref. destruct (Z.ltb_spec i 0); [lia|]. cbv zeta. destruct (Z.ltb_spec i 0); [lia|].
  destruct (nth (Z.to_nat i) c None) as [off|] eqn:E.
  - split; [exact Hc|]. intros _ _. cbn [snd]. f_equal. rewrite (Hc _ _ E). f_equal. lia.
  - unfold array_get. destruct (N.eqb_spec d 0); [lia|]. rewrite NUM2INT_spec. destruct (in_range (- 2 ^ 31) (2 ^ 31) i) eqn:R; cbn [bind].
    + cbv zeta. rewrite index_test by assumption. destruct (Z.leb_spec 0 i); [|lia]. destruct (Z.ltb_spec i (Z.of_N d)); cbn [negb andb].
      * unfold rb_aset. destruct (Z.ltb_spec i 0); [lia|]. cbv zeta. destruct (Z.ltb_spec i 0); [lia|]. rewrite (@wmul_index d) by lia. cbn [fst snd]. split; [|intros _ _; reflexivity].
        intros k off. rewrite nth_set_nth. destruct (Nat.eqb_spec k (Z.to_nat i)) as [-> |]; [|apply Hc]. intros X. injection X as <-. f_equal. lia.
      * cbn [fst snd]. split; [exact Hc|lia].
    + cbn [fst snd]. split; [exact Hc|]. intros _ X. apply not_true_iff_false in R. exfalso. apply R. apply in_range_spec. lia.
Qed.
