(** * EndianProofs: the in-place swap reverses every number and enum. *)
From Verif Require Import Base Types WellFormed Layout ValueOps ValueSpec InitProofs ValueAtoms ValueInst InitRun WalkProofs EltOps EltProofs LoadProofs VectorProofs
  Visitor VisitorProofs Endian EndianSpec.
Local Open Scope N_scope.

(** ** Words *)
Lemma land_field x k j : N.land x (N.shiftl (N.ones j) k) = (x / 2 ^ k) mod 2 ^ j * 2 ^ k.
Proof.
  rewrite <- N.land_ones, <- N.shiftr_div_pow2, <- N.shiftl_mul_pow2. apply N.bits_inj. intros i. rewrite N.land_spec.
  destruct (N.ltb_spec i k) as [H|H].
  - rewrite (N.shiftl_spec_low _ _ _ H). rewrite N.shiftl_spec_low by assumption. apply andb_false_r.
  - rewrite !N.shiftl_spec_high' by assumption. rewrite N.land_spec, N.shiftr_spec'. replace (i - k + k) with i by lia. reflexivity.
Qed.
Lemma lor_disjoint a b k : a < 2 ^ k -> N.lor a (b * 2 ^ k) = a + b * 2 ^ k.
Proof.
  intros Ha. rewrite <- N.shiftl_mul_pow2.
  assert (Hz : N.land a (N.shiftl b k) = 0).
  { apply N.bits_inj. intros i. rewrite N.land_spec, N.bits_0. destruct (N.ltb_spec i k) as [H|H].
    - rewrite (N.shiftl_spec_low _ _ _ H). apply andb_false_r.
    - destruct (N.eq_dec a 0) as [->|Na]; [rewrite N.bits_0; reflexivity|].
      rewrite N.bits_above_log2; [reflexivity|]. apply N.log2_lt_pow2; [lia|].
      apply N.lt_le_trans with (2 ^ k); [assumption|]. apply N.pow_le_mono_r; lia. }
  rewrite <- (N.lxor_lor _ _ Hz). symmetry. apply N.add_nocarry_lxor. exact Hz.
Qed.

Definition word4 a b c d := a + 256 * b + 65536 * c + 16777216 * d.
Lemma swap4_word a b c d : a < 256 -> b < 256 -> c < 256 -> d < 256 -> swap_helper4 (word4 a b c d) = word4 d c b a.
Proof.
  intros Ha Hb Hc Hd. unfold swap_helper4.
  change 4278190080 with (N.shiftl (N.ones 8) 24). change 16711680 with (N.shiftl (N.ones 8) 16).
  change 255 with (N.ones 8). change 65280 with (N.shiftl (N.ones 8) 8).
  rewrite !land_field, N.land_ones, !N.shiftl_mul_pow2, !N.shiftr_div_pow2.
  change (2 ^ 24) with 16777216. change (2 ^ 16) with 65536. change (2 ^ 8) with 256.
  assert (E0 : word4 a b c d mod 256 = a).
  { symmetry. apply N.mod_unique with (b + 256 * c + 65536 * d); unfold word4; lia. }
  assert (E1 : (word4 a b c d / 256) mod 256 = b).
  { replace (word4 a b c d / 256) with (b + 256 * c + 65536 * d).
    - symmetry. apply N.mod_unique with (c + 256 * d); lia.
    - apply N.div_unique with a; unfold word4; lia. }
  assert (E2 : (word4 a b c d / 65536) mod 256 = c).
  { replace (word4 a b c d / 65536) with (c + 256 * d).
    - symmetry. apply N.mod_unique with d; lia.
    - apply N.div_unique with (a + 256 * b); unfold word4; lia. }
  assert (E3 : (word4 a b c d / 16777216) mod 256 = d).
  { replace (word4 a b c d / 16777216) with d.
    - apply N.mod_small; assumption.
    - apply N.div_unique with (a + 256 * b + 65536 * c); unfold word4; lia. }
  rewrite E0, E1, E2, E3. rewrite N.div_mul by lia.
  replace (c * 65536 / 256) with (c * 2 ^ 8).
  2:{ change (2 ^ 8) with 256. replace (c * 65536) with (c * 256 * 256) by (rewrite <- N.mul_assoc; reflexivity). symmetry. apply N.div_mul. discriminate. }
  rewrite lor_disjoint by assumption. change (2 ^ 8) with 256.
  replace (a * 16777216) with (a * 2 ^ 24) by reflexivity. rewrite <- N.lor_assoc.
  rewrite (N.lor_comm (a * 2 ^ 24)). replace (b * 256 * 256) with (b * 2 ^ 16) by (rewrite <- N.mul_assoc; reflexivity).
  rewrite N.lor_assoc. rewrite (@lor_disjoint (d + c * 256) b 16) by (change (2 ^ 16) with 65536; lia). change (2 ^ 16) with 65536.
  rewrite lor_disjoint by (change (2 ^ 24) with 16777216; lia). change (2 ^ 24) with 16777216. unfold word4. lia.
Qed.
Lemma swap2_word a b : a < 256 -> b < 256 -> swap_helper2 (a + 256 * b) = b + 256 * a.
Proof.
  intros Ha Hb. unfold swap_helper2. change 255 with (N.ones 8). change 65280 with (N.shiftl (N.ones 8) 8).
  rewrite land_field, N.land_ones, N.shiftl_mul_pow2, N.shiftr_div_pow2. change (2 ^ 8) with 256.
  rewrite N.div_mul by lia.
  replace ((a + 256 * b) / 256) with b by (apply N.div_unique with a; lia).
  replace ((a + 256 * b) mod 256) with a by (apply N.mod_unique with b; lia).
  rewrite (N.mod_small b) by assumption. change 256 with (2 ^ 8) at 1. rewrite lor_disjoint by assumption. change (2 ^ 8) with 256. lia.
Qed.
Lemma word4_lt a b c d : a < 256 -> b < 256 -> c < 256 -> d < 256 -> word4 a b c d < 4294967296.
Proof. unfold word4. lia. Qed.
Lemma swap8_word l h : l < 4294967296 -> h < 4294967296 -> swap_helper4 l < 4294967296 -> swap_helper4 h < 4294967296 ->
  swap_helper8 (l + 4294967296 * h) = swap_helper4 h + 4294967296 * swap_helper4 l.
Proof.
  intros Hl Hh Hl' Hh'. unfold swap_helper8. change 4294967295 with (N.ones 32).
  rewrite N.land_ones, N.shiftr_div_pow2, N.shiftl_mul_pow2. change (2 ^ 32) with 4294967296.
  replace ((l + 4294967296 * h) mod 4294967296) with l by (apply N.mod_unique with h; lia).
  replace ((l + 4294967296 * h) / 4294967296) with h by (apply N.div_unique with l; lia).
  rewrite (N.mod_small h) by assumption. rewrite N.lor_comm. change 4294967296 with (2 ^ 32) at 1.
  rewrite lor_disjoint by assumption. change (2 ^ 32) with 4294967296. lia.
Qed.

Lemma le_bytes_val bs : Forall is8 bs -> le_bytes (length bs) (le_val bs) = bs.
Proof.
  induction 1 as [|b r Hb Hr IH]; [reflexivity|]. cbn [length le_bytes le_val]. unfold is8 in Hb. rewrite (N.mod_small b) by assumption.
  f_equal.
  - symmetry. apply N.mod_unique with (le_val r); lia.
  - replace ((b + 256 * le_val r) / 256) with (le_val r) by (apply N.div_unique with b; lia). exact IH.
Qed.

Ltac forall_inv H := repeat match type of H with Forall _ (_ :: _) => let a := fresh "H8" in inversion H as [|? ? a ?]; subst; clear H; match goal with K : Forall _ _ |- _ => rename K into H end; unfold is8 in a end.

Lemma le_val4 a b c d : a < 256 -> b < 256 -> c < 256 -> d < 256 -> le_val [a; b; c; d] = word4 a b c d.
Proof. intros. cbn [le_val]. rewrite !N.mod_small by assumption. unfold word4. lia. Qed.

Lemma swap_word_rev n bs : In n [1; 2; 4; 8] -> lenN bs = n -> Forall is8 bs -> endian_swap_word n bs = rev bs.
Proof.
  intros Hn L H. assert (R : Forall is8 (rev bs)) by (apply Forall_rev; exact H).
  unfold endian_swap_word. rewrite <- (le_bytes_val R), rev_length.
  replace (N.to_nat n) with (length bs) by (unfold lenN in L; lia). f_equal.
  assert (L' : length bs = N.to_nat n) by (unfold lenN in L; lia).
  destruct Hn as [<-|[<-|[<-|[<-|[]]]]]; change (N.to_nat 1) with 1%nat in L'; change (N.to_nat 2) with 2%nat in L';
    change (N.to_nat 4) with 4%nat in L'; change (N.to_nat 8) with 8%nat in L'.
  - destruct bs as [|a [|]]; try discriminate. reflexivity.
  - destruct bs as [|a [|b [|]]]; try discriminate. cbn [rev app]. clear R L'. cbn [swap_helper].
    inversion H as [|? ? Ha H1]; subst. inversion H1 as [|? ? Hb _]; subst. unfold is8 in *.
    cbn [le_val]. rewrite !N.mod_small by assumption. rewrite N.mul_0_r, !N.add_0_r. apply swap2_word; assumption.
  - destruct bs as [|a [|b [|c [|d [|]]]]]; try discriminate. cbn [rev app]. clear R L'. cbn [swap_helper].
    inversion H as [|? ? Ha H1]; subst. inversion H1 as [|? ? Hb H2]; subst. inversion H2 as [|? ? Hc H3]; subst. inversion H3 as [|? ? Hd _]; subst.
    unfold is8 in *. rewrite !le_val4 by assumption. apply swap4_word; assumption.
  - destruct bs as [|a [|b [|c [|d [|e [|f [|g [|i [|]]]]]]]]]; try discriminate. cbn [rev app]. clear R L'. cbn [swap_helper].
    inversion H as [|? ? Ha H1]; subst. inversion H1 as [|? ? Hb H2]; subst. inversion H2 as [|? ? Hc H3]; subst. inversion H3 as [|? ? Hd H4]; subst.
    inversion H4 as [|? ? He H5]; subst. inversion H5 as [|? ? Hf H6]; subst. inversion H6 as [|? ? Hg H7]; subst. inversion H7 as [|? ? Hi _]; subst.
    unfold is8 in *.
    assert (K : forall a b c d e f g i, a < 256 -> b < 256 -> c < 256 -> d < 256 -> e < 256 -> f < 256 -> g < 256 -> i < 256 ->
              le_val [a; b; c; d; e; f; g; i] = word4 a b c d + 4294967296 * word4 e f g i).
    { clear. intros. cbn [le_val]. rewrite !N.mod_small by assumption. unfold word4. lia. }
    rewrite !K by assumption. rewrite swap8_word; rewrite ?swap4_word by assumption; try (apply word4_lt; assumption). reflexivity.
Qed.

(** ** Values *)
Lemma octets_app a b : octets (a ++ b) <-> octets a /\ octets b.
Proof. unfold octets. apply Forall_app. Qed.
Lemma octets_map bs : octets (map B bs) <-> Forall is8 bs.
Proof. unfold octets. rewrite Forall_map. reflexivity. Qed.
Lemma octets_vec s cap cs : octets (put_obj s (VecObj cap cs)) <-> octets cs.
Proof.
  unfold put_obj, octets. split.
  - intros H. inversion H as [|? ? Ho _]; subst. simpl in Ho. induction cs as [|c cs IH]; constructor; try tauto.
    apply IH; [|tauto]. inversion H; subst. constructor; [simpl; tauto|assumption].
  - intros H. constructor.
    + simpl. induction H; auto.
    + apply Forall_forall. unfold repN. intros x Hx. apply repeat_spec in Hx. subst x. exact I.
Qed.
Lemma octets_str s bs : octets (put_obj s (StrObj bs)) <-> Forall is8 bs.
Proof.
  unfold put_obj, octets. split.
  - intros H. inversion H; subst. assumption.
  - intros H. constructor; [exact H|]. apply Forall_forall. unfold repN. intros x Hx. apply repeat_spec in Hx. subst x. exact I.
Qed.
Lemma octets_concat ms : octets (concat ms) <-> Forall octets ms.
Proof.
  induction ms as [|m ms IH]; simpl; [split; constructor|]. rewrite octets_app, IH. split; [intros []; constructor; assumption|].
  intros H; inversion H; auto.
Qed.

Lemma existsb_In n l : existsb (N.eqb n) l = true -> In n l.
Proof. intros H. apply existsb_exists in H as (x & Hx & E). apply N.eqb_eq in E. subst. assumption. Qed.
Lemma swappable_num n c : swappable (TNum n c) = true -> num_supported n c = true /\ In n [1; 2; 4; 8].
Proof.
  intros H. destruct c; cbn [swappable] in H; apply existsb_In in H as K;
    repeat (destruct K as [<-|K]; [split; [reflexivity|simpl; auto]|]); destruct K.
Qed.

Lemma chain_of {A} (P : A -> Prop) (R : A -> unit -> A -> unit -> Prop) (Q : A -> A -> Prop) xs :
  (forall x, P x -> exists y, R x tt y tt /\ Q x y) -> Forall P xs -> exists ys, chain R xs tt ys tt /\ Forall2 Q xs ys.
Proof.
  intros H. induction 1 as [|x xs Hx Hxs (ys & C & F)]; [exists []; split; constructor|].
  destruct (H x Hx) as (y & Hr & Hq). exists (y :: ys). split; econstructor; eauto.
Qed.

Lemma swap_trav :
  (forall t, wf t -> swappable t = true -> forall m, valid t m -> octets m ->
     exists m', trav swap_visitor t m tt m' tt /\ swapped t m m') /\
  (forall fs cur sz, wf_fields fs cur sz -> swappable_fields fs = true -> forall m, valid_fields fs cur sz m -> octets m ->
     exists m', trav_fields swap_visitor fs cur sz m tt m' tt /\ swapped_fields fs cur sz m m').
Proof.
  apply ty_fields_ind; try (simpl; intros; discriminate).
  - intros n c _ Hs m (bs & L & ->) Ho. apply octets_map in Ho. apply swappable_num in Hs as [Hs Hi].
    exists (map B (rev bs)). split; [|exists bs; auto]. split; [assumption|]. exists bs, (rev bs).
    repeat split; try assumption; [unfold lenN in *; rewrite rev_length; assumption|]. cbn. rewrite swap_word_rev by assumption. reflexivity.
  - intros n vs _ Hs m (bs & L & ->) Ho. apply octets_map in Ho. simpl in Hs. apply N.eqb_eq in Hs. subst n.
    exists (map B (rev bs)). split; [|exists bs; auto]. split; [reflexivity|]. exists bs, (rev bs).
    repeat split; try assumption; [unfold lenN in *; rewrite rev_length; exact L|]. cbn [vh_enum swap_visitor].
    rewrite swap_word_rev; try assumption; [reflexivity|unfold enum_size; simpl; auto].
  - intros sz d e IH (_ & -> & _ & _ & He) Hs m (ms & L & -> & Hv) Ho. apply octets_concat in Ho. simpl in Hs.
    destruct (@chain_of _ (fun x => valid e x /\ octets x) (trav swap_visitor e) (swapped e) ms) as (ys & C & F).
    + intros x [Hx Hx']. apply IH; assumption.
    + clear - Hv Ho. induction Hv; inversion Ho; subst; constructor; auto.
    + exists (concat ys). split; [exists ms, ys; auto|]. exists ms, ys. auto.
  - intros k sz e IH Hw Hs m Hv Ho. simpl in Hs. destruct k; cbn [valid] in Hv.
    + destruct Hv as (cap & ms & -> & Hv & _). apply octets_vec in Ho. apply octets_concat in Ho. destruct Hw as (_ & _ & _ & He).
      destruct (@chain_of _ (fun x => valid e x /\ octets x) (trav swap_visitor e) (swapped e) ms) as (ys & C & F).
      * intros x [Hx Hx']. apply IH; assumption.
      * clear - Hv Ho. induction Hv; inversion Ho; subst; constructor; auto.
      * exists (put_obj sz (VecObj cap (concat ys))). split; exists cap, ms, ys; auto.
    + destruct Hv as (bs & -> & _). apply octets_str in Ho. destruct Hw as (_ & _ & c & ->).
      exists (put_obj sz (StrObj bs)). split; [|exists bs; auto]. exists bs, bs. repeat split.
      apply swappable_num in Hs as [Hs _]. clear - Ho Hs. induction Ho as [|b bs Hb _ IHb]; econstructor; [|exact IHb].
      split; [assumption|]. exists [b], [b]. repeat split. cbn [vh_num swap_visitor]. rewrite swap_word_rev; [reflexivity|simpl; auto|reflexivity|].
      constructor; [assumption|constructor].
  - intros sz fs IH (_ & Hw) Hs m Hv Ho. apply (IH _ _ Hw Hs m Hv Ho).
  - intros cur sz _ _ m Hv Ho. exists m. apply bytes_len in Hv. repeat split; assumption.
  - intros nm off t IHt r IHr cur sz (Hc & Hw & Hwr) Hs m (p & a & b & -> & Bp & Va & Vb) Ho.
    simpl in Hs. apply andb_true_iff in Hs as [Hs1 Hs2]. rewrite !octets_app in Ho. destruct Ho as (Op & Oa & Ob).
    destruct (IHt Hw Hs1 a Va Oa) as (a' & Ta & Sa). destruct (IHr _ _ Hwr Hs2 b Vb Ob) as (b' & Tb & Sb).
    exists (p ++ a' ++ b'). apply bytes_len in Bp. split.
    + exists p, a, b, a', b', tt. auto.
    + exists p, a, b, a', b'. auto 10.
Qed.

Lemma endian_swap_ok t m : wf t -> swappable t = true -> valid t m -> octets m ->
  exists m', conv (fun f => endian_swap f t m) (Ok m') /\ swapped t m m'.
Proof.
  intros Hw Hs Hv Ho. destruct (proj1 swap_trav t Hw Hs m Hv Ho) as (m' & T & S). exists m'. split; [|assumption].
  unfold endian_swap, apply_visitor.
  assert (V := proj1 (@vvisit_ok _ swap_visitor (fun _ _ _ _ _ => eq_refl)) t Hw m tt m' tt [] [] T).
  rewrite !app_nil_r in V. eapply conv_bind; [eapply conv_bind; [exact V|cbn; apply conv_const]|]. cbn. apply conv_const.
Qed.

(** ** swapped is functional and symmetric *)
Lemma swapped_sym :
  (forall t m m', swapped t m m' -> swapped t m' m) /\
  (forall fs cur s m m', swapped_fields fs cur s m m' -> swapped_fields fs cur s m' m).
Proof.
  apply ty_fields_ind; try (simpl; intros; contradiction).
  - intros n c m m' (bs & L & -> & ->). exists (rev bs). rewrite rev_involutive. unfold lenN in *. rewrite rev_length. auto.
  - intros n c m m' (bs & L & -> & ->). exists (rev bs). rewrite rev_involutive. unfold lenN in *. rewrite rev_length. auto.
  - intros sz d e IH m m' (xs & ys & L & -> & -> & F). exists ys, xs. rewrite <- (F2_lenN F). repeat split; auto.
    apply F2_flip in F. eapply F2_impl; [|exact F]. auto.
  - intros [|] sz e IH m m' H; cbn [swapped] in *.
    + destruct H as (cap & xs & ys & -> & -> & F). exists cap, ys, xs. repeat split. apply F2_flip in F. eapply F2_impl; [|exact F]. auto.
    + destruct H as (bs & -> & ->). exists bs. auto.
  - intros sz fs IH m m' H. apply IH. exact H.
  - intros cur s m m' (L & ->). split; auto.
  - intros nm off t IHt r IHr cur s m m' (p & x & y & z & w & -> & -> & L & Hx & Hy). exists p, z, w, x, y. auto 10.
Qed.

Lemma swapped_len :
  (forall t, wf t -> forall m m', swapped t m m' -> lenN m = sizeof t /\ lenN m' = sizeof t) /\
  (forall fs cur sz, wf_fields fs cur sz -> forall m m', swapped_fields fs cur sz m m' -> lenN m = sz - cur /\ lenN m' = sz - cur /\ cur <= sz).
Proof.
  apply ty_fields_ind; try (simpl; intros; contradiction).
  - intros n c _ m m' (bs & L & -> & ->). unfold lenN in *. rewrite !map_length, rev_length. auto.
  - intros n c _ m m' (bs & L & -> & ->). unfold lenN in *. rewrite !map_length, rev_length. auto.
  - intros sz d e IH (_ & -> & _ & _ & He) m m' (xs & ys & <- & -> & -> & F). cbn [sizeof].
    induction F as [|x y xs ys Hx F [I1 I2]]; [split; reflexivity|]. destruct (IH He _ _ Hx).
    cbn [concat]. rewrite !lenN_app, lenN_cons. nia.
  - intros k sz e IH Hw m m' H. assert (Hs := wf_cont_size Hw). destruct k; cbn [swapped] in H.
    + destruct H as (cap & xs & ys & -> & -> & _). rewrite !put_obj_len by assumption. auto.
    + destruct H as (bs & -> & ->). rewrite !put_obj_len by assumption. auto.
  - intros sz fs IH (_ & Hw) m m' H. destruct (IH _ _ Hw _ _ H) as (L1 & L2 & _). cbn [sizeof]. lia.
  - intros cur sz Hw m m' (L & ->). simpl in Hw. lia.
  - intros nm off t IHt r IHr cur sz (Ho & Hw & Hwr) m m' (p & x & y & z & w & -> & -> & Lp & Hx & Hy).
    destruct (IHt Hw _ _ Hx) as [L1 L2]. destruct (IHr _ _ Hwr _ _ Hy) as (L3 & L4 & L5). rewrite !lenN_app. lia.
Qed.

Lemma app_eq_len {A} (a b c d : list A) : a ++ b = c ++ d -> lenN a = lenN c -> a = c /\ b = d.
Proof.
  intros H L. assert (L' : length a = length c) by (unfold lenN in L; lia). clear L. revert c L' H.
  induction a as [|x a IH]; intros [|y c] L' H; try discriminate; [auto|]. simpl in *. injection H as -> H. injection L' as L'.
  destruct (IH _ L' H) as [-> ->]. auto.
Qed.
Lemma put_obj_inj s o o' : put_obj s o = put_obj s o' -> o = o'.
Proof. unfold put_obj. congruence. Qed.
Lemma map_B_inj a b : map B a = map B b -> a = b.
Proof. revert b. induction a as [|x a IH]; intros [|y b] H; try discriminate; [reflexivity|]. injection H as -> H. f_equal. auto. Qed.

Lemma swapped_list_fun e es : 1 <= es -> (forall x y, swapped e x y -> lenN x = es) ->
  (forall x y y', swapped e x y -> swapped e x y' -> y = y') ->
  forall xs ys xs' ys', Forall2 (swapped e) xs ys -> Forall2 (swapped e) xs' ys' -> concat xs = concat xs' -> concat ys = concat ys'.
Proof.
  intros He HL HF xs ys xs' ys' F. revert xs' ys'. induction F as [|x y xs ys Hx F IH]; intros xs' ys' F' E.
  - destruct F' as [|x' y' xs' ys' Hx' F']; [reflexivity|]. exfalso. apply (f_equal lenN) in E. cbn [concat] in E.
    rewrite lenN_app, (HL _ _ Hx'), lenN_nil in E. lia.
  - destruct F' as [|x' y' xs' ys' Hx' F']; [exfalso; apply (f_equal lenN) in E; cbn [concat] in E; rewrite lenN_app, (HL _ _ Hx), lenN_nil in E; lia|].
    cbn [concat] in *. apply app_eq_len in E as [-> E]; [|rewrite (HL _ _ Hx), (HL _ _ Hx'); reflexivity].
    rewrite (HF _ _ _ Hx Hx'). rewrite (IH _ _ F' E). reflexivity.
Qed.

Lemma swapped_fun :
  (forall t, wf t -> forall m a b, swapped t m a -> swapped t m b -> a = b) /\
  (forall fs cur sz, wf_fields fs cur sz -> forall m a b, swapped_fields fs cur sz m a -> swapped_fields fs cur sz m b -> a = b).
Proof.
  apply ty_fields_ind; try (simpl; intros; contradiction).
  - intros n c _ m a b (bs & L & -> & ->) (bs' & _ & E & ->). apply map_B_inj in E. subst. reflexivity.
  - intros n c _ m a b (bs & L & -> & ->) (bs' & _ & E & ->). apply map_B_inj in E. subst. reflexivity.
  - intros sz d e IH (_ & -> & _ & He1 & He) m a b (xs & ys & _ & -> & -> & F) (xs' & ys' & _ & E & -> & F').
    apply (@swapped_list_fun e (sizeof e) He1 (fun x y H => proj1 (proj1 swapped_len e He x y H)) (IH He) _ _ _ _ F F' E).
  - intros k sz e IH Hw m a b Ha Hb. destruct k; cbn [swapped] in *.
    + destruct Hw as (_ & _ & He1 & He).
      destruct Ha as (cap & xs & ys & -> & -> & F), Hb as (cap' & xs' & ys' & E & -> & F'). apply put_obj_inj in E.
      injection E as -> E. rewrite (@swapped_list_fun e (sizeof e) He1 (fun x y H => proj1 (proj1 swapped_len e He x y H)) (IH He) _ _ _ _ F F' E). reflexivity.
    + destruct Ha as (bs & -> & ->), Hb as (bs' & E & ->). reflexivity.
  - intros sz fs IH (_ & Hw) m a b Ha Hb. apply (IH _ _ Hw m); assumption.
  - intros cur sz _ m a b (_ & ->) (_ & ->). reflexivity.
  - intros nm off t IHt r IHr cur sz (Ho & Hw & Hwr) m a b (p & x & y & z & w & -> & -> & Lp & Hx & Hy)
      (p' & x' & y' & z' & w' & E & -> & Lp' & Hx' & Hy').
    apply app_eq_len in E as [-> E]; [|lia]. apply app_eq_len in E as [-> ->].
    2:{ rewrite (proj1 (proj1 swapped_len t Hw _ _ Hx)), (proj1 (proj1 swapped_len t Hw _ _ Hx')). reflexivity. }
    rewrite (IHt Hw _ _ _ Hx Hx'), (IHr _ _ Hwr _ _ _ Hy Hy'). reflexivity.
Qed.

(** The swapped value is a valid value made of octets. *)
Lemma swapped_valid :
  (forall t, wf t -> forall m m', swapped t m m' -> valid t m -> octets m -> valid t m' /\ octets m') /\
  (forall fs cur sz, wf_fields fs cur sz -> forall m m', swapped_fields fs cur sz m m' -> valid_fields fs cur sz m -> octets m ->
     valid_fields fs cur sz m' /\ octets m').
Proof.
  apply ty_fields_ind; try (simpl; intros; contradiction).
  - intros n c _ m m' (bs & L & -> & ->) _ Ho. apply octets_map in Ho. split.
    + exists (rev bs). unfold lenN in *. rewrite rev_length. auto.
    + apply octets_map. apply Forall_rev. assumption.
  - intros n c _ m m' (bs & L & -> & ->) _ Ho. apply octets_map in Ho. split.
    + exists (rev bs). unfold lenN in *. rewrite rev_length. auto.
    + apply octets_map. apply Forall_rev. assumption.
  - intros sz d e IH (_ & -> & _ & He1 & He) m m' (xs & ys & L & -> & -> & F) (ms & L2 & E & Hv) Ho.
    apply octets_concat in Ho.
    assert (K : xs = ms).
    { clear - E F Hv He He1. revert ms E Hv. induction F as [|x y xs ys Hx F IHF]; intros ms E Hv.
      - destruct Hv as [|x' ms Hx' Hv]; [reflexivity|]. exfalso. apply (f_equal lenN) in E. cbn [concat] in E.
        rewrite lenN_app, (proj1 valid_len e He _ Hx'), lenN_nil in E. lia.
      - destruct (proj1 swapped_len e He _ _ Hx) as [Lx _].
        destruct Hv as [|x' ms Hx' Hv]; cbn [concat] in E.
        + exfalso. apply (f_equal lenN) in E. rewrite lenN_app, lenN_nil in E. lia.
        + apply app_eq_len in E as [-> E]; [|rewrite Lx, (proj1 valid_len e He _ Hx'); reflexivity]. f_equal. auto. }
    subst ms. assert (K : Forall (fun y => valid e y /\ octets y) ys).
    { clear - IH He F Hv Ho. induction F as [|x y xs ys Hx F IHF]; [constructor|]. inversion Hv as [|? ? V1 V2]; subst. inversion Ho as [|? ? O1 O2]; subst. constructor; [apply (IH He _ _ Hx V1 O1)|apply IHF; assumption]. }
    split.
    + exists ys. rewrite <- (F2_lenN F). repeat split; auto. eapply Forall_impl; [|exact K]. simpl. tauto.
    + apply octets_concat. eapply Forall_impl; [|exact K]. simpl. tauto.
  - intros k sz e IH Hw m m' H Hv Ho. destruct k; cbn [swapped] in H; cbn [valid] in Hv.
    + destruct Hw as (_ & _ & He1 & He). destruct H as (cap & xs & ys & -> & -> & F), Hv as (cap' & ms & E & Hv & C1 & C2).
      apply put_obj_inj in E. injection E as <- E. apply octets_vec, octets_concat in Ho.
      assert (K : xs = ms).
      { clear - E F Hv He He1. revert ms E Hv. induction F as [|x y xs ys Hx F IHF]; intros ms E Hv.
        - destruct Hv as [|x' ms Hx' Hv]; [reflexivity|]. exfalso. apply (f_equal lenN) in E. cbn [concat] in E.
          rewrite lenN_app, (proj1 valid_len e He _ Hx'), lenN_nil in E. lia.
        - destruct (proj1 swapped_len e He _ _ Hx) as [Lx _].
          destruct Hv as [|x' ms Hx' Hv]; cbn [concat] in E.
          + exfalso. apply (f_equal lenN) in E. rewrite lenN_app, lenN_nil in E. lia.
          + apply app_eq_len in E as [-> E]; [|rewrite Lx, (proj1 valid_len e He _ Hx'); reflexivity]. f_equal. auto. }
      subst ms. assert (K : Forall (fun y => valid e y /\ octets y) ys).
      { clear - IH He F Hv Ho. induction F as [|x y xs ys Hx F IHF]; [constructor|]. inversion Hv as [|? ? V1 V2]; subst. inversion Ho as [|? ? O1 O2]; subst. constructor; [apply (IH He _ _ Hx V1 O1)|apply IHF; assumption]. }
      assert (Ky : Forall (valid e) ys) by (eapply Forall_impl; [|exact K]; simpl; tauto).
      split.
      * exists cap, ys. repeat split; auto. rewrite (concat_len He Ky), <- (F2_lenN F), <- (concat_len He Hv). assumption.
      * apply octets_vec, octets_concat. eapply Forall_impl; [|exact K]. simpl. tauto.
    + destruct H as (bs & -> & ->). auto.
  - intros sz fs IH (_ & Hw) m m' H Hv Ho. apply (IH _ _ Hw m m'); assumption.
  - intros cur sz _ m m' (_ & ->) Hv Ho. auto.
  - intros nm off t IHt r IHr cur sz (Ho & Hw & Hwr) m m' (p & x & y & z & w & -> & -> & Lp & Hx & Hy)
      (p' & x' & y' & E & Bp & Vx & Vy) Oc. rewrite !octets_app in Oc. destruct Oc as (Op & Ox & Oy).
    apply app_eq_len in E as [<- E]; [|rewrite (bytes_len Bp); lia]. apply app_eq_len in E as [<- <-].
    2:{ rewrite (proj1 (proj1 swapped_len t Hw _ _ Hx)), (proj1 valid_len t Hw _ Vx). reflexivity. }
    destruct (IHt Hw _ _ Hx Vx Ox), (IHr _ _ Hwr _ _ Hy Vy Oy). split.
    + exists p, z, w. auto.
    + rewrite !octets_app. auto.
Qed.
