(** * InitProofs: the initialisation bytecode, expanded byte per byte. *)
From Verif Require Import Base Types WellFormed Layout LayoutProofs LayoutMain.
Local Open Scope N_scope.

Inductive sinit :=
| INil
| IData (bs : list N) (r : sinit)
| ISkip (n : N) (r : sinit)
| IRep (n : N) (b r : sinit)
| ICont (k : ckind) (s : N) (e : ty) (r : sinit).

Fixpoint iflat (o : sinit) : list word :=
  match o with
  | INil => []
  | IData bs r => W FLAG_INIT :: W (lenN bs) :: map W bs ++ iflat r
  | ISkip n r => W FLAG_INIT_SKIP :: W n :: iflat r
  | IRep n b r => W FLAG_INIT_REPEAT :: W n :: iflat b ++ W FLAG_INIT_END :: iflat r
  | ICont k s e r => W FLAG_INIT_CONTAINER :: WC k s e :: iflat r
  end.
Fixpoint iapp (a b : sinit) : sinit :=
  match a with
  | INil => b
  | IData n r => IData n (iapp r b)
  | ISkip n r => ISkip n (iapp r b)
  | IRep n c r => IRep n c (iapp r b)
  | ICont k s e r => ICont k s e (iapp r b)
  end.
Lemma iflat_iapp a b : iflat (iapp a b) = iflat a ++ iflat b.
Proof.
  induction a as [|n r IH|n r IH|n c IHc r IH|k s e r IH]; simpl; auto; try (now rewrite IH);
    rewrite IH; rewrite <- app_assoc; reflexivity.
Qed.

Inductive iatom := IKeep | ISet (b : N) | INew (k : ckind) (s : N) (e : ty).
Fixpoint iatoms (o : sinit) : list iatom :=
  match o with
  | INil => []
  | IData bs r => map ISet bs ++ iatoms r
  | ISkip n r => repN n IKeep ++ iatoms r
  | IRep n b r => rep_list n (iatoms b) ++ iatoms r
  | ICont k s e r => INew k s e :: iatoms r
  end.
Lemma iatoms_iapp a b : iatoms (iapp a b) = iatoms a ++ iatoms b.
Proof.
  induction a as [|n r IH|n r IH|n c IHc r IH|k s e r IH]; simpl; auto;
    rewrite IH; rewrite ?app_assoc; reflexivity.
Qed.

(** The raw init bytecode of a type. *)
Fixpoint riops (t : ty) : sinit :=
  match t with
  | TNull => INil
  | TOpaque n | TNum n _ | TPtr n => ISkip n INil
  | TEnum n vs => match enum_init n vs with [] => ISkip n INil | d => IData d INil end
  | TArray _ d e => IRep d (riops e) INil
  | TCont k s e => ICont k s e INil
  | TComp sz fs => rifields fs 0 sz
  end
with rifields (fs : fields) (cur sz : N) : sinit :=
  match fs with
  | FNil => ISkip (sz - cur) INil
  | FCons _ off t r => ISkip (off - cur) (iapp (riops t) (rifields r (off + sizeof t) sz))
  end.
Definition tiatoms (t : ty) : list iatom := iatoms (riops t).

Lemma push_memcpy_iops n d l l' : push_memcpy n d l = Ok l' ->
  iops l' = iops l ++ iflat (match d with [] => ISkip n INil | d => IData d INil end).
Proof.
  unfold push_memcpy. destruct d as [|x d]; intros H.
  - inversion H; reflexivity.
  - destruct (negb (n =? lenN (x :: d))); [discriminate|]. inversion H. cbn [push_init iops iflat].
    rewrite app_nil_r. reflexivity.
Qed.

Lemma visit_riops :
  (forall t, wf t -> forall ap l l', visit ap false t l = Ok l' -> iops l' = iops l ++ iflat (riops t)) /\
  (forall fs, forall ap cur sz l l' cur', wf_fields fs cur sz -> sz < two64 ->
     visit_fields ap false fs cur l = Ok (l', cur') ->
     cur' <= sz /\ exists w, iops l' = iops l ++ w /\ w ++ [W FLAG_INIT_SKIP; W (sz - cur')] = iflat (rifields fs cur sz)).
Proof.
  apply ty_fields_ind.
  - discriminate.
  - discriminate.
  - intros n c _ ap l l' H. cbn [visit] in H. apply push_memcpy_iops in H. exact H.
  - intros n vs _ ap l l' H. cbn [visit] in H. destruct (8 <? n); [discriminate|].
    apply push_memcpy_iops in H. rewrite H. cbn [riops]. destruct (enum_init n vs); reflexivity.
  - intros n _ ap l l' H. cbn [visit] in H. destruct ap; [|discriminate]. apply push_memcpy_iops in H. exact H.
  - intros s d e IH (_ & _ & _ & _ & He) ap l l' H. cbn [visit] in H.
    destruct (visit false false e empty_layout) as [sub| | |] eqn:E; try discriminate.
    inversion H; subst. cbn [push_array iops]. apply (IH He) in E. rewrite E. cbn [riops iflat]. reflexivity.
  - intros k s e IH Hw ap l l' H. cbn [visit] in H.
    destruct (visit false false e empty_layout) as [sub| | |] eqn:E; try discriminate.
    inversion H; subst. reflexivity.
  - intros sz fs IH [Hlt Hw] ap l l' H. cbn [visit] in H.
    destruct (visit_fields ap false fs 0 l) as [[l1 cur']| | |] eqn:E; try discriminate.
    cbn [bind] in H. inversion H; subst. destruct (IH _ _ _ _ _ _ Hw Hlt E) as (Hc & w & E1 & E2).
    simpl in Hlt. cbn [push_skip push_init_skip iops]. rewrite E1, wsub_small by lia.
    rewrite <- app_assoc, E2. reflexivity.
  - intros ap cur sz l l' cur' Hw Hlt H. cbn [visit_fields] in H. inversion H; subst.
    split; [exact Hw|]. exists []. rewrite app_nil_r. auto.
  - intros nm off t IHt fs IHf ap cur sz l l' cur' (Hle & Ht & Hf) Hlt H. cbn [visit_fields] in H.
    destruct (visit ap false t (push_skip (wsub off cur) l)) as [l1| | |] eqn:E; try discriminate.
    cbn [bind] in H. assert (Hb := wf_fields_le Hf). rewrite wadd_small in H by lia.
    apply (IHt Ht) in E. destruct (IHf _ _ _ _ _ _ Hf Hlt H) as (Hc & w & E1 & E2).
    split; [assumption|]. exists ([W FLAG_INIT_SKIP; W (off - cur)] ++ iflat (riops t) ++ w). split.
    + rewrite E1, E. cbn [push_skip push_init_skip iops]. rewrite wsub_small by lia. rewrite !app_assoc. reflexivity.
    + cbn [rifields iflat]. rewrite iflat_iapp, <- E2, <- !app_assoc. reflexivity.
Qed.

(** Sizes. *)
Definition iasize (a : iatom) : N := match a with IKeep | ISet _ => 1 | INew _ s _ => s end.
Fixpoint iasizes (l : list iatom) : N := match l with [] => 0 | a :: r => iasize a + iasizes r end.
Lemma iasizes_app a b : iasizes (a ++ b) = iasizes a + iasizes b.
Proof. induction a as [|x a IH]; simpl; [reflexivity|]. rewrite IH. lia. Qed.
Lemma iasizes_repN n a : iasizes (repN n a) = n * iasize a.
Proof.
  induction n as [|n IH] using N.peano_ind; [reflexivity|].
  replace (N.succ n) with (1 + n) by lia. rewrite repN_add, iasizes_app, IH.
  change (iasizes (repN 1 a)) with (iasize a + 0). lia.
Qed.
Lemma iasizes_set bs : iasizes (map ISet bs) = lenN bs.
Proof. induction bs as [|b bs IH]; [reflexivity|]. cbn [map iasizes iasize]. rewrite IH, lenN_cons. reflexivity. Qed.
Lemma iasizes_rep_list n l : iasizes (rep_list n l) = n * iasizes l.
Proof.
  induction n as [|n IH] using N.peano_ind; [reflexivity|].
  rewrite rep_list_S, iasizes_app, IH. lia.
Qed.
Lemma enum_iatoms n vs :
  lenN (iatoms (riops (TEnum n vs))) = n /\ iasizes (iatoms (riops (TEnum n vs))) = n.
Proof.
  cbn [riops]. assert (H := enum_init_len n vs). destruct (enum_init n vs) as [|x d].
  - cbn [iatoms]. rewrite app_nil_r, lenN_repN, iasizes_repN. cbn [iasize]. lia.
  - destruct H as [H|H]; [discriminate|]. cbn [iatoms]. rewrite app_nil_r, iasizes_set.
    unfold lenN in *. rewrite map_length. lia.
Qed.
Lemma tiatoms_size :
  (forall t, wf t -> iasizes (tiatoms t) = sizeof t /\ lenN (tiatoms t) = lenN (tatoms t)) /\
  (forall fs cur sz, wf_fields fs cur sz -> iasizes (iatoms (rifields fs cur sz)) = sz - cur /\
      lenN (iatoms (rifields fs cur sz)) = lenN (atoms (rfields fs cur sz))).
Proof.
  unfold tiatoms, tatoms. apply ty_fields_ind.
  - intros _; split; reflexivity.
  - intros n _; simpl. rewrite !app_nil_r, iasizes_repN, !lenN_repN. simpl; lia.
  - intros n c _; simpl. rewrite !app_nil_r, iasizes_repN, !lenN_repN. simpl; lia.
  - intros n vs _. destruct (enum_iatoms n vs) as [-> ->]. simpl. rewrite app_nil_r, lenN_repN. auto.
  - intros n _; simpl. rewrite !app_nil_r, iasizes_repN, !lenN_repN. simpl; lia.
  - intros s d e IH (_ & Hs & _ & _ & He). subst s. simpl. rewrite !app_nil_r, iasizes_rep_list, !lenN_rep_list.
    destruct (IH He) as [-> ->]. auto.
  - intros k s e IH _. simpl. split; [lia|reflexivity].
  - intros sz fs IH [_ Hw]. simpl. destruct (IH _ _ Hw) as [-> ->]. split; [lia|reflexivity].
  - intros cur sz Hw. simpl. rewrite !app_nil_r, iasizes_repN, !lenN_repN. simpl; lia.
  - intros nm off t IHt fs IHf cur sz (Hle & Ht & Hf). cbn [rifields rfields iatoms atoms].
    rewrite iatoms_iapp, atoms_sapp, !iasizes_app, iasizes_repN, !lenN_app, !lenN_repN.
    destruct (IHt Ht) as [-> ->]. destruct (IHf _ _ Hf) as [-> ->]. assert (X := wf_fields_le Hf).
    simpl; lia.
Qed.

Definition is8 (b : N) : Prop := b < 256.
Fixpoint wf_i (r : sinit) : Prop :=
  match r with
  | INil => True
  | IData bs r' => Forall is8 bs /\ wf_i r'
  | ISkip _ r' => wf_i r'
  | IRep n b r' => 1 <= n /\ 1 <= lenN (iatoms b) /\ wf_i b /\ wf_i r'
  | ICont k s e r' => 1 <= s /\ wf_i r'
  end.
(** The raw code: repetitions of no element only skip. *)
Fixpoint quiet (r : sinit) : bool :=
  match r with
  | INil => true
  | IData _ _ | ICont _ _ _ _ => false
  | ISkip _ r' => quiet r'
  | IRep _ b r' => quiet b && quiet r'
  end.
Fixpoint wf_ir (r : sinit) : Prop :=
  match r with
  | INil => True
  | IData bs r' => Forall is8 bs /\ wf_ir r'
  | ISkip _ r' => wf_ir r'
  | IRep n b r' => (1 <= n \/ quiet b = true) /\ 1 <= lenN (iatoms b) /\ lenN (iatoms b) < two64 /\ wf_ir b /\ wf_ir r'
  | ICont k s e r' => 1 <= s /\ wf_ir r'
  end.
Lemma wf_ir_iapp a b : wf_ir a -> wf_ir b -> wf_ir (iapp a b).
Proof. induction a; simpl; intuition. Qed.
Lemma solid_quiet t : solid t = true -> quiet (riops t) = true.
Proof. induction t; simpl; intros; auto; try discriminate. rewrite IHt by assumption. reflexivity. Qed.
Lemma wf_i_iapp a b : wf_i a -> wf_i b -> wf_i (iapp a b).
Proof. induction a; simpl; intuition. Qed.
Lemma le_bytes_is8 n v : Forall is8 (le_bytes n v).
Proof.
  revert v; induction n as [|n IH]; intros v; simpl; [constructor|]. constructor; [|apply IH].
  unfold is8. apply N.mod_lt. lia.
Qed.
Lemma enum_init_is8 n vs : Forall is8 (enum_init n vs).
Proof. destruct vs as [|[? v] ?]; simpl; [constructor|apply le_bytes_is8]. Qed.

Lemma riops_wf :
  (forall t, wf t -> wf_ir (riops t)) /\
  (forall fs cur sz, wf_fields fs cur sz -> wf_ir (rifields fs cur sz)).
Proof.
  apply ty_fields_ind.
  - intros _; exact I.
  - intros n _; exact I.
  - intros n c _; exact I.
  - intros n vs _. simpl. assert (H := enum_init_is8 n vs). destruct (enum_init n vs); simpl; auto.
  - intros n _; exact I.
  - intros s d e IH (_ & Hs & Hd & Hes & He). simpl.
    change (iatoms (riops e)) with (tiatoms e). rewrite (proj2 (proj1 tiatoms_size e He)).
    split; [destruct Hd as [Hd|Hd]; [left; assumption|right; apply solid_quiet; assumption]|].
    split; [apply (proj1 tatoms_ne); auto|]. split; [|auto].
    assert (X := proj1 tatoms_len e He). assert (sizeof e < two64) by (destruct e; simpl in *; tauto). lia.
  - intros k s e IH (_ & H). simpl. split; [|exact I]. destruct k; tauto.
  - intros sz fs IH [_ Hw]. simpl. auto.
  - intros; exact I.
  - intros nm off t IHt fs IHf cur sz (Hle & Ht & Hf). simpl. apply wf_ir_iapp; auto.
Qed.

Definition ipend (cnt : N) (data : list N) : list iatom := repN cnt IKeep ++ map ISet data.

Lemma take_words_ok bs rest : Forall is8 bs -> take_words (length bs) (map W bs ++ rest) = Ok (bs, rest).
Proof.
  induction bs as [|b bs IH]; intros H; simpl; [reflexivity|]. inversion H; subst.
  rewrite IH by assumption. simpl. rewrite N.mod_small by assumption. reflexivity.
Qed.

(** What is left to output as structured code. *)
Definition itail (cnt : N) (data : list N) : sinit :=
  if cnt =? 0 then match data with [] => INil | _ => IData data INil end else ISkip cnt INil.
Lemma push_init_opt_flat data out : push_init_opt data out = out ++ iflat (match data with [] => INil | d => IData d INil end).
Proof. unfold push_init_opt. destruct data; simpl; [now rewrite app_nil_r|]. now rewrite app_nil_r. Qed.
Lemma push_if_flat cnt out : push_if cnt FLAG_INIT_SKIP out = out ++ iflat (if cnt =? 0 then INil else ISkip cnt INil).
Proof. unfold push_if. destruct (cnt =? 0); simpl; [now rewrite app_nil_r|]. reflexivity. Qed.
Lemma itail_flat cnt data out : (cnt = 0 \/ data = []) ->
  push_if cnt FLAG_INIT_SKIP (push_init_opt data out) = out ++ iflat (itail cnt data).
Proof.
  intros H. unfold itail. rewrite push_if_flat, push_init_opt_flat.
  destruct (N.eqb_spec cnt 0) as [->|Hn].
  - simpl. rewrite app_nil_r. destruct data; reflexivity.
  - destruct H as [H| ->]; [contradiction|]. simpl. rewrite app_nil_r. reflexivity.
Qed.
Lemma itail_atoms cnt data : (cnt = 0 \/ data = []) -> iatoms (itail cnt data) = ipend cnt data.
Proof.
  intros H. unfold itail, ipend. destruct (N.eqb_spec cnt 0) as [->|Hn].
  - destruct data; simpl; [reflexivity|]. now rewrite app_nil_r.
  - destruct H as [H| ->]; [contradiction|]. reflexivity.
Qed.
Lemma itail_wf cnt data : Forall is8 data -> wf_i (itail cnt data).
Proof. intros H. unfold itail. destruct (cnt =? 0); [destruct data; simpl; auto|exact I]. Qed.

Lemma simp_init_end fuel shave rest cnt data out : (cnt = 0 \/ data = []) ->
  simp_init (S fuel) shave (W FLAG_INIT_END :: rest) cnt data out = Ok (W FLAG_INIT_END :: rest, out ++ iflat (itail cnt data)).
Proof.
  intros H. cbn [simp_init]. change (decode (W FLAG_INIT_END)) with OEnd. cbv iota.
  rewrite <- itail_flat by assumption. unfold push_if.
  destruct (N.eqb_spec cnt 0) as [->|Hn]; cbn [negb]; [reflexivity|].
  destruct H as [H| ->]; [contradiction|]. reflexivity.
Qed.

Lemma simp_init_ok r : forall shave cnt data out rest fuel,
  wf_ir r -> cnt + lenN (iatoms r) < two64 -> (cnt = 0 \/ data = []) -> Forall is8 data ->
  (length (iflat r ++ rest) < fuel)%nat ->
  exists o cnt' data' fuel', (length rest < fuel')%nat /\
    simp_init fuel shave (iflat r ++ rest) cnt data out = simp_init fuel' shave rest cnt' data' (out ++ iflat o) /\
    iatoms o ++ ipend cnt' data' = ipend cnt data ++ iatoms r /\
    (cnt' = 0 \/ data' = []) /\ Forall is8 data' /\ wf_i o /\
    (quiet r = true -> data = [] -> o = INil /\ data' = []).
Proof.
  induction r as [|bs r IH|n r IH|n b IHb r IH|k s e r IH]; intros shave cnt data out rest fuel Hw Hlt Hst Hd Hf.
  - exists INil, cnt, data, fuel. simpl in *. rewrite !app_nil_r. auto 10.
  - (* IData *)
    destruct fuel as [|fuel]; [simpl in Hf; lia|].
    destruct Hw as [Hbs Hw]. cbn [iatoms] in Hlt. rewrite lenN_app in Hlt.
    cbn [iflat app] in Hf |- *. cbn [simp_init]. change (decode (W FLAG_INIT)) with OMem. cbv iota.
    rewrite <- app_assoc. replace (N.to_nat (lenN bs)) with (length bs) by (unfold lenN; lia).
    rewrite take_words_ok by assumption. cbn [bind].
    destruct (IH shave 0 (data ++ bs) (push_if cnt FLAG_INIT_SKIP out) rest fuel) as (o & c' & d' & f' & Hf' & E1 & E2 & E3 & E4 & E5 & E6).
    { assumption. } { lia. } { left; reflexivity. } { apply Forall_app; auto. }
    { cbn [length] in Hf. rewrite <- app_assoc in Hf. rewrite app_length in Hf. lia. }
    exists (iapp (if cnt =? 0 then INil else ISkip cnt INil) o), c', d', f'.
    split; [assumption|]. split; [|split; [|split; [assumption|split; [assumption|split]]]].
    + rewrite E1, push_if_flat, iflat_iapp, app_assoc. reflexivity.
    + rewrite iatoms_iapp, <- app_assoc, E2. unfold ipend. cbn [iatoms]. rewrite repN_0, map_app. simpl ([] ++ _).
      destruct (N.eqb_spec cnt 0) as [->|Hn].
      * simpl. rewrite <- app_assoc. reflexivity.
      * destruct Hst as [H| ->]; [contradiction|]. simpl. rewrite !app_nil_r. reflexivity.
    + apply wf_i_iapp; [|assumption]. destruct (cnt =? 0); exact I.
    + discriminate.
  - (* ISkip *)
    destruct fuel as [|fuel]; [simpl in Hf; lia|].
    cbn [iatoms] in Hlt. rewrite lenN_app, lenN_repN in Hlt.
    cbn [iflat app] in Hf |- *. cbn [simp_init]. change (decode (W FLAG_INIT_SKIP)) with OSkip. cbv iota.
    rewrite wadd_small by lia.
    destruct (IH shave (cnt + n) [] (push_init_opt data out) rest fuel) as (o & c' & d' & f' & Hf' & E1 & E2 & E3 & E4 & E5 & E6).
    { assumption. } { lia. } { right; reflexivity. } { constructor. } { simpl in Hf. lia. }
    exists (iapp (match data with [] => INil | d => IData d INil end) o), c', d', f'.
    split; [assumption|]. split; [|split; [|split; [assumption|split; [assumption|split]]]].
    + rewrite E1, push_init_opt_flat, iflat_iapp, app_assoc. reflexivity.
    + rewrite iatoms_iapp, <- app_assoc, E2. unfold ipend. cbn [iatoms]. rewrite repN_add. simpl (map ISet []). rewrite app_nil_r.
      destruct Hst as [->| ->]; [|simpl; rewrite app_nil_r, <- app_assoc; reflexivity].
      simpl (repN 0 IKeep). simpl ([] ++ _). destruct data; simpl; [reflexivity|]. rewrite app_nil_r. reflexivity.
    + apply wf_i_iapp; [|assumption]. destruct data; simpl; auto.
    + intros Hq ->. destruct (E6 Hq eq_refl) as [-> ->]. auto.
  - (* IRep *)
    destruct fuel as [|fuel]; [simpl in Hf; lia|].
    destruct Hw as (Hn & Hne & Hbl & Hwb & Hwr). cbn [iatoms] in Hlt. rewrite lenN_app, lenN_rep_list in Hlt.
    cbn [iflat app] in Hf |- *. cbn [simp_init]. change (decode (W FLAG_INIT_REPEAT)) with OArr. cbv iota.
    rewrite itail_flat by assumption.
    set (out2 := (out ++ iflat (itail cnt data)) ++ [W FLAG_INIT_REPEAT; W n]).
    rewrite <- app_assoc. cbn [app].
    destruct (IHb false 0 [] out2 (W FLAG_INIT_END :: iflat r ++ rest) fuel) as (ob & c1 & d1 & f1 & Hf1 & B1 & B2 & B3 & B4 & B5 & B6).
    { assumption. } { lia. } { left; reflexivity. } { constructor. }
    { rewrite <- app_assoc in Hf. simpl in Hf. lia. }
    rewrite B1. clear B1. destruct f1 as [|f1]; [simpl in Hf1; lia|].
    rewrite simp_init_end by assumption. cbn [bind]. change (decode (W FLAG_INIT_END)) with OEnd. cbv iota.
    rewrite <- app_assoc, <- iflat_iapp.
    assert (Hat : iatoms (iapp ob (itail c1 d1)) = iatoms b).
    { rewrite iatoms_iapp, itail_atoms by assumption. rewrite B2. reflexivity. }
    assert (Hwo : wf_i (iapp ob (itail c1 d1))) by (apply wf_i_iapp; [assumption|apply itail_wf; assumption]).
    assert (Hflat : quiet b = true -> exists c, iapp ob (itail c1 d1) = ISkip c INil).
    { intros Hq. destruct (B6 Hq eq_refl) as [-> ->]. cbn [iapp iatoms app] in *. unfold itail in *. destruct (N.eqb_spec c1 0) as [->|]; [|eauto].
      exfalso. simpl in Hat. rewrite <- Hat, lenN_nil in Hne. lia. }
    remember (iapp ob (itail c1 d1)) as ob' eqn:Eob. clear Eob B2 B3 B4 B5 B6 Hf1.
    replace (length (out2 ++ iflat ob') - length out2)%nat with (length (iflat ob')) by (rewrite app_length; lia).
    rewrite skipn_app_len.
    assert (Hf2 : (length (iflat r ++ rest) < fuel)%nat).
    { rewrite <- app_assoc in Hf. cbn [length] in Hf. rewrite app_length in Hf. cbn [length app] in Hf. lia. }
    assert (Htl : (length out2 = length (out ++ iflat (itail cnt data)) + 2)%nat) by (unfold out2; rewrite app_length; reflexivity).
    (* general case *)
    assert (Hgen : (forall c, ob' <> ISkip c INil) -> exists o cnt' data' fuel', (length rest < fuel')%nat /\
      simp_init fuel shave (iflat r ++ rest) 0 [] ((out2 ++ iflat ob') ++ [W FLAG_INIT_END]) =
      simp_init fuel' shave rest cnt' data' (out ++ iflat o) /\
      iatoms o ++ ipend cnt' data' = ipend cnt data ++ iatoms (IRep n b r) /\
      (cnt' = 0 \/ data' = []) /\ Forall is8 data' /\ wf_i o /\
      (quiet (IRep n b r) = true -> data = [] -> o = INil /\ data' = [])).
    { intros Hnot. destruct (IH shave 0 [] ((out2 ++ iflat ob') ++ [W FLAG_INIT_END]) rest fuel) as (o & c' & d' & f' & Hf' & E1 & E2 & E3 & E4 & E5 & E6).
      { assumption. } { lia. } { left; reflexivity. } { constructor. } { assumption. }
      exists (iapp (itail cnt data) (IRep n ob' o)), c', d', f'. split; [assumption|]. split; [|split; [|split; [assumption|split; [assumption|split]]]].
      - rewrite E1. f_equal. unfold out2. rewrite iflat_iapp. cbn [iflat]. rewrite <- !app_assoc. reflexivity.
      - rewrite iatoms_iapp, itail_atoms by assumption. rewrite <- app_assoc. cbn [iatoms]. rewrite <- app_assoc, E2, Hat. reflexivity.
      - apply wf_i_iapp; [apply itail_wf; assumption|]. simpl. rewrite Hat. split; [|auto]. destruct Hn as [Hn|Hn]; [exact Hn|]. destruct (Hflat Hn) as [c0 X]. destruct (Hnot c0 X).
      - cbn [quiet]. intros Hq _. apply andb_true_iff in Hq. destruct (Hflat (proj1 Hq)) as [c0 X]. destruct (Hnot c0 X). }
    assert (Hg2 : (length (iflat ob') =? 0)%nat = false -> 
      (forall c, iflat ob' <> [W 3; W c]) ->
      match (length (iflat ob') =? 2)%nat, iflat ob' with
      | true, [W 3; W c] =>
          let count := wmul c n in
          if negb (cnt =? 0) then
            out4 <- resize_to (length out2) 4 (out2 ++ iflat ob') ;;
            simp_init fuel shave (iflat r ++ rest) (wadd cnt count) [] out4
          else
            out4 <- resize_to (length out2) 2 (out2 ++ iflat ob') ;;
            simp_init fuel shave (iflat r ++ rest) count [] out4
      | _, _ =>
        if (length (iflat ob') =? 0)%nat then
          out4 <- resize_to (length out2) 4 (out2 ++ iflat ob') ;;
          simp_init fuel shave (iflat r ++ rest) cnt [] out4
        else simp_init fuel shave (iflat r ++ rest) 0 [] ((out2 ++ iflat ob') ++ [W FLAG_INIT_END])
      end = simp_init fuel shave (iflat r ++ rest) 0 [] ((out2 ++ iflat ob') ++ [W FLAG_INIT_END])).
    { intros H0 H3. rewrite H0.
      destruct (length (iflat ob') =? 2)%nat; [|reflexivity].
      destruct (iflat ob') as [|[w1|k1 s1 e1] [|[w2|k2 s2 e2] [|w3 l3]]]; try reflexivity;
        try (destruct w1 as [|[[| |]|[| |]|]]; reflexivity).
      destruct w1 as [|[[| |]|[| |]|]]; try reflexivity. exfalso. exact (H3 w2 eq_refl). }
    cbv zeta in Hg2.
    destruct ob' as [|bs' ro|c ro|n' b' ro|k' s' e' ro].
    + exfalso. simpl in Hat. rewrite <- Hat, lenN_nil in Hne. lia.
    + rewrite Hg2; [apply Hgen; discriminate| reflexivity|]. intros c; simpl. discriminate.
    + destruct ro as [|bs2 ro|c2 ro|n2 b2 ro|k2 s2 e2 ro]; try (rewrite Hg2; [apply Hgen; discriminate| reflexivity|intros ?; simpl; discriminate]).
      (* squash *)
      clear Hgen Hg2. cbn [iflat length Nat.eqb]. change (W FLAG_INIT_SKIP) with (W 3). cbv iota zeta.
      assert (Hcl : lenN (iatoms b) = c) by (rewrite <- Hat; simpl; rewrite app_nil_r, lenN_repN; reflexivity).
      rewrite wmul_small by nia.
      assert (Hx : iatoms (IRep n b r) = repN (c * n) IKeep ++ iatoms r).
      { cbn [iatoms]. rewrite <- Hat. simpl (iatoms (ISkip _ _)). rewrite app_nil_r, rep_list_repN. reflexivity. }
      destruct (N.eqb_spec cnt 0) as [->|Hcn]; cbn [negb].
      * (* cnt = 0 *)
        assert (R2 : resize_to (length out2) 2 (out2 ++ [W 3; W c]) = Ok (out ++ iflat (itail 0 data))).
        { unfold resize_to. rewrite Htl. destruct (Nat.ltb_spec (length (out ++ iflat (itail 0 data)) + 2) 2); [lia|].
          unfold out2. rewrite <- (app_assoc (out ++ _)).
          replace (length (out ++ iflat (itail 0 data)) + 2 - 2)%nat with (length (out ++ iflat (itail 0 data))) by lia.
          rewrite firstn_app_len. reflexivity. }
        rewrite R2. cbn [bind].
        destruct (IH shave (c * n) [] (out ++ iflat (itail 0 data)) rest fuel) as (o & c' & d' & f' & Hf' & E1 & E2 & E3 & E4 & E5 & E6).
        { assumption. } { nia. } { right; reflexivity. } { constructor. } { assumption. }
        exists (iapp (itail 0 data) o), c', d', f'. split; [assumption|]. split; [|split; [|split; [assumption|split; [assumption|split]]]].
        -- rewrite E1, iflat_iapp, app_assoc. reflexivity.
        -- rewrite iatoms_iapp, itail_atoms by auto. rewrite <- app_assoc, E2, Hx. unfold ipend. simpl (map ISet []). rewrite app_nil_r. reflexivity.
        -- apply wf_i_iapp; [apply itail_wf; assumption|assumption].
        -- cbn [quiet]. intros Hq ->. apply andb_true_iff in Hq. destruct (E6 (proj2 Hq) eq_refl) as [-> ->]. auto.
      * destruct Hst as [H| ->]; [contradiction|].
        assert (R4 : resize_to (length out2) 4 (out2 ++ [W 3; W c]) = Ok out).
        { unfold resize_to. rewrite Htl. unfold out2, itail. destruct (N.eqb_spec cnt 0); [contradiction|].
          rewrite app_length. cbn [iflat length]. destruct (Nat.ltb_spec (length out + 2 + 2) 4); [lia|].
          rewrite <- !app_assoc. replace (length out + 2 + 2 - 4)%nat with (length out) by lia.
          rewrite firstn_app_len. reflexivity. }
        rewrite R4. cbn [bind]. rewrite wadd_small by nia.
        destruct (IH shave (cnt + c * n) [] out rest fuel) as (o & c' & d' & f' & Hf' & E1 & E2 & E3 & E4 & E5 & E6).
        { assumption. } { nia. } { right; reflexivity. } { constructor. } { assumption. }
        exists o, c', d', f'. split; [assumption|]. split; [|split; [|split; [assumption|split; [assumption|split; [assumption|]]]]].
        -- exact E1.
        -- rewrite E2, Hx. unfold ipend. simpl (map ISet []). rewrite !app_nil_r, repN_add, <- app_assoc. reflexivity.
        -- cbn [quiet]. intros Hq _. apply andb_true_iff in Hq. exact (E6 (proj2 Hq) eq_refl).
    + rewrite Hg2; [apply Hgen; discriminate| |].
      * reflexivity.
      * intros c. simpl. discriminate.
    + rewrite Hg2; [apply Hgen; discriminate|reflexivity|]. intros c. simpl. discriminate.
  - (* ICont *)
    destruct fuel as [|fuel]; [simpl in Hf; lia|].
    destruct Hw as [Hs Hw]. cbn [iatoms] in Hlt. rewrite lenN_cons in Hlt.
    cbn [iflat app] in Hf |- *. cbn [simp_init]. change (decode (W FLAG_INIT_CONTAINER)) with OCont. cbv iota.
    rewrite itail_flat by assumption.
    destruct (IH shave 0 [] ((out ++ iflat (itail cnt data)) ++ [W FLAG_INIT_CONTAINER; WC k s e]) rest fuel) as (o & c' & d' & f' & Hf' & E1 & E2 & E3 & E4 & E5 & E6).
    { assumption. } { lia. } { left; reflexivity. } { constructor. } { simpl in Hf. lia. }
    exists (iapp (itail cnt data) (ICont k s e o)), c', d', f'. split; [assumption|]. split; [|split; [|split; [assumption|split; [assumption|split]]]].
    + rewrite E1. f_equal. rewrite iflat_iapp. cbn [iflat]. rewrite <- !app_assoc. reflexivity.
    + rewrite iatoms_iapp, itail_atoms by assumption. rewrite <- app_assoc. cbn [iatoms app]. rewrite E2. reflexivity.
    + apply wf_i_iapp; [apply itail_wf; assumption|]. simpl. auto.
    + discriminate.
Qed.

Lemma simplify_init_ok t l : wf t -> iops l = iflat (riops t) ->
  exists o k, simplify_init l = Ok (iflat o) /\ wf_i o /\ iatoms o ++ repN k IKeep = tiatoms t.
Proof.
  intros Hw El. unfold simplify_init. rewrite El.
  destruct (@simp_init_ok (riops t) true 0 [] [] [] (S (length (iflat (riops t))))) as (o & c' & d' & f' & Hf' & E1 & E2 & E3 & E4 & E5 & _).
  { apply riops_wf; assumption. }
  { assert (X := proj1 tatoms_len t Hw). assert (Y := wf_lt Hw). change (iatoms (riops t)) with (tiatoms t).
    rewrite (proj2 (proj1 tiatoms_size t Hw)). lia. }
  { left; reflexivity. } { constructor. } { rewrite app_nil_r; lia. }
  rewrite app_nil_r in E1. rewrite E1. destruct f' as [|f']; [simpl in Hf'; lia|]. cbn [simp_init].
  assert (Hx : (if negb (c' =? 0) && negb true then Ok ([], ([] ++ iflat o) ++ [W FLAG_INIT_SKIP; W c'])
                else Ok ([], push_init_opt d' ([] ++ iflat o))) = Ok ([] : list word, iflat (iapp o (itail 0 d')))).
  { rewrite andb_false_r, push_init_opt_flat, iflat_iapp. unfold itail. destruct d'; reflexivity. }
  rewrite Hx. cbn [bind].
  assert (H1 : wf_i (iapp o (itail 0 d')) /\ exists k, iatoms (iapp o (itail 0 d')) ++ repN k IKeep = tiatoms t).
  { split; [apply wf_i_iapp; [assumption|apply itail_wf; assumption]|].
    exists c'. rewrite iatoms_iapp, itail_atoms by auto. rewrite <- app_assoc.
    assert (Hp : ipend 0 d' ++ repN c' IKeep = ipend c' d').
    { unfold ipend. destruct E3 as [-> | ->]; simpl; rewrite ?app_nil_r; reflexivity. }
    rewrite Hp. exact E2. }
  destruct H1 as (H1 & k & H2).
  remember (iapp o (itail 0 d')) as oo eqn:Eo. clear Eo.
  assert (Hcase : (exists n, oo = ISkip n INil) \/
     match iflat oo with [w; _] => match decode w with OSkip => Ok [] | _ => Ok (iflat oo) end | _ => Ok (iflat oo) end = Ok (iflat oo)).
  { destruct oo as [|bs' ro|c ro|n' b' ro|k' s' e' ro]; try (right; reflexivity).
    - right. simpl. destruct (map W bs' ++ iflat ro); reflexivity.
    - destruct ro as [|bs2 ro|c2 ro|n2 b2 ro|k2 s2 e2 ro]; try (right; reflexivity). left; eauto.
    - right. simpl. destruct (iflat b' ++ W FLAG_INIT_END :: iflat ro); reflexivity.
    - right. simpl. destruct (iflat ro); reflexivity. }
  destruct Hcase as [[n ->]| ->].
  - exists INil, (n + k). split; [reflexivity|]. split; [exact I|]. rewrite repN_add. simpl in H2. rewrite app_nil_r in H2. exact H2.
  - exists oo, k. auto.
Qed.
