(** * LayoutProofs: the layout bytecode, expanded byte per byte. *)
From Verif Require Import Base Types WellFormed Layout.
Local Open Scope N_scope.

(** ** Structured bytecode *)
Inductive sops :=
| SNil
| SMem (n : N) (r : sops)
| SSkip (n : N) (r : sops)
| SArr (n : N) (b r : sops)
| SCont (k : ckind) (s : N) (e : ty) (b r : sops).

Fixpoint flat (o : sops) : list word :=
  match o with
  | SNil => []
  | SMem n r => W FLAG_MEMCPY :: W n :: flat r
  | SSkip n r => W FLAG_SKIP :: W n :: flat r
  | SArr n b r => W FLAG_ARRAY :: W n :: flat b ++ W FLAG_END :: flat r
  | SCont k s e b r => W FLAG_CONTAINER :: WC k s e :: flat b ++ W FLAG_END :: flat r
  end.

Fixpoint sapp (a b : sops) : sops :=
  match a with
  | SNil => b
  | SMem n r => SMem n (sapp r b)
  | SSkip n r => SSkip n (sapp r b)
  | SArr n c r => SArr n c (sapp r b)
  | SCont k s e c r => SCont k s e c (sapp r b)
  end.

Lemma flat_sapp a b : flat (sapp a b) = flat a ++ flat b.
Proof.
  induction a as [|n r IH|n r IH|n c IHc r IH|k s e c IHc r IH]; simpl; auto; try (now rewrite IH);
    rewrite IH; rewrite <- app_assoc; reflexivity.
Qed.
Lemma sapp_nil_r a : sapp a SNil = a.
Proof. induction a; simpl; congruence. Qed.
Lemma sapp_assoc a b c : sapp (sapp a b) c = sapp a (sapp b c).
Proof. induction a; simpl; congruence. Qed.

(** ** Atoms: what happens to each byte *)
Inductive atom := AByte | APad | ACont (k : ckind) (s : N) (e : ty).

Definition rep_list {A} (n : N) (l : list A) : list A := concat (repN n l).

Fixpoint atoms (o : sops) : list atom :=
  match o with
  | SNil => []
  | SMem n r => repN n AByte ++ atoms r
  | SSkip n r => repN n APad ++ atoms r
  | SArr n b r => rep_list n (atoms b) ++ atoms r
  | SCont k s e b r => ACont k s e :: atoms r
  end.

Lemma atoms_sapp a b : atoms (sapp a b) = atoms a ++ atoms b.
Proof.
  induction a as [|n r IH|n r IH|n c IHc r IH|k s e c IHc r IH]; simpl; auto;
    rewrite IH; rewrite ?app_assoc; reflexivity.
Qed.

Definition norm1 (merge : bool) (a : atom) : atom :=
  match a with APad => if merge then AByte else APad | x => x end.
Definition norm (merge : bool) (l : list atom) : list atom := map (norm1 merge) l.

Lemma norm_app m a b : norm m (a ++ b) = norm m a ++ norm m b.
Proof. apply map_app. Qed.
Lemma norm_repN m n a : norm m (repN n a) = repN n (norm1 m a).
Proof. unfold norm, repN. induction (N.to_nat n); simpl; congruence. Qed.
Lemma rep_list_S {A} n (l : list A) : rep_list (N.succ n) l = l ++ rep_list n l.
Proof. unfold rep_list, repN. rewrite N2Nat.inj_succ. reflexivity. Qed.
Lemma rep_list_0 {A} (l : list A) : rep_list 0 l = []. Proof. reflexivity. Qed.
Lemma rep_list_repN {A} n m (x : A) : rep_list n (repN m x) = repN (m * n) x.
Proof.
  induction n as [|n IH] using N.peano_ind; [rewrite N.mul_0_r; reflexivity|].
  rewrite rep_list_S, IH. replace (m * N.succ n) with (m + m * n) by lia.
  rewrite repN_add. reflexivity.
Qed.
Lemma lenN_rep_list {A} n (l : list A) : lenN (rep_list n l) = n * lenN l.
Proof.
  induction n as [|n IH] using N.peano_ind; [reflexivity|].
  rewrite rep_list_S, lenN_app, IH. lia.
Qed.
Lemma norm_rep_list m n l : norm m (rep_list n l) = rep_list n (norm m l).
Proof.
  induction n as [|n IH] using N.peano_ind; [reflexivity|].
  rewrite !rep_list_S, norm_app, IH. reflexivity.
Qed.
Lemma lenN_norm m l : lenN (norm m l) = lenN l.
Proof. unfold lenN, norm; rewrite map_length; reflexivity. Qed.

(** ** The raw layout of a type, structured *)
Fixpoint rops (t : ty) : sops :=
  match t with
  | TNull => SNil
  | TOpaque n => SSkip n SNil
  | TNum n _ | TEnum n _ | TPtr n => SMem n SNil
  | TArray _ d e => SArr d (rops e) SNil
  | TCont k s e => SCont k s e (rops e) SNil
  | TComp sz fs => rfields fs 0 sz
  end
with rfields (fs : fields) (cur sz : N) : sops :=
  match fs with
  | FNil => SSkip (sz - cur) SNil
  | FCons _ off t r => SSkip (off - cur) (sapp (rops t) (rfields r (off + sizeof t) sz))
  end.
Definition tatoms (t : ty) : list atom := atoms (rops t).

(** The visitor produces it. *)
Lemma wf_fields_le fs cur sz : wf_fields fs cur sz -> cur <= sz.
Proof.
  revert cur; induction fs as [|n off t r IH]; simpl; intros cur H; [assumption|].
  destruct H as [H1 [_ H2]]. apply IH in H2. lia.
Qed.

Lemma push_memcpy_ops n d l :
  (d = [] \/ n = lenN d) -> exists io, push_memcpy n d l = Ok (mkLayout (ops l ++ [W FLAG_MEMCPY; W n]) io).
Proof.
  intros H. unfold push_memcpy. destruct d as [|x d].
  - eexists; reflexivity.
  - destruct H as [H|H]; [discriminate|]. rewrite <- H, N.eqb_refl. simpl. eexists; reflexivity.
Qed.
Lemma lenN_le_bytes n v : lenN (le_bytes n v) = N.of_nat n.
Proof. revert v; induction n; intros v; [reflexivity|]. cbn [le_bytes]. rewrite lenN_cons, IHn. lia. Qed.
Lemma enum_init_len n vs : enum_init n vs = [] \/ n = lenN (enum_init n vs).
Proof.
  destruct vs as [|[? v] r]; [left; reflexivity|right]. simpl. rewrite lenN_le_bytes. lia.
Qed.

Arguments push_memcpy : simpl never.

Lemma visit_rops :
  (forall t, wf t -> forall ap l, supported ap t = true ->
     exists io, visit ap false t l = Ok (mkLayout (ops l ++ flat (rops t)) io)) /\
  (forall fs, forall ap cur sz l, wf_fields fs cur sz -> sz < two64 -> supported_fields ap fs = true ->
     exists io w cur', visit_fields ap false fs cur l = Ok (mkLayout (ops l ++ w) io, cur') /\
                   cur' <= sz /\ w ++ [W FLAG_SKIP; W (sz - cur')] = flat (rfields fs cur sz)).
Proof.
  apply ty_fields_ind; simpl.
  - discriminate.
  - discriminate.
  - intros n c [_ _] ap l _. apply push_memcpy_ops; auto.
  - intros n vs [_ H] ap l _. destruct (N.ltb_spec 8 n); [lia|]. apply push_memcpy_ops. apply enum_init_len.
  - intros n _ ap l ->. apply push_memcpy_ops; auto.
  - intros s d e IH [_ (_ & _ & _ & He)] ap l Hs. destruct (IH He false empty_layout Hs) as [io ->]. simpl.
    eexists. unfold push_array. simpl. reflexivity.
  - intros k s e IH [_ H] ap l Hs.
    assert (He : wf e) by (destruct k; [tauto|destruct H as [_ [c ->]]; simpl; unfold two64; lia]).
    destruct (IH He false empty_layout Hs) as [io ->]. simpl. eexists. unfold push_container; simpl. reflexivity.
  - intros sz fs IH [Hlt H] ap l Hs. destruct (IH ap 0 sz l H Hlt Hs) as (io & w & cur' & -> & Hle & Hw). simpl.
    eexists. unfold push_skip, push_init_skip. simpl. f_equal. rewrite <- app_assoc.
    rewrite wsub_small by lia. rewrite Hw. reflexivity.
  - intros ap cur sz l H Hlt _. exists (iops l), [], cur. rewrite app_nil_r. destruct l. auto.
  - intros nm off t IHt fs IHf ap cur sz l (Hle & Ht & Hf) Hlt Hs. apply andb_true_iff in Hs. destruct Hs as [Hs1 Hs2].
    assert (Hb := wf_fields_le Hf).
    destruct (IHt Ht ap (push_skip (wsub off cur) l) Hs1) as [io ->]. simpl.
    rewrite wadd_small by lia.
    match goal with |- context [visit_fields _ _ _ _ ?L] =>
      destruct (IHf ap (off + sizeof t) sz L Hf Hlt Hs2) as (io2 & w & cur' & -> & Hle2 & Hw) end.
    simpl. exists io2, ([W FLAG_SKIP; W (wsub off cur)] ++ flat (rops t) ++ w), cur'.
    split; [|split; [assumption|]].
    + rewrite <- !app_assoc. reflexivity.
    + simpl. rewrite wsub_small by lia. rewrite flat_sapp, <- Hw. rewrite <- app_assoc. reflexivity.
Qed.

Lemma raw_layout_ops t ap : wf t -> supported ap t = true ->
  exists io, raw_layout_of ap false t = Ok (mkLayout (flat (rops t)) io).
Proof. intros H Hs. destruct (proj1 visit_rops t H ap empty_layout Hs) as [io Hio]. exists io. exact Hio. Qed.

(** Number of atoms vs size: a container counts for one atom. *)
Lemma tatoms_len :
  (forall t, wf t -> lenN (tatoms t) <= sizeof t) /\
  (forall fs cur sz, wf_fields fs cur sz -> lenN (atoms (rfields fs cur sz)) <= sz - cur).
Proof.
  unfold tatoms. apply ty_fields_ind; simpl; intros; rewrite ?app_nil_r, ?lenN_repN; try lia.
  - rewrite lenN_nil; lia.
  - rewrite lenN_rep_list. destruct H0 as (_ & -> & _ & _ & He). specialize (H He). nia.
  - rewrite lenN_cons, lenN_nil. destruct k; lia.
  - destruct H0 as [_ H0]. apply H in H0. lia.
  - rewrite atoms_sapp, !lenN_app, lenN_repN. destruct H1 as (H1 & H2 & H3).
    specialize (H H2). assert (X := wf_fields_le H3). apply H0 in H3. lia.
Qed.

Lemma tatoms_ne :
  (forall t, wf t -> supported true t = true \/ True -> 1 <= sizeof t -> 1 <= lenN (tatoms t)) /\
  (forall fs cur sz, wf_fields fs cur sz -> cur < sz -> 1 <= lenN (atoms (rfields fs cur sz))).
Proof.
  unfold tatoms. apply ty_fields_ind; simpl; intros; rewrite ?app_nil_r, ?lenN_repN; try lia.
  - rewrite lenN_rep_list. destruct H0 as (_ & -> & Hd & He & Hw). specialize (H Hw (or_intror I) He). nia.
  - rewrite lenN_cons. lia.
  - destruct H0 as [_ H0]. apply H; auto; lia.
  - rewrite atoms_sapp, !lenN_app, lenN_repN. destruct H1 as (H1 & H3 & H4).
    assert (X := wf_fields_le H4).
    destruct (N.eq_dec off cur) as [->|]; [|lia].
    destruct (N.eq_dec (sizeof t) 0) as [E|]; [|assert (1 <= lenN (atoms (rops t))) by (apply H; auto; lia); lia].
    assert (1 <= lenN (atoms (rfields fs (cur + sizeof t) sz))); [apply H0; auto; lia|lia].
Qed.

(** ** The simplifier, structured *)
Definition spush (cnt cur : N) (o : sops) : sops :=
  if cnt =? 0 then o else if cur =? FLAG_MEMCPY then SMem cnt o else SSkip cnt o.
Definition st3 := (N * N * N)%type.

Fixpoint ssimp (merge : bool) (r : sops) (cur cnt skp : N) : sops * st3 :=
  match r with
  | SNil => (SNil, (cur, cnt, skp))
  | SMem n r' =>
      if cur =? FLAG_MEMCPY then ssimp merge r' cur (wadd cnt n) 0
      else if merge then ssimp merge r' FLAG_MEMCPY (wadd cnt n) 0
      else let '(o, st) := ssimp merge r' FLAG_MEMCPY n 0 in (spush cnt cur o, st)
  | SSkip n r' =>
      if cur =? FLAG_SKIP then ssimp merge r' cur (wadd cnt n) (wadd skp n)
      else if merge then ssimp merge r' FLAG_MEMCPY (wadd cnt n) (wadd skp n)
      else let '(o, st) := ssimp merge r' FLAG_SKIP n (wadd skp n) in (spush cnt cur o, st)
  | SArr n b r' =>
      let '(ob, (c1, n1, _)) := ssimp merge b FLAG_MEMCPY 0 0 in
      let ob' := sapp ob (spush n1 c1 SNil) in
      let squash op c :=
        if (op =? cur) && negb (cnt =? 0) then ssimp merge r' cur (wadd cnt (wmul c n)) 0
        else let '(o, st) := ssimp merge r' op (wmul c n) 0 in (spush cnt cur o, st) in
      match ob' with
      | SNil => (SNil, (cur, cnt, 0)) (* not used: see wf_raw *)
      | SMem c SNil => squash FLAG_MEMCPY c
      | SSkip c SNil => squash FLAG_SKIP c
      | _ => let '(o, st) := ssimp merge r' cur 0 0 in (spush cnt cur (SArr n ob' o), st)
      end
  | SCont k s e b r' =>
      let '(ob, (c1, n1, _)) := ssimp merge b FLAG_MEMCPY 0 0 in
      let ob' := sapp ob (spush n1 c1 SNil) in
      let '(o, st) := ssimp merge r' cur 0 0 in
      (spush cnt cur (SCont k s e ob' o), st)
  end.
Definition sblock (merge : bool) (r : sops) : sops :=
  let '(ob, (c1, n1, _)) := ssimp merge r FLAG_MEMCPY 0 0 in sapp ob (spush n1 c1 SNil).

(** Does a container occur outside of the elements of other containers ? *)
Fixpoint hasc (r : sops) : bool :=
  match r with
  | SNil => false
  | SMem _ r' | SSkip _ r' => hasc r'
  | SArr _ b r' => hasc b || hasc r'
  | SCont _ _ _ _ _ => true
  end.
(** One run of bytes, repeated. *)
Fixpoint run (r : sops) : bool :=
  match r with
  | SMem _ SNil => true
  | SArr _ b SNil => run b
  | _ => false
  end.
Lemma solid_run t : solid t = true -> run (rops t) = true.
Proof. induction t; simpl; intros; auto; discriminate. Qed.

Fixpoint wf_raw (r : sops) : Prop :=
  match r with
  | SNil => True
  | SMem _ r' | SSkip _ r' => wf_raw r'
  | SArr n b r' => (1 <= n \/ run b = true) /\ 1 <= lenN (atoms b) /\ lenN (atoms b) < two64 /\ wf_raw b /\ wf_raw r'
  | SCont k s e b r' => b = rops e /\ 1 <= s /\ wf e /\ lenN (atoms b) < two64 /\ wf_raw b /\ wf_raw r'
  end.
Fixpoint wf_out (merge : bool) (r : sops) : Prop :=
  match r with
  | SNil => True
  | SMem _ r' | SSkip _ r' => wf_out merge r'
  | SArr n b r' => 1 <= n /\ wf_out merge b /\ wf_out merge r'
  | SCont k s e b r' =>
      b = sblock merge (rops e) /\ atoms b = norm merge (tatoms e) /\ 1 <= s /\ wf e /\
      wf_out merge b /\ wf_out merge r'
  end.

Lemma wf_out_sapp m a b : wf_out m a -> wf_out m b -> wf_out m (sapp a b).
Proof. induction a; simpl; intuition. Qed.
Lemma wf_out_spush m n c o : wf_out m o -> wf_out m (spush n c o).
Proof. unfold spush. destruct (n =? 0); auto. destruct (c =? FLAG_MEMCPY); auto. Qed.
Lemma wf_raw_sapp a b : wf_raw a -> wf_raw b -> wf_raw (sapp a b).
Proof. induction a; simpl; intuition. Qed.

Lemma rops_wf :
  (forall t, wf t -> wf_raw (rops t)) /\
  (forall fs cur sz, wf_fields fs cur sz -> wf_raw (rfields fs cur sz)).
Proof.
  apply ty_fields_ind; simpl; intros; auto.
  - destruct H0 as (_ & -> & Hd & He & Hw). split; [|split; [apply (proj1 tatoms_ne); auto|split; [|auto]]].
    + destruct Hd as [Hd|Hd]; [left; assumption|right; apply solid_run; assumption].
    + assert (X := proj1 tatoms_len elt Hw). unfold tatoms in X. assert (sizeof elt < two64) by (destruct elt; simpl in *; tauto). lia.
  - destruct H0 as [Hs H0]. assert (He : wf elt /\ 1 <= size).
    { destruct k; [tauto|destruct H0 as [? [c ->]]; simpl; unfold two64; lia]. }
    destruct He as [He ?]. repeat split; auto. assert (X := proj1 tatoms_len elt He). unfold tatoms in X.
    assert (sizeof elt < two64) by (destruct elt; simpl in *; tauto). lia.
  - apply H, H0.
  - destruct H1 as (? & ? & ?). apply wf_raw_sapp; auto.
Qed.

Definition pend (cur cnt : N) : list atom := repN cnt (if cur =? FLAG_MEMCPY then AByte else APad).
Definition okcur (cur : N) : Prop := cur = FLAG_MEMCPY \/ cur = FLAG_SKIP.

Lemma atoms_spush n c o : atoms (spush n c o) = pend c n ++ atoms o.
Proof.
  unfold spush, pend. destruct (N.eqb_spec n 0) as [->|]; [reflexivity|].
  destruct (c =? FLAG_MEMCPY); reflexivity.
Qed.
Lemma pend_0 c : pend c 0 = []. Proof. reflexivity. Qed.

(** The invariant of the simplification state. *)
Definition st_ok (merge : bool) (cur cnt skp : N) : Prop :=
  okcur cur /\ (merge = true -> cur = FLAG_MEMCPY) /\ skp <= cnt /\
  (merge = false -> cur = FLAG_MEMCPY -> skp = 0).

Lemma ssimp_run merge r : wf_raw r -> lenN (atoms r) < two64 -> run r = true ->
  exists s, ssimp merge r FLAG_MEMCPY 0 0 = (SNil, (FLAG_MEMCPY, lenN (atoms r), s)).
Proof.
  induction r as [|n r IH|n r IH|n b IHb r IH|k s e b IHb r IH]; intros Hw Hlt Hr; try discriminate.
  - destruct r; try discriminate. cbn [ssimp atoms] in *. rewrite app_nil_r, lenN_repN in *. rewrite N.eqb_refl, wadd_small by lia. eauto.
  - destruct r; try discriminate. cbn [wf_raw run] in *. destruct Hw as (_ & Hne & Hbl & Hwb & _).
    cbn [atoms] in *. rewrite app_nil_r, lenN_rep_list in *. cbn [ssimp]. destruct (IHb Hwb Hbl Hr) as [s1 ->]. cbn [sapp]. unfold spush at 1.
    destruct (N.eqb_spec (lenN (atoms b)) 0); [lia|]. change (FLAG_MEMCPY =? FLAG_MEMCPY) with true. cbv iota. cbn [andb N.eqb negb].
    rewrite wmul_small by nia. exists 0. unfold spush. rewrite N.eqb_refl. do 3 f_equal. lia.
Qed.

Lemma ssimp_ok merge r : forall cur cnt skp o cur' cnt' skp',
  wf_raw r -> cnt + lenN (atoms r) < two64 -> st_ok merge cur cnt skp ->
  ssimp merge r cur cnt skp = (o, (cur', cnt', skp')) ->
  atoms o ++ pend cur' cnt' = pend cur cnt ++ norm merge (atoms r) /\
  st_ok merge cur' cnt' skp' /\ wf_out merge o /\
  (exists pre, repN skp APad ++ atoms r = pre ++ repN skp' APad).
Proof.
  induction r as [|n r IH|n r IH|n b IHb r IH|k s e b IHb r IH]; intros cur cnt skp o cur' cnt' skp' Hw Hlt Hst E.
  - simpl in E. inversion E; subst. split; [simpl; rewrite app_nil_r; reflexivity|]. split; [assumption|]. split; [exact I|].
    exists []. rewrite app_nil_r. reflexivity.
  - (* SMem *)
    cbn [wf_raw] in Hw. cbn [atoms] in Hlt. rewrite lenN_app, lenN_repN in Hlt. cbn [ssimp] in E.
    destruct Hst as (Hc & Hm & Hs & Hz).
    assert (Htail : forall pre (s' : N), atoms r = pre ++ repN s' APad ->
              exists p, repN skp APad ++ atoms (SMem n r) = p ++ repN s' APad).
    { intros pre s' Ep. exists (repN skp APad ++ repN n AByte ++ pre). cbn [atoms]. rewrite Ep, !app_assoc. reflexivity. }
    destruct (N.eqb_spec cur FLAG_MEMCPY) as [Ec|Ec].
    + subst cur. rewrite wadd_small in E by lia.
      apply IH in E; [|assumption|lia|repeat split; auto; try (left; reflexivity); lia].
      destruct E as (E1 & E2 & E3 & pre & E4). split; [|split; [assumption|split; [assumption|]]].
      * rewrite E1. cbn [atoms]. rewrite norm_app, norm_repN. unfold pend. simpl (norm1 _ _).
        rewrite N.eqb_refl. rewrite repN_add, app_assoc. reflexivity.
      * eapply Htail. simpl in E4. eassumption.
    + destruct merge; [exfalso; apply Ec; auto|].
      destruct (ssimp false r FLAG_MEMCPY n 0) as [o1 [[c1 n1] s1]] eqn:E1. inversion E; subst; clear E.
      apply IH in E1; [|assumption|lia|repeat split; auto; try (left; reflexivity); try lia; discriminate].
      destruct E1 as (E1 & E2 & E3 & pre & E4). split; [|split; [assumption|split; [apply wf_out_spush; assumption|]]].
      * rewrite atoms_spush, <- app_assoc, E1. cbn [atoms]. rewrite norm_app, norm_repN. reflexivity.
      * eapply Htail. simpl in E4. eassumption.
  - (* SSkip *)
    cbn [wf_raw] in Hw. cbn [atoms] in Hlt. rewrite lenN_app, lenN_repN in Hlt. cbn [ssimp] in E.
    destruct Hst as (Hc & Hm & Hs & Hz).
    assert (Htail : forall pre (s' : N), repN (skp + n) APad ++ atoms r = pre ++ repN s' APad ->
              exists p, repN skp APad ++ atoms (SSkip n r) = p ++ repN s' APad).
    { intros pre s' Ep. exists pre. cbn [atoms]. rewrite <- Ep, repN_add, app_assoc. reflexivity. }
    destruct (N.eqb_spec cur FLAG_SKIP) as [Ec|Ec].
    + subst cur. rewrite !wadd_small in E by lia.
      assert (merge = false) by (destruct merge; [specialize (Hm eq_refl); discriminate|reflexivity]). subst merge.
      apply IH in E; [|assumption|lia|repeat split; auto; try (right; reflexivity); try lia; discriminate].
      destruct E as (E1 & E2 & E3 & pre & E4). split; [|split; [assumption|split; [assumption|]]].
      * rewrite E1. cbn [atoms]. rewrite norm_app, norm_repN. unfold pend.
        simpl (norm1 _ _). simpl (FLAG_SKIP =? FLAG_MEMCPY). cbv iota. rewrite repN_add, app_assoc. reflexivity.
      * eapply Htail. eassumption.
    + assert (cur = FLAG_MEMCPY) by (destruct Hc; [assumption|contradiction]). subst cur.
      destruct merge.
      * rewrite !wadd_small in E by lia.
        apply IH in E; [|assumption|lia|repeat split; auto; try (left; reflexivity); try lia; discriminate].
        destruct E as (E1 & E2 & E3 & pre & E4). split; [|split; [assumption|split; [assumption|]]].
        -- rewrite E1. cbn [atoms]. rewrite norm_app, norm_repN. unfold pend.
           simpl (norm1 _ _). rewrite N.eqb_refl. rewrite repN_add, app_assoc. reflexivity.
        -- eapply Htail. eassumption.
      * specialize (Hz eq_refl eq_refl). subst skp. rewrite wadd_small in E by lia.
        destruct (ssimp false r FLAG_SKIP n (0 + n)) as [o1 [[c1 n1] s1]] eqn:E1. inversion E; subst; clear E.
        apply IH in E1; [|assumption|lia|repeat split; auto; try (right; reflexivity); try lia; discriminate].
        destruct E1 as (E1 & E2 & E3 & pre & E4). split; [|split; [assumption|split; [apply wf_out_spush; assumption|]]].
        -- rewrite atoms_spush, <- app_assoc, E1. cbn [atoms]. rewrite norm_app, norm_repN. reflexivity.
        -- eapply Htail. eassumption.
  - (* SArr *)
    cbn [wf_raw] in Hw. destruct Hw as (Hn & Hne & Hbl & Hwb & Hwr).
    cbn [atoms] in Hlt. rewrite lenN_app, lenN_rep_list in Hlt. cbn [ssimp] in E.
    destruct Hst as (Hc & Hm & Hs & Hz).
    assert (Htail : forall pre (s' : N), atoms r = pre ++ repN s' APad ->
              exists p, repN skp APad ++ atoms (SArr n b r) = p ++ repN s' APad).
    { intros pre s' Ep. exists (repN skp APad ++ rep_list n (atoms b) ++ pre). cbn [atoms]. rewrite Ep, !app_assoc. reflexivity. }
    destruct (ssimp merge b FLAG_MEMCPY 0 0) as [ob [[c1 n1] s1]] eqn:Eb.
    assert (Hb : wf_out merge (sapp ob (spush n1 c1 SNil)) /\
                 atoms (sapp ob (spush n1 c1 SNil)) = norm merge (atoms b)).
    { apply IHb in Eb; [|assumption|lia|repeat split; auto; try (left; reflexivity); lia].
      destruct Eb as (E1 & E2 & E3 & _). split.
      - apply wf_out_sapp; [assumption|]. apply wf_out_spush. exact I.
      - rewrite atoms_sapp, atoms_spush. simpl (atoms SNil). rewrite app_nil_r. exact E1. }
    assert (Hflat : 1 <= n \/ exists c, sapp ob (spush n1 c1 SNil) = SMem c SNil).
    { destruct Hn as [Hn|Hn]; [left; assumption|right]. destruct (@ssimp_run merge b Hwb Hbl Hn) as [s2 E2].
      rewrite E2 in Eb. exists (lenN (atoms b)). injection Eb as <- <- <- <-. unfold spush. destruct (N.eqb_spec (lenN (atoms b)) 0); [lia|reflexivity]. }
    clear Eb IHb. destruct Hb as [Hb1 Hb2].
    remember (sapp ob (spush n1 c1 SNil)) as ob' eqn:Eob. clear Eob.
    assert (Hlen : lenN (atoms ob') = lenN (atoms b)) by (rewrite Hb2, lenN_norm; reflexivity).
    (* squashing *)
    assert (Hsq : forall op c, okcur op -> atoms ob' = pend op c ->
       (if (op =? cur) && negb (cnt =? 0) then ssimp merge r cur (wadd cnt (wmul c n)) 0
        else let '(o, st) := ssimp merge r op (wmul c n) 0 in (spush cnt cur o, st)) = (o, (cur', cnt', skp')) ->
       (merge = true -> op = FLAG_MEMCPY) ->
       atoms o ++ pend cur' cnt' = pend cur cnt ++ norm merge (atoms (SArr n b r)) /\
       st_ok merge cur' cnt' skp' /\ wf_out merge o /\
       (exists pre, repN skp APad ++ atoms (SArr n b r) = pre ++ repN skp' APad)).
    { intros op c Hop Hpend Hif Hmop.
      assert (Hcl : lenN (atoms b) = c) by (rewrite <- Hlen, Hpend; unfold pend; apply lenN_repN).
      rewrite wmul_small in Hif by nia.
      assert (Hx : norm merge (atoms (SArr n b r)) = pend op (c * n) ++ norm merge (atoms r)).
      { cbn [atoms]. rewrite norm_app, norm_rep_list, <- Hb2, Hpend. unfold pend. rewrite rep_list_repN. reflexivity. }
      destruct (N.eqb_spec op cur) as [->|Hne'].
      + destruct (N.eqb_spec cnt 0) as [->|Hcnt]; cbn [andb negb] in Hif.
        * destruct (ssimp merge r cur (c * n) 0) as [o1 [[c2 n2] s2]] eqn:Er. inversion Hif; subst; clear Hif.
          apply IH in Er; [|assumption|nia|repeat split; auto; lia].
          destruct Er as (E1 & E2 & E3 & pre & E4). split; [|split; [assumption|split; [apply wf_out_spush; assumption|]]].
          -- rewrite atoms_spush, <- app_assoc, E1, Hx. reflexivity.
          -- simpl in E4. eapply Htail; eassumption.
        * rewrite wadd_small in Hif by nia.
          apply IH in Hif; [|assumption|nia|repeat split; auto; lia].
          destruct Hif as (E1 & E2 & E3 & pre & E4). split; [|split; [assumption|split; [assumption|]]].
          -- rewrite E1, Hx. unfold pend. rewrite repN_add, app_assoc. reflexivity.
          -- simpl in E4. eapply Htail; eassumption.
      + cbn [andb] in Hif.
        destruct (ssimp merge r op (c * n) 0) as [o1 [[c2 n2] s2]] eqn:Er. inversion Hif; subst; clear Hif.
        apply IH in Er; [|assumption|nia|repeat split; auto; lia].
        destruct Er as (E1 & E2 & E3 & pre & E4). split; [|split; [assumption|split; [apply wf_out_spush; assumption|]]].
        -- rewrite atoms_spush, <- app_assoc, E1, Hx. reflexivity.
        -- simpl in E4. eapply Htail; eassumption. }
    assert (Hgen : (forall c, ob' <> SMem c SNil) ->
       (let '(o, st) := ssimp merge r cur 0 0 in (spush cnt cur (SArr n ob' o), st)) = (o, (cur', cnt', skp')) ->
       atoms o ++ pend cur' cnt' = pend cur cnt ++ norm merge (atoms (SArr n b r)) /\
       st_ok merge cur' cnt' skp' /\ wf_out merge o /\
       (exists pre, repN skp APad ++ atoms (SArr n b r) = pre ++ repN skp' APad)).
    { intros Hnot Hif. destruct (ssimp merge r cur 0 0) as [o1 [[c2 n2] s2]] eqn:Er. inversion Hif; subst; clear Hif.
      apply IH in Er; [|assumption|nia|repeat split; auto; lia].
      destruct Er as (E1 & E2 & E3 & pre & E4). rewrite pend_0 in E1. simpl in E1. split; [|split; [assumption|split]].
      - rewrite atoms_spush, <- app_assoc. cbn [atoms]. rewrite <- app_assoc, E1, norm_app, norm_rep_list, Hb2. reflexivity.
      - apply wf_out_spush. simpl. split; [|auto]. destruct Hflat as [X|[c0 X]]; [exact X|destruct (Hnot c0 X)].
      - simpl in E4. eapply Htail; eassumption. }
    destruct ob' as [|c ro|c ro|n' b' ro|k' s' e' b' ro].
    + exfalso. simpl in Hlen. rewrite lenN_nil in Hlen. lia.
    + destruct ro; try (apply Hgen; [discriminate|exact E]).
      apply (Hsq FLAG_MEMCPY c); [left; reflexivity| |exact E|auto].
      simpl. rewrite app_nil_r. reflexivity.
    + destruct ro; try (apply Hgen; [discriminate|exact E]).
      destruct merge.
      * (* impossible: a merged block has no padding *)
        exfalso. simpl in Hb2. rewrite app_nil_r in Hb2.
        assert (Hin : In APad (repN c APad)).
        { simpl in Hlen. rewrite app_nil_r, lenN_repN in Hlen. unfold repN.
          destruct (N.to_nat c) eqn:Ec; [lia|]. left; reflexivity. }
        rewrite Hb2 in Hin. unfold norm in Hin. apply in_map_iff in Hin.
        destruct Hin as [x [Hx _]]. destruct x; discriminate.
      * apply (Hsq FLAG_SKIP c); [right; reflexivity| |exact E|discriminate].
        simpl. rewrite app_nil_r. reflexivity.
    + apply Hgen; [discriminate|exact E].
    + apply Hgen; [discriminate|exact E].
  - (* SCont *)
    cbn [wf_raw] in Hw. destruct Hw as (-> & Hs1 & He & Hbl & Hwb & Hwr).
    cbn [atoms] in Hlt. rewrite lenN_cons in Hlt. cbn [ssimp] in E.
    destruct Hst as (Hc & Hm & Hs & Hz).
    destruct (ssimp merge (rops e) FLAG_MEMCPY 0 0) as [ob [[c1 n1] s1]] eqn:Eb.
    assert (Hbl' : sapp ob (spush n1 c1 SNil) = sblock merge (rops e)) by (unfold sblock; rewrite Eb; reflexivity).
    apply IHb in Eb; [|assumption|lia|repeat split; auto; try (left; reflexivity); lia].
    destruct Eb as (E1 & E2 & E3 & _).
    destruct (ssimp merge r cur 0 0) as [o1 [[c2 n2] s2]] eqn:Er. inversion E; subst; clear E.
    apply IH in Er; [|assumption|lia|repeat split; auto; lia].
    destruct Er as (F1 & F2 & F3 & pre & F4). rewrite pend_0 in F1. simpl in F1. split; [|split; [assumption|split]].
    + rewrite atoms_spush, <- app_assoc. cbn [atoms]. cbn [app]. rewrite F1. reflexivity.
    + apply wf_out_spush. cbn [wf_out]. split; [exact Hbl'|]. split.
      { rewrite atoms_sapp, atoms_spush. simpl (atoms SNil). rewrite app_nil_r. rewrite E1. reflexivity. }
      split; [assumption|]. split; [assumption|]. split; [|assumption].
      apply wf_out_sapp; [assumption|]. apply wf_out_spush. exact I.
    + simpl in F4. exists (repN skp APad ++ ACont k s e :: pre). cbn [atoms]. rewrite F4, <- app_assoc. reflexivity.
Qed.

(** ** The flat simplifier computes the structured one *)
Lemma length_flat_sapp_ne o : o <> SNil -> (2 <= length (flat o))%nat.
Proof. destruct o; simpl; intros; try contradiction; rewrite ?app_length; simpl; lia. Qed.

Lemma flat_spush cnt cur o : okcur cur -> flat (spush cnt cur o) = push_if cnt cur [] ++ flat o.
Proof.
  intros Hc. unfold spush, push_if. destruct (N.eqb_spec cnt 0); [reflexivity|].
  destruct Hc as [-> | ->]; reflexivity.
Qed.
Lemma push_if_app cnt cur out : push_if cnt cur out = out ++ push_if cnt cur [].
Proof. unfold push_if. destruct (cnt =? 0); [rewrite app_nil_r|]; reflexivity. Qed.

Lemma skipn_app_len {A} (a b : list A) : skipn (length a) (a ++ b) = b.
Proof. rewrite skipn_app, Nat.sub_diag, skipn_all. reflexivity. Qed.
Lemma firstn_app_len {A} (a b : list A) : firstn (length a) (a ++ b) = a.
Proof. rewrite firstn_app, Nat.sub_diag, firstn_all. simpl. apply app_nil_r. Qed.

Lemma simp_ssimp merge rts r : forall depth cur cnt skp out rest fuel o cur' cnt' skp',
  wf_raw r -> cnt + lenN (atoms r) < two64 -> st_ok merge cur cnt skp ->
  ssimp merge r cur cnt skp = (o, (cur', cnt', skp')) ->
  (length (flat r ++ rest) < fuel)%nat ->
  exists fuel', (length rest < fuel')%nat /\
    simp fuel merge rts depth (flat r ++ rest) cur cnt skp out =
    simp fuel' merge rts depth rest cur' cnt' skp' (out ++ flat o).
Proof.
  induction r as [|n r IH|n r IH|n b IHb r IH|k s e b IHb r IH];
    intros depth cur cnt skp out rest fuel o cur' cnt' skp' Hw Hlt Hst E Hf.
  - simpl in E. inversion E; subst. exists fuel. simpl in *. rewrite app_nil_r. split; [lia|reflexivity].
  - (* SMem *)
    destruct fuel as [|fuel]; [simpl in Hf; lia|].
    cbn [wf_raw] in Hw. cbn [atoms] in Hlt. rewrite lenN_app, lenN_repN in Hlt. cbn [ssimp] in E.
    destruct Hst as (Hc & Hm & Hs & Hz).
    cbn [flat app] in Hf |- *. cbn [simp].
    change (FLAG_MEMCPY =? FLAG_END) with false. change (FLAG_MEMCPY =? FLAG_ARRAY) with false.
    change (FLAG_MEMCPY =? FLAG_CONTAINER) with false. change (FLAG_MEMCPY =? FLAG_SKIP) with false. cbv iota.
    rewrite (N.eqb_sym FLAG_MEMCPY cur).
    destruct (N.eqb_spec cur FLAG_MEMCPY) as [Ec|Ec].
    + subst cur. eapply IH in E; [exact E|assumption|rewrite wadd_small; lia| |simpl in Hf; lia].
      rewrite wadd_small by lia. repeat split; auto; lia.
    + destruct merge; [exfalso; apply Ec; auto|].
      destruct (ssimp false r FLAG_MEMCPY n 0) as [o1 [[c1 n1] s1]] eqn:E1. inversion E; subst; clear E.
      rewrite flat_spush by assumption. rewrite app_assoc, <- push_if_app.
      eapply IH in E1; [exact E1|assumption|lia| |simpl in Hf; lia].
      repeat split; auto; try (left; reflexivity); try lia; discriminate.
  - (* SSkip *)
    destruct fuel as [|fuel]; [simpl in Hf; lia|].
    cbn [wf_raw] in Hw. cbn [atoms] in Hlt. rewrite lenN_app, lenN_repN in Hlt. cbn [ssimp] in E.
    destruct Hst as (Hc & Hm & Hs & Hz).
    cbn [flat app] in Hf |- *. cbn [simp].
    change (FLAG_SKIP =? FLAG_END) with false. change (FLAG_SKIP =? FLAG_ARRAY) with false.
    change (FLAG_SKIP =? FLAG_CONTAINER) with false. change (FLAG_SKIP =? FLAG_SKIP) with true. cbv iota.
    rewrite (N.eqb_sym FLAG_SKIP cur).
    destruct (N.eqb_spec cur FLAG_SKIP) as [Ec|Ec].
    + subst cur. assert (merge = false) by (destruct merge; [specialize (Hm eq_refl); discriminate|reflexivity]). subst merge.
      eapply IH in E; [exact E|assumption|rewrite wadd_small; lia| |simpl in Hf; lia].
      rewrite !wadd_small by lia. repeat split; auto; try lia; discriminate.
    + assert (cur = FLAG_MEMCPY) by (destruct Hc; [assumption|contradiction]). subst cur.
      destruct merge.
      * eapply IH in E; [exact E|assumption|rewrite wadd_small; lia| |simpl in Hf; lia].
        rewrite !wadd_small by lia. repeat split; auto; try lia; discriminate.
      * specialize (Hz eq_refl eq_refl). subst skp.
        destruct (ssimp false r FLAG_SKIP n (wadd 0 n)) as [o1 [[c1 n1] s1]] eqn:E1. inversion E; subst; clear E.
        rewrite flat_spush by assumption. rewrite app_assoc, <- push_if_app.
        eapply IH in E1; [exact E1|assumption|lia| |simpl in Hf; lia].
        rewrite wadd_small by lia. repeat split; auto; try (right; reflexivity); try lia; discriminate.
  - (* SArr *)
    destruct fuel as [|fuel]; [simpl in Hf; lia|].
    cbn [wf_raw] in Hw. destruct Hw as (Hn & Hne & Hbl & Hwb & Hwr).
    cbn [atoms] in Hlt. rewrite lenN_app, lenN_rep_list in Hlt. cbn [ssimp] in E.
    destruct Hst as (Hc & Hm & Hs & Hz).
    cbn [flat app] in Hf |- *. cbn [simp].
    change (FLAG_ARRAY =? FLAG_END) with false. change (FLAG_ARRAY =? FLAG_ARRAY) with true. cbv iota.
    destruct (ssimp merge b FLAG_MEMCPY 0 0) as [ob [[c1 n1] s1]] eqn:Eb.
    assert (Hst0 : st_ok merge FLAG_MEMCPY 0 0) by (repeat split; auto; try (left; reflexivity); lia).
    rename Hbl into Hbl'. assert (Hbl : 0 + lenN (atoms b) < two64) by lia.
    pose proof (ssimp_ok Hwb Hbl Hst0 Eb) as (A1 & (A2 & _) & _ & _).
    set (out2 := push_if cnt cur out ++ [W FLAG_ARRAY; W n]).
    rewrite <- app_assoc. cbn [app].
    destruct (IHb (S depth) FLAG_MEMCPY 0 0 out2 (W FLAG_END :: flat r ++ rest) fuel _ _ _ _ Hwb Hbl Hst0 Eb) as (f1 & Hf1 & ->).
    { rewrite <- app_assoc in Hf. simpl in Hf. lia. }
    destruct f1 as [|f1]; [simpl in Hf1; lia|]. cbn [simp].
    change (FLAG_END =? FLAG_END) with true. cbv iota. cbn [bind].
    change (decode (W FLAG_END)) with OEnd. cbv iota.
    assert (Hob : push_if n1 c1 (out2 ++ flat ob) = out2 ++ flat (sapp ob (spush n1 c1 SNil))).
    { rewrite flat_sapp, flat_spush by assumption. simpl. rewrite app_nil_r, push_if_app, app_assoc. reflexivity. }
    rewrite Hob. clear Hob.
    assert (Hat : atoms (sapp ob (spush n1 c1 SNil)) = norm merge (atoms b)).
    { rewrite atoms_sapp, atoms_spush. simpl (atoms SNil). rewrite app_nil_r. exact A1. }
    remember (sapp ob (spush n1 c1 SNil)) as ob' eqn:Eob. clear Eob Eb A1.
    replace (length (out2 ++ flat ob') - length out2)%nat with (length (flat ob')) by (rewrite app_length; lia).
    assert (Hf2 : (length (flat r ++ rest) < fuel)%nat).
    { rewrite <- app_assoc in Hf. cbn [length] in Hf. rewrite app_length in Hf. cbn [length app] in Hf. lia. }
    assert (Hlen : lenN (atoms ob') = lenN (atoms b)) by (rewrite Hat, lenN_norm; reflexivity).
    (* the four words removed / the two words removed *)
    assert (R2 : forall x, resize_to (length out2) 2 (out2 ++ x) = Ok (push_if cnt cur out)).
    { intros x. unfold resize_to, out2. rewrite app_length. cbn [length].
      destruct (Nat.ltb_spec (length (push_if cnt cur out) + 2) 2); [lia|].
      rewrite <- app_assoc.
      replace (length (push_if cnt cur out) + 2 - 2)%nat with (length (push_if cnt cur out)) by lia.
      rewrite firstn_app_len. reflexivity. }
    assert (R4 : forall x, cnt <> 0 -> resize_to (length out2) 4 (out2 ++ x) = Ok out).
    { intros x Hnz. unfold resize_to, out2, push_if. destruct (N.eqb_spec cnt 0); [contradiction|].
      rewrite !app_length. cbn [length].
      destruct (Nat.ltb_spec (length out + 2 + 2) 4); [lia|].
      rewrite <- !app_assoc.
      replace (length out + 2 + 2 - 4)%nat with (length out) by lia.
      rewrite firstn_app_len. reflexivity. }
    assert (Hsq : forall op c, okcur op -> flat ob' = [W op; W c] -> atoms ob' = pend op c ->
       (merge = true -> op = FLAG_MEMCPY) ->
       (if (op =? cur) && negb (cnt =? 0) then ssimp merge r cur (wadd cnt (wmul c n)) 0
        else let '(o, st) := ssimp merge r op (wmul c n) 0 in (spush cnt cur o, st)) = (o, (cur', cnt', skp')) ->
       exists fuel', (length rest < fuel')%nat /\
       (if (length (flat ob') =? 2)%nat
        then
         match skipn (length out2) (out2 ++ flat ob') with
         | [W op'; W c] =>
             if (op' =? cur) && negb (cnt =? 0)
             then out4 <- resize_to (length out2) 4 (out2 ++ flat ob');;
                  simp fuel merge rts depth (flat r ++ rest) cur (wadd cnt (wmul c n)) 0 out4
             else out4 <- resize_to (length out2) 2 (out2 ++ flat ob');;
                  simp fuel merge rts depth (flat r ++ rest) op' (wmul c n) 0 out4
         | _ => UB UCode
         end
        else
         if (length (flat ob') =? 0)%nat
         then out4 <- resize_to (length out2) 4 (out2 ++ flat ob');;
              simp fuel merge rts depth (flat r ++ rest) cur cnt 0 out4
         else simp fuel merge rts depth (flat r ++ rest) cur 0 0 ((out2 ++ flat ob') ++ [W FLAG_END])) =
       simp fuel' merge rts depth rest cur' cnt' skp' (out ++ flat o)).
    { intros op c Hop Hfl Hpend Hmop Hif. rewrite Hfl. cbn [length Nat.eqb]. rewrite skipn_app_len.
      assert (Hcl : lenN (atoms b) = c) by (rewrite <- Hlen, Hpend; unfold pend; apply lenN_repN).
      rewrite (@wmul_small c n) in * by nia.
      destruct (N.eqb_spec op cur) as [->|Hne'].
      - destruct (N.eqb_spec cnt 0) as [->|Hcnt]; cbn [andb negb] in *.
        + rewrite R2. cbn [bind].
          destruct (ssimp merge r cur (c * n) 0) as [o1 [[c2 n2] s2]] eqn:Er. inversion Hif; subst; clear Hif.
          rewrite flat_spush by assumption. rewrite app_assoc, <- push_if_app.
          eapply IH in Er; [exact Er|assumption|nia|repeat split; auto; lia|assumption].
        + rewrite R4 by assumption. cbn [bind]. rewrite (@wadd_small cnt) in * by nia.
          eapply IH in Hif; [exact Hif|assumption|nia|repeat split; auto; lia|assumption].
      - cbn [andb] in *. rewrite R2. cbn [bind].
        destruct (ssimp merge r op (c * n) 0) as [o1 [[c2 n2] s2]] eqn:Er. inversion Hif; subst; clear Hif.
        rewrite flat_spush by assumption. rewrite app_assoc, <- push_if_app.
        eapply IH in Er; [exact Er|assumption|nia|repeat split; auto; lia|assumption]. }
    assert (Hgen : (length (flat ob') =? 2)%nat = false -> (length (flat ob') =? 0)%nat = false ->
       (let '(o, st) := ssimp merge r cur 0 0 in (spush cnt cur (SArr n ob' o), st)) = (o, (cur', cnt', skp')) ->
       exists fuel', (length rest < fuel')%nat /\
         simp fuel merge rts depth (flat r ++ rest) cur 0 0 ((out2 ++ flat ob') ++ [W FLAG_END]) =
         simp fuel' merge rts depth rest cur' cnt' skp' (out ++ flat o)).
    { intros _ _ Hif. destruct (ssimp merge r cur 0 0) as [o1 [[c2 n2] s2]] eqn:Er. inversion Hif; subst; clear Hif.
      rewrite flat_spush by assumption. rewrite app_assoc, <- push_if_app.
      eapply IH with (fuel := fuel) (out := (out2 ++ flat ob') ++ [W FLAG_END]) in Er;
        [|assumption|nia|repeat split; auto; lia|eassumption].
      destruct Er as (f' & Hf' & ->). exists f'. split; [assumption|]. f_equal.
      unfold out2. cbn [flat]. rewrite <- !app_assoc. reflexivity. }
    destruct ob' as [|c ro|c ro|n' b' ro|k' s' e' b' ro].
    + exfalso. simpl in Hlen. rewrite lenN_nil in Hlen. lia.
    + destruct ro.
      * apply (Hsq FLAG_MEMCPY c); [left; reflexivity|reflexivity| |auto|exact E].
        simpl. rewrite app_nil_r. reflexivity.
      * cbn [flat length Nat.eqb]. apply Hgen; [reflexivity|reflexivity|exact E].
      * cbn [flat length Nat.eqb]. apply Hgen; [reflexivity|reflexivity|exact E].
      * cbn [flat length Nat.eqb]. apply Hgen; [reflexivity|reflexivity|exact E].
      * cbn [flat length Nat.eqb]. apply Hgen; [reflexivity|reflexivity|exact E].
    + destruct ro.
      * apply (Hsq FLAG_SKIP c); [right; reflexivity|reflexivity| | |exact E].
        { simpl. rewrite app_nil_r. reflexivity. }
        intros ->. exfalso. simpl in Hat. rewrite app_nil_r in Hat.
        assert (Hin : In APad (repN c APad)).
        { simpl in Hlen. rewrite app_nil_r, lenN_repN in Hlen. unfold repN.
          destruct (N.to_nat c) eqn:Ec; [lia|]. left; reflexivity. }
        rewrite Hat in Hin. unfold norm in Hin. apply in_map_iff in Hin.
        destruct Hin as [x [Hx _]]. destruct x; discriminate.
      * cbn [flat length Nat.eqb]. apply Hgen; [reflexivity|reflexivity|exact E].
      * cbn [flat length Nat.eqb]. apply Hgen; [reflexivity|reflexivity|exact E].
      * cbn [flat length Nat.eqb]. apply Hgen; [reflexivity|reflexivity|exact E].
      * cbn [flat length Nat.eqb]. apply Hgen; [reflexivity|reflexivity|exact E].
    + assert (L : (3 <= length (flat (SArr n' b' ro)))%nat) by (simpl; rewrite app_length; simpl; lia).
      destruct (Nat.eqb_spec (length (flat (SArr n' b' ro))) 2); [lia|].
      destruct (Nat.eqb_spec (length (flat (SArr n' b' ro))) 0); [lia|].
      apply Hgen; [reflexivity|reflexivity|exact E].
    + assert (L : (3 <= length (flat (SCont k' s' e' b' ro)))%nat) by (simpl; rewrite app_length; simpl; lia).
      destruct (Nat.eqb_spec (length (flat (SCont k' s' e' b' ro))) 2); [lia|].
      destruct (Nat.eqb_spec (length (flat (SCont k' s' e' b' ro))) 0); [lia|].
      apply Hgen; [reflexivity|reflexivity|exact E].
  - (* SCont *)
    destruct fuel as [|fuel]; [simpl in Hf; lia|].
    cbn [wf_raw] in Hw. destruct Hw as (-> & Hs1 & He & Hbl & Hwb & Hwr).
    cbn [atoms] in Hlt. rewrite lenN_cons in Hlt. cbn [ssimp] in E.
    destruct Hst as (Hc & Hm & Hs & Hz).
    cbn [flat app] in Hf |- *. cbn [simp].
    change (FLAG_CONTAINER =? FLAG_END) with false. change (FLAG_CONTAINER =? FLAG_ARRAY) with false.
    change (FLAG_CONTAINER =? FLAG_CONTAINER) with true. cbv iota.
    destruct (ssimp merge (rops e) FLAG_MEMCPY 0 0) as [ob [[c1 n1] s1]] eqn:Eb.
    assert (Hst0 : st_ok merge FLAG_MEMCPY 0 0) by (repeat split; auto; try (left; reflexivity); lia).
    assert (Hbl' : 0 + lenN (atoms (rops e)) < two64) by lia.
    pose proof (ssimp_ok Hwb Hbl' Hst0 Eb) as (A1 & (A2 & _) & _ & _).
    set (out2 := push_if cnt cur out ++ [W FLAG_CONTAINER; WC k s e]).
    rewrite <- app_assoc. cbn [app].
    destruct (IHb (S depth) FLAG_MEMCPY 0 0 out2 (W FLAG_END :: flat r ++ rest) fuel _ _ _ _ Hwb Hbl' Hst0 Eb) as (f1 & Hf1 & ->).
    { rewrite <- app_assoc in Hf. simpl in Hf. lia. }
    destruct f1 as [|f1]; [simpl in Hf1; lia|]. cbn [simp].
    change (FLAG_END =? FLAG_END) with true. cbv iota. cbn [bind].
    change (decode (W FLAG_END)) with OEnd. cbv iota.
    assert (Hob : push_if n1 c1 (out2 ++ flat ob) = out2 ++ flat (sapp ob (spush n1 c1 SNil))).
    { rewrite flat_sapp, flat_spush by assumption. simpl. rewrite app_nil_r, push_if_app, app_assoc. reflexivity. }
    rewrite Hob. clear Hob.
    assert (Hf2 : (length (flat r ++ rest) < fuel)%nat).
    { rewrite <- app_assoc in Hf. cbn [length] in Hf. rewrite app_length in Hf. cbn [length app] in Hf. lia. }
    destruct (ssimp merge r cur 0 0) as [o1 [[c2 n2] s2]] eqn:Er. inversion E; subst; clear E.
    eapply IH with (fuel := fuel) (out := (out2 ++ flat (sapp ob (spush n1 c1 SNil))) ++ [W FLAG_END]) in Er;
      [|assumption|lia|repeat split; auto; lia|eassumption].
    destruct Er as (f' & Hf' & ->). exists f'. split; [assumption|]. f_equal.
    rewrite flat_spush by assumption. unfold out2. rewrite (@push_if_app cnt cur out).
    cbn [flat]. rewrite <- !app_assoc. reflexivity.
Qed.
