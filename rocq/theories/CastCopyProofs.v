(** * CastCopyProofs: types that can be cast have the same memory, up to padding at the end. *)
From Verif Require Import Base Types WellFormed Layout LayoutProofs LayoutMain InitProofs LayoutFinal
     ValueOps ValueSpec ValueAtoms ValueInst WalkProofs InitRun EltOps EltProofs CmpProofs CastCopySpec.
Local Open Scope N_scope.

(** ** The symbols of enumerations do not matter for the memory *)
Fixpoint erase (t : ty) : ty :=
  match t with
  | TEnum n _ => TEnum n []
  | TArray s d e => TArray s d (erase e)
  | TCont k s e => TCont k s (erase e)
  | TComp s fs => TComp s (erasef fs)
  | _ => t
  end
with erasef (fs : fields) : fields :=
  match fs with FNil => FNil | FCons n o t r => FCons n o (erase t) (erasef r) end.
Definition ea (a : atom) : atom := match a with ACont k s e => ACont k s (erase e) | _ => a end.

Lemma sizeof_erase t : sizeof (erase t) = sizeof t.
Proof. destruct t; reflexivity. Qed.
Lemma supported_erase :
  (forall t ap, supported ap (erase t) = supported ap t) /\ (forall fs ap, supported_fields ap (erasef fs) = supported_fields ap fs).
Proof. apply ty_fields_ind; cbn [erase erasef supported supported_fields]; intros; auto. rewrite H, H0. reflexivity. Qed.
Lemma Forall_iff {A} (P Q : A -> Prop) l : (forall x, P x <-> Q x) -> (Forall P l <-> Forall Q l).
Proof. intros E. split; apply Forall_impl; intros x; apply E. Qed.
Lemma Forall2_iff {A C} (P Q : A -> C -> Prop) l m : (forall x y, P x y <-> Q x y) -> (Forall2 P l m <-> Forall2 Q l m).
Proof. intros E. split; induction 1; constructor; auto; apply E; assumption. Qed.
Lemma valid_erase :
  (forall t m, valid (erase t) m <-> valid t m) /\ (forall fs cur s m, valid_fields (erasef fs) cur s m <-> valid_fields fs cur s m).
Proof.
  apply ty_fields_ind; cbn [erase erasef valid valid_fields]; intros; try tauto.
  - split; intros (ms & A & B & C); exists ms; repeat split; auto; revert C; apply Forall_iff; intros; apply H || (symmetry; apply H).
  - destruct k; [|tauto]. split; intros (cap & ms & A & B & C); exists cap, ms; repeat split; try tauto; revert B; apply Forall_iff; intros; apply H || (symmetry; apply H).
  - apply H.
  - rewrite sizeof_erase. split; intros (p & a & b & E & A & B & C); exists p, a, b; repeat split; auto; try (apply H; assumption); apply H0; assumption.
Qed.
Lemma same_erase :
  (forall t a b, same (erase t) a b <-> same t a b) /\ (forall fs cur s a b, same_fields (erasef fs) cur s a b <-> same_fields fs cur s a b).
Proof.
  apply ty_fields_ind; cbn [erase erasef same same_fields]; intros; try tauto.
  - split; intros (xs & ys & A & B & C & D); exists xs, ys; repeat split; auto; revert D; apply Forall2_iff; intros; apply H || (symmetry; apply H).
  - destruct k; [|tauto]. split; intros (ca & cb & xs & ys & A & B & C & D); exists ca, cb, xs, ys; repeat split; try tauto; revert C; apply Forall2_iff; intros; apply H || (symmetry; apply H).
  - apply H.
  - rewrite sizeof_erase. split; intros (p & x & y & q & z & w & E & A & B & C & D & F); exists p, x, y, q, z, w; repeat split; auto; try (apply H; assumption); apply H0; assumption.
Qed.
Lemma map_rep_list {A C} (f : A -> C) n l : map f (rep_list n l) = rep_list n (map f l).
Proof. unfold rep_list. rewrite concat_map. unfold repN. induction (N.to_nat n); cbn; congruence. Qed.
Lemma map_repN' {A C} (f : A -> C) n x : map f (repN n x) = repN n (f x).
Proof. unfold repN. induction (N.to_nat n); cbn; congruence. Qed.
Lemma atoms_erase :
  (forall t, tatoms (erase t) = map ea (tatoms t)) /\ (forall fs cur s, atoms (rfields (erasef fs) cur s) = map ea (atoms (rfields fs cur s))).
Proof.
  apply ty_fields_ind; unfold tatoms; cbn [erase erasef rops rfields atoms]; intros; auto;
    try (rewrite map_app, map_repN'; reflexivity).
  - rewrite map_app, map_rep_list, H. reflexivity.
  - rewrite sizeof_erase, !atoms_sapp, !map_app, map_repN', H, H0. reflexivity.
Qed.
Lemma asame_erase l : forall a b, asame (map ea l) a b <-> asame l a b.
Proof.
  assert (K : forall k e o o', csame k (erase e) o o' <-> csame k e o o').
  { intros k e o o'. unfold csame. destruct k, o, o'; try tauto.
    split; intros (xs & ys & A & B & C & D); exists xs, ys; repeat split; try tauto; revert C; apply Forall2_iff; intros; apply (proj1 same_erase) || (symmetry; apply (proj1 same_erase)). }
  unfold asame. intros a b. split.
  - remember (map ea l) as m eqn:E. intros X. revert l E. induction X as [|c x l m xs R X IH|c x l m xs R X IH|k s e o x l m xs R X IH];
      intros [|[| |k' s' e'] l0] E; cbn [map ea] in E; try discriminate; [constructor|inversion E; subst; constructor; auto..].
    destruct R as (o' & -> & R). exists o'. split; [reflexivity|apply K; assumption].
  - induction 1 as [|c x l m xs R X IH|c x l m xs R X IH|k s e o x l m xs R X IH]; cbn [map ea]; constructor; auto.
    destruct R as (o' & -> & R). exists o'. split; [reflexivity|apply K; assumption].
Qed.
Lemma avalid_erase l : forall a, avalid (map ea l) a <-> avalid l a.
Proof.
  assert (K : forall k e o, cvalid k (erase e) o <-> cvalid k e o).
  { intros k e o. unfold cvalid. destruct k, o; try tauto.
    split; intros (ms & A & B & C); exists ms; repeat split; try tauto; revert B; apply Forall_iff; intros; apply (proj1 valid_erase) || (symmetry; apply (proj1 valid_erase)). }
  intros a. unfold avalid. split.
  - remember (map ea l) as m eqn:E. generalize (@nil unit). intros u X. revert l E. induction X as [|c x l m xs R X IH|c x l m xs R X IH|k s e o x l m xs R X IH];
      intros [|[| |k' s' e'] l0] E; cbn [map ea] in E; try discriminate; [constructor|inversion E; subst; constructor; auto..].
    destruct R as [R ->]. split; [apply K; assumption|reflexivity].
  - generalize (@nil unit). intros u. induction 1 as [|c x l m xs R X IH|c x l m xs R X IH|k s e o x l m xs R X IH]; cbn [map ea]; constructor; auto.
    destruct R as [R ->]. split; [apply K; assumption|reflexivity].
Qed.

(** ** Casts of trees *)
Inductive casts : ty -> ty -> Prop :=
| ca_null : casts TNull TNull
| ca_opaque n : casts (TOpaque n) (TOpaque n)
| ca_num n c : casts (TNum n c) (TNum n c)
| ca_enum n v w : casts (TEnum n v) (TEnum n w)
| ca_ptr n : casts (TPtr n) (TPtr n)
| ca_arr s d e e' : erase e = erase e' -> casts (TArray s d e) (TArray s d e')
| ca_cont k s e e' : erase e = erase e' -> casts (TCont k s e) (TCont k s e')
| ca_comp s s' fs gs : casts_fields fs gs -> casts (TComp s fs) (TComp s' gs)
with casts_fields : fields -> fields -> Prop :=
| ca_nil : casts_fields FNil FNil
| ca_cons n o t t' fs gs : casts t t' -> casts_fields fs gs -> casts_fields (FCons n o t fs) (FCons n o t' gs).
Scheme casts_mind := Minimality for casts Sort Prop
  with casts_fields_mind := Minimality for casts_fields Sort Prop.
Combined Scheme casts_ind2 from casts_mind, casts_fields_mind.

Lemma repN_add' {A} a b (x : A) : repN (a + b) x = repN a x ++ repN b x.
Proof. apply repN_add. Qed.
Lemma repN_eq {A} a b (x : A) : a = b -> repN a x = repN b x.
Proof. intros ->. reflexivity. Qed.
Lemma rfields_shift fs : forall cur c s, cur <= c -> wf_fields fs c s ->
  atoms (rfields fs cur s) = repN (c - cur) APad ++ atoms (rfields fs c s).
Proof.
  destruct fs as [|n off t r]; intros cur c s Hc Hw; cbn [rfields atoms wf_fields] in *.
  - rewrite !app_nil_r, <- repN_add. apply repN_eq. lia.
  - destruct Hw as (A & _). rewrite app_assoc, <- repN_add. f_equal. apply repN_eq. lia.
Qed.
Lemma rfields_grow fs : forall cur s K, wf_fields fs cur s -> s <= K ->
  atoms (rfields fs cur K) = atoms (rfields fs cur s) ++ repN (K - s) APad.
Proof.
  induction fs as [|n off t r IH]; intros cur s K Hw Hk; cbn [rfields atoms wf_fields] in *.
  - rewrite !app_nil_r, <- repN_add. apply repN_eq. lia.
  - destruct Hw as (A & B & C). rewrite !atoms_sapp, <- !app_assoc, (IH _ _ _ C Hk). reflexivity.
Qed.
Lemma wf_fields_grow fs : forall cur s K, wf_fields fs cur s -> s <= K -> wf_fields fs cur K.
Proof. induction fs as [|n off t r IH]; intros cur s K Hw Hk; cbn [wf_fields] in *; [lia|]. destruct Hw as (A & B & C). repeat split; eauto. Qed.
Lemma casts_fields_max fs gs : casts_fields fs gs -> forall c c' K, wf_fields fs c K -> wf_fields gs c' K ->
  wf_fields fs (N.max c c') K /\ wf_fields gs (N.max c c') K.
Proof. destruct 1; intros c c' K A B; cbn [wf_fields] in *; [lia|]. repeat split; try tauto; lia. Qed.
Lemma casts_atoms :
  (forall t t', casts t t' -> wf t -> wf t' -> forall K, sizeof t <= K -> sizeof t' <= K ->
     map ea (tatoms t) ++ repN (K - sizeof t) APad = map ea (tatoms t') ++ repN (K - sizeof t') APad) /\
  (forall fs gs, casts_fields fs gs -> forall cur K, wf_fields fs cur K -> wf_fields gs cur K ->
     map ea (atoms (rfields fs cur K)) = map ea (atoms (rfields gs cur K))).
Proof.
  apply casts_ind2; try (intros; reflexivity).
  - intros s d e e' E Hw Hw' K _ _. unfold tatoms. cbn [rops atoms sizeof]. f_equal. rewrite !map_app, !map_rep_list. f_equal. f_equal.
    change (map ea (tatoms e) = map ea (tatoms e')). rewrite <- !(proj1 atoms_erase), E. reflexivity.
  - intros k s e e' E Hw Hw' K _ _. unfold tatoms. cbn [rops atoms map ea sizeof]. rewrite E. reflexivity.
  - intros s s' fs gs HF IH Hw Hw' K Hk Hk'. cbn [wf sizeof] in *. destruct Hw as [_ Hw], Hw' as [_ Hw']. unfold tatoms. cbn [rops].
    assert (X := IH 0 K (wf_fields_grow Hw Hk) (wf_fields_grow Hw' Hk')). rewrite (rfields_grow Hw Hk), (rfields_grow Hw' Hk'), !map_app, !map_repN' in X. exact X.
  - intros n o t t' fs gs HC IHt HF IHf cur K Hw Hw'. cbn [wf_fields rfields atoms] in *. destruct Hw as (A & B & C), Hw' as (A' & B' & C').
    destruct (casts_fields_max HF C C') as [M M']. rewrite !map_app. f_equal. rewrite !atoms_sapp, !map_app.
    rewrite (@rfields_shift fs (o + sizeof t) _ K ltac:(apply N.le_max_l) M), (@rfields_shift gs (o + sizeof t') _ K ltac:(apply N.le_max_r) M').
    rewrite !map_app, !map_repN', !app_assoc. cbn [ea]. f_equal; [|apply IHf; assumption].
    assert (X := IHt B B' (N.max (sizeof t) (sizeof t')) ltac:(apply N.le_max_l) ltac:(apply N.le_max_r)).
    replace (N.max (o + sizeof t) (o + sizeof t') - (o + sizeof t)) with (N.max (sizeof t) (sizeof t') - sizeof t) by lia.
    replace (N.max (o + sizeof t) (o + sizeof t') - (o + sizeof t')) with (N.max (sizeof t) (sizeof t') - sizeof t') by lia. exact X.
Qed.

(** ** What the layout leaves out at the end *)
Fixpoint trail (acc : N) (r : sops) : N :=
  match r with
  | SNil => acc
  | SSkip n r' => trail (acc + n) r'
  | SMem _ r' | SArr _ _ r' | SCont _ _ _ _ r' => trail 0 r'
  end.
Lemma trail_sapp a b : forall acc, trail acc (sapp a b) = trail (trail acc a) b.
Proof. induction a; intros acc; cbn [sapp trail]; auto. Qed.
Lemma trail_mono r : forall a b, a <= b -> trail a r <= trail b r.
Proof. induction r; intros a b Hl; cbn [trail]; try (apply IHr || apply IHr2); try lia. Qed.
Lemma ssimp_trail mg r : forall cur cnt skp o c n s, wf_raw r -> skp + lenN (atoms r) < two64 ->
  ssimp mg r cur cnt skp = (o, (c, n, s)) -> s = trail skp r.
Proof.
  induction r as [|n0 r IH|n0 r IH|n0 b IHb r IH|k s0 e b IHb r IH]; intros cur cnt skp o c n s Hw Hlt E; cbn [wf_raw atoms trail] in *.
  - cbn [ssimp] in E. congruence.
  - rewrite lenN_app, lenN_repN in Hlt. cbn [ssimp] in E. destruct (cur =? FLAG_MEMCPY); [eapply IH; eauto; lia|]. destruct mg; [eapply IH; eauto; lia|].
    destruct (ssimp false r FLAG_MEMCPY n0 0) as [o1 [[c1 n1] s1]] eqn:E1. injection E as <- <- <- <-. eapply IH; eauto. lia.
  - rewrite lenN_app, lenN_repN in Hlt. cbn [ssimp] in E. rewrite (@wadd_small skp n0) in E by lia. destruct (cur =? FLAG_SKIP); [eapply IH; eauto; lia|].
    destruct mg; [eapply IH; eauto; lia|].
    destruct (ssimp false r FLAG_SKIP n0 (skp + n0)) as [o1 [[c1 n1] s1]] eqn:E1. injection E as <- <- <- <-. eapply IH; eauto. lia.
  - destruct Hw as (Hn & Hne & Hbl & Hwb & Hwr). rewrite lenN_app in Hlt. cbn [ssimp] in E.
    destruct (ssimp mg b FLAG_MEMCPY 0 0) as [ob [[c1 n1] s1]] eqn:Eb.
    assert (Hb : atoms (sapp ob (spush n1 c1 SNil)) = norm mg (atoms b)).
    { apply ssimp_ok in Eb; [|assumption|lia|apply st_ok0]. destruct Eb as (E1 & _). rewrite atoms_sapp, atoms_spush. simpl (atoms SNil). rewrite app_nil_r. exact E1. }
    assert (Hsq : forall op c2, (if (op =? cur) && negb (cnt =? 0) then ssimp mg r cur (wadd cnt (wmul c2 n0)) 0
        else let '(o, st) := ssimp mg r op (wmul c2 n0) 0 in (spush cnt cur o, st)) = (o, (c, n, s)) -> s = trail 0 r).
    { clear E. intros op c2. destruct (_ && _); intros E0; [eapply IH; eauto; lia|].
      destruct (ssimp mg r op (wmul c2 n0) 0) as [o1 [[c3 n3] s3]] eqn:E1. injection E0 as <- <- <- <-. eapply IH; eauto. lia. }
    assert (Hgen : forall ob', (let '(o, st) := ssimp mg r cur 0 0 in (spush cnt cur (SArr n0 ob' o), st)) = (o, (c, n, s)) -> s = trail 0 r).
    { clear E. intros ob0 E0. destruct (ssimp mg r cur 0 0) as [o1 [[c3 n3] s3]] eqn:E1. injection E0 as <- <- <- <-. eapply IH; eauto. lia. }
    cbv zeta in E. destruct (sapp ob (spush n1 c1 SNil)) as [|m [| | | |]|m [| | | |]| |] eqn:Eo; try (eapply Hgen; exact E); try (eapply Hsq; exact E).
    exfalso. simpl in Hb. apply (f_equal lenN) in Hb. rewrite lenN_norm in Hb. change (lenN (@nil atom)) with 0 in Hb. lia.
  - destruct Hw as (_ & _ & _ & _ & _ & Hwr). rewrite lenN_cons in Hlt. cbn [ssimp] in E. destruct (ssimp mg b FLAG_MEMCPY 0 0) as [ob [[c1 n1] s1]] eqn:Eb.
    destruct (ssimp mg r cur 0 0) as [o1 [[c3 n3] s3]] eqn:E1. injection E as <- <- <- <-. eapply IH; eauto. lia.
Qed.
(** [stop_ok], with what is left out: at least the padding after the last field. *)
Lemma stop_tight mg t : wf t ->
  exists pre k, tatoms t = pre ++ repN k APad /\ atoms (stop mg (rops t)) = norm mg pre /\ trail 0 (rops t) <= k.
Proof.
  intros Hw. unfold stop.
  destruct (ssimp mg (rops t) FLAG_MEMCPY 0 0) as [o [[c n] s]] eqn:E.
  assert (Hlt : 0 + lenN (atoms (rops t)) < two64).
  { assert (X := proj1 tatoms_len t Hw). assert (Y := wf_lt Hw). unfold tatoms in X. lia. }
  assert (Ht := ssimp_trail (proj1 rops_wf t Hw) Hlt E). rewrite <- Ht.
  destruct (ssimp_ok (proj1 rops_wf t Hw) Hlt (st_ok0 mg) E) as (A & (B1 & B2 & B3 & B4) & C & pre & D).
  rewrite pend_0 in A. change (repN 0 APad ++ atoms (rops t)) with (tatoms t) in D. simpl ([] ++ _) in A.
  destruct (N.eqb_spec n 0) as [->|Hn].
  - exists (tatoms t), 0. rewrite repN_0, app_nil_r. split; [reflexivity|]. rewrite pend_0, app_nil_r in A. split; [exact A|lia].
  - destruct (N.eqb_spec c FLAG_MEMCPY) as [->|Hc].
    + exists pre, s. split; [exact D|]. split; [|lia]. rewrite atoms_sapp. simpl (atoms (SMem _ _)). rewrite app_nil_r.
      unfold pend in A. rewrite N.eqb_refl in A. destruct mg.
      * change (atoms (rops t)) with (tatoms t) in A. rewrite D, norm_app, norm_repN in A. simpl (norm1 _ _) in A.
        replace n with ((n - s) + s) in A at 1 by lia. rewrite repN_add, app_assoc in A. apply app_inv_tail in A. exact A.
      * specialize (B4 eq_refl eq_refl). subst s. rewrite B4, repN_0, app_nil_r in D. rewrite B4, N.sub_0_r, A. unfold tatoms in D. rewrite D. reflexivity.
    + destruct mg; [exfalso; auto|]. exists (atoms o), n. rewrite norm_false in *. split; [|split; [reflexivity|lia]].
      unfold tatoms. rewrite <- A. unfold pend. destruct (N.eqb_spec c FLAG_MEMCPY); [contradiction|reflexivity].
Qed.
Lemma casts_trail :
  (forall t t', casts t t' -> wf t -> wf t' -> sizeof t <= sizeof t' + trail 0 (rops t)) /\
  (forall fs gs, casts_fields fs gs -> forall cur cur' s s' acc, wf_fields fs cur s -> wf_fields gs cur' s' -> cur <= cur' + acc ->
     s <= s' + trail acc (rfields fs cur s)).
Proof.
  apply casts_ind2; intros; cbn [sizeof rops rfields trail wf wf_fields] in *; try lia.
  - apply (H0 0 0); try tauto. lia.
  - destruct H3 as (A & B & C), H4 as (A' & B' & C'). rewrite trail_sapp. apply (H2 (o + sizeof t) (o + sizeof t') s s' _ C C').
    assert (X := H0 B B'). assert (Y := @trail_mono (rops t) 0 (acc + (o - cur)) ltac:(lia)). lia.
Qed.

(** ** Copy and compare through another type *)
Lemma casts_supported :
  (forall t t', casts t t' -> forall ap, supported ap t = supported ap t') /\
  (forall fs gs, casts_fields fs gs -> forall ap, supported_fields ap fs = supported_fields ap gs).
Proof.
  apply casts_ind2; intros; cbn [supported supported_fields]; auto.
  - rewrite <- (proj1 supported_erase e), <- (proj1 supported_erase e'), H. reflexivity.
  - rewrite <- (proj1 supported_erase e), <- (proj1 supported_erase e'), H. reflexivity.
  - rewrite H0, H2. reflexivity.
Qed.
Lemma asizes_ea l : asizes (map ea l) = asizes l.
Proof. induction l as [|[| |k s e] l IH]; cbn [map ea asizes asize]; [reflexivity|rewrite IH; reflexivity..]. Qed.
Lemma cast_split mg t t' ap : casts t t' -> wf t -> wf t' -> supported ap t = true ->
  exists pre k k', tatoms t = pre ++ repN k APad /\ atoms (stop mg (rops t)) = norm mg pre /\ aoks pre /\
    map ea (tatoms t') = map ea pre ++ repN k' APad /\ asizes pre + k = sizeof t /\ asizes pre + k' = sizeof t'.
Proof.
  intros HC Hw Hw' Hs. destruct (stop_tight mg Hw) as (pre & k & E1 & E2 & Ht).
  assert (Hq := tatoms_ok Hw Hs). rewrite E1 in Hq. apply aoks_app in Hq. destruct Hq as [Hq _].
  assert (Hsz : asizes pre + k = sizeof t) by (rewrite <- (proj1 tatoms_size t Hw), E1, asizes_app, asizes_rep1 by reflexivity; reflexivity).
  assert (Hle := proj1 casts_trail _ _ HC Hw Hw').
  assert (X := proj1 casts_atoms _ _ HC Hw Hw' (N.max (sizeof t) (sizeof t')) ltac:(apply N.le_max_l) ltac:(apply N.le_max_r)).
  set (K := N.max (sizeof t) (sizeof t')) in *. rewrite E1, map_app, map_repN', <- app_assoc, <- repN_add in X. cbn [ea] in X.
  exists pre, k, (sizeof t' - asizes pre). repeat split; auto; [|lia].
  replace (k + (K - sizeof t)) with ((sizeof t' - asizes pre) + (K - sizeof t')) in X by (unfold K; lia).
  rewrite repN_add, app_assoc in X. apply app_inv_tail in X. auto.
Qed.
(** The two parts of a value of the other type. *)
Lemma cast_value t' ap pre k' m : supported ap t' = true -> map ea (tatoms t') = map ea pre ++ repN k' APad -> aoks pre -> valid t' m ->
  exists m1 m2, m = m1 ++ m2 /\ avalid pre m1 /\ bytes k' m2 /\ lenN m1 = asizes pre.
Proof.
  intros Hs E Hq Hv. apply (valid_atoms m Hs) in Hv. apply (proj2 (@avalid_erase _ _)) in Hv. rewrite E in Hv.
  destruct (arel_inv Hv) as (m1 & m2 & x1 & x2 & -> & Ex & A1 & A2). symmetry in Ex. apply app_eq_nil in Ex. destruct Ex as [-> ->].
  apply (proj1 (@avalid_erase _ _)) in A1. exists m1, m2. split; [reflexivity|]. split; [exact A1|]. split; [apply vb_bytes in A2; [apply A2|auto]|apply (arel_len (aoks_pos Hq) A1)].
Qed.
Lemma cast_same t' ap pre k' a1 a2 b1 b2 : supported ap t' = true -> map ea (tatoms t') = map ea pre ++ repN k' APad -> aoks pre ->
  lenN a1 = asizes pre -> lenN b1 = asizes pre -> bytes k' a2 -> bytes k' b2 -> (same t' (a1 ++ a2) (b1 ++ b2) <-> asame pre a1 b1).
Proof.
  intros Hs E Hq La Lb Ba Bb. rewrite (same_atoms _ _ Hs), <- asame_erase, E. split.
  - intros H. destruct (arel_inv H) as (m1 & m2 & x1 & x2 & Ea & Eb & A1 & A2). change (asame (map ea pre) m1 x1) in A1. apply (proj1 (@asame_erase _ _ _)) in A1.
    assert (Lx := asame_len (aoks_pos Hq) A1).
    assert (E3 := f_equal (takeN (asizes pre)) Ea). rewrite !takeN_app_exact in E3 by (destruct Lx; congruence).
    assert (E4 := f_equal (takeN (asizes pre)) Eb). rewrite !takeN_app_exact in E4 by (destruct Lx; congruence). subst. assumption.
  - intros H. apply arel_app; [apply asame_erase; assumption|apply sp_bytes; auto].
Qed.
(** [seen_as] only touches the padding at the end. *)
Lemma seen_split t' P k k' s1 sk : lenN s1 = P -> bytes k sk -> P + k' = sizeof t' ->
  exists z, seen_as t' (s1 ++ sk) = s1 ++ z /\ bytes k' z.
Proof.
  intros L Bk E. unfold seen_as. exists (takeN k' sk ++ repN (k' - k) (B 0)). rewrite lenN_app, L.
  destruct Bk as (bs & Hl & ->).
  assert (Lk : lenN (map B bs) = k) by (unfold lenN in *; rewrite map_length; assumption). rewrite Lk. split.
  - rewrite app_assoc. f_equal; [|apply repN_eq; lia]. rewrite <- E, <- L. unfold takeN, lenN. rewrite firstn_app, firstn_all2 by lia. f_equal. f_equal. lia.
  - exists (takeN k' bs ++ repN (k' - k) 0). split.
    + rewrite lenN_app, lenN_repN. unfold takeN, lenN in *. rewrite firstn_length. lia.
    + rewrite map_app, map_repN'. unfold takeN. rewrite firstn_map. reflexivity.
Qed.
Lemma cast_copy t t' d s d2 s2 : casts t t' -> wf t -> wf t' -> plain t -> valid t' d -> valid t s ->
  exists d', conv (fun f => copy_value f t (d ++ d2) (s ++ s2)) (Ok (d' ++ d2)) /\ same t' d' (seen_as t' s).
Proof.
  intros HC Hw Hw' Hp Vd Vs. assert (Hs' := Hp). unfold plain in Hs'. rewrite (proj1 casts_supported _ _ HC) in Hs'.
  destruct (cast_split true HC Hw Hw' Hp) as (pre & k & k' & E1 & E2 & Hq & E3 & Z & Z').
  destruct (cast_value Hs' E3 Hq Vd) as (d1 & dk & -> & Ad & Bd & Ld).
  destruct (@cast_value t false pre k s Hp) as (s1 & sk & -> & As & Bs & Ls); auto.
  { rewrite E1, map_app, map_repN'. reflexivity. }
  destruct (@seen_split t' (asizes pre) k k' s1 sk Ls Bs Z') as (z & -> & Bz).
  destruct (walk_run (copy_walk true) (t := t) (s := ([], (d1 ++ dk) ++ d2, (s1 ++ sk) ++ s2)) Hw) as (r & C & P).
  { rewrite E2. unfold copy_pre. rewrite asizes_norm, <- !app_assoc. split; [apply aoks_norm; assumption|].
    rewrite !takeN_app_exact by congruence. split; apply avalid_norm; assumption. }
  unfold copy_post in P. rewrite E2, asizes_norm, <- !app_assoc in P. rewrite !dropN_app_exact in P by congruence.
  rewrite takeN_app_exact in P by congruence. destruct P as (d' & -> & S1).
  assert (S2 : asame pre d' s1) by (eapply asame_norm; eauto).
  exists (d' ++ dk). split.
  - destruct (@layout_ok false true t Hw Hp) as (l & oi & k0 & Hl & El & _). destruct C as [n C]. exists (S n). intros [|f] Hf; [lia|].
    unfold copy_value, do_copy, layout_default. rewrite Hl. cbn [bind eops_at e_copy]. rewrite El. rewrite <- !app_assoc in *. rewrite C by lia. reflexivity.
  - apply (cast_same Hs' E3 Hq); auto. apply (asame_len (aoks_pos Hq) S2).
Qed.
Lemma cast_compare t t' d s d2 s2 : casts t t' -> wf t -> wf t' -> supported true t = true -> valid t' d -> valid t s ->
  exists r, conv (fun f => do_compare f t (d ++ d2) (s ++ s2)) (Ok r) /\ (r = true <-> same t' d (seen_as t' s)).
Proof.
  intros HC Hw Hw' Hp Vd Vs. assert (Hs' := Hp). rewrite (proj1 casts_supported _ _ HC) in Hs'.
  destruct (cast_split false HC Hw Hw' Hp) as (pre & k & k' & E1 & E2 & Hq & E3 & Z & Z'). rewrite norm_false in E2.
  destruct (cast_value Hs' E3 Hq Vd) as (d1 & dk & -> & Ad & Bd & Ld).
  destruct (@cast_value t true pre k s Hp) as (s1 & sk & -> & As & Bs & Ls); auto.
  { rewrite E1, map_app, map_repN'. reflexivity. }
  destruct (@seen_split t' (asizes pre) k k' s1 sk Ls Bs Z') as (z & -> & Bz).
  assert (Hqc : Forall cok pre).
  { apply Forall_forall. intros [| |k1 s0 e] Hi; simpl; auto.
    assert (Hi' : In (ACont k1 s0 e) (tatoms t)) by (rewrite E1; apply in_app_iff; auto).
    destruct (proj1 tatoms_conts t true Hw Hp _ _ _ Hi') as [H1 H2]. split; [assumption|].
    apply compare_ok; [apply H1|]. apply supported_mono. apply H1. }
  destruct (walk_run (compare_walk false) (t := t) (s := ((d1 ++ dk) ++ d2, (s1 ++ sk) ++ s2)) Hw) as (r & C & P).
  { rewrite E2. unfold cmp_pre. cbn [fst snd]. rewrite <- !app_assoc. split; [assumption|].
    rewrite !takeN_app_exact by congruence. auto. }
  unfold cmp_post in P. cbn [fst snd] in P. rewrite E2, <- !app_assoc in P. rewrite !dropN_app_exact in P by congruence.
  rewrite !takeN_app_exact in P by congruence.
  assert (Hsame := cast_same Hs' E3 Hq Ld Ls Bd Bz).
  destruct (@layout_ok true false t Hw Hp) as (l & oi & k0 & Hl & El & _). apply conv2_diag in C.
  assert (Hc : forall res0, conv (fun f => catch_differ ('(_, _) <- walk f (compare_h (do_compare f)) (d1 ++ dk ++ d2, s1 ++ sk ++ s2) (ops l) ;; Ok true)) (Ok res0) ->
     conv (fun f => do_compare f t (d1 ++ dk ++ d2) (s1 ++ sk ++ s2)) (Ok res0)).
  { intros res0 H. eapply conv_S; [|exact H]. intros m. cbn [do_compare]. unfold compare_layout. rewrite Hl. reflexivity. }
  rewrite <- !(app_assoc d1), <- !(app_assoc s1) in *.
  destruct P as [[P ->]|[P ->]].
  - exists true. split; [|rewrite Hsame; tauto]. apply Hc. destruct C as [n C]. exists n. intros f Hf. rewrite El. rewrite C by lia. reflexivity.
  - exists false. split; [|rewrite Hsame; split; [discriminate|tauto]]. apply Hc. destruct C as [n C]. exists n. intros f Hf. rewrite El. rewrite C by lia. reflexivity.
Qed.
