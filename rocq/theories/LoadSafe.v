(** * LoadSafe: load of arbitrary bytes into a value without nested containers. *)
From Verif Require Import Base Types WellFormed Layout LayoutProofs LayoutMain InitProofs LayoutFinal
     ValueOps ValueSpec ValueAtoms ValueInst WalkProofs InitRun EltOps EltProofs CmpProofs DumpProofs LoadProofs.
Local Open Scope N_scope.

Lemma hasc_sapp a b : hasc (sapp a b) = hasc a || hasc b.
Proof. induction a; simpl; auto. rewrite IHa2. apply orb_assoc. Qed.
Lemma cont_free_hasc :
  (forall t, cont_free t = true -> hasc (rops t) = false) /\
  (forall fs cur s, cont_free_fields fs = true -> hasc (rfields fs cur s) = false).
Proof.
  apply ty_fields_ind; try reflexivity; try discriminate.
  - intros s d e IH H. simpl in *. rewrite IH by assumption. reflexivity.
  - intros s fs IH H. simpl in *. apply IH; assumption.
  - intros nm off t IHt fs IHf cur s H. simpl in *. apply andb_true_iff in H. rewrite hasc_sapp, IHt, IHf by tauto. reflexivity.
Qed.
Lemma tatoms_unnested :
  (forall t, unnested t = true -> forall k s e, In (ACont k s e) (tatoms t) -> cont_free e = true) /\
  (forall fs cur sz, unnested_fields fs = true ->
     forall k s e, In (ACont k s e) (atoms (rfields fs cur sz)) -> cont_free e = true).
Proof.
  unfold tatoms. apply ty_fields_ind; try (simpl; intros; contradiction); try (intros; simpl in *; rewrite app_nil_r in *; match goal with H : In _ (repN _ _) |- _ => apply in_repN in H; discriminate end).
  - intros sz d e IH Hs k s e' H. simpl in *. rewrite app_nil_r in H. apply in_rep_list in H. eauto.
  - intros k sz e IH Hs k' s' e' H. simpl in H. destruct H as [H|[]]. inversion H; subst. assumption.
  - intros sz fs IH Hs k s e H. simpl in *. eauto.
  - intros nm off t IHt fs IHf cur sz Hs k s e H. cbn [rfields atoms] in H. rewrite atoms_sapp in H.
    simpl in Hs. apply andb_true_iff in Hs. rewrite !in_app_iff in H. destruct H as [H|[H|H]].
    + apply in_repN in H. discriminate.
    + eapply IHt; eauto; tauto.
    + eapply IHf; eauto; tauto.
Qed.
Lemma tatoms_pow2 :
  (forall t, elts_pow2 t -> forall k s e, In (ACont k s e) (tatoms t) -> (sizeof e | two64)) /\
  (forall fs cur sz, elts_pow2_fields fs ->
     forall k s e, In (ACont k s e) (atoms (rfields fs cur sz)) -> (sizeof e | two64)).
Proof.
  unfold tatoms. apply ty_fields_ind; try (simpl; intros; contradiction); try (intros; simpl in *; rewrite app_nil_r in *; match goal with H : In _ (repN _ _) |- _ => apply in_repN in H; discriminate end).
  - intros sz d e IH Hs k s e' H. simpl in *. rewrite app_nil_r in H. apply in_rep_list in H. eauto.
  - intros k sz e IH Hs k' s' e' H. simpl in H, Hs. destruct H as [H|[]]. inversion H; subst. apply Hs.
  - intros sz fs IH Hs k s e H. simpl in *. eauto.
  - intros nm off t IHt fs IHf cur sz Hs k s e H. cbn [rfields atoms] in H. rewrite atoms_sapp in H.
    simpl in Hs. rewrite !in_app_iff in H. destruct H as [H|[H|H]].
    + apply in_repN in H. discriminate.
    + eapply IHt; eauto; tauto.
    + eapply IHf; eauto; tauto.
Qed.

(** A container whose buffer is bytes, a whole number of elements when their size divides 2^64. *)
Definition cloose (k : ckind) (e : ty) (o : cobj) : Prop :=
  match k, o with
  | KVec, VecObj cap cs => bytes (lenN cs) cs /\ lenN cs <= cap /\ cap <= max_size /\ ((sizeof e | two64) -> (sizeof e | lenN cs))
  | KStr, StrObj bs => lenN bs <= max_size
  | _, _ => False
  end.
Definition lc (k : ckind) (s : N) (e : ty) (o : cobj) (x : list unit) : Prop := cloose k e o /\ x = [].
Definition aloose (l : list atom) (m : list cell) : Prop := arel vb vb lc l m [].

Definition sok (a : atom) : Prop :=
  match a with ACont k s e => elt_wf k s e /\ hasc (rops e) = false | _ => True end.
Lemma sok_pos l : Forall sok l -> conts_pos l.
Proof.
  intros H k s e Hi. assert (H0 := proj1 (Forall_forall _ _) H). apply H0 in Hi. destruct Hi as [(_ & _ & _ & H1 & _) _]. exact H1.
Qed.
Lemma cvalid_loose k s e o : elt_wf k s e -> hasc (rops e) = false -> cvalid k e o -> cloose k e o.
Proof.
  intros (Hw & Hp & Hs & H1 & Hk) Hh H. destruct k, o as [cap cs|cs]; cbn [cvalid cloose] in *; try contradiction; auto.
  destruct H as (ms & -> & V & C1 & C2). assert (HB : Forall (bytes (sizeof e)) ms).
  { eapply Forall_impl; [|exact V]. intros m. apply (hasc_valid m Hw Hp Hh). }
  split; [apply (bytes_concat Hw V HB)|]. split; [assumption|]. split; [assumption|]. intros _. exists (lenN ms). apply (concat_len Hw V).
Qed.
Lemma cloose_valid k s e o : elt_wf k s e -> hasc (rops e) = false -> (sizeof e | two64) -> cloose k e o -> cvalid k e o.
Proof.
  intros (Hw & Hp & Hs & H1 & Hk) Hh Hd H. destruct k, o as [cap cs|cs]; cbn [cvalid cloose] in *; try contradiction; auto.
  destruct H as (HB & C1 & C2 & D). destruct (D Hd) as [q E]. rewrite E in HB. destruct (bytes_chunks HB) as (ms & L & -> & F).
  exists ms. repeat split; auto. eapply Forall_impl; [|exact F]. intros m. apply (hasc_valid m Hw Hp Hh).
Qed.
Lemma avalid_loose l m : Forall sok l -> avalid l m -> aloose l m.
Proof.
  intros Hq H. eapply arel_impl; [| | |exact H]; auto. intros k s e o y Hi [Hc ->]. split; [|reflexivity].
  assert (H0 := proj1 (Forall_forall _ _) Hq). apply H0 in Hi. destruct Hi. eapply cvalid_loose; eauto.
Qed.
Lemma aloose_valid l m : Forall sok l -> (forall k s e, In (ACont k s e) l -> (sizeof e | two64)) -> aloose l m -> avalid l m.
Proof.
  intros Hq Hd H. eapply arel_impl; [| | |exact H]; auto. intros k s e o y Hi [Hc ->]. split; [|reflexivity].
  assert (H0 := proj1 (Forall_forall _ _) Hq). assert (D := Hd _ _ _ Hi). apply H0 in Hi. destruct Hi. eapply cloose_valid; eauto.
Qed.

Lemma rd_safe n idx x : idx + lenN x <= max_size -> n <= max_size ->
  (exists bs r, x = bs ++ r /\ lenN bs = n /\ rd n (idx, x) = Ok (bs, (idx + n, r))) \/ rd n (idx, x) = Throw ERuntime.
Proof.
  intros Hx Hn. destruct (N.le_gt_cases n (lenN x)) as [H|H].
  - left. exists (takeN n x), (dropN n x). assert (L : lenN (takeN n x) = n) by (rewrite lenN_takeN; lia).
    split; [symmetry; apply takeN_dropN|]. split; [assumption|]. rewrite <- (takeN_dropN n x) at 1.
    assert (R := @rd_ok idx (takeN n x) (dropN n x)). rewrite L in R. apply R. rewrite takeN_dropN. assumption.
  - right. apply rd_short; assumption.
Qed.

Lemma raw_resize_safe n cap cs : bytes (lenN cs) cs -> lenN cs <= cap -> cap <= max_size ->
  (exists cap' cs', vec_raw_resize n cap cs = Ok (cap', cs') /\ lenN cs' = n /\ bytes n cs' /\ n <= cap' /\ cap' <= max_size) \/
  vec_raw_resize n cap cs = Throw ELength.
Proof.
  intros HB H1 H2. unfold vec_raw_resize. assert (HA := bytes_all HB).
  destruct (N.leb_spec n (lenN cs)) as [H|H].
  - left. assert (HB' := HB). replace (lenN cs) with (n + (lenN cs - n)) in HB' at 1 by lia. destruct (bytes_split HB') as (a & b & -> & Ba & Bb).
    assert (La := bytes_len Ba). rewrite takeN_app_exact, dropN_app_exact by auto. rewrite (bytes_all Bb).
    exists cap, a. repeat split; auto. rewrite lenN_app in H1. lia.
  - assert (BR : bytes n (cs ++ repN (n - lenN cs) (B 0))).
    { assert (X := bytes_app HB (bytes_repN (n - lenN cs) 0)). replace (lenN cs + (n - lenN cs)) with n in X by lia. exact X. }
    destruct (N.leb_spec n cap).
    + left. eexists _, _. split; [reflexivity|]. split; [apply (bytes_len BR)|]. repeat split; auto.
    + destruct (N.ltb_spec max_size n); [auto|]. rewrite HA. left. eexists _, _. split; [reflexivity|]. split; [apply (bytes_len BR)|].
      repeat split; auto; lia.
Qed.
Lemma div_mod_mul a b m : m <> 0 -> (b | m) -> (b | (a * b) mod m).
Proof.
  intros Hm H. assert (E := N.div_mod (a * b) m Hm).
  assert (D : (b | m * (a * b / m))) by (apply N.divide_mul_l; assumption).
  eapply (N.divide_add_cancel_r _ _ _ D). rewrite <- E. apply N.divide_factor_r.
Qed.

Lemma cont_load_safe k s e o idx x rest : elt_wf k s e -> hasc (rops e) = false -> cloose k e o -> idx + lenN x <= max_size ->
  let it := flat (sblock true (rops e)) ++ W FLAG_END :: rest in
  exists r, conv2 (fun a f => '(b8, i1) <- rd 8 (idx, x) ;;
                      let count := le_val b8 in
                      if count =? 0 then it' <- skip_block it 0 ;; Ok (o, i1, it')
                      else cont_load f (eops_at a) (load_at a) k e o count i1 it) r /\
    ((exists o' idx' x', r = Ok (o', (idx', x'), W FLAG_END :: rest) /\ cloose k e o' /\ idx' + lenN x' = idx + lenN x) \/
     (exists ex, r = Throw ex)).
Proof.
  intros (Hw & Hp & Hs & H1 & Hk) Hh Hv Hx it. assert (M := max_size_lt).
  destruct (@rd_safe 8 idx x Hx ltac:(unfold max_size; lia)) as [(b8 & r0 & -> & L8 & ->)| ->]; cbn [bind].
  2:{ eexists. split; [apply conv2_const|eauto]. }
  destruct (N.eqb_spec (le_val b8) 0) as [Hz|Hz].
  { unfold it. rewrite skip_block_block. eexists. split; [apply conv2_const|]. left. exists o, (idx + 8), r0. split; [reflexivity|].
    split; [assumption|]. rewrite lenN_app. lia. }
  rewrite lenN_app in Hx. rewrite lenN_app.
  assert (ML := memcpy_link Hw Hs). rewrite Hh in ML. destruct ML as [ML _]. unfold it. rewrite ML. cbn [flat app].
  destruct k, o as [cap cs|cs]; cbn [cloose] in Hv; try contradiction; cbn [cont_load].
  - destruct Hv as (HB & C1 & C2 & D). destruct (elt_layout_ok Hw Hp Hs) as (_ & HL & _ & HM). rewrite Hh in HM. cbn [negb] in HM.
    unfold vec_resize. unfold vec_count. destruct (N.eqb_spec (sizeof e) 0); [lia|]. cbn [bind]. rewrite HL, HM. cbn [negb].
    destruct (@raw_resize_safe (wmul (le_val b8) (sizeof e)) cap cs HB C1 C2) as [(cap' & cs' & -> & L' & B' & C1' & C2')| ->]; cbn [bind].
    2:{ eexists. split; [apply conv2_const|eauto]. }
    replace (wmul (sizeof e) (le_val b8)) with (wmul (le_val b8) (sizeof e)) by (unfold wmul; rewrite N.mul_comm; reflexivity).
    destruct (@rd_safe (wmul (le_val b8) (sizeof e)) (idx + 8) r0) as [(bs & r1 & -> & Lb & ->)| ->]; [lia|lia| |]; cbn [bind].
    2:{ eexists. split; [apply conv2_const|eauto]. }
    rewrite <- Lb in B'. rewrite <- (app_nil_r cs'), (write_raw_app [] B'). cbn [bind]. rewrite app_nil_r.
    eexists. split; [apply conv2_const|]. left. eexists _, _, _. split; [reflexivity|]. cbn [cloose].
    assert (Lm : lenN (map B bs) = lenN bs) by (unfold lenN; rewrite map_length; reflexivity). rewrite Lm, Lb.
    split; [split; [exists bs; auto|]|rewrite lenN_app; lia]. split; [lia|]. split; [lia|]. intros Hd. unfold wmul. apply div_mod_mul; [discriminate|assumption].
  - destruct (N.ltb_spec max_size (le_val b8)); [eexists; split; [apply conv2_const|eauto]|].
    destruct (@rd_safe (le_val b8) (idx + 8) r0) as [(bs & r1 & -> & Lb & ->)| ->]; [lia|lia| |]; cbn [bind].
    2:{ eexists. split; [apply conv2_const|eauto]. }
    eexists. split; [apply conv2_const|]. left. eexists _, _, _. split; [reflexivity|]. cbn [cloose]. rewrite lenN_app. lia.
Qed.

Definition safe_pre (l : list atom) (st : lstate) : Prop :=
  let '(dn, m, (idx, x)) := st in
  Forall sok l /\ asizes l <= max_size /\ idx + lenN x <= max_size /\ aloose l (takeN (asizes l) m).
Definition safe_post (l : list atom) (st : lstate) (r : res lstate) : Prop :=
  let '(dn, m, (idx, x)) := st in
  (exists d' idx' x', r = Ok (dn ++ d', dropN (asizes l) m, (idx', x')) /\ aloose l d' /\ idx' + lenN x' = idx + lenN x) \/
  (exists ex, r = Throw ex).

Lemma aloose_split l1 l2 m : conts_pos (l1 ++ l2) -> aloose (l1 ++ l2) (takeN (asizes (l1 ++ l2)) m) ->
  aloose l1 (takeN (asizes l1) m) /\ aloose l2 (takeN (asizes l2) (dropN (asizes l1) m)).
Proof.
  intros Hc H. destruct (arel_split Hc H) as (x1 & x2 & E & A1 & A2). symmetry in E. apply app_eq_nil in E.
  destruct E as [-> ->]. auto.
Qed.
Lemma aloose_app l1 l2 m1 m2 : aloose l1 m1 -> aloose l2 m2 -> aloose (l1 ++ l2) (m1 ++ m2).
Proof. intros H1 H2. unfold aloose. change (@nil unit) with (@nil unit ++ @nil unit). apply arel_app; assumption. Qed.

Lemma safe_walk : walk_spec (fun a => load_h (eops_at a) (load_at a)) true safe_pre safe_post
  (h_mem (load_h (eops_at 0) (load_at 0))) (h_skip (load_h (eops_at 0) (load_at 0))).
Proof.
  constructor; try reflexivity.
  - intros [[dn m] [idx x]] _. left. exists [], idx, x. rewrite app_nil_r. split; [reflexivity|]. split; [constructor|reflexivity].
  - intros l1 l2 [[dn m] [idx x]] (Hq & Hsz & Hx & Hv). assert (Hp := sok_pos Hq). apply Forall_app in Hq.
    rewrite asizes_app in Hsz. destruct (aloose_split Hp Hv) as [V1 V2].
    split; [repeat split; [tauto|lia|assumption|assumption]|].
    intros [[dn1 m1] [idx1 x1]] [(d' & i' & x' & E & _ & Hl)|[ex E]]; inversion E; subst. repeat split; [tauto|lia|lia|assumption].
  - intros l1 l2 [[dn m] [idx x]] [[dn1 m1] [idx1 x1]] r (Hq & Hsz & Hx & Hv) [(d1 & i' & x' & E & V1 & Hl)|[ex E]] P2; inversion E; subst.
    destruct P2 as [(d2 & i'' & x'' & -> & V2 & Hl2)|[ex ->]]; [left|right; eauto].
    exists (d1 ++ d2), i'', x''. rewrite app_assoc, drop_app2. split; [reflexivity|]. split; [apply aloose_app; assumption|lia].
  - intros l1 l2 [[dn m] [idx x]] ex _ _. right; eauto.
  - intros l [[dn m] [idx x]] r [(d1 & i' & x' & -> & _)|[ex ->]]; eauto.
  - intros n [[dn m] [idx x]] (_ & Hsz & Hx & Hv). unfold safe_post. rewrite asizes_rep1 in * by reflexivity.
    apply fb_bytes in Hv; [|auto]. destruct Hv as [Hv _]. cbn [load_h h_mem].
    destruct (rd_safe Hx Hsz) as [(bs & r0 & -> & L & ->)| ->]; cbn [bind]; [left|right; eauto]. subst n.
    destruct (split_at (lenN bs) m) as (m1 & m2 & Em & Et & Ed). rewrite Et in Hv. rewrite Ed, Em.
    rewrite write_raw_app by assumption. cbn [bind]. exists (map B bs), (idx + lenN bs), r0. split; [reflexivity|]. split.
    + apply fb_bytes; [auto|]. split; [exists bs; auto|reflexivity].
    + rewrite lenN_app. lia.
  - intros n [[dn m] [idx x]] (_ & Hsz & Hx & Hv). unfold safe_post. rewrite asizes_rep1 in * by reflexivity.
    apply fb_bytes in Hv; [|auto]. destruct Hv as [Hv _]. cbn [load_h h_skip]. left.
    destruct (split_at n m) as (m1 & m2 & Em & Et & Ed). rewrite Et in Hv. rewrite Ed, Em.
    rewrite take_cells_app by (apply bytes_len; assumption). cbn [bind]. exists m1, idx, x. split; [reflexivity|]. split; [|reflexivity].
    apply fb_bytes; auto.
  - intros k sz e [[dn m] [idx x]] rest He Hsz (Hq & Hms & Hx & Hv). unfold safe_post. rewrite asizes_c1 in *.
    apply Forall_inv in Hq. destruct Hq as [Hew Hel].
    apply arel_c1 in Hv. destruct Hv as (od & Ed & Hd & _).
    destruct (@cont_load_safe k sz e od idx x rest Hew Hel Hd Hx) as (r & [n C] & K).
    exists (bind r (fun q => let '(o', i2, _) := q in Ok (dn ++ put_obj sz o', dropN sz m, i2))). split.
    + exists n. intros a f Ha Hf. rewrite <- (takeN_dropN sz m) at 1. rewrite Ed.
      cbn [load_h h_cont h_cont_end]. rewrite take_obj_put by assumption. cbn [bind].
      specialize (C a f Ha Hf). rewrite skip_block_block in *.
      destruct (rd 8 (idx, x)) as [[b8 i1]| | |]; cbn [bind] in *; [|subst r; reflexivity..].
      destruct (le_val b8 =? 0).
      * cbn [bind] in *. subst r. reflexivity.
      * rewrite C. destruct K as [(o' & i' & x' & -> & _)|[ex ->]]; reflexivity.
    + destruct K as [(o' & i' & x' & -> & Vo & Hl)|[ex ->]]; cbn [bind]; [left|right; eauto].
      exists (put_obj sz o'), i', x'. split; [reflexivity|]. split; [|assumption]. apply arel_c1. exists o'. split; [reflexivity|]. split; auto.
Qed.

Lemma sok_norm l : Forall sok l -> Forall sok (norm true l).
Proof. induction 1 as [|a l Ha _ IH]; simpl; constructor; auto. destruct a; simpl; auto. Qed.
Lemma aloose_norm mg l m : aloose l m <-> aloose (norm mg l) m.
Proof. apply arel_norm. Qed.

Theorem load_safe t d d2 idx x : wf t -> plain t -> unnested t = true -> sizeof t <= max_size -> idx + lenN x <= max_size -> valid t d ->
  exists l r, layout_default t = Ok l /\ conv (fun a => load_at a (idx, x) (d ++ d2) (ops l)) r /\
    ((exists d' idx' x', r = Ok (d' ++ d2, (idx', x'), []) /\ lenN d' = sizeof t /\ (elts_pow2 t -> valid t d') /\ idx' + lenN x' = idx + lenN x) \/
     (exists ex, r = Throw ex)).
Proof.
  intros Hw Hp Hu Hsz Hx Vd.
  assert (Hok := tatoms_ok Hw Hp).
  assert (Hso : Forall sok (tatoms t)).
  { apply Forall_forall. intros [| |k s e] Hi; simpl; auto. split; [apply (proj1 tatoms_conts t false Hw Hp _ _ _ Hi)|].
    apply (proj1 cont_free_hasc). eapply (proj1 tatoms_unnested); eauto. }
  destruct (@layout_ok false true t Hw Hp) as (l & oi & k' & Hl & El & _). exists l.
  destruct (stop_split true Hw Hp Hok Vd) as (pre & k & d1 & dk & E1 & E2 & Hqp & -> & Ad & Bd & Ld & Hsum).
  assert (Hsp := Hso). rewrite E1 in Hsp. apply Forall_app in Hsp. destruct Hsp as [Hsp _].
  destruct (walk_run safe_walk (t := t) (s := ([], (d1 ++ dk) ++ d2, (idx, x))) Hw) as (r & C & P).
  { rewrite E2. unfold safe_pre. rewrite asizes_norm, <- !app_assoc. split; [apply sok_norm; assumption|]. split; [lia|]. split; [assumption|].
    rewrite !takeN_app_exact by congruence. apply avalid_loose; [apply sok_norm; assumption|]. apply avalid_norm; assumption. }
  unfold safe_post in P. rewrite E2, asizes_norm, <- !app_assoc in P. rewrite !dropN_app_exact in P by congruence.
  exists (bind (lift [] r) (fun q => let '(s, it') := q in let '(dn, m', i') := s in Ok (dn ++ m', i', it'))). split; [exact Hl|]. split.
  - destruct C as [n C]. exists (S n). intros [|a] Ha; [lia|]. cbn [load_at]. rewrite El, C by lia. reflexivity.
  - destruct P as [(d' & i' & x' & -> & V' & Hl')|[ex ->]]; cbn [lift bind]; [left|right; eauto].
    apply (aloose_norm true pre) in V'.
    exists (d' ++ dk), i', x'. split; [rewrite <- !app_assoc; reflexivity|]. split; [|split; [|assumption]].
    + rewrite lenN_app, (bytes_len Bd), (arel_len (sok_pos Hsp) V'). assumption.
    + intros H2. apply (valid_atoms _ Hp). rewrite E1. apply avalid_app; [|apply vb_bytes; auto].
      apply aloose_valid; auto. intros k0 s e Hi. eapply (proj1 tatoms_pow2 t H2 k0 s). rewrite E1. apply in_app_iff. left. exact Hi.
Qed.
