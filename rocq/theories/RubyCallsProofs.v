(** * RubyCallsProofs: dump and load with accept_pointers (as DumpProofs.v, LoadProofs.v and LoadSafe.v do for the types without
    pointers: the operations of the layout are the same function of the type), and the calls of RubyCalls.v. *)
From Verif Require Import Base Types WellFormed Layout LayoutProofs LayoutMain InitProofs LayoutFinal LayoutSpec LayoutSpecProofs
     ValueOps ValueSpec ValueAtoms ValueInst WalkProofs InitRun EltOps EltProofs CmpProofs DumpProofs LoadProofs LoadSafe ValueMain.
Local Open Scope N_scope.

Lemma dump_stream_gen {St} (wr Wr : list N -> St -> res St) (I : St -> Prop) (SO : stream_ok wr Wr I) ap t v m2 st out pad pre v1 : wf t -> supported ap t = true -> sizeof t <= max_size -> I st ->
    tatoms t = pre ++ repN (lenN pad) APad -> atoms (stop true (rops t)) = norm true pre -> v = v1 ++ map B pad -> aimage pre v1 out ->
    exists l, layout_of ap false true true t = Ok l /\
      conv (fun f => dump_at wr f st (v ++ m2) (ops l)) (bind (Wr out st) (fun st' => Ok (st', []))).
Proof.
    intros Hw Hp Hsz HI E1 E2 -> Ai. destruct (@layout_ok ap true t Hw Hp) as (l & oi & k' & Hl & El & _).
    destruct (stop_ok true Hw) as (Hwo & _).
    exists l. split; [exact Hl|].
    rewrite El, <- (app_nil_r (flat _)), <- app_assoc. eapply dump_at_ok; eauto.
    - left; reflexivity.
    - rewrite E2. apply (@dok_norm _ _ Wr I). intros k s e' Hi2. destruct (proj1 tatoms_conts t ap Hw Hp k s e') as [H1 H2].
      { rewrite E1. apply in_app_iff. auto. }
      split; [assumption|]. eapply elt_dump_all; eauto; apply H1.
    - rewrite E2, asizes_norm. apply (f_equal asizes) in E1. rewrite (proj1 tatoms_size t Hw), asizes_app in E1. lia.
    - rewrite E2. apply aimage_norm. assumption.
Qed.
Lemma dump_split_gen ap t v : wf t -> supported ap t = true -> valid t v ->
  exists out pad pre v1, image t v (out ++ pad) /\ tatoms t = pre ++ repN (lenN pad) APad /\
    atoms (stop true (rops t)) = norm true pre /\ v = v1 ++ map B pad /\ aimage pre v1 out.
Proof.
  intros Hw Hp Hv. destruct (stop_ok true Hw) as (_ & pre & k & E1 & E2).
  destruct (proj1 valid_image t v Hv) as [bs Hi]. assert (Hi' := Hi). apply (image_atoms _ _ Hp) in Hi. rewrite E1 in Hi.
  destruct (arel_inv Hi) as (v1 & v2 & out & pad & -> & -> & A1 & A2). apply ib_bytes in A2; [|auto]. destruct A2 as [Lk ->]. subst k.
  exists out, pad, pre, v1. auto.
Qed.
Lemma load_stream_gen ap t d d2 idx x v out pad pre v1 : wf t -> supported ap t = true -> sizeof t <= max_size -> idx + lenN x <= max_size -> valid t d ->
  tatoms t = pre ++ repN (lenN pad) APad -> atoms (stop true (rops t)) = norm true pre -> v = v1 ++ map B pad -> aimage pre v1 out -> comp out x ->
  exists l r, layout_of ap false true true t = Ok l /\ conv (fun a => load_at a (idx, x) (d ++ d2) (ops l)) r /\
    consumes out x
      (fun r0 => exists d', r = Ok (d' ++ d2, (idx + lenN out, r0), []) /\ valid t d' /\
                            (fresh t d \/ full t v -> same t d' v))
      (r = Throw ERuntime).
Proof.
  intros Hw Hp Hsz Hx Vd E1 E2 -> Hi Hc.
  assert (Hok := tatoms_ok Hw Hp). assert (Hpos := aoks_pos Hok). rewrite E1 in Hpos. apply conts_pos_app in Hpos. destruct Hpos as [Hpos _].
  destruct (@layout_ok ap true t Hw Hp) as (l & oi & k' & Hl & El & _).
  destruct (stop_ok true Hw) as (Hwo & _).
  assert (Vd' := Vd). apply (valid_atoms _ Hp) in Vd. rewrite E1 in Vd. destruct (ulist_split Vd) as (d1 & dk & -> & A1 & A2).
  apply vb_bytes in A2; [|auto]. destruct A2 as [Bk _]. assert (L1 := arel_len Hpos A1). assert (Lv := arel_len Hpos Hi).
  destruct (@load_at_ok d1 (dk ++ d2) idx x v1 out (stop true (rops t)) []) as (r & C & K); auto.
  - left; reflexivity.
  - rewrite E2. apply lok_norm. intros k s e' Hin. destruct (proj1 tatoms_conts t ap Hw Hp k s e') as [H1 H2].
    { rewrite E1. apply in_app_iff. auto. }
    split; [assumption|]. apply elt_load_all; apply H1.
  - rewrite E2, asizes_norm. apply (f_equal asizes) in E1. rewrite (proj1 tatoms_size t Hw), asizes_app in E1. lia.
  - rewrite E2. apply avalid_norm. assumption.
  - rewrite E2. apply aimage_norm. assumption.
  - exists l, r. split; [exact Hl|]. split.
    + rewrite El. rewrite app_nil_r, app_assoc in C. exact C.
    + eapply consumes_impl; [| |exact K]; [|auto]. intros r0 _ (d' & -> & V' & S'). rewrite E2 in *.
      exists (d' ++ dk). split; [rewrite <- app_assoc; reflexivity|]. split.
      * apply (valid_atoms _ Hp). rewrite E1. apply avalid_app; [apply avalid_norm in V'; assumption|apply vb_bytes; auto].
      * intros H. apply (same_atoms _ _ Hp). rewrite E1. apply arel_app.
        { apply (asame_norm (mg := true)). apply S'. destruct H as [H|H]; [left|right].
          - apply afresh_norm. apply (fresh_atoms _ Hp) in H. rewrite E1 in H. destruct (ulist_split H) as (m1 & m2 & E & F1 & F2).
            assert (Lm := arel_len Hpos F1). rewrite (proj1 (app_inj_len (eq_trans L1 (eq_sym Lm)) E)). assumption.
          - apply afull_norm. apply (full_atoms _ Hp) in H. rewrite E1 in H. destruct (ulist_split H) as (m1 & m2 & E & F1 & F2).
            assert (Lm := arel_len Hpos F1). rewrite (proj1 (app_inj_len (eq_trans Lv (eq_sym Lm)) E)). assumption. }
        { apply sp_bytes. split; [assumption|]. exists pad. auto. }
Qed.
Lemma load_safe_gen ap t d d2 idx x : wf t -> supported ap t = true -> unnested t = true -> sizeof t <= max_size -> idx + lenN x <= max_size -> valid t d ->
  exists l r, layout_of ap false true true t = Ok l /\ conv (fun a => load_at a (idx, x) (d ++ d2) (ops l)) r /\
    ((exists d' idx' x', r = Ok (d' ++ d2, (idx', x'), []) /\ lenN d' = sizeof t /\ (elts_pow2 t -> valid t d') /\ idx' + lenN x' = idx + lenN x) \/
     (exists ex, r = Throw ex)).
Proof.
  intros Hw Hp Hu Hsz Hx Vd.
  assert (Hok := tatoms_ok Hw Hp).
  assert (Hso : Forall sok (tatoms t)).
  { apply Forall_forall. intros [| |k s e] Hi; simpl; auto. split; [apply (proj1 tatoms_conts t ap Hw Hp _ _ _ Hi)|].
    apply (proj1 cont_free_hasc). eapply (proj1 tatoms_unnested); eauto. }
  destruct (@layout_ok ap true t Hw Hp) as (l & oi & k' & Hl & El & _). exists l.
  destruct (stop_split true Hw Hp Hok Vd) as (pre & k & d1 & dk & E1 & E2 & Hqp & -> & Ad & Bd & Ld & Hsum).
  assert (Hsp := Hso). rewrite E1 in Hsp. apply Forall_app in Hsp. destruct Hsp as [Hsp _].
  destruct (walk_run safe_walk (t := t) (s := ([], (d1 ++ dk) ++ d2, (idx, x))) Hw) as (r & C & P).
  { rewrite E2. unfold safe_pre. rewrite asizes_norm, <- !app_assoc. split; [apply sok_norm; assumption|]. split; [lia|]. split; [assumption|].
    rewrite !takeN_app_exact by congruence. apply avalid_loose; [apply sok_norm; assumption|]. apply avalid_norm; assumption. }
  unfold safe_post in P. rewrite E2, asizes_norm, <- !app_assoc in P. rewrite !dropN_app_exact in P by congruence.
  exists (bind (lift [] r) (fun q => let '(s, it') := q in let '(dn, m', i') := s in Ok (dn ++ m', i', it'))). split; [exact Hl|]. split.
  - destruct C as [n C]. exists (S n). intros [|a] Ha; [lia|]. cbn [load_at]. rewrite El, C by lia. reflexivity.
  - destruct P as [(d' & i' & x' & -> & V' & Hl')|[ex ->]]; cbn [lift bind]; [left|right; eauto].
    apply (aloose_norm true pre) in V'.
    exists (d' ++ dk), i', x'. split; [rewrite <- !app_assoc; reflexivity|]. split; [|split; [|assumption]].
    + rewrite lenN_app, (bytes_len Bd), (arel_len (sok_pos Hsp) V'). assumption.
    + intros H2. apply (valid_atoms _ Hp). rewrite E1. apply avalid_app; [|apply vb_bytes; auto].
      apply aloose_valid; auto. intros k0 s e Hi. eapply (proj1 tatoms_pow2 t H2 k0 s). rewrite E1. apply in_app_iff. left. exact Hi.
Qed.
Lemma parts_dumped_gen ap t v out pad pre v1 : wf t -> supported ap t = true -> parts t v out pad pre v1 -> dumped t v out.
Proof.
  intros Hw Hp [H1 H2 H3 -> H5]. exists pad. split; [assumption|]. intros q Lq.
  assert (Hpos := aoks_pos (tatoms_ok Hw Hp)). rewrite H2 in Hpos. apply conts_pos_app in Hpos. destruct Hpos as [Hpos _].
  assert (L1 := arel_len Hpos H5). assert (Hs := proj1 tatoms_size t Hw). rewrite H2, asizes_app, asizes_rep1 in Hs by reflexivity.
  rewrite takeN_app_exact by lia. apply (same_atoms _ _ Hp). rewrite H2. apply arel_app.
  - assert (Hv := proj1 image_valid _ _ _ H1). assert (Hr := proj1 same_refl t _ Hv). apply (same_atoms _ _ Hp) in Hr. rewrite H2 in Hr.
    destruct (arel_inv Hr) as (a1 & a2 & b1 & b2 & Ea & Eb & A1 & A2).
    destruct (asame_len Hpos A1) as [La Lb].
    destruct (app_inj_len (eq_trans L1 (eq_sym La)) Ea) as [-> _]. destruct (app_inj_len (eq_trans La (eq_sym Lb)) Eb) as [-> _]. assumption.
  - apply sp_bytes. split; [exists q; auto|exists pad; auto].
Qed.
(** The visitor of layout_of returns or throws. *)
Lemma push_memcpy_ends n d l : (exists l', push_memcpy n d l = Ok l') \/ (exists e, push_memcpy n d l = Throw e).
Proof. unfold push_memcpy. destruct d; [eauto|]. destruct (negb _); eauto. Qed.
Lemma visit_ends :
  (forall t ap ao l, (exists l', visit ap ao t l = Ok l') \/ (exists e, visit ap ao t l = Throw e)) /\
  (forall fs ap ao c l, (exists l', visit_fields ap ao fs c l = Ok l') \/ (exists e, visit_fields ap ao fs c l = Throw e)).
Proof.
  apply ty_fields_ind; cbn [visit visit_fields]; eauto.
  all: try (intros; match goal with
    | ap : bool |- context [if ?b then push_memcpy _ _ _ else _] => destruct b; eauto using push_memcpy_ends
    | |- context [if ?b then _ else push_memcpy _ _ _] => destruct b; eauto using push_memcpy_ends
    | |- context [if ?b then Ok (push_skip _ _) else _] => destruct b; eauto
    | |- _ => apply push_memcpy_ends
    end; fail).
  - intros s d e IH ap ao l. destruct (IH false false empty_layout) as [[l' ->]|[x ->]]; cbn [bind]; eauto.
  - intros k s e IH ap ao l. destruct (IH false false empty_layout) as [[l' ->]|[x ->]]; cbn [bind]; eauto.
  - intros s fs IH ap ao l. destruct (IH ap ao 0 l) as [[[l' c] ->]|[x ->]]; cbn [bind]; eauto.
  - intros n o t IHt fs IHf ap ao c l. destruct (IHt ap ao (push_skip (wsub o c) l)) as [[l' ->]|[x ->]]; cbn [bind]; eauto.
Qed.
Lemma layout_throws ap merge t : wf t -> supported ap t = false -> exists e, layout_of ap false merge true t = Throw e.
Proof.
  intros Hw Hs. unfold layout_of, raw_layout_of. destruct (proj1 visit_ends t ap false empty_layout) as [[l E]|[e E]]; rewrite E; cbn [bind]; [|eauto].
  exfalso. apply (proj1 visit_ok_supported) in E. congruence.
Qed.
(** Types that can be created, and pointers. *)
Lemma supported_no_null :
  (forall t ap, supported ap t = true -> contains is_null t = false /\ contains is_opaque t = false) /\
  (forall fs ap, supported_fields ap fs = true -> contains_fields is_null fs = false /\ contains_fields is_opaque fs = false).
Proof.
  apply ty_fields_ind; simpl; try discriminate; eauto.
  intros n o t IHt fs IHf ap H. apply andb_true_iff in H. destruct H as [H1 H2]. destruct (IHt _ H1) as [-> ->]. destruct (IHf _ H2) as [-> ->]. auto.
Qed.
Lemma ptr_plain t : supported true t = true -> contains is_ptr t = false -> plain t.
Proof. intros Hs Hp. apply (proj1 plain_contains). destruct (proj1 supported_no_null _ _ Hs). auto. Qed.
Lemma ptr_fails merge rts t : wf t -> supported true t = true -> contains is_ptr t = true -> layout_of false false merge rts t = Throw ENoLayout.
Proof. intros Hw Hs Hp. destruct (proj1 supported_no_null _ _ Hs) as [A B]. apply layout_fails; auto. rewrite B, Hp. reflexivity. Qed.
