(** * CmpProofs: zero and compare. *)
From Verif Require Import Base Types WellFormed Layout LayoutProofs LayoutMain InitProofs LayoutFinal
     ValueOps ValueSpec ValueAtoms ValueInst WalkProofs InitRun EltOps EltProofs.
Local Open Scope N_scope.

(** ** zero *)
Definition zero_post (l : list atom) (st : cursor) (r : res cursor) : Prop :=
  exists m', r = Ok (fst st ++ m', dropN (asizes l) (snd st)) /\ azero l m'.
Lemma azero_norm mg l m : azero (norm mg l) m -> azero l m.
Proof.
  unfold azero. revert m; induction l as [|x l IH]; intros m H; [exact H|].
  change (norm mg (x :: l)) with ([norm1 mg x] ++ norm mg l) in H. change (x :: l) with ([x] ++ l).
  destruct (arel_inv H) as (m1 & m2 & x1 & x2 & -> & E & A1 & A2). symmetry in E. apply app_eq_nil in E. destruct E as [-> ->].
  change (@nil unit) with (@nil unit ++ @nil unit). apply arel_app; [|auto]. clear - A1. destruct x; simpl in A1; try exact A1.
  destruct mg; [|exact A1]. change [AByte] with (repN 1 AByte) in A1. apply zb_bytes in A1. destruct A1 as [-> _].
  change [APad] with (repN 1 APad). apply zvb_bytes. split; [apply bytes_repN|reflexivity].
Qed.
Lemma zero_walk mg : walk_spec (fun a => zero_h (eops_at a)) mg destroy_pre zero_post
  (h_mem (zero_h (eops_at 0))) (h_skip (zero_h (eops_at 0))).
Proof.
  constructor; try reflexivity.
  - intros [dn d] _. exists []. rewrite app_nil_r. split; [reflexivity|constructor].
  - intros l1 l2 [dn d] (Hq & Hd). assert (Hc := aoks_pos Hq). apply aoks_app in Hq. cbn [snd] in *.
    destruct (avalid_split Hc Hd).
    split; [repeat split; tauto|]. intros s1 (d' & E & _). inversion E; subst. repeat split; tauto.
  - intros l1 l2 [dn d] s1 r (Hq & Hd) (d1 & E & S1) P2. inversion E; subst. destruct P2 as (d2 & -> & S2).
    cbn [fst snd] in *.
    exists (d1 ++ d2). cbn [fst snd]. rewrite app_assoc, !drop_app2. split; [reflexivity|].
    apply (arel_app S1 S2).
  - intros l1 l2 [dn d] e _ (d' & E & _). discriminate.
  - intros l [dn d] r (d' & -> & _). eauto.
  - intros n [dn d] (_ & Hd). cbn [snd] in *. rewrite asizes_rep1 in * by reflexivity.
    apply vb_bytes in Hd; [|auto]. destruct Hd as [Hd _]. unfold zero_post. rewrite asizes_rep1 by reflexivity. cbn [fst snd].
    destruct (split_at n d) as (d1 & d2 & Ed & Etd & Edd). rewrite Etd in *. rewrite Edd. rewrite Ed. clear Ed Etd Edd.
    destruct Hd as (bs & L & ->). subst n. cbn [zero_h h_mem]. rewrite take_raw_map. cbn [bind].
    exists (repN (lenN bs) (B 0)). split; [reflexivity|]. apply zb_bytes. auto.
  - intros n [dn d] (_ & Hd). cbn [snd] in *. rewrite asizes_rep1 in * by reflexivity.
    apply vb_bytes in Hd; [|auto]. destruct Hd as [Hd _]. unfold zero_post. rewrite asizes_rep1 by reflexivity. cbn [fst snd].
    destruct (split_at n d) as (d1 & d2 & Ed & Etd & Edd). rewrite Etd in *. rewrite Edd. rewrite Ed. clear Ed Etd Edd.
    destruct Hd as (bs & L & ->). subst n. cbn [zero_h h_skip]. rewrite take_raw_map. cbn [bind].
    exists (repN (lenN bs) (B 0)). split; [reflexivity|]. apply zvb_bytes. split; [apply bytes_repN|reflexivity].
  - intros k sz e [dn d] rest He Hsz (Hq & Hd). cbn [snd] in *. rewrite asizes_c1 in *.
    apply Forall_inv in Hq. destruct Hq as [Hew Heo].
    apply arel_c1 in Hd. destruct Hd as (od & Ed & Hd & _).
    destruct (cont_clear_ok Hew Heo Hd) as (o' & [n C] & Z).
    exists (Ok (dn ++ put_obj sz o', dropN sz d)). split.
    + exists n. intros a f Ha Hf. rewrite <- (takeN_dropN sz d) at 1. rewrite Ed.
      cbn [zero_h h_cont h_cont_end]. rewrite !take_obj_put by assumption. cbn [bind]. rewrite C by lia. cbn [bind].
      rewrite skip_block_block. reflexivity.
    + exists (put_obj sz o'). rewrite asizes_c1. cbn [fst snd]. split; [reflexivity|]. apply arel_c1. exists o'. split; [reflexivity|].
      split; [assumption|reflexivity].
Qed.

Theorem zero_ok ap mg t l : wf t -> supported ap t = true -> layout_of ap false mg true t = Ok l ->
  forall m m2, valid t m -> exists m', conv (fun f => do_zero f l (m ++ m2)) (Ok (m' ++ m2)) /\ zeroed t m'.
Proof.
  intros Hw Hs Hl m m2 Vd. destruct (@layout_ok ap mg t Hw Hs) as (l' & oi & k' & Hl' & E1' & _).
  rewrite Hl in Hl'. inversion Hl'; subst l'. clear Hl'.
  assert (Hq := tatoms_ok Hw Hs).
  destruct (stop_split mg Hw Hs Hq Vd) as (pre & k & d1 & dk & E1 & E2 & Hqp & -> & Ad & Bd & Ld & Hsz).
  destruct (walk_run (zero_walk mg) (t := t) (s := ([], (d1 ++ dk) ++ m2)) Hw) as (r & C & P).
  { rewrite E2. unfold destroy_pre. cbn [snd]. rewrite asizes_norm, <- !app_assoc. split; [apply aoks_norm; assumption|].
    rewrite !takeN_app_exact by congruence. apply avalid_norm; assumption. }
  unfold zero_post in P. cbn [fst snd] in P. rewrite E2, asizes_norm, <- !app_assoc in P. rewrite !dropN_app_exact in P by congruence.
  destruct P as (d' & -> & S1).
  exists (d' ++ dk). split.
  - apply conv2_diag in C. destruct C as [n C]. exists n. intros f Hf. unfold do_zero. rewrite E1'. rewrite <- !app_assoc in *. rewrite C by lia. reflexivity.
  - apply (zeroed_atoms _ Hs). rewrite E1. change (@nil unit) with (@nil unit ++ @nil unit). unfold azero. apply (arel_app (azero_norm S1)). apply zvb_bytes. auto.
Qed.

(** ** compare *)
Lemma asame_len l a b : conts_pos l -> asame l a b -> lenN a = asizes l /\ lenN b = asizes l.
Proof.
  intros Hc H. split; [apply (arel_len Hc H)|]. induction H; cbn [asizes asize].
  - reflexivity.
  - destruct H as (b & -> & ->). cbn [app]. rewrite lenN_cons, IHarel; [reflexivity|]. intros k s e Hi. apply (Hc k s e); right; assumption.
  - destruct H as (b & b' & -> & ->). cbn [app]. rewrite lenN_cons, IHarel; [reflexivity|]. intros k s e Hi. apply (Hc k s e); right; assumption.
  - destruct H as (o' & -> & _). rewrite lenN_app, IHarel, put_obj_len; [reflexivity| |].
    + apply (Hc k s e); left; reflexivity.
    + intros k' s' e' Hi. apply (Hc k' s' e'); right; assumption.
Qed.
Lemma asame_split l1 l2 a b : conts_pos (l1 ++ l2) ->
  asame (l1 ++ l2) (takeN (asizes (l1 ++ l2)) a) (takeN (asizes (l1 ++ l2)) b) ->
  asame l1 (takeN (asizes l1) a) (takeN (asizes l1) b) /\
  asame l2 (takeN (asizes l2) (dropN (asizes l1) a)) (takeN (asizes l2) (dropN (asizes l1) b)).
Proof.
  intros Hc H. assert (Hc' := Hc). apply conts_pos_app in Hc'. destruct Hc' as [Hc1 Hc2].
  destruct (arel_split Hc H) as (x1 & x2 & E & A1 & A2).
  assert (L1 := proj2 (asame_len Hc1 A1)). assert (L2 := proj2 (asame_len Hc2 A2)).
  rewrite asizes_app, takeN_add in E.
  assert (Hlen : lenN (takeN (asizes l1) b) = asizes l1).
  { apply (f_equal lenN) in E. rewrite !lenN_app, !lenN_takeN, lenN_dropN in E. rewrite lenN_takeN. lia. }
  assert (Ea := f_equal (takeN (asizes l1)) E). rewrite !takeN_app_exact in Ea by congruence.
  assert (Eb := f_equal (dropN (asizes l1)) E). rewrite !dropN_app_exact in Eb by congruence.
  rewrite Ea, Eb. auto.
Qed.

Lemma bytes_eqb_spec a b : bytes_eqb a b = true <-> a = b.
Proof.
  revert b; induction a as [|x a IH]; intros [|y b]; simpl; split; try discriminate; auto.
  - intros H. apply andb_true_iff in H. destruct H as [H1 H2]. apply N.eqb_eq in H1. apply IH in H2. congruence.
  - intros H. inversion H; subst. rewrite N.eqb_refl. apply IH. reflexivity.
Qed.
Lemma map_B_inj a b : map B a = map B b -> a = b.
Proof. revert b; induction a as [|x a IH]; intros [|y b]; simpl; intros H; inversion H; auto. f_equal; auto. Qed.

(** What the comparison of two elements must provide. *)
Definition elt_cmp (e : ty) : Prop := forall a b a2 b2, valid e a -> valid e b ->
  exists r, conv (fun f => do_compare f e (a ++ a2) (b ++ b2)) (Ok r) /\ (r = true <-> same e a b).

Lemma cmp_loop e : wf e -> elt_cmp e -> forall xs ys i pa pb, lenN pa = i * sizeof e -> lenN pb = i * sizeof e -> lenN xs = lenN ys ->
  Forall (valid e) xs -> Forall (valid e) ys ->
  exists r, conv2 (fun a f => for_range f i (i + lenN xs) 1
          (fun i (u : unit) =>
             if (lenN (pa ++ concat xs) <? i * sizeof e) || (lenN (pb ++ concat ys) <? i * sizeof e) then UB UOob
             else eq <- do_compare a e (dropN (i * sizeof e) (pa ++ concat xs)) (dropN (i * sizeof e) (pb ++ concat ys)) ;;
                  if (eq : bool) then Ok tt else Throw EDiffer) tt) r /\
    (r = Ok tt /\ Forall2 (same e) xs ys \/ r = Throw EDiffer /\ ~ Forall2 (same e) xs ys).
Proof.
  intros Hw EC. induction xs as [|x xs IH]; intros ys i pa pb La Lb Ll Hx Hy.
  - destruct ys as [|y ys]; [|rewrite lenN_cons in Ll; change (lenN (@nil (list cell))) with 0 in Ll; lia].
    exists (Ok tt). split; [|left; split; [reflexivity|constructor]]. exists 1%nat. intros a [|f] _ Hf; [lia|]. cbn [for_range].
    change (lenN (@nil (list cell))) with 0. destruct (N.ltb_spec i (i + 0)); [lia|reflexivity].
  - destruct ys as [|y ys]; [rewrite lenN_cons in Ll; change (lenN (@nil (list cell))) with 0 in Ll; lia|].
    rewrite !lenN_cons in *. inversion Hx as [|? ? Vx Vxs]; subst. inversion Hy as [|? ? Vy Vys]; subst.
    destruct (EC x y (concat xs) (concat ys) Vx Vy) as (r1 & [n1 C1] & S1).
    assert (Lx : lenN x = sizeof e) by (apply (proj1 valid_len); assumption).
    assert (Ly : lenN y = sizeof e) by (apply (proj1 valid_len); assumption).
    destruct (IH ys (i + 1) (pa ++ x) (pb ++ y)) as (r & [n2 C2] & P); auto.
    { rewrite lenN_app. lia. } { rewrite lenN_app. lia. } { lia. }
    assert (Step : forall a f, (n1 <= a)%nat ->
      (if (lenN (pa ++ concat (x :: xs)) <? i * sizeof e) || (lenN (pb ++ concat (y :: ys)) <? i * sizeof e) then UB UOob
             else eq <- do_compare a e (dropN (i * sizeof e) (pa ++ concat (x :: xs))) (dropN (i * sizeof e) (pb ++ concat (y :: ys))) ;;
                  if (eq : bool) then f else Throw EDiffer) = (if r1 then f else Throw (A := unit) EDiffer)).
    { intros a f Ha. cbn [concat]. rewrite !lenN_app.
      destruct (N.ltb_spec (lenN pa + (lenN x + lenN (concat xs))) (i * sizeof e)); [lia|].
      destruct (N.ltb_spec (lenN pb + (lenN y + lenN (concat ys))) (i * sizeof e)); [lia|]. cbn [orb].
      rewrite !dropN_app_exact by congruence. rewrite C1 by lia. reflexivity. }
    destruct r1.
    + exists r. split.
      * exists (S (Nat.max n1 n2)). intros a [|f] Ha Hf; [lia|]. cbn [for_range].
        destruct (N.ltb_spec i (i + (1 + lenN xs))); [|lia]. rewrite Step by lia. cbn [bind].
        specialize (C2 a f ltac:(lia) ltac:(lia)). rewrite <- !app_assoc in C2.
        replace (i + 1 + lenN xs) with (i + (1 + lenN xs)) in C2 by lia. exact C2.
      * destruct P as [[-> P]|[-> P]]; [left|right]; split; try reflexivity.
        { constructor; [apply S1; reflexivity|assumption]. }
        { intros H. inversion H; subst; auto. }
    + exists (Throw EDiffer). split.
      * exists (S n1). intros a [|f] Ha Hf; [lia|]. cbn [for_range].
        destruct (N.ltb_spec i (i + (1 + lenN xs))); [|lia]. rewrite Step by lia. reflexivity.
      * right. split; [reflexivity|]. intros H. inversion H; subst. assert (false = true) by (apply S1; assumption). discriminate.
Qed.

Lemma concat_inj e xs ys : wf e -> 1 <= sizeof e -> Forall (valid e) xs -> Forall (valid e) ys -> concat xs = concat ys -> xs = ys.
Proof.
  intros Hw Hs Hx. revert ys; induction Hx as [|x xs Vx Vxs IH]; intros [|y ys] Hy E; auto.
  - inversion Hy; subst. apply (f_equal lenN) in E. cbn [concat] in E. rewrite lenN_app in E. rewrite (proj1 valid_len e Hw y) in E by assumption.
    change (lenN (@nil cell)) with 0 in E. lia.
  - apply (f_equal lenN) in E. cbn [concat] in E. rewrite lenN_app in E. rewrite (proj1 valid_len e Hw x) in E by assumption.
    change (lenN (@nil cell)) with 0 in E. lia.
  - inversion Hy as [|? ? Vy Vys]; subst. cbn [concat] in E.
    assert (L : lenN x = lenN y) by (rewrite !(proj1 valid_len e Hw) by assumption; reflexivity).
    assert (E1 := f_equal (takeN (lenN x)) E). rewrite !takeN_app_exact in E1 by auto.
    assert (E2 := f_equal (dropN (lenN x)) E). rewrite !dropN_app_exact in E2 by auto.
    f_equal; auto.
Qed.

Lemma cont_compare_ok k s e oa ob : elt_wf k s e -> elt_cmp e -> cvalid k e oa -> cvalid k e ob ->
  exists r, conv2 (fun a f => cont_compare f (do_compare a) k e oa ob) r /\
    (r = Ok true /\ csame k e oa ob \/ (r = Ok false \/ r = Throw EDiffer) /\ ~ csame k e oa ob).
Proof.
  intros (Hw & Hp & Hs & H1 & Hk) EC Ha Hb. destruct k.
  - destruct oa as [ca csa|]; simpl in Ha; [|contradiction]. destruct ob as [cb csb|]; simpl in Hb; [|contradiction].
    destruct Ha as (xs & -> & Vx & Ca1 & Ca2). destruct Hb as (ys & -> & Vy & Cb1 & Cb2).
    assert (Hvc : forall ms, Forall (valid e) ms -> vec_count e (concat ms) = Ok (lenN ms)).
    { intros ms Hv. unfold vec_count. destruct (N.eqb_spec (sizeof e) 0); [lia|]. rewrite (concat_len Hw Hv), N.div_mul by lia. reflexivity. }
    assert (Hcs : csame KVec e (VecObj ca (concat xs)) (VecObj cb (concat ys)) <-> Forall2 (same e) xs ys).
    { simpl. split.
      - intros (xs' & ys' & E1 & E2 & F & _).
        assert (V1 : Forall (valid e) xs').
        { clear - F. induction F; constructor; auto. apply same_valid in H; tauto. }
        assert (V2 : Forall (valid e) ys').
        { clear - F. induction F; constructor; auto. apply same_valid in H; tauto. }
        apply (concat_inj Hw Hs Vx V1) in E1. apply (concat_inj Hw Hs Vy V2) in E2. subst. assumption.
      - intros F. exists xs, ys. auto 10. }
    cbn [cont_compare]. rewrite !Hvc by assumption. cbn [bind].
    destruct (N.eqb_spec (lenN xs) (lenN ys)) as [El|El]; cbn [negb].
    + destruct (@cmp_loop e Hw EC xs ys 0 [] [] eq_refl eq_refl El Vx Vy) as (r & C & P).
      cbn [app] in C. rewrite N.add_0_l in C. destruct P as [[-> P]|[-> P]].
      * exists (Ok true). split; [|left; split; [reflexivity|apply Hcs; assumption]]. eapply conv2_bind; [exact C|apply conv2_const].
      * exists (Throw EDiffer). split; [apply conv2_bind_throw; exact C|]. right. split; [auto|]. intros H. apply P. apply Hcs; assumption.
    + exists (Ok false). split; [apply conv2_const|]. right. split; [auto|]. intros H. apply Hcs in H. apply El. apply (F2_lenN H).
  - destruct oa as [|ba]; simpl in Ha; [contradiction|]. destruct ob as [|bb]; simpl in Hb; [contradiction|].
    cbn [cont_compare]. exists (Ok (bytes_eqb ba bb)). split; [apply conv2_const|]. simpl.
    destruct (bytes_eqb ba bb) eqn:E; [left|right]; (split; [auto|]).
    + apply bytes_eqb_spec in E. auto.
    + intros [Hx _]. apply bytes_eqb_spec in Hx. congruence.
Qed.

Definition cok (a : atom) : Prop :=
  match a with ACont k s e => elt_wf k s e /\ elt_cmp e | _ => True end.
Lemma cok_pos l : Forall cok l -> conts_pos l.
Proof.
  intros H k s e Hi. assert (H0 := proj1 (Forall_forall _ _) H). apply H0 in Hi. destruct Hi as [(_ & _ & _ & H1 & _) _]. exact H1.
Qed.
Definition cmp_pre (l : list atom) (st : list cell * list cell) : Prop :=
  Forall cok l /\ avalid l (takeN (asizes l) (fst st)) /\ avalid l (takeN (asizes l) (snd st)).
Definition cmp_post (l : list atom) (st : list cell * list cell) (r : res (list cell * list cell)) : Prop :=
  let a := takeN (asizes l) (fst st) in
  let b := takeN (asizes l) (snd st) in
  asame l a b /\ r = Ok (dropN (asizes l) (fst st), dropN (asizes l) (snd st)) \/
  ~ asame l a b /\ r = Throw EDiffer.

Lemma compare_walk mg : walk_spec (fun a => compare_h (do_compare a)) mg cmp_pre cmp_post
  (h_mem (compare_h (do_compare 0))) (h_skip (compare_h (do_compare 0))).
Proof.
  constructor; try reflexivity.
  - intros [a b] _. left. split; [constructor|reflexivity].
  - intros l1 l2 [a b] (Hq & Ha & Hb). assert (Hc := cok_pos Hq). apply Forall_app in Hq. cbn [fst snd] in *.
    destruct (avalid_split Hc Ha), (avalid_split Hc Hb).
    split; [repeat split; tauto|]. intros s1 [[_ E]|[_ E]]; inversion E; subst. repeat split; tauto.
  - intros l1 l2 [a b] s1 r (Hq & Ha & Hb) P1 P2. assert (Hc := cok_pos Hq).
    destruct P1 as [[S1 E]|[_ E]]; [|discriminate]. inversion E; subst. unfold cmp_post in *. cbn [fst snd] in *.
    rewrite !drop_app2 in P2. destruct P2 as [[S2 ->]|[S2 ->]]; [left|right]; (split; [|reflexivity]).
    + rewrite asizes_app, !takeN_add. apply arel_app; assumption.
    + intros H. apply S2. apply (asame_split Hc H).
  - intros l1 l2 [a b] e (Hq & Ha & Hb) P1. assert (Hc := cok_pos Hq). destruct P1 as [[_ E]|[S1 E]]; [discriminate|]. inversion E; subst.
    right. split; [|reflexivity]. intros H. apply S1. apply (asame_split Hc H).
  - intros l [a b] r [[_ ->]|[_ ->]]; eauto.
  - intros n [a b] (_ & Ha & Hb). unfold cmp_post. cbn [fst snd] in *. rewrite asizes_rep1 in * by reflexivity.
    apply vb_bytes in Ha; [|auto]. destruct Ha as [Ha _]. apply vb_bytes in Hb; [|auto]. destruct Hb as [Hb _].
    destruct (split_at n a) as (d1 & d2 & Ed & Etd & Edd). destruct (split_at n b) as (s1 & s2 & Es & Ets & Eds).
    rewrite Etd, Ets in *. rewrite Edd, Eds. rewrite Ed, Es. clear Ed Es Etd Ets Edd Eds.
    destruct Ha as (ba & L & ->). destruct Hb as (bb & L2 & ->). cbn [compare_h h_mem].
    assert (T1 : take_raw n (map B ba ++ d2) = Ok (ba, d2)) by (rewrite <- L; apply take_raw_map).
    assert (T2 : take_raw n (map B bb ++ s2) = Ok (bb, s2)) by (rewrite <- L2; apply take_raw_map).
    rewrite T1, T2. cbn [bind].
    destruct (bytes_eqb ba bb) eqn:E; [left|right]; (split; [|reflexivity]).
    + apply bytes_eqb_spec in E. subst bb. apply sb_bytes. split; [exists ba; auto|reflexivity].
    + intros H. apply sb_bytes in H. destruct H as [_ H]. apply map_B_inj in H. apply bytes_eqb_spec in H. congruence.
  - intros n [a b] (_ & Ha & Hb). unfold cmp_post. cbn [fst snd] in *. rewrite asizes_rep1 in * by reflexivity.
    apply vb_bytes in Ha; [|auto]. destruct Ha as [Ha _]. apply vb_bytes in Hb; [|auto]. destruct Hb as [Hb _].
    destruct (split_at n a) as (d1 & d2 & Ed & Etd & Edd). destruct (split_at n b) as (s1 & s2 & Es & Ets & Eds).
    rewrite Etd, Ets in *. rewrite Edd, Eds. rewrite Ed, Es. clear Ed Es Etd Ets Edd Eds.
    cbn [compare_h h_skip]. rewrite !take_cells_app by (apply bytes_len; assumption). cbn [bind].
    left. split; [|reflexivity]. apply sp_bytes. auto.
  - intros k sz e [a b] rest He Hsz (Hq & Ha & Hb). unfold cmp_post. cbn [fst snd] in *. rewrite asizes_c1 in *.
    apply Forall_inv in Hq. destruct Hq as [Hew Heo].
    apply arel_c1 in Ha. destruct Ha as (oa & Ea & Ha & _). apply arel_c1 in Hb. destruct Hb as (ob & Eb & Hb & _).
    destruct (cont_compare_ok Hew Heo Ha Hb) as (r & [n C] & P).
    assert (Hcs : asame [ACont k sz e] (takeN sz a) (takeN sz b) <-> csame k e oa ob).
    { unfold asame. rewrite arel_c1. rewrite Ea, Eb. split.
      - intros (o & E1 & o' & E2 & H). unfold put_obj in *. inversion E1; subst. inversion E2; subst. assumption.
      - intros H. exists oa. split; [reflexivity|]. exists ob. auto. }
    assert (Hb0 : forall a0 f, (n <= a0)%nat -> (n <= f)%nat ->
      (p <- h_cont (compare_h (do_compare a0)) f k sz e (a, b) (flat (sblock mg (rops e)) ++ W FLAG_END :: rest) ;;
       (let '(s', it') := p in it'' <- h_cont_end (compare_h (do_compare a0)) it' ;; Ok (s', it''))) =
      (eq <- r ;; if (eq : bool) then Ok ((dropN sz a, dropN sz b), rest) else Throw EDiffer)).
    { intros a0 f H1 H2. rewrite <- (takeN_dropN sz a) at 1. rewrite <- (takeN_dropN sz b) at 1. rewrite Ea, Eb.
      cbn [compare_h h_cont h_cont_end]. rewrite !take_obj_put by assumption. cbn [bind]. rewrite C by lia.
      destruct r as [[|]| | |]; cbn [bind]; try reflexivity. rewrite skip_block_wc. reflexivity. }
    destruct P as [[-> P]|[[-> | ->] P]].
    + exists (Ok (dropN sz a, dropN sz b)). split; [exists n; intros a0 f H1 H2; rewrite Hb0 by lia; reflexivity|].
      left. split; [apply Hcs; assumption|reflexivity].
    + exists (Throw EDiffer). split; [exists n; intros a0 f H1 H2; rewrite Hb0 by lia; reflexivity|].
      right. split; [rewrite Hcs; assumption|reflexivity].
    + exists (Throw EDiffer). split; [exists n; intros a0 f H1 H2; rewrite Hb0 by lia; reflexivity|].
      right. split; [rewrite Hcs; assumption|reflexivity].
Qed.

Lemma supported_mono :
  (forall t, supported false t = true -> supported true t = true) /\
  (forall fs, supported_fields false fs = true -> supported_fields true fs = true).
Proof.
  apply ty_fields_ind; simpl; auto. intros nm off t IHt fs IHf H. apply andb_true_iff in H. apply andb_true_iff. tauto.
Qed.

Lemma compare_run t : wf t -> supported true t = true -> Forall cok (tatoms t) -> elt_cmp t.
Proof.
  intros Hw Hs Hq a b a2 b2 Va Vb.
  assert (Hok : aoks (tatoms t)) by (eapply tatoms_ok; eauto).
  destruct (@layout_ok true false t Hw Hs) as (l & oi & k' & Hl & E1' & _).
  destruct (stop_split false Hw Hs Hok Va) as (pre & k & d1 & dk & E1 & E2 & Hqp & -> & Ad & Bd & Ld & Hsz).
  destruct (stop_split false Hw Hs Hok Vb) as (pre' & k1 & s1 & sk & E1'' & E2' & _ & -> & As & Bs & Ls & Hsz').
  assert (Hpp : pre' = pre /\ k1 = k).
  { assert (k1 = k).
    { apply (f_equal asizes) in E2, E2'. rewrite asizes_norm in E2, E2'. lia. }
    subst k1. split; [|reflexivity]. rewrite E1 in E1''. apply app_inv_tail in E1''. auto. }
  destruct Hpp as [-> ->]. clear E1'' E2' Hsz'. rewrite norm_false in E2.
  assert (Hqc : Forall cok pre) by (rewrite E1 in Hq; apply Forall_app in Hq; tauto).
  destruct (walk_run (compare_walk false) (t := t) (s := ((d1 ++ dk) ++ a2, (s1 ++ sk) ++ b2)) Hw) as (r & C & P).
  { rewrite E2. unfold cmp_pre. cbn [fst snd]. rewrite <- !app_assoc. split; [assumption|].
    rewrite !takeN_app_exact by congruence. auto. }
  unfold cmp_post in P. cbn [fst snd] in P. rewrite E2, <- !app_assoc in P. rewrite !dropN_app_exact in P by congruence.
  rewrite !takeN_app_exact in P by congruence.
  assert (Hsame : same t (d1 ++ dk) (s1 ++ sk) <-> asame pre d1 s1).
  { rewrite (same_atoms _ _ Hs), E1. split.
    - intros H. assert (Hc : conts_pos pre) by (apply aoks_pos; assumption).
      destruct (arel_inv H) as (m1 & m2 & x1 & x2 & Ea & Eb & A1 & A2).
      assert (Lx := asame_len Hc A1).
      assert (E3 := f_equal (takeN (asizes pre)) Ea). rewrite !takeN_app_exact in E3 by (destruct Lx; congruence).
      assert (E4 := f_equal (takeN (asizes pre)) Eb). rewrite !takeN_app_exact in E4 by (destruct Lx; congruence).
      subst. assumption.
    - intros H. apply arel_app; [assumption|apply sp_bytes; auto]. }
  rewrite <- !(app_assoc d1), <- !(app_assoc s1) in *. apply conv2_diag in C.
  assert (Hc : forall res0, conv (fun f => catch_differ ('(_, _) <- walk f (compare_h (do_compare f)) (d1 ++ dk ++ a2, s1 ++ sk ++ b2) (ops l) ;; Ok true)) (Ok res0) ->
     conv (fun f => do_compare f t (d1 ++ dk ++ a2) (s1 ++ sk ++ b2)) (Ok res0)).
  { intros res0 H. eapply conv_S; [|exact H]. intros m. cbn [do_compare]. unfold compare_layout. rewrite Hl. reflexivity. }
  destruct P as [[P ->]|[P ->]].
  - exists true. split; [|rewrite Hsame; tauto]. apply Hc. destruct C as [n C]. exists n. intros f Hf. rewrite E1'. rewrite C by lia. reflexivity.
  - exists false. split; [|rewrite Hsame; split; [discriminate|tauto]]. apply Hc. destruct C as [n C]. exists n. intros f Hf. rewrite E1'. rewrite C by lia. reflexivity.
Qed.

Theorem compare_ok t : wf t -> supported true t = true -> elt_cmp t.
Proof.
  remember (cdepth t) as n eqn:En. revert t En. induction n as [n IH] using lt_wf_ind. intros t En Hw Hs. subst n.
  apply compare_run; auto. apply Forall_forall. intros [| |k s e] Hi; simpl; auto.
  destruct (proj1 tatoms_conts t true Hw Hs _ _ _ Hi) as [H1 H2]. split; [assumption|].
  apply (IH (cdepth e)); auto; [apply H1|]. apply supported_mono. apply H1.
Qed.
