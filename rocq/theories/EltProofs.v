(** * EltProofs: init, copy and destroy work on every well-formed value. *)
From Verif Require Import Base Types WellFormed Layout LayoutProofs LayoutMain InitProofs LayoutFinal
     ValueOps ValueSpec ValueAtoms ValueInst WalkProofs InitRun EltOps.
Local Open Scope N_scope.

(** ** Frames *)
Lemma takeN_add {A} a b (l : list A) : takeN (a + b) l = takeN a l ++ takeN b (dropN a l).
Proof.
  unfold takeN, dropN. rewrite N2Nat.inj_add. generalize (N.to_nat a) (N.to_nat b). intros x y.
  revert l; induction x as [|x IH]; intros l; [reflexivity|]. destruct l as [|c l]; simpl; [rewrite firstn_nil; reflexivity|].
  f_equal. apply IH.
Qed.

Lemma split_at {A} n (l : list A) : exists a b, l = a ++ b /\ takeN n l = a /\ dropN n l = b.
Proof. exists (takeN n l), (dropN n l). rewrite takeN_dropN. auto. Qed.

Definition conts_pos (l : list atom) : Prop := forall k s e, In (ACont k s e) l -> 1 <= s.
Lemma conts_pos_app l1 l2 : conts_pos (l1 ++ l2) <-> conts_pos l1 /\ conts_pos l2.
Proof.
  unfold conts_pos. split.
  - intros H; split; intros k s e Hi; apply (H k s e); apply in_app_iff; auto.
  - intros [H1 H2] k s e Hi. apply in_app_iff in Hi. destruct Hi; eauto.
Qed.
Lemma arel_len {X} RB RP RC l m (x : list X) : conts_pos l -> arel RB RP RC l m x -> lenN m = asizes l.
Proof.
  intros Hc H. induction H; cbn [asizes asize].
  - reflexivity.
  - rewrite lenN_cons, IHarel; [reflexivity|]. intros k s e Hi. apply (Hc k s e); right; assumption.
  - rewrite lenN_cons, IHarel; [reflexivity|]. intros k s e Hi. apply (Hc k s e); right; assumption.
  - rewrite lenN_app, IHarel, put_obj_len; [reflexivity| |].
    + apply (Hc k s e); left; reflexivity.
    + intros k' s' e' Hi. apply (Hc k' s' e'); right; assumption.
Qed.
Lemma arel_split {X} RB RP RC l1 l2 m (x : list X) : conts_pos (l1 ++ l2) ->
  arel RB RP RC (l1 ++ l2) (takeN (asizes (l1 ++ l2)) m) x ->
  exists x1 x2, x = x1 ++ x2 /\ arel RB RP RC l1 (takeN (asizes l1) m) x1 /\
                arel RB RP RC l2 (takeN (asizes l2) (dropN (asizes l1) m)) x2.
Proof.
  intros Hc H. apply conts_pos_app in Hc. destruct Hc as [Hc1 Hc2].
  destruct (arel_inv H) as (m1 & m2 & x1 & x2 & E & -> & A1 & A2).
  rewrite asizes_app, takeN_add in E. assert (L1 := arel_len Hc1 A1). assert (L2 := arel_len Hc2 A2).
  assert (Hlen : lenN (takeN (asizes l1) m) = asizes l1).
  { apply (f_equal lenN) in E. rewrite !lenN_app, !lenN_takeN, lenN_dropN in E. rewrite lenN_takeN. lia. }
  assert (E1 := f_equal (takeN (asizes l1)) E). rewrite !takeN_app_exact in E1 by congruence.
  assert (E2 := f_equal (dropN (asizes l1)) E). rewrite !dropN_app_exact in E2 by congruence.
  exists x1, x2. rewrite E1, E2. auto.
Qed.
Lemma arel_join {X} RB RP RC l1 l2 m (x1 x2 : list X) :
  arel RB RP RC l1 (takeN (asizes l1) m) x1 -> arel RB RP RC l2 (takeN (asizes l2) (dropN (asizes l1) m)) x2 ->
  arel RB RP RC (l1 ++ l2) (takeN (asizes (l1 ++ l2)) m) (x1 ++ x2).
Proof. intros H1 H2. rewrite asizes_app, takeN_add. apply arel_app; assumption. Qed.

Lemma avalid_split l1 l2 m : conts_pos (l1 ++ l2) -> avalid (l1 ++ l2) (takeN (asizes (l1 ++ l2)) m) ->
  avalid l1 (takeN (asizes l1) m) /\ avalid l2 (takeN (asizes l2) (dropN (asizes l1) m)).
Proof.
  intros Hc H. destruct (arel_split Hc H) as (x1 & x2 & E & A1 & A2). symmetry in E. apply app_eq_nil in E.
  destruct E as [-> ->]. auto.
Qed.
Lemma drop_app2 l1 l2 (m : list cell) : dropN (asizes l2) (dropN (asizes l1) m) = dropN (asizes (l1 ++ l2)) m.
Proof. rewrite dropN_dropN, asizes_app. reflexivity. Qed.

Lemma byte_of_map bs : map byte_of (map B bs) = bs.
Proof. induction bs; simpl; congruence. Qed.
Lemma take_raw_map bs b : take_raw (lenN bs) (map B bs ++ b) = Ok (bs, b).
Proof.
  unfold take_raw. rewrite take_cells_app by (unfold lenN; rewrite map_length; reflexivity). cbn [bind].
  rewrite (bytes_all (n := lenN bs)) by (exists bs; auto). rewrite byte_of_map. reflexivity.
Qed.
Lemma is_cont_rep n : forallb is_cont (repN n Cont) = true.
Proof. unfold repN. induction (N.to_nat n); simpl; auto. Qed.
Lemma take_obj_put s o b : 1 <= s -> take_obj s (put_obj s o ++ b) = Ok (o, b).
Proof.
  intros Hs. unfold take_obj. rewrite take_cells_app by (apply put_obj_len; assumption). cbn [bind]. unfold put_obj.
  rewrite is_cont_rep. reflexivity.
Qed.

(** ** Conditions on the containers of a list of atoms *)
Definition aok (a : atom) : Prop :=
  match a with ACont k s e => elt_wf k s e /\ elt_ok e | _ => True end.
Definition aoks (l : list atom) : Prop := Forall aok l.
Lemma aoks_app l1 l2 : aoks (l1 ++ l2) <-> aoks l1 /\ aoks l2.
Proof. apply Forall_app. Qed.
Lemma aoks_pos l : aoks l -> conts_pos l.
Proof.
  intros H k s e Hi. assert (H0 := proj1 (Forall_forall _ _) H). apply H0 in Hi. destruct Hi as [(_ & _ & _ & H1 & _) _]. exact H1.
Qed.
Lemma aoks_norm mg l : aoks l -> aoks (norm mg l).
Proof.
  intros H. induction H as [|a l Ha Hl IH]; simpl; constructor; auto. destruct a; simpl; auto. destruct mg; exact I.
Qed.
Lemma avalid_norm mg l m : avalid l m <-> avalid (norm mg l) m.
Proof. apply arel_norm. Qed.
Lemma asame_norm mg l a b : asame (norm mg l) a b -> asame l a b.
Proof.
  unfold asame. revert a b; induction l as [|x l IH]; intros a b H; [exact H|]. simpl in H. destruct x; simpl in H.
  - inversion H; subst. constructor; auto.
  - destruct mg; inversion H as [|? ? ? ? ? Hb ?|? ? ? ? ? Hb ?|]; subst; constructor; auto.
    destruct Hb as (b & -> & ->). exists b, b. auto.
  - inversion H; subst. constructor; auto.
Qed.

(** ** Containers *)
Lemma cont_destroy_ok k s e o : elt_wf k s e -> elt_ok e -> cvalid k e o ->
  conv2 (fun a f => cont_destroy f (eops_at a) k s e o) (Ok (repN s (B 0))).
Proof.
  intros (Hw & Hp & Hs & H1 & Hk) EO Hv. destruct k, o as [cap cs|bs]; simpl in Hv; try contradiction.
  - destruct Hv as (ms & -> & Hv & Hc1 & Hc2).
    destruct (@vec_resize_ok e 0 cap ms Hw Hp Hs EO Hv Hc1 Hc2) as (cap' & ms' & [n C] & L & _); [unfold max_size; lia|].
    apply lenN_0_nil in L. subst ms'. exists n. intros a f Ha Hf. cbn [cont_destroy]. rewrite C by lia. reflexivity.
  - exists 0%nat. reflexivity.
Qed.

Lemma cont_clear_ok k s e o : elt_wf k s e -> elt_ok e -> cvalid k e o ->
  exists o', conv2 (fun a f => cont_clear f (eops_at a) k e o) (Ok o') /\ czero k o'.
Proof.
  intros (Hw & Hp & Hs & H1 & Hk) EO Hv. destruct k, o as [cap cs|bs]; simpl in Hv; try contradiction.
  - destruct Hv as (ms & -> & Hv & Hc1 & Hc2).
    destruct (@vec_resize_ok e 0 cap ms Hw Hp Hs EO Hv Hc1 Hc2) as (cap' & ms' & [n C] & L & _ & _ & L2 & _); [unfold max_size; lia|].
    apply lenN_0_nil in L. subst ms'. exists (VecObj cap' []). split; [|simpl; auto].
    exists n. intros a f Ha Hf. cbn [cont_clear]. rewrite C by lia. reflexivity.
  - exists (StrObj []). split; [exists 0%nat; reflexivity|reflexivity].
Qed.

Lemma concat_bytes e ms : wf e -> Forall (valid e) ms -> Forall (bytes (sizeof e)) ms ->
  exists bs, concat ms = map B bs /\ lenN bs = lenN ms * sizeof e.
Proof.
  intros Hw Hv Hb. assert (H := bytes_concat Hw Hv Hb). destruct H as (bs & L & E).
  exists bs. split; [assumption|]. rewrite L. apply concat_len; assumption.
Qed.

Lemma copy_loop e : wf e -> plain e -> 1 <= sizeof e -> elt_ok e ->
  forall xs ys i pd ps, lenN pd = i * sizeof e -> lenN ps = i * sizeof e -> lenN xs = lenN ys ->
  Forall (valid e) xs -> Forall (valid e) ys ->
  exists xs', Forall2 (same e) xs' ys /\
    conv2 (fun a f => for_range f i (i + lenN xs) 1
      (fun i d =>
         l <- layout_default e ;;
         if lenN (ps ++ concat ys) <? (0 + i) * sizeof e then UB UOob
         else at_index ((0 + i) * sizeof e) (fun x => e_copy (eops_at a) l x (dropN ((0 + i) * sizeof e) (ps ++ concat ys))) d)
      (pd ++ concat xs)) (Ok (pd ++ concat xs')).
Proof.
  intros Hw Hp Hs EO. destruct (elt_layout_ok Hw Hp Hs) as (HL & _). rewrite HL. cbn [bind].
  induction xs as [|x xs IH]; intros ys i pd ps Ld Ls Ll Hx Hy.
  - destruct ys as [|y ys]; [|rewrite lenN_cons in Ll; change (lenN (@nil (list cell))) with 0 in Ll; lia].
    exists []. split; [constructor|]. exists 1%nat. intros a [|f] _ Hf; [lia|]. cbn [for_range].
    change (lenN (@nil (list cell))) with 0. destruct (N.ltb_spec i (i + 0)); [lia|reflexivity].
  - destruct ys as [|y ys]; [rewrite lenN_cons in Ll; change (lenN (@nil (list cell))) with 0 in Ll; lia|].
    rewrite !lenN_cons in *. inversion Hx as [|? ? Vx Vxs]; subst. inversion Hy as [|? ? Vy Vys]; subst.
    destruct (eo_copy EO (concat xs) (concat ys) Vx Vy) as (x' & [n1 C1] & S1).
    assert (Lx : lenN x' = sizeof e) by (apply (proj1 valid_len); [assumption|]; apply same_valid in S1; tauto).
    assert (Ly : lenN y = sizeof e) by (apply (proj1 valid_len); assumption).
    destruct (IH ys (i + 1) (pd ++ x') (ps ++ y)) as (xs' & F & [n2 C2]); auto.
    { rewrite lenN_app. lia. } { rewrite lenN_app. lia. } { lia. }
    exists (x' :: xs'). split; [constructor; assumption|].
    exists (S (Nat.max n1 n2)). intros a [|f] Ha Hf; [lia|]. cbn [for_range].
    destruct (N.ltb_spec i (i + (1 + lenN xs))); [|lia]. cbn [concat].
    destruct (N.ltb_spec (lenN (ps ++ y ++ concat ys)) ((0 + i) * sizeof e)) as [Hb|Hb]; [rewrite lenN_app in Hb; lia|].
    assert (E0 : (0 + i) * sizeof e = lenN pd) by lia. rewrite E0.
    rewrite (@dropN_app_exact _ ps (y ++ concat ys)) by congruence.
    rewrite (@at_index_app pd x (concat xs) x') by (apply C1; lia). cbn [bind].
    specialize (C2 a f ltac:(lia) ltac:(lia)). rewrite <- !app_assoc in C2.
    replace (i + 1 + lenN xs) with (i + (1 + lenN xs)) in C2 by lia. exact C2.
Qed.

Lemma hasc_same e a b : wf e -> plain e -> hasc (rops e) = false -> bytes (sizeof e) a -> a = b -> same e a b.
Proof. intros Hw Hp Hh Hb <-. apply same_refl. apply (hasc_valid a Hw Hp Hh). assumption. Qed.

Lemma cont_copy_ok k s e od os : elt_wf k s e -> elt_ok e -> cvalid k e od -> cvalid k e os ->
  exists o', conv2 (fun a f => cont_copy f (eops_at a) k e od os) (Ok o') /\ csame k e o' os.
Proof.
  intros (Hw & Hp & Hs & H1 & Hk) EO Hd Ho. destruct k.
  - destruct od as [capd csd|]; simpl in Hd; [|contradiction]. destruct os as [caps css|]; simpl in Ho; [|contradiction].
    destruct Hd as (md & -> & Vd & Cd1 & Cd2). destruct Ho as (ms & -> & Vs & Cs1 & Cs2).
    assert (Ls := concat_len Hw Vs).
    assert (Hvc : vec_count e (concat ms) = Ok (lenN ms)).
    { unfold vec_count. destruct (N.eqb_spec (sizeof e) 0); [lia|]. rewrite Ls, N.div_mul by lia. reflexivity. }
    destruct (@vec_resize_ok e (lenN ms) capd md Hw Hp Hs EO Vd Cd1 Cd2) as (cap' & ms' & [n C] & L & V & L1 & L2 & _); [lia|].
    cbn [cont_copy]. rewrite Hvc. cbn [bind]. unfold vec_copy_range.
    destruct (elt_layout_ok Hw Hp Hs) as (HL & _ & _ & HM). rewrite HM.
    destruct (hasc (rops e)) eqn:Eh; cbn [negb].
    + destruct (@copy_loop e Hw Hp Hs EO ms' ms 0 [] [] eq_refl eq_refl L V Vs) as (xs & F & [n2 C2]).
      assert (Vx : Forall (valid e) xs).
      { clear -F. induction F as [|x y l l' H]; constructor; auto. apply same_valid in H; tauto. }
      exists (VecObj cap' (concat xs)). split.
      * exists (Nat.max n n2). intros a f Ha Hf. rewrite C by lia. cbn [bind].
        specialize (C2 a f ltac:(lia) ltac:(lia)). cbn [app] in C2. rewrite N.add_0_l, L in C2. rewrite C2. reflexivity.
      * simpl. exists xs, ms. repeat split; auto.
        rewrite (concat_len Hw Vx), (F2_lenN F). rewrite (concat_len Hw V), L in L1. lia.
    + assert (Bs : Forall (bytes (sizeof e)) ms) by (eapply Forall_impl; [|exact Vs]; intros m; apply (hasc_valid m Hw Hp Eh)).
      assert (B' : Forall (bytes (sizeof e)) ms') by (eapply Forall_impl; [|exact V]; intros m; apply (hasc_valid m Hw Hp Eh)).
      destruct (concat_bytes Hw Vs Bs) as (bs & Eb & Lb).
      assert (Bc := bytes_concat Hw V B').
      exists (VecObj cap' (concat ms)). split.
      * exists n. intros a f Ha Hf. rewrite C by lia. cbn [bind]. rewrite !N.mul_0_l.
        destruct (N.ltb_spec (lenN (concat ms)) 0); [lia|]. rewrite dropN_0.
        assert (M := max_size_lt).
        rewrite wmul_small by (rewrite N.mul_comm; lia). rewrite Eb.
        rewrite <- (app_nil_r (map B bs)). replace (sizeof e * lenN ms) with (lenN bs) by lia. rewrite take_raw_map. cbn [bind].
        unfold at_index. destruct (N.ltb_spec (lenN (concat ms')) 0); [lia|]. rewrite dropN_0.
        rewrite <- (app_nil_r (concat ms')), write_raw_app.
        { cbn [bind]. rewrite takeN_0. reflexivity. }
        { replace (lenN bs) with (lenN (concat ms')); [assumption|]. rewrite (concat_len Hw V), L. lia. }
      * simpl. exists ms, ms. repeat split; auto.
        { apply Forall2_same_refl; assumption. }
        rewrite (concat_len Hw V), L in L1. lia.
  - destruct od as [|bd]; simpl in Hd; [contradiction|]. destruct os as [|bs]; simpl in Ho; [contradiction|].
    exists (StrObj bs). split; [exists 0%nat; reflexivity|simpl; auto].
Qed.

(** ** The walks *)
Definition copy_pre (l : list atom) (st : list cell * list cell * list cell) : Prop :=
  let '(_, d, s) := st in aoks l /\ avalid l (takeN (asizes l) d) /\ avalid l (takeN (asizes l) s).
Definition copy_post (l : list atom) (st : list cell * list cell * list cell) (r : res (list cell * list cell * list cell)) : Prop :=
  let '(dn, d, s) := st in
  exists d', r = Ok (dn ++ d', dropN (asizes l) d, dropN (asizes l) s) /\ asame l d' (takeN (asizes l) s).

Lemma asizes_rep1 n a : asize a = 1 -> asizes (repN n a) = n.
Proof. intros H. rewrite asizes_repN, H. lia. Qed.
Lemma asizes_c1 k s e : asizes [ACont k s e] = s.
Proof. simpl. lia. Qed.

Lemma copy_walk mg : walk_spec (fun a => copy_h (eops_at a)) mg copy_pre copy_post
  (h_mem (copy_h (eops_at 0))) (h_skip (copy_h (eops_at 0))).
Proof.
  constructor; try reflexivity.
  - intros [[dn d] s] _. exists []. rewrite app_nil_r. split; [reflexivity|constructor].
  - intros l1 l2 [[dn d] s] (Hq & Hd & Hs). assert (Hc := aoks_pos Hq). apply aoks_app in Hq.
    destruct (avalid_split Hc Hd), (avalid_split Hc Hs).
    split; [repeat split; tauto|]. intros s1 (d' & E & _). inversion E; subst. repeat split; tauto.
  - intros l1 l2 [[dn d] s] s1 r (Hq & Hd & Hs) (d1 & E & S1) P2. inversion E; subst. destruct P2 as (d2 & -> & S2).
    exists (d1 ++ d2). rewrite app_assoc, !drop_app2. split; [reflexivity|].
    rewrite asizes_app, takeN_add. apply arel_app; assumption.
  - intros l1 l2 [[dn d] s] e _ (d' & E & _). discriminate.
  - intros l [[dn d] s] r (d' & -> & _). eauto.
  - intros n [[dn d] s] (_ & Hd & Hs). rewrite asizes_rep1 in * by reflexivity.
    apply vb_bytes in Hd; [|auto]. destruct Hd as [Hd _]. apply vb_bytes in Hs; [|auto]. destruct Hs as [Hs _].
    unfold copy_post. rewrite asizes_rep1 by reflexivity.
    destruct (split_at n d) as (d1 & d2 & Ed & Etd & Edd). destruct (split_at n s) as (s1 & s2 & Es & Ets & Eds).
    rewrite Etd, Ets in *. rewrite Edd, Eds. rewrite Ed, Es. clear Ed Es Etd Ets Edd Eds. destruct Hs as (bs & L & ->).
    cbn [copy_h h_mem]. subst n. rewrite take_raw_map. cbn [bind]. rewrite write_raw_app by assumption. cbn [bind].
    exists (map B bs). split; [reflexivity|]. apply sb_bytes. split; [exists bs; auto|reflexivity].
  - intros n [[dn d] s] (_ & Hd & Hs). rewrite asizes_rep1 in * by reflexivity.
    apply vb_bytes in Hd; [|auto]. destruct Hd as [Hd _]. apply vb_bytes in Hs; [|auto]. destruct Hs as [Hs _].
    unfold copy_post. rewrite asizes_rep1 by reflexivity.
    destruct (split_at n d) as (d1 & d2 & Ed & Etd & Edd). destruct (split_at n s) as (s1 & s2 & Es & Ets & Eds).
    rewrite Etd, Ets in *. rewrite Edd, Eds. rewrite Ed, Es. clear Ed Es Etd Ets Edd Eds. cbn [copy_h h_skip].
    rewrite !take_cells_app by (apply bytes_len; assumption). cbn [bind].
    exists d1. split; [reflexivity|]. apply sp_bytes. auto.
  - intros k sz e [[dn d] s] rest He Hsz (Hq & Hd & Hs). rewrite asizes_c1 in *.
    apply Forall_inv in Hq. destruct Hq as [Hew Heo].
    apply arel_c1 in Hd. destruct Hd as (od & Ed & Hd & _). apply arel_c1 in Hs. destruct Hs as (os & Es & Hs & _).
    destruct (cont_copy_ok Hew Heo Hd Hs) as (o' & [n C] & S1).
    exists (Ok (dn ++ put_obj sz o', dropN sz d, dropN sz s)). split.
    + exists n. intros a f Ha Hf. rewrite <- (takeN_dropN sz d) at 1. rewrite <- (takeN_dropN sz s) at 1. rewrite Ed, Es.
      cbn [copy_h h_cont h_cont_end]. rewrite !take_obj_put by assumption. cbn [bind]. rewrite C by lia. cbn [bind].
      rewrite skip_block_wc. reflexivity.
    + exists (put_obj sz o'). rewrite asizes_c1. split; [reflexivity|]. rewrite Es. apply arel_c1. exists o'. split; [reflexivity|].
      exists os. auto.
Qed.

Definition destroy_pre (l : list atom) (st : cursor) : Prop :=
  aoks l /\ avalid l (takeN (asizes l) (snd st)).
Definition destroy_post (l : list atom) (st : cursor) (r : res cursor) : Prop :=
  exists m', r = Ok (fst st ++ m', dropN (asizes l) (snd st)) /\ bytes (asizes l) m'.
Lemma destroy_walk mg : walk_spec (fun a => destroy_h (eops_at a)) mg destroy_pre destroy_post
  (h_mem (destroy_h (eops_at 0))) (h_skip (destroy_h (eops_at 0))).
Proof.
  constructor; try reflexivity.
  - intros [dn d] _. exists []. rewrite app_nil_r. split; [reflexivity|apply bytes_0; reflexivity].
  - intros l1 l2 [dn d] (Hq & Hd). assert (Hc := aoks_pos Hq). apply aoks_app in Hq. cbn [snd] in *.
    destruct (avalid_split Hc Hd).
    split; [repeat split; tauto|]. intros s1 (d' & E & _). inversion E; subst. repeat split; tauto.
  - intros l1 l2 [dn d] s1 r (Hq & Hd) (d1 & E & S1) P2. inversion E; subst. destruct P2 as (d2 & -> & S2).
    cbn [fst snd] in *.
    exists (d1 ++ d2). cbn [fst snd]. rewrite app_assoc, !drop_app2. split; [reflexivity|].
    rewrite asizes_app. apply bytes_app; assumption.
  - intros l1 l2 [dn d] e _ (d' & E & _). discriminate.
  - intros l [dn d] r (d' & -> & _). eauto.
  - intros n [dn d] (_ & Hd). cbn [snd] in *. rewrite asizes_rep1 in * by reflexivity.
    apply vb_bytes in Hd; [|auto]. destruct Hd as [Hd _]. unfold destroy_post. rewrite asizes_rep1 by reflexivity. cbn [fst snd].
    destruct (split_at n d) as (d1 & d2 & Ed & Etd & Edd). rewrite Etd in *. rewrite Edd. rewrite Ed. clear Ed Etd Edd. cbn [destroy_h h_mem]. rewrite take_cells_app by (apply bytes_len; assumption). cbn [bind]. eauto.
  - intros n [dn d] (_ & Hd). cbn [snd] in *. rewrite asizes_rep1 in * by reflexivity.
    apply vb_bytes in Hd; [|auto]. destruct Hd as [Hd _]. unfold destroy_post. rewrite asizes_rep1 by reflexivity. cbn [fst snd].
    destruct (split_at n d) as (d1 & d2 & Ed & Etd & Edd). rewrite Etd in *. rewrite Edd. rewrite Ed. clear Ed Etd Edd. cbn [destroy_h h_skip]. rewrite take_cells_app by (apply bytes_len; assumption). cbn [bind]. eauto.
  - intros k sz e [dn d] rest He Hsz (Hq & Hd). cbn [snd] in *. rewrite asizes_c1 in *.
    apply Forall_inv in Hq. destruct Hq as [Hew Heo].
    apply arel_c1 in Hd. destruct Hd as (od & Ed & Hd & _).
    destruct (cont_destroy_ok Hew Heo Hd) as [n C].
    exists (Ok (dn ++ repN sz (B 0), dropN sz d)). split.
    + exists n. intros a f Ha Hf. rewrite <- (takeN_dropN sz d) at 1. rewrite Ed.
      cbn [destroy_h h_cont h_cont_end]. rewrite !take_obj_put by assumption. cbn [bind]. rewrite C by lia. cbn [bind].
      rewrite skip_block_wc. reflexivity.
    + exists (repN sz (B 0)). rewrite asizes_c1. cbn [fst snd]. split; [reflexivity|]. apply bytes_repN.
Qed.

(** ** All element types *)
Lemma tatoms_aoks t ap : wf t -> supported ap t = true ->
  (forall e, wf e -> plain e -> (cdepth e < cdepth t)%nat -> elt_ok e) -> aoks (tatoms t).
Proof.
  intros Hw Hs IH. apply Forall_forall. intros [| |k s e] Hi; simpl; auto.
  destruct (proj1 tatoms_conts t ap Hw Hs _ _ _ Hi) as [H1 H2]. split; [assumption|].
  apply IH; [apply H1|apply H1|assumption].
Qed.

Lemma walk_run {St} (h : nat -> handlers St) mg pre post hm hs (WS : walk_spec h mg pre post hm hs) t s :
  wf t -> pre (atoms (stop mg (rops t))) s ->
  exists r, conv2 (fun a f => walk f (h a) s (flat (stop mg (rops t)))) (lift [] r) /\ post (atoms (stop mg (rops t))) s r.
Proof.
  intros Hw Hp. destruct (stop_ok mg Hw) as [Hwo _].
  destruct (walk_rule WS Hwo (or_introl eq_refl) Hp) as (r & C & P). rewrite app_nil_r in C. eauto.
Qed.

(** The part of the memory the bytecode covers, and the trailing padding it leaves alone. *)
Lemma stop_split mg t ap m : wf t -> supported ap t = true -> aoks (tatoms t) -> valid t m ->
  exists pre k m1 m2, tatoms t = pre ++ repN k APad /\ atoms (stop mg (rops t)) = norm mg pre /\ aoks pre /\
    m = m1 ++ m2 /\ avalid pre m1 /\ bytes k m2 /\ lenN m1 = asizes pre /\ asizes pre + k = sizeof t.
Proof.
  intros Hw Hs Hq Hv. destruct (stop_ok mg Hw) as (_ & pre & k & E1 & E2).
  apply (valid_atoms m Hs) in Hv. rewrite E1 in Hv. destruct (arel_inv Hv) as (m1 & m2 & x1 & x2 & -> & Ex & A1 & A2).
  symmetry in Ex. apply app_eq_nil in Ex. destruct Ex as [-> ->].
  rewrite E1 in Hq. apply aoks_app in Hq.
  exists pre, k, m1, m2. repeat split; auto.
  - tauto.
  - apply vb_bytes in A2; tauto.
  - apply (arel_len (aoks_pos (proj1 Hq)) A1).
  - rewrite <- (proj1 tatoms_size t Hw), E1, asizes_app, asizes_rep1 by reflexivity. reflexivity.
Qed.

Lemma copy_run mg t ap d s d2 s2 : wf t -> supported ap t = true -> aoks (tatoms t) -> valid t d -> valid t s ->
  exists d', conv2 (fun a f => '(st, _) <- walk f (copy_h (eops_at a)) ([], d ++ d2, s ++ s2) (flat (stop mg (rops t))) ;;
                      let '(dn, d', _) := st in Ok (dn ++ d')) (Ok (d' ++ d2)) /\ same t d' s.
Proof.
  intros Hw Hs Hq Vd Vs.
  destruct (stop_split mg Hw Hs Hq Vd) as (pre & k & d1 & dk & E1 & E2 & Hqp & -> & Ad & Bd & Ld & Hsz).
  destruct (stop_split mg Hw Hs Hq Vs) as (pre' & k' & s1 & sk & E1' & E2' & _ & -> & As & Bs & Ls & Hsz').
  assert (Hpp : pre' = pre /\ k' = k).
  { assert (k' = k).
    { apply (f_equal asizes) in E2, E2'. rewrite asizes_norm in E2, E2'. lia. }
    subst k'. split; [|reflexivity]. rewrite E1 in E1'. apply app_inv_tail in E1'. auto. }
  destruct Hpp as [-> ->]. clear E1' E2' Hsz'.
  destruct (walk_run (copy_walk mg) (t := t) (s := ([], (d1 ++ dk) ++ d2, (s1 ++ sk) ++ s2)) Hw) as (r & [n C] & P).
  { rewrite E2. unfold copy_pre. rewrite asizes_norm, <- !app_assoc. split; [apply aoks_norm; assumption|].
    rewrite !takeN_app_exact by congruence. split; apply avalid_norm; assumption. }
  unfold copy_post in P. rewrite E2, asizes_norm, <- !app_assoc in P. rewrite !dropN_app_exact in P by congruence.
  rewrite takeN_app_exact in P by congruence. destruct P as (d' & -> & S1).
  exists (d' ++ dk). split.
  - exists n. intros a f Ha Hf. rewrite <- !app_assoc in *. rewrite C by lia. reflexivity.
  - apply (same_atoms _ _ Hs). rewrite E1. apply arel_app; [eapply asame_norm; eauto|apply sp_bytes; auto].
Qed.

Lemma destroy_run mg t ap m m2 : wf t -> supported ap t = true -> aoks (tatoms t) -> valid t m ->
  exists m', conv2 (fun a f => '(st, _) <- walk f (destroy_h (eops_at a)) ([], m ++ m2) (flat (stop mg (rops t))) ;;
                      Ok (fst st ++ snd st)) (Ok (m' ++ m2)) /\ bytes (sizeof t) m'.
Proof.
  intros Hw Hs Hq Vd.
  destruct (stop_split mg Hw Hs Hq Vd) as (pre & k & d1 & dk & E1 & E2 & Hqp & -> & Ad & Bd & Ld & Hsz).
  destruct (walk_run (destroy_walk mg) (t := t) (s := ([], (d1 ++ dk) ++ m2)) Hw) as (r & [n C] & P).
  { rewrite E2. unfold destroy_pre. cbn [snd]. rewrite asizes_norm, <- !app_assoc. split; [apply aoks_norm; assumption|].
    rewrite !takeN_app_exact by congruence. apply avalid_norm; assumption. }
  unfold destroy_post in P. cbn [fst snd] in P. rewrite E2, asizes_norm, <- !app_assoc in P. rewrite !dropN_app_exact in P by congruence.
  destruct P as (d' & -> & S1).
  exists (d' ++ dk). split.
  - exists n. intros a f Ha Hf. rewrite <- !app_assoc in *. rewrite C by lia. reflexivity.
  - rewrite <- Hsz. apply bytes_app; assumption.
Qed.

Lemma conv2_S {A} (g : nat -> res A) (f : nat -> nat -> res A) r : (forall n, g (S n) = f n n) -> conv2 f r -> conv g r.
Proof. intros H [n C]. exists (S n). intros [|m] Hm; [lia|]. rewrite H. apply C; lia. Qed.

Theorem elt_ok_all e : wf e -> plain e -> elt_ok e.
Proof.
  remember (cdepth e) as n eqn:En. revert e En. induction n as [n IH] using lt_wf_ind. intros e En Hw Hp. subst n.
  assert (Hq : aoks (tatoms e)).
  { apply tatoms_aoks with (ap := false); auto. intros e' Hw' Hp' Hlt. apply (IH (cdepth e')); auto. }
  destruct (@layout_ok false true e Hw Hp) as (l & oi & k & Hl & E1 & _).
  assert (Hel : elt_layout e = l) by (unfold elt_layout, layout_default; rewrite Hl; reflexivity).
  constructor; rewrite Hel.
  - intros m m2 Hb. destruct (@init_layout_ok false true e l Hw Hp Hl m m2 Hb) as (m' & C & I).
    exists m'. split; [|eapply (proj1 initialised_fresh); eauto]. apply (conv_S (f := fun f => do_init f l (m ++ m2))); [reflexivity|assumption].
  - intros d s d2 s2 Vd Vs. destruct (@copy_run true e false d s d2 s2 Hw Hp Hq Vd Vs) as (d' & C & S1).
    exists d'. split; [|assumption]. eapply conv2_S; [|exact C]. intros f. cbn [eops_at e_copy]. rewrite E1. reflexivity.
  - intros m m2 Vm. destruct (@destroy_run true e false m m2 Hw Hp Hq Vm) as (m' & C & S1).
    exists m'. split; [|assumption]. eapply conv2_S; [|exact C]. intros f. cbn [eops_at e_destroy]. rewrite E1. reflexivity.
Qed.

Lemma tatoms_ok t ap : wf t -> supported ap t = true -> aoks (tatoms t).
Proof. intros Hw Hs. eapply tatoms_aoks; eauto. intros e He Hp _. apply elt_ok_all; assumption. Qed.
