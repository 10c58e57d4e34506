(** * ValueMain: the operations on whole values, as used by the property theorems. *)
From Verif Require Import Base Types WellFormed Layout LayoutProofs LayoutMain InitProofs LayoutFinal
     ValueOps ValueSpec ValueAtoms ValueInst WalkProofs InitRun EltOps EltProofs CmpProofs DumpProofs LoadProofs LoadSafe.
Local Open Scope N_scope.

(** ** dump *)
Record parts (t : ty) (v : list cell) (out pad : list N) (pre : list atom) (v1 : list cell) : Prop := {
  pt_image : image t v (out ++ pad);
  pt_atoms : tatoms t = pre ++ repN (lenN pad) APad;
  pt_stop : atoms (stop true (rops t)) = norm true pre;
  pt_mem : v = v1 ++ map B pad;
  pt_img1 : aimage pre v1 out
}.
Lemma parts_dumped t v out pad pre v1 : wf t -> plain t -> parts t v out pad pre v1 -> dumped t v out.
Proof.
  intros Hw Hp [H1 H2 H3 -> H5]. exists pad. split; [assumption|]. intros q Lq.
  assert (Hpos := aoks_pos (tatoms_ok Hw Hp)). rewrite H2 in Hpos. apply conts_pos_app in Hpos. destruct Hpos as [Hpos _].
  assert (L1 := arel_len Hpos H5). assert (Hs := proj1 tatoms_size t Hw). rewrite H2, asizes_app, asizes_rep1 in Hs by reflexivity.
  rewrite takeN_app_exact by lia. apply (same_atoms _ _ Hp). rewrite H2. apply arel_app.
  - assert (Hv := proj1 image_valid _ _ _ H1). assert (Hr := proj1 same_refl t _ Hv). apply (same_atoms _ _ Hp) in Hr. rewrite H2 in Hr.
    destruct (arel_inv Hr) as (a1 & a2 & b1 & b2 & Ea & Eb & A1 & A2).
    destruct (asame_len Hpos A1) as [La Lb].
    destruct (app_inj_len (eq_trans L1 (eq_sym La)) Ea) as [-> _]. destruct (app_inj_len (eq_trans La (eq_sym Lb)) Eb) as [-> _]. assumption.
  - apply sp_bytes. split; [exists q; auto|exists pad; auto].
Qed.

Lemma dump_conv t v out pad pre v1 : wf t -> plain t -> sizeof t <= max_size -> parts t v out pad pre v1 ->
  conv (fun f => do_dump f t v) (Ok out).
Proof.
  intros Hw Hp Hsz [H1 H2 H3 H4 H5].
  destruct (@dump_stream_ok _ _ _ _ vector_stream t v [] [] out pad pre v1 Hw Hp Hsz I H2 H3 H4 H5) as (l & Hl & [n C]).
  rewrite app_nil_r in C. exists n. intros f Hf. unfold do_dump. rewrite Hl. cbn [bind]. unfold do_dump_stream. rewrite C by assumption. reflexivity.
Qed.
Lemma dump_size_conv t v out pad pre v1 : wf t -> plain t -> sizeof t <= max_size -> parts t v out pad pre v1 ->
  conv (fun f => do_dump_size f t v) (Ok (lenN out mod two64)).
Proof.
  intros Hw Hp Hsz [H1 H2 H3 H4 H5].
  destruct (@dump_stream_ok _ _ _ _ counter_stream t v [] 0 out pad pre v1 Hw Hp Hsz ltac:(unfold two64; lia) H2 H3 H4 H5) as (l & Hl & [n C]).
  rewrite app_nil_r in C. exists n. intros f Hf. unfold do_dump_size. rewrite Hl. cbn [bind]. rewrite C by assumption. reflexivity.
Qed.
Lemma dump_bounded_conv t v out pad pre v1 buf : wf t -> plain t -> sizeof t <= max_size -> parts t v out pad pre v1 -> lenN buf < 4294967296 ->
  conv (fun f => do_dump_bounded f t v buf)
       (Ok (if lenN buf <? lenN out then (0%Z, None) else (to_int (lenN out), Some (out ++ dropN (lenN out) buf)))).
Proof.
  intros Hw Hp Hsz [H1 H2 H3 H4 H5] Hb.
  destruct (@dump_stream_ok _ _ _ _ (bounded_stream Hb) t v [] ([], buf) out pad pre v1 Hw Hp Hsz) as (l & Hl & [n C]); auto.
  rewrite app_nil_r in C. exists n. intros f Hf. unfold do_dump_bounded. rewrite Hl. cbn [bind]. rewrite C by assumption.
  cbn [Wr_bounded]. destruct (lenN buf <? lenN out); reflexivity.
Qed.

(** dump is a function: the result of any converging run is this one. *)
Lemma conv_fun {A} (f : nat -> res A) a b : conv f a -> conv f b -> a = b.
Proof. intros [n H] [m K]. rewrite <- (H (Nat.max n m)), <- (K (Nat.max n m)) by lia. reflexivity. Qed.

(** ** load *)
Lemma load_conv t d v out pad pre v1 x : wf t -> plain t -> sizeof t <= max_size -> parts t v out pad pre v1 ->
  valid t d -> lenN x <= max_size -> comp out x ->
  exists r, conv (fun f => do_load f t d x) r /\
    consumes out x
      (fun r0 => if (lenN r0 =? 0) || (lenN r0 =? trailing_padding t)
                 then exists d', r = Ok d' /\ valid t d' /\ (fresh t d \/ full t v -> same t d' v)
                 else r = Throw ERuntime)
      (r = Throw ERuntime).
Proof.
  intros Hw Hp Hsz [H1 H2 H3 H4 H5] Hd Hx Hc.
  destruct (@load_stream_ok t d [] 0 x v out pad pre v1 Hw Hp Hsz ltac:(lia) Hd H2 H3 H4 H5 Hc) as (l & r & Hl & [n C] & K).
  rewrite app_nil_r in C.
  exists ('(m', i, it) <- r ;; match it with
    | _ :: _ => Throw ERuntime
    | [] => if negb (fst i =? lenN x) && negb (fst i + trailing_padding t =? lenN x) then Throw ERuntime else Ok m' end). split.
  - exists n. intros f Hf. unfold do_load. rewrite Hl. cbn [bind]. rewrite C by assumption. reflexivity.
  - eapply consumes_impl; [| |exact K].
    + intros r0 -> (d' & -> & V & S). rewrite app_nil_r. cbn [bind fst]. rewrite !N.add_0_l. rewrite lenN_app.
      destruct (N.eqb_spec (lenN r0) 0) as [Ez|Ez]; cbn [orb].
      * rewrite Ez, N.add_0_r, N.eqb_refl. cbn [negb andb]. eauto.
      * destruct (N.eqb_spec (lenN out) (lenN out + lenN r0)); [lia|].
        destruct (N.eqb_spec (lenN r0) (trailing_padding t)) as [E|E].
        { rewrite <- E, N.eqb_refl. cbn [negb andb]. eauto. }
        { destruct (N.eqb_spec (lenN out + trailing_padding t) (lenN out + lenN r0)); [lia|]. reflexivity. }
    + intros ->. reflexivity.
Qed.
Lemma comp_app bs r : comp bs (bs ++ r).
Proof. left; eauto. Qed.
Lemma consumes_app bs r P T : consumes bs (bs ++ r) P T -> P r.
Proof.
  intros [[r' [E H]]|(tl & Ht & E & _)].
  - apply app_inv_head in E. subst. assumption.
  - exfalso. rewrite <- app_assoc in E. rewrite <- (app_nil_r bs) in E at 1. apply app_inv_head in E.
    destruct r, tl; try discriminate. contradiction.
Qed.
Lemma consumes_short bs x tl P T : tl <> [] -> bs = x ++ tl -> consumes bs x P T -> T.
Proof.
  intros Ht -> [[r' [E H]]|(tl' & _ & _ & H)]; [|assumption].
  exfalso. rewrite <- app_assoc in E. rewrite <- (app_nil_r x) in E at 1. apply app_inv_head in E.
  destruct tl; [contradiction|discriminate].
Qed.

(** ** same is an equivalence relation *)
Lemma F2_trans {A} (R : A -> A -> Prop) l1 l2 l3 : (forall a b c, R a b -> R b c -> R a c) -> Forall2 R l1 l2 -> Forall2 R l2 l3 -> Forall2 R l1 l3.
Proof.
  intros HR H. revert l3; induction H as [|a b l1 l2 Hab _ IH]; intros l3 H3; inversion H3; subst; constructor; eauto.
Qed.
Lemma F2_valid_r e xs ys : Forall2 (same e) xs ys -> Forall (valid e) ys.
Proof. induction 1 as [|a b l1 l2 H]; constructor; auto. apply same_valid in H. tauto. Qed.
Lemma F2_valid_l e xs ys : Forall2 (same e) xs ys -> Forall (valid e) xs.
Proof. induction 1 as [|a b l1 l2 H]; constructor; auto. apply same_valid in H. tauto. Qed.
Lemma same_trans :
  (forall t, wf t -> forall a b c, same t a b -> same t b c -> same t a c) /\
  (forall fs cur s, wf_fields fs cur s -> forall a b c, same_fields fs cur s a b -> same_fields fs cur s b c -> same_fields fs cur s a c).
Proof.
  apply ty_fields_ind; try (simpl; intros; contradiction).
  - intros n k _ a b c [H1 ->] [H2 ->]. split; auto.
  - intros n k _ a b c [H1 ->] [H2 ->]. split; auto.
  - intros n _ a b c [H1 ->] [H2 ->]. split; auto.
  - intros s d e IH (_ & _ & _ & Hs & He) a b c (xs & ys & L1 & -> & -> & F1) (ys' & zs & L2 & E & -> & F2).
    apply (concat_inj He Hs (F2_valid_r F1) (F2_valid_l F2)) in E. subst ys'. exists xs, zs. repeat split; auto.
    eapply F2_trans; eauto.
  - intros k s e IH Hw a b c H1 H2. destruct k; cbn [same] in *.
    + destruct Hw as (_ & _ & Hs & He). destruct H1 as (ca & cb & xs & ys & -> & -> & F1 & A1 & A2 & A3 & A4).
      destruct H2 as (cb' & cc & ys' & zs & E & -> & F2 & B1 & B2 & B3 & B4). unfold put_obj in E. inversion E as [[E1 E2]].
      apply (concat_inj He Hs (F2_valid_r F1) (F2_valid_l F2)) in E2. subst.
      exists ca, cc, xs, zs. repeat split; auto. eapply F2_trans; eauto.
    + destruct H1 as (x & -> & -> & L). destruct H2 as (y & E & -> & L2). unfold put_obj in E. inversion E; subst. exists y. auto.
  - intros s fs IH [_ Hw] a b c. cbn [same]. eauto.
  - intros cur s _ a b c [H1 H2] [H3 H4]. split; assumption.
  - intros nm off t IHt fs IHf cur s (H1 & H2 & H3) a b c (p & x & y & q & z & w & -> & -> & Bp & Bq & S1 & S2)
      (q' & z' & w' & r & u & v & E & -> & Bq' & Br & S3 & S4).
    destruct (app_inj_len (eq_trans (bytes_len Bq) (eq_sym (bytes_len Bq'))) E) as [<- E'].
    assert (L : lenN z = lenN z').
    { rewrite (proj1 valid_len t H2 z), (proj1 valid_len t H2 z'); [reflexivity| |]; [apply same_valid in S3|apply same_valid in S1]; tauto. }
    destruct (app_inj_len L E') as [<- <-].
    exists p, x, y, r, u, v. repeat split; eauto.
Qed.
