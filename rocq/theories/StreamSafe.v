(** * StreamSafe: load of arbitrary bytes into any value, as long as no size overflows. *)
From Verif Require Import Base Types WellFormed Layout LayoutProofs LayoutMain InitProofs LayoutFinal
     ValueOps ValueSpec ValueAtoms ValueInst WalkProofs InitRun EltOps EltProofs CmpProofs DumpProofs LoadProofs LoadSafe StreamSpec.
Local Open Scope N_scope.

Lemma repN_succ {A} n (x : A) : repN (N.succ n) x = x :: repN n x.
Proof. unfold repN. rewrite N2Nat.inj_succ. reflexivity. Qed.
(** ** The same on lists of atoms *)
Definition cstream (k : ckind) (e : ty) (b : list N) : Prop := exists s, stream (TCont k s e) b.
Definition cover (k : ckind) (e : ty) (x : list N) : Prop := exists s, overflows (TCont k s e) x.
Inductive astream : list atom -> list N -> Prop :=
| as_nil : astream [] []
| as_b b l bs : astream l bs -> astream (AByte :: l) (b :: bs)
| as_p b l bs : astream l bs -> astream (APad :: l) (b :: bs)
| as_c k s e b l bs : cstream k e b -> astream l bs -> astream (ACont k s e :: l) (b ++ bs).
Inductive aover : list atom -> list N -> Prop :=
| ao_here k s e l x : cover k e x -> aover (ACont k s e :: l) x
| ao_next a l b x : astream [a] b -> aover l x -> aover (a :: l) (b ++ x).
Lemma astream_app l1 l2 a b : astream l1 a -> astream l2 b -> astream (l1 ++ l2) (a ++ b).
Proof. induction 1; intros; simpl; rewrite <- ?app_assoc; [assumption|constructor; auto..]. Qed.
Lemma astream_inv l1 l2 x : astream (l1 ++ l2) x -> exists a b, x = a ++ b /\ astream l1 a /\ astream l2 b.
Proof.
  revert x. induction l1 as [|h l1 IH]; intros x H; simpl in *; [exists [], x; repeat split; auto; constructor|].
  inversion H as [|b l bs H1|b l bs H1|k s e b l bs C H1]; subst; destruct (IH _ H1) as (a & b' & -> & A & B).
  - exists (b :: a), b'. repeat split; auto. constructor; assumption.
  - exists (b :: a), b'. repeat split; auto. constructor; assumption.
  - exists (b ++ a), b'. rewrite <- app_assoc. repeat split; auto. constructor; assumption.
Qed.
Lemma aover_l l1 l2 x : aover l1 x -> aover (l1 ++ l2) x.
Proof. induction 1; simpl; constructor; assumption. Qed.
Lemma aover_r l1 l2 b x : astream l1 b -> aover l2 x -> aover (l1 ++ l2) (b ++ x).
Proof.
  intros H. revert x. induction H as [|b l bs H IH|b l bs H IH|k s e b l bs C H IH]; intros x Hx; simpl; auto.
  - apply (@ao_next AByte (l ++ l2) [b] (bs ++ x)); [repeat constructor|auto].
  - apply (@ao_next APad (l ++ l2) [b] (bs ++ x)); [repeat constructor|auto].
  - rewrite <- app_assoc. apply ao_next; [|auto]. rewrite <- (app_nil_r b). constructor; [assumption|constructor].
Qed.
Lemma aover_inv l1 l2 x : aover (l1 ++ l2) x -> aover l1 x \/ exists b y, x = b ++ y /\ astream l1 b /\ aover l2 y.
Proof.
  revert x. induction l1 as [|a l1 IH]; intros x H; simpl in *; [right; exists [], x; repeat split; auto; constructor|].
  inversion H as [k s e l y C|a' l b y A O]; subst; [left; constructor; assumption|]. destruct (IH _ O) as [O'|(b' & z & -> & A' & O')]; [left; constructor; assumption|].
  right. exists (b ++ b'), z. rewrite <- app_assoc. split; [reflexivity|]. split; [|assumption]. change (a :: l1) with ([a] ++ l1). apply astream_app; assumption.
Qed.
Lemma astream_repN a n x : a = AByte \/ a = APad -> astream (repN n a) x <-> lenN x = n.
Proof.
  intros Ha. revert x. induction n as [|n IH] using N.peano_ind; intros x.
  - split; [intros H; inversion H; reflexivity|]. intros H. apply lenN_0_nil in H. subst. constructor.
  - rewrite repN_succ. split.
    + intros H. destruct Ha as [-> | ->]; inversion H as [|b l bs H1|b l bs H1|]; subst; rewrite lenN_cons; apply IH in H1; lia.
    + intros H. destruct x as [|b x]; [change (lenN (@nil N)) with 0 in H; lia|]. rewrite lenN_cons in H. assert (lenN x = n) by lia. apply IH in H0. destruct Ha as [-> | ->]; constructor; assumption.
Qed.
Lemma aover_repN a n x : a = AByte \/ a = APad -> ~ aover (repN n a) x.
Proof.
  intros Ha. revert x. induction n as [|n IH] using N.peano_ind; intros x H; [inversion H|]. rewrite repN_succ in H. inversion H as [k s e l y C|a' l b y A O]; subst; [destruct Ha; discriminate|exact (IH _ O)].
Qed.
Lemma astream_rep n l x : astream (rep_list n l) x -> exists bss, lenN bss = n /\ x = concat bss /\ Forall (astream l) bss.
Proof.
  revert x. induction n as [|n IH] using N.peano_ind; intros x H.
  - inversion H; subst. exists []. repeat split; constructor.
  - rewrite rep_list_S in H. apply astream_inv in H. destruct H as (a & b & -> & A & B). destruct (IH _ B) as (bss & L & -> & F). exists (a :: bss). rewrite lenN_cons. repeat split; [lia|constructor; assumption].
Qed.
Lemma aover_rep n l x : aover (rep_list n l) x -> exists bss r, x = concat bss ++ r /\ lenN bss < n /\ Forall (astream l) bss /\ aover l r.
Proof.
  revert x. induction n as [|n IH] using N.peano_ind; intros x H; [inversion H|]. rewrite rep_list_S in H. apply aover_inv in H. destruct H as [H|(b & y & -> & A & O)].
  - exists [], x. change (lenN (@nil (list N))) with 0. repeat split; auto; lia.
  - destruct (IH _ O) as (bss & r & -> & L & F & O'). exists (b :: bss), r. rewrite lenN_cons. cbn [concat]. rewrite <- app_assoc. repeat split; auto; lia.
Qed.
Lemma stream_atoms :
  (forall t ap, supported ap t = true -> forall x, astream (tatoms t) x -> stream t x) /\
  (forall fs ap cur s, supported_fields ap fs = true -> forall x, astream (atoms (rfields fs cur s)) x -> stream_fields fs cur s x).
Proof.
  unfold tatoms. apply ty_fields_ind; try discriminate.
  - intros n c ap _ x H. simpl in *. rewrite app_nil_r in H. apply astream_repN in H; auto.
  - intros n vs ap _ x H. simpl in *. rewrite app_nil_r in H. apply astream_repN in H; auto.
  - intros n ap _ x H. simpl in *. rewrite app_nil_r in H. apply astream_repN in H; auto.
  - intros s d e IH ap Hs x H. simpl in *. rewrite app_nil_r in H. apply astream_rep in H. destruct H as (bss & L & -> & F). exists bss. repeat split; auto. eapply Forall_impl; [|exact F]. intros y. eapply IH. exact Hs.
  - intros k s e IH ap Hs x H. cbn [rops atoms] in H. inversion H as [| | |k' s' e' b l bs C H1]; subst. inversion H1; subst. rewrite app_nil_r. destruct C as (s' & C). exact C.
  - intros s fs IH ap Hs x H. simpl in *. eapply IH; eassumption.
  - intros ap cur s _ x H. simpl in *. rewrite app_nil_r in H. apply astream_repN in H; auto.
  - intros nm off t IHt fs IHf ap cur s Hs x H. cbn [rfields atoms] in H. rewrite atoms_sapp in H. simpl in Hs. apply andb_true_iff in Hs. destruct Hs as [Hs1 Hs2].
    apply astream_inv in H. destruct H as (p & y & -> & P & H). apply astream_inv in H. destruct H as (a & b & -> & A & B). apply astream_repN in P; [|auto].
    simpl. exists p, a, b. repeat split; eauto.
Qed.
Lemma overflows_atoms :
  (forall t ap, supported ap t = true -> forall x, aover (tatoms t) x -> overflows t x) /\
  (forall fs ap cur s, supported_fields ap fs = true -> forall x, aover (atoms (rfields fs cur s)) x -> overflows_fields fs cur s x).
Proof.
  unfold tatoms. apply ty_fields_ind; try discriminate.
  - intros n c ap _ x H. simpl in *. rewrite app_nil_r in H. apply aover_repN in H; auto.
  - intros n vs ap _ x H. simpl in *. rewrite app_nil_r in H. apply aover_repN in H; auto.
  - intros n ap _ x H. simpl in *. rewrite app_nil_r in H. apply aover_repN in H; auto.
  - intros s d e IH ap Hs x H. simpl in *. rewrite app_nil_r in H. apply aover_rep in H. destruct H as (bss & r & -> & L & F & O). exists bss, r. repeat split; eauto. eapply Forall_impl; [|exact F]. intros y. eapply (proj1 stream_atoms e). exact Hs.
  - intros k s e IH ap Hs x H. cbn [rops atoms] in H. inversion H as [k' s' e' l y C|a l b y A O]; subst; [|inversion O]. destruct C as (s' & C). exact C.
  - intros s fs IH ap Hs x H. simpl in *. eapply IH; eassumption.
  - intros ap cur s _ x H. simpl in *. rewrite app_nil_r in H. apply aover_repN in H; auto.
  - intros nm off t IHt fs IHf ap cur s Hs x H. cbn [rfields atoms] in H. rewrite atoms_sapp in H. simpl in Hs. apply andb_true_iff in Hs. destruct Hs as [Hs1 Hs2].
    apply aover_inv in H. destruct H as [H|(p & y & -> & P & H)]; [apply aover_repN in H; [destruct H|auto]|]. apply astream_repN in P; [|auto]. simpl. exists p, y. split; [reflexivity|]. split; [assumption|].
    apply aover_inv in H. destruct H as [H|(a & z & -> & A & H)]; [left; eauto|right]. exists a, z. repeat split; [|eauto]. eapply (proj1 stream_atoms t ap); eassumption.
Qed.
Lemma astream_norm l x : astream (norm true l) x <-> astream l x.
Proof.
  split; revert x; induction l as [|a l IH]; intros x H; simpl in *; auto.
  - destruct a as [| |k s e]; simpl in H; inversion H; subst; constructor; auto.
  - destruct a as [| |k s e]; simpl; inversion H; subst; constructor; auto.
Qed.
Lemma aover_norm l x : aover (norm true l) x -> aover l x.
Proof.
  revert x. induction l as [|a l IH]; intros x H; simpl in *; [inversion H|]. inversion H as [k s e l' y C E|a' l' b y A O]; subst.
  - destruct a; simpl in *; try discriminate. inversion E; subst. constructor; assumption.
  - apply ao_next; [|auto]. apply (astream_norm [a] b). exact A.
Qed.

(** ** Loading one element *)
Definition elt_safe (e : ty) : Prop := forall d d2 idx x rest,
  sizeof e <= max_size -> idx + lenN x <= max_size -> valid e d -> ~ overflows e x ->
  exists r, conv (fun a => load_at a (idx, x) (d ++ d2) (flat (sblock true (rops e)) ++ W FLAG_END :: rest)) r /\
    ((exists d' b y, r = Ok (d' ++ d2, (idx + lenN b, y), W FLAG_END :: rest) /\ x = b ++ y /\ stream e b /\ valid e d') \/ (exists ex, r = Throw ex)).

Lemma safe_loop e : wf e -> 1 <= sizeof e -> sizeof e <= max_size -> elt_safe e -> forall rest ds j p idx x it0,
  lenN p = j * sizeof e -> Forall (valid e) ds -> idx + lenN x <= max_size ->
  (forall bss r, x = concat bss ++ r -> lenN bss < lenN ds -> Forall (stream e) bss -> ~ overflows e r) ->
  let it := flat (sblock true (rops e)) ++ W FLAG_END :: rest in
  exists r, conv2 (fun a f => for_range f j (j + lenN ds) 1
          (fun j '(c, i, _) =>
             if lenN c <? j * sizeof e then UB UOob
             else '(c', i', it') <- load_at a i (dropN (j * sizeof e) c) it ;;
                  Ok (takeN (j * sizeof e) c ++ c', i', it')) (p ++ concat ds, (idx, x), it0)) r /\
    ((exists ds' bss y, r = Ok (p ++ concat ds', (idx + lenN (concat bss), y), if lenN ds =? 0 then it0 else W FLAG_END :: rest) /\
          x = concat bss ++ y /\ lenN bss = lenN ds /\ Forall (stream e) bss /\ lenN ds' = lenN ds /\ Forall (valid e) ds') \/
     (exists ex, r = Throw ex)).
Proof.
  intros Hw Hs Hs2 EL rest. induction ds as [|d ds IH]; intros j p idx x it0 Lp Vd Hx Ho it.
  - eexists. split.
    + exists 1%nat. intros a [|f] _ Hf; [lia|]. cbn [for_range]. change (lenN (@nil (list cell))) with 0. destruct (N.ltb_spec j (j + 0)); [lia|reflexivity].
    + left. exists [], [], x. cbn [concat]. change (lenN (@nil N)) with 0. rewrite N.add_0_r. repeat split; auto.
  - rewrite !lenN_cons in *. inversion Vd as [|? ? Vd1 Vds]; subst. cbn [concat] in *.
    destruct (EL d (concat ds) idx x rest Hs2 Hx Vd1) as (r1 & [n1 C1] & K); [apply (Ho [] x); [reflexivity|change (lenN (@nil (list N))) with 0; lia|constructor]|].
    assert (Ld : lenN d = sizeof e) by (apply (proj1 valid_len); assumption).
    assert (Step : forall a f, (n1 <= a)%nat -> for_range (S f) j (j + (1 + lenN ds)) 1
          (fun j '(c, i, _) =>
             if lenN c <? j * sizeof e then UB UOob
             else '(c', i', it') <- load_at a i (dropN (j * sizeof e) c) it ;;
                  Ok (takeN (j * sizeof e) c ++ c', i', it')) (p ++ d ++ concat ds, (idx, x), it0) =
       bind (bind r1 (fun q => let '(c', i', it') := q in Ok (p ++ c', i', it')))
         (fun q => for_range f (j + 1) (j + (1 + lenN ds)) 1
          (fun j '(c, i, _) =>
             if lenN c <? j * sizeof e then UB UOob
             else '(c', i', it') <- load_at a i (dropN (j * sizeof e) c) it ;;
                  Ok (takeN (j * sizeof e) c ++ c', i', it')) q)).
    { intros a f Ha. cbn [for_range]. destruct (N.ltb_spec j (j + (1 + lenN ds))); [|lia].
      destruct (N.ltb_spec (lenN (p ++ d ++ concat ds)) (j * sizeof e)) as [Hb|Hb]; [rewrite lenN_app in Hb; lia|].
      rewrite dropN_app_exact, takeN_app_exact by congruence. unfold it at 1. rewrite C1 by lia. reflexivity. }
    destruct K as [(d' & b & y & -> & -> & Sb & Vd')|(ex & ->)].
    + assert (Ld' : lenN d' = sizeof e) by (apply (proj1 valid_len); assumption).
      destruct (IH (j + 1) (p ++ d') (idx + lenN b) y (W FLAG_END :: rest)) as (r & [n2 C2] & K); auto.
      { rewrite lenN_app. lia. } { rewrite lenN_app in Hx. lia. }
      { intros bss r E L F. apply (Ho (b :: bss) r); [cbn [concat]; rewrite E, <- app_assoc; reflexivity|rewrite lenN_cons; lia|constructor; assumption]. }
      exists r. split.
      * exists (S (Nat.max n1 n2)). intros a [|f] Ha Hf; [lia|]. rewrite Step by lia. cbn [bind].
        specialize (C2 a f ltac:(lia) ltac:(lia)). rewrite <- !app_assoc in C2.
        replace (j + 1 + lenN ds) with (j + (1 + lenN ds)) in C2 by lia. fold it in C2. exact C2.
      * destruct K as [(ds' & bss & z & -> & -> & Lb & Fb & Lds & Vds')|K]; [left|right; exact K].
        exists (d' :: ds'), (b :: bss), z. rewrite !lenN_cons. cbn [concat]. rewrite lenN_app, <- !app_assoc. repeat split; [|lia|constructor; assumption|lia|constructor; assumption].
        destruct (N.eqb_spec (1 + lenN ds) 0); [lia|]. rewrite N.add_assoc. destruct (lenN ds =? 0); reflexivity.
    + exists (Throw ex). split; [|right; eauto]. exists (S n1). intros a [|f] Ha Hf; [lia|]. rewrite Step by lia. reflexivity.
Qed.

(** Resizing to more than a vector can hold. *)
Lemma resize_long e new cap ms : wf e -> plain e -> 1 <= sizeof e -> Forall (valid e) ms -> lenN (concat ms) <= cap -> cap <= max_size ->
  max_size < new * sizeof e -> new * sizeof e < two64 ->
  forall a f, vec_resize f a e new cap (concat ms) = Throw ELength.
Proof.
  intros He Hp Hs Hv Hc1 Hc2 Hn Hn2 a f. destruct (elt_layout_ok He Hp Hs) as (HL1 & HL2 & HL3 & HL4). assert (Hlen := concat_len He Hv). assert (M := max_size_lt).
  assert (Hvc : vec_count e (concat ms) = Ok (lenN ms)) by (unfold vec_count; destruct (N.eqb_spec (sizeof e) 0); [lia|]; rewrite Hlen, N.div_mul by lia; reflexivity).
  assert (Hwm : wmul new (sizeof e) = new * sizeof e) by (apply wmul_small; lia).
  unfold vec_resize. rewrite HL4, Hwm, HL2, Hvc. cbn [negb bind]. destruct (hasc (rops e)); cbn [negb].
  - destruct (N.ltb_spec new (lenN ms)) as [X|X]; [nia|]. cbn [bind]. destruct (N.leb_spec (new * sizeof e) cap); [lia|]. unfold vec_raw_resize. change (lenN (@nil cell)) with 0.
    destruct (N.leb_spec (new * sizeof e) 0); [lia|]. destruct (N.ltb_spec max_size (new * sizeof e)); [reflexivity|lia].
  - unfold vec_raw_resize. destruct (N.leb_spec (new * sizeof e) (lenN (concat ms))); [lia|]. destruct (N.leb_spec (new * sizeof e) cap); [lia|]. destruct (N.ltb_spec max_size (new * sizeof e)); [reflexivity|lia].
Qed.
Lemma astream_flat l x : (forall k s e, ~ In (ACont k s e) l) -> astream l x <-> lenN x = lenN l.
Proof.
  revert x. induction l as [|a l IH]; intros x Hc.
  - split; [intros H; inversion H; reflexivity|]. intros H. apply lenN_0_nil in H. subst. constructor.
  - assert (Hl : forall k s e, ~ In (ACont k s e) l) by (intros k s e H; apply (Hc k s e); right; exact H). rewrite lenN_cons. split.
    + intros H. inversion H as [|b l' bs H1|b l' bs H1|k s e b l' bs C H1]; subst; [rewrite lenN_cons; apply IH in H1; [lia|assumption]|rewrite lenN_cons; apply IH in H1; [lia|assumption]|]. destruct (Hc k s e (or_introl eq_refl)).
    + intros H. destruct x as [|b x]; [change (lenN (@nil N)) with 0 in H; lia|]. rewrite lenN_cons in H. assert (X : lenN x = lenN l) by lia. apply (IH x Hl) in X. destruct a as [| |k s e]; [constructor; assumption|constructor; assumption|destruct (Hc k s e (or_introl eq_refl))].
Qed.
Lemma flat_stream e b : wf e -> plain e -> hasc (rops e) = false -> lenN b = sizeof e -> stream e b.
Proof.
  intros Hw Hp Hh L. destruct (hasc_atoms (proj1 rops_wf e Hw) Hh) as [H1 H2]. change (atoms (rops e)) with (tatoms e) in *. eapply (proj1 stream_atoms e); [exact Hp|]. apply astream_flat; [|rewrite <- H1, (proj1 tatoms_size e Hw); exact L].
  intros k s e' Hi. rewrite Forall_forall in H2. destruct (H2 _ Hi) as [_ [X|X]]; discriminate.
Qed.
Lemma chunks n z (bs : list N) : lenN bs = n * z -> exists bss, lenN bss = n /\ bs = concat bss /\ Forall (fun b => lenN b = z) bss.
Proof.
  revert bs. induction n as [|n IH] using N.peano_ind; intros bs L.
  - assert (H : lenN bs = 0) by lia. apply lenN_0_nil in H. subst. exists []. repeat split; constructor.
  - assert (E := takeN_dropN z bs). assert (L1 : lenN (takeN z bs) = z) by (rewrite lenN_takeN; lia). destruct (IH (dropN z bs)) as (bss & Lb & Eb & F); [rewrite lenN_dropN; lia|].
    exists (takeN z bs :: bss). rewrite lenN_cons. cbn [concat]. rewrite <- Eb, E. repeat split; [lia|constructor; assumption].
Qed.

(** ** One container *)
Lemma cont_load_any k s e o idx x rest : elt_wf k s e -> elt_safe e -> cvalid k e o -> idx + lenN x <= max_size -> ~ cover k e x ->
  let it := flat (sblock true (rops e)) ++ W FLAG_END :: rest in
  exists r, conv2 (fun a f => '(b8, i1) <- rd 8 (idx, x) ;;
                      let count := le_val b8 in
                      if count =? 0 then it' <- skip_block it 0 ;; Ok (o, i1, it')
                      else cont_load f (eops_at a) (load_at a) k e o count i1 it) r /\
    ((exists o' b y, r = Ok (o', (idx + lenN b, y), W FLAG_END :: rest) /\ x = b ++ y /\ cstream k e b /\ cvalid k e o') \/
     (exists ex, r = Throw ex)).
Proof.
  intros (Hw & Hp & Hs & H1 & Hk) EL Hv Hx Ho it. assert (M := max_size_lt). assert (EO := elt_ok_all Hw Hp).
  destruct (@rd_safe 8 idx x Hx ltac:(unfold max_size; lia)) as [(b8 & r0 & -> & L8 & ->)| ->]; cbn [bind].
  2:{ eexists. split; [apply conv2_const|eauto]. }
  rewrite lenN_app in Hx.
  destruct (N.eqb_spec (le_val b8) 0) as [Hz|Hz].
  { unfold it. rewrite skip_block_block. eexists. split; [apply conv2_const|]. left. exists o, b8, r0. rewrite L8. split; [reflexivity|]. split; [reflexivity|]. split; [|assumption].
    exists 0. destruct k; simpl; exists b8, []; cbn [concat]; rewrite app_nil_r; repeat split; auto. }
  destruct k, o as [cap cs|cs]; cbn [cvalid] in Hv; try contradiction; cbn [cont_load].
  - destruct Hv as (ms & -> & Vm & Cm1 & Cm2). destruct (elt_layout_ok Hw Hp Hs) as (_ & _ & _ & HM). rewrite HM.
    assert (No : le_val b8 * sizeof e < two64). { apply N.lt_nge. intros Hle. apply Ho. exists 0. simpl. exists b8, r0. repeat split; auto. }
    destruct (N.le_gt_cases (le_val b8 * sizeof e) max_size) as [Hle|Hgt].
    2:{ exists (Throw ELength). split; [exists 0%nat; intros a f _ _; rewrite (resize_long Hw Hp Hs Vm Cm1 Cm2 Hgt No); reflexivity|]. right. eauto. }
    destruct (@vec_resize_ok e (le_val b8) cap ms Hw Hp Hs EO Vm Cm1 Cm2 Hle) as (cap' & ds & [n C] & Ld & Vd & Cd1 & Cd2 & _).
    assert (Hse : sizeof e <= max_size) by nia.
    assert (Fin : forall ds', lenN ds' = lenN ds -> Forall (valid e) ds' -> cvalid KVec e (VecObj cap' (concat ds'))).
    { intros ds' L' V'. simpl. exists ds'. repeat split; auto. rewrite (concat_len Hw V'), L', <- (concat_len Hw Vd). assumption. }
    destruct (hasc (rops e)) eqn:Eh; cbn [negb].
    + destruct (@safe_loop e Hw Hs Hse EL rest ds 0 [] (idx + 8) r0 [] eq_refl Vd) as (r & [n2 C3] & K); [lia| |].
      { intros bss r E L F O. apply Ho. exists 0. simpl. exists b8, r0. repeat split; auto. right. exists bss, r. rewrite <- Ld. auto. }
      cbn [app] in C3. rewrite N.add_0_l, Ld in C3. fold it in C3.
      exists (bind r (fun q => let '(cs2, i2, it2) := q in Ok (VecObj cap' cs2, i2, it2))). split.
      * exists (Nat.max n n2). intros a f Ha Hf. rewrite C by lia. cbn [bind]. rewrite C3 by lia. reflexivity.
      * destruct K as [(ds' & bss & y & -> & -> & Lb & Fb & Lds & Vds)|(ex & ->)]; cbn [bind app]; [left|right; eauto].
        exists (VecObj cap' (concat ds')), (b8 ++ concat bss), y. rewrite lenN_app, L8, <- app_assoc. split.
        { destruct (N.eqb_spec (lenN ds) 0); [lia|]. rewrite N.add_assoc. reflexivity. }
        split; [reflexivity|]. split; [|apply Fin; assumption]. exists 0. simpl. exists b8, bss. repeat split; auto. congruence.
    + assert (ML := memcpy_link Hw Hs). rewrite Eh in ML. destruct ML as [ML _]. unfold it. rewrite ML. cbn [flat app].
      assert (Wm : wmul (sizeof e) (le_val b8) = le_val b8 * sizeof e) by (rewrite wmul_small; rewrite N.mul_comm; [reflexivity|lia]). rewrite Wm.
      destruct (@rd_safe (le_val b8 * sizeof e) (idx + 8) r0) as [(bs & r1 & -> & Lb & Rd)|Rd]; [lia|lia| |].
      2:{ exists (Throw ERuntime). split; [|right; eauto]. exists n. intros a f Ha Hf. rewrite C by lia. cbn [bind]. rewrite Rd. reflexivity. }
      assert (Bd : Forall (bytes (sizeof e)) ds) by (eapply Forall_impl; [|exact Vd]; intros m; apply (hasc_valid m Hw Hp Eh)).
      assert (Bc := bytes_concat Hw Vd Bd). assert (Lc : lenN (concat ds) = lenN bs) by (rewrite (concat_len Hw Vd), Ld; lia). rewrite Lc in Bc.
      destruct (chunks Lb) as (bss & Lbs & Ebs & Fbs).
      exists (Ok (VecObj cap' (map B bs), (idx + 8 + le_val b8 * sizeof e, r1), W FLAG_END :: rest)). split.
      * exists n. intros a f Ha Hf. rewrite C by lia. cbn [bind]. rewrite Rd. cbn [bind]. rewrite <- (app_nil_r (concat ds)), (write_raw_app [] Bc). cbn [bind]. rewrite app_nil_r. reflexivity.
      * left. exists (VecObj cap' (map B bs)), (b8 ++ bs), r1. rewrite lenN_app, L8, Lb, N.add_assoc, <- app_assoc. split; [reflexivity|]. split; [reflexivity|]. split.
        { exists 0. simpl. exists b8, bss. rewrite <- Ebs. repeat split; auto. eapply Forall_impl; [|exact Fbs]. intros b. apply (flat_stream Hw Hp Eh). }
        rewrite Ebs, concat_map. apply Fin; [unfold lenN in *; rewrite map_length; congruence|]. apply Forall_map. eapply Forall_impl; [|exact Fbs]. intros b Lb'. apply (hasc_valid _ Hw Hp Eh). exists b. auto.
  - destruct (N.ltb_spec max_size (le_val b8)); [eexists; split; [apply conv2_const|eauto]|].
    assert (Eh : hasc (rops e) = false) by (destruct (Hk eq_refl) as [c ->]; reflexivity).
    assert (ML := memcpy_link Hw Hs). rewrite Eh in ML. destruct ML as [ML _]. unfold it. rewrite ML. cbn [flat app].
    destruct (@rd_safe (le_val b8) (idx + 8) r0) as [(bs & r1 & -> & Lb & ->)| ->]; [lia|lia| |]; cbn [bind].
    2:{ eexists. split; [apply conv2_const|eauto]. }
    eexists. split; [apply conv2_const|]. left. exists (StrObj bs), (b8 ++ bs), r1. rewrite lenN_app, L8, Lb, N.add_assoc, <- app_assoc. split; [reflexivity|]. split; [reflexivity|]. split; [|simpl; lia].
    exists 0. simpl. exists b8, bs. auto.
Qed.

(** ** The walk *)
Definition aok (a : atom) : Prop := match a with ACont k s e => elt_wf k s e /\ elt_safe e | AByte => True | APad => False end.
Lemma aok_pos l : Forall aok l -> conts_pos l.
Proof. intros H k s e Hi. assert (H0 := proj1 (Forall_forall _ _) H). apply H0 in Hi. destruct Hi as [(_ & _ & _ & H1 & _) _]. exact H1. Qed.
Lemma aok_norm l : (forall k s e, In (ACont k s e) l -> elt_wf k s e /\ elt_safe e) -> Forall aok (norm true l).
Proof. induction l as [|a l IH]; simpl; intros H; constructor; [destruct a; simpl; auto|]. apply IH. intros; apply H; auto. Qed.
Definition any_pre (l : list atom) (st : lstate) : Prop :=
  let '(dn, m, (idx, x)) := st in
  Forall aok l /\ asizes l <= max_size /\ idx + lenN x <= max_size /\ avalid l (takeN (asizes l) m) /\ ~ aover l x.
Definition any_post (l : list atom) (st : lstate) (r : res lstate) : Prop :=
  let '(dn, m, (idx, x)) := st in
  (exists d' b y, r = Ok (dn ++ d', dropN (asizes l) m, (idx + lenN b, y)) /\ x = b ++ y /\ astream l b /\ avalid l d') \/
  (exists ex, r = Throw ex).
Lemma any_walk : walk_spec (fun a => load_h (eops_at a) (load_at a)) true any_pre any_post
  (h_mem (load_h (eops_at 0) (load_at 0))) (h_skip (load_h (eops_at 0) (load_at 0))).
Proof.
  constructor; try reflexivity.
  - intros [[dn m] [idx x]] _. left. exists [], [], x. rewrite app_nil_r. change (lenN (@nil N)) with 0. rewrite N.add_0_r. split; [reflexivity|]. split; [reflexivity|]. split; constructor.
  - intros l1 l2 [[dn m] [idx x]] (Hq & Hsz & Hx & Hv & Hov). assert (Hp := aok_pos Hq). apply Forall_app in Hq.
    rewrite asizes_app in Hsz. destruct (avalid_split Hp Hv) as [V1 V2].
    split; [repeat split; [tauto|lia|assumption|assumption|intros O; apply Hov; apply aover_l; exact O]|].
    intros [[dn1 m1] [idx1 x1]] [(d' & b & y & E & -> & Sb & _)|[ex E]]; inversion E; subst. rewrite lenN_app in Hx. repeat split; [tauto|lia|lia|assumption|]. intros O. apply Hov. apply aover_r; assumption.
  - intros l1 l2 [[dn m] [idx x]] [[dn1 m1] [idx1 x1]] r (Hq & Hsz & Hx & Hv & Hov) [(d1 & b1 & y & E & -> & S1 & V1)|[ex E]] P2; inversion E; subst.
    destruct P2 as [(d2 & b2 & z & -> & -> & S2 & V2)|[ex ->]]; [left|right; eauto].
    exists (d1 ++ d2), (b1 ++ b2), z. rewrite app_assoc, drop_app2, lenN_app, N.add_assoc, <- (app_assoc b1). split; [reflexivity|]. split; [reflexivity|]. split; [apply astream_app; assumption|apply avalid_app; assumption].
  - intros l1 l2 [[dn m] [idx x]] ex _ _. right; eauto.
  - intros l [[dn m] [idx x]] r [(d1 & b & y & -> & _)|[ex ->]]; eauto.
  - intros n [[dn m] [idx x]] (_ & Hsz & Hx & Hv & _). unfold any_post. rewrite asizes_rep1 in * by reflexivity.
    apply vb_bytes in Hv; [|auto]. destruct Hv as [Hv _]. cbn [load_h h_mem].
    destruct (rd_safe Hx Hsz) as [(bs & r0 & -> & L & ->)| ->]; cbn [bind]; [left|right; eauto]. subst n.
    destruct (split_at (lenN bs) m) as (m1 & m2 & Em & Et & Ed). rewrite Et in Hv. rewrite Ed, Em.
    rewrite write_raw_app by assumption. cbn [bind]. exists (map B bs), bs, r0. split; [reflexivity|]. split; [reflexivity|]. split; [apply astream_repN; auto|].
    apply vb_bytes; [auto|]. split; [exists bs; auto|reflexivity].
  - intros n [[dn m] [idx x]] (Hq & Hsz & Hx & Hv & _). unfold any_post. rewrite asizes_rep1 in * by reflexivity.
    destruct (N.eqb_spec n 0) as [->|Hn].
    + left. exists [], [], x. cbn [load_h h_skip]. unfold take_cells. destruct (N.ltb_spec (lenN m) 0); [lia|].
      cbn [bind]. rewrite takeN_0, !app_nil_r. change (lenN (@nil N)) with 0. rewrite N.add_0_r. repeat split; constructor.
    + replace n with (1 + (n - 1)) in Hq by lia. rewrite repN_add in Hq. apply Forall_app in Hq. destruct Hq as [Hq _].
      apply Forall_inv in Hq. destruct Hq.
  - intros k sz e [[dn m] [idx x]] rest He Hsz (Hq & Hms & Hx & Hv & Hov). unfold any_post. rewrite asizes_c1 in *.
    apply Forall_inv in Hq. destruct Hq as [Hew Hel].
    apply arel_c1 in Hv. destruct Hv as (od & Ed & Hd & _).
    destruct (@cont_load_any k sz e od idx x rest Hew Hel Hd Hx) as (r & [n C] & K); [intros O; apply Hov; constructor; exact O|].
    exists (bind r (fun q => let '(o', i2, _) := q in Ok (dn ++ put_obj sz o', dropN sz m, i2))). split.
    + exists n. intros a f Ha Hf. rewrite <- (takeN_dropN sz m) at 1. rewrite Ed.
      cbn [load_h h_cont h_cont_end]. rewrite take_obj_put by assumption. cbn [bind].
      specialize (C a f Ha Hf). rewrite skip_block_block in *.
      destruct (rd 8 (idx, x)) as [[b8 i1]| | |]; cbn [bind] in *; [|subst r; reflexivity..].
      destruct (le_val b8 =? 0).
      * cbn [bind] in *. subst r. reflexivity.
      * rewrite C. destruct K as [(o' & b & y & -> & _)|[ex ->]]; reflexivity.
    + destruct K as [(o' & b & y & -> & -> & Sb & Vo)|[ex ->]]; cbn [bind]; [left|right; eauto].
      exists (put_obj sz o'), b, y. split; [reflexivity|]. split; [reflexivity|]. split; [rewrite <- (app_nil_r b); constructor; [exact Sb|constructor]|].
      apply arel_c1. exists o'. split; [reflexivity|]. split; auto.
Qed.
Lemma load_at_any d d2 idx x o rest : wf_out true o -> at_end rest -> Forall aok (atoms o) -> asizes (atoms o) <= max_size ->
  idx + lenN x <= max_size -> avalid (atoms o) d -> ~ aover (atoms o) x ->
  exists r, conv (fun a => load_at a (idx, x) (d ++ d2) (flat o ++ rest)) r /\
    ((exists d' b y, r = Ok (d' ++ d2, (idx + lenN b, y), rest) /\ x = b ++ y /\ astream (atoms o) b /\ avalid (atoms o) d') \/ (exists ex, r = Throw ex)).
Proof.
  intros Hwo Hr Hq Hsz Hx Vd Hov. assert (Ld := arel_len (aok_pos Hq) Vd).
  destruct (walk_rule any_walk (s := ([], d ++ d2, (idx, x))) Hwo Hr) as (r & C & P).
  { repeat split; auto. rewrite takeN_app_exact by congruence. assumption. }
  unfold any_post in P. rewrite dropN_app_exact in P by congruence.
  exists (bind (lift rest r) (fun q => let '(s, it') := q in let '(dn, m', i') := s in Ok (dn ++ m', i', it'))). split.
  - destruct C as [n C]. exists (S n). intros [|a] Ha; [lia|]. cbn [load_at]. rewrite C by lia. reflexivity.
  - destruct P as [(d' & b & y & -> & H)|[ex ->]]; cbn [lift bind]; [left|right; eauto]. exists d', b, y. split; [reflexivity|exact H].
Qed.
Theorem elt_safe_all e : wf e -> plain e -> elt_safe e.
Proof.
  remember (cdepth e) as n eqn:En. revert e En. induction n as [n IH] using lt_wf_ind. intros e En Hw Hp. subst n.
  intros d d2 idx x rest Hsz Hx Vd Hov. destruct (sblock_ok true Hw) as [Hwo Ea].
  destruct (@load_at_any d d2 idx x (sblock true (rops e)) (W FLAG_END :: rest)) as (r & C & K); auto.
  - right; eauto.
  - rewrite Ea. apply aok_norm. intros k s e' Hin. destruct (proj1 tatoms_conts e false Hw Hp _ _ _ Hin) as [H1 H2].
    split; [assumption|]. apply (IH (cdepth e')); auto; apply H1.
  - rewrite Ea, asizes_norm, (proj1 tatoms_size e Hw). assumption.
  - rewrite Ea. apply avalid_norm. apply (valid_atoms _ Hp). assumption.
  - rewrite Ea. intros O. apply Hov. apply aover_norm in O. exact (proj1 overflows_atoms e _ Hp x O).
  - exists r. split; [assumption|]. destruct K as [(d' & b & y & -> & -> & Sb & Vd')|K]; [left|right; exact K]. rewrite Ea in *. exists d', b, y. split; [reflexivity|]. split; [reflexivity|].
    split; [apply (proj1 (astream_norm _ _)) in Sb; exact (proj1 stream_atoms e _ Hp b Sb)|apply (valid_atoms _ Hp); apply avalid_norm in Vd'; assumption].
Qed.
(** A whole value. *)
Theorem load_any t d d2 idx x : wf t -> plain t -> sizeof t <= max_size -> idx + lenN x <= max_size -> valid t d -> ~ overflows t x ->
  exists l r, layout_default t = Ok l /\ conv (fun a => load_at a (idx, x) (d ++ d2) (ops l)) r /\
    ((exists d' b y pad, r = Ok (d' ++ d2, (idx + lenN b, y), []) /\ x = b ++ y /\ (forall q, lenN q = pad -> stream t (b ++ q)) /\ valid t d') \/ (exists ex, r = Throw ex)).
Proof.
  intros Hw Hp Hsz Hx Vd Hov. assert (Hok := tatoms_ok Hw Hp).
  destruct (@layout_ok false true t Hw Hp) as (l & oi & k' & Hl & El & _). exists l.
  destruct (stop_split true Hw Hp Hok Vd) as (pre & k & d1 & dk & E1 & E2 & Hqp & -> & Ad & Bd & Ld & Hsum).
  destruct (stop_ok true Hw) as (Hwo & _).
  destruct (@load_at_any d1 (dk ++ d2) idx x (stop true (rops t)) []) as (r & C & K); auto.
  - left; reflexivity.
  - rewrite E2. apply aok_norm. intros k0 s e' Hin. destruct (proj1 tatoms_conts t false Hw Hp k0 s e') as [H1 H2].
    { rewrite E1. apply in_app_iff. auto. }
    split; [assumption|]. apply elt_safe_all; apply H1.
  - rewrite E2, asizes_norm. lia.
  - rewrite E2. apply avalid_norm. assumption.
  - rewrite E2. intros O. apply Hov. apply aover_norm in O. apply (proj1 overflows_atoms t _ Hp x). rewrite E1. apply aover_l. exact O.
  - exists r. split; [exact Hl|]. split; [rewrite El; rewrite app_nil_r, app_assoc in C; exact C|].
    destruct K as [(d' & b & y & -> & -> & Sb & Vd')|K]; [left|right; exact K]. rewrite E2 in *. apply (proj1 (astream_norm _ _)) in Sb. apply avalid_norm in Vd'.
    exists (d' ++ dk), b, y, k. rewrite <- app_assoc. split; [reflexivity|]. split; [reflexivity|]. split.
    + intros q Lq. apply (proj1 stream_atoms t _ Hp). rewrite E1. apply astream_app; [exact Sb|apply astream_repN; auto].
    + apply (valid_atoms _ Hp). rewrite E1. apply avalid_app; [exact Vd'|apply vb_bytes; auto].
Qed.
