(** * VisitorProofs: a visitor whose methods never stop the visit sees every number and enum of a value, in order. *)
From Verif Require Import Base Types WellFormed Layout ValueOps ValueSpec ValueInst InitRun WalkProofs EltOps EltProofs VectorProofs Visitor.
Local Open Scope N_scope.

Inductive chain {A S} (R : A -> S -> A -> S -> Prop) : list A -> S -> list A -> S -> Prop :=
| chain_nil s : chain R [] s [] s
| chain_cons x y xs ys s s1 s2 : R x s y s1 -> chain R xs s1 ys s2 -> chain R (x :: xs) s (y :: ys) s2.

Lemma chain_len {A S} (R : A -> S -> A -> S -> Prop) xs s ys s' : chain R xs s ys s' -> lenN ys = lenN xs.
Proof. induction 1; rewrite ?lenN_cons; congruence. Qed.

Section Trav.
  Context {S : Type} (h : visitor S).

  (** The effect of a complete visit. *)
  Fixpoint trav (t : ty) (m : list cell) (s : S) (m' : list cell) (s' : S) : Prop :=
    match t with
    | TNull | TOpaque _ | TPtr _ => False
    | TNum n c => num_supported n c = true /\ exists bs bs', lenN bs = n /\ lenN bs' = n /\ m = map B bs /\ m' = map B bs' /\
                                      vh_num h n c bs s = Ok (true, bs', s')
    | TEnum n vs => n = enum_size /\ exists bs bs', lenN bs = n /\ lenN bs' = n /\ m = map B bs /\ m' = map B bs' /\
                                      vh_enum h vs bs s = Ok (true, bs', s')
    | TArray _ d e => exists xs ys, lenN xs = d /\ m = concat xs /\ m' = concat ys /\ chain (trav e) xs s ys s'
    | TCont KVec sz e => exists cap xs ys, m = put_obj sz (VecObj cap (concat xs)) /\
                           m' = put_obj sz (VecObj cap (concat ys)) /\ chain (trav e) xs s ys s'
    | TCont KStr sz e => exists bs bs', m = put_obj sz (StrObj bs) /\ m' = put_obj sz (StrObj bs') /\
                           chain (fun b x b' y => trav e [B b] x [B b'] y) bs s bs' s'
    | TComp sz fs => trav_fields fs 0 sz m s m' s'
    end
  with trav_fields (fs : fields) (cur sz : N) (m : list cell) (s : S) (m' : list cell) (s' : S) : Prop :=
    match fs with
    | FNil => lenN m = sz - cur /\ m' = m /\ s' = s
    | FCons _ off t r => exists p x y z w s1, m = p ++ x ++ y /\ m' = p ++ z ++ w /\ lenN p = off - cur /\
                           trav t x s z s1 /\ trav_fields r (off + sizeof t) sz y s1 w s'
    end.

  Lemma chain_concat (R : list cell -> S -> list cell -> S -> Prop) es xs s ys s' :
    (forall x a y b, R x a y b -> lenN x = es /\ lenN y = es) -> chain R xs s ys s' ->
    lenN (concat xs) = lenN xs * es /\ lenN (concat ys) = lenN xs * es.
  Proof.
    intros HR. induction 1 as [s|x y xs ys s s1 s2 Hx Hc [IH1 IH2]]; [split; reflexivity|]. destruct (HR _ _ _ _ Hx).
    cbn [concat]. rewrite !lenN_app, !lenN_cons. nia.
  Qed.
  Lemma trav_len :
    (forall t, wf t -> forall m s m' s', trav t m s m' s' -> lenN m = sizeof t /\ lenN m' = sizeof t) /\
    (forall fs cur sz, wf_fields fs cur sz -> forall m s m' s', trav_fields fs cur sz m s m' s' ->
        lenN m = sz - cur /\ lenN m' = sz - cur /\ cur <= sz).
  Proof.
    apply ty_fields_ind; try (simpl; intros; contradiction).
    - intros n c _ m s m' s' (_ & bs & bs' & L & L' & -> & -> & _). unfold lenN in *. rewrite !map_length. auto.
    - intros n vs _ m s m' s' (_ & bs & bs' & L & L' & -> & -> & _). unfold lenN in *. rewrite !map_length. auto.
    - intros sz d e IH (_ & -> & _ & _ & He) m s m' s' (xs & ys & <- & -> & -> & C).
      cbn [sizeof]. eapply chain_concat; [|exact C]. intros. eapply IH; eassumption.
    - intros k sz e IH Hw m s m' s' H. assert (Hs := wf_cont_size Hw). destruct k; cbn [trav] in H.
      + destruct H as (cap & xs & ys & -> & -> & _). rewrite !put_obj_len by assumption. auto.
      + destruct H as (bs & bs' & -> & -> & _). rewrite !put_obj_len by assumption. auto.
    - intros sz fs IH (_ & Hw) m s m' s' H. destruct (IH _ _ Hw _ _ _ _ H) as (L1 & L2 & _). cbn [sizeof]. lia.
    - intros cur sz Hw m s m' s' (L & -> & ->). simpl in Hw. lia.
    - intros nm off t IHt r IHr cur sz (Ho & Hw & Hwr) m s m' s' (p & x & y & z & w & s1 & -> & -> & Lp & Hx & Hy).
      destruct (IHt Hw _ _ _ _ Hx) as [L1 L2]. destruct (IHr _ _ Hwr _ _ _ _ Hy) as (L3 & L4 & L5).
      rewrite !lenN_app. lia.
  Qed.

  Lemma elts_ok (vis : nat -> N -> list cell -> S -> res (bool * list cell * S)) (R : list cell -> S -> list cell -> S -> Prop)
        stop es xs s ys s' :
    (forall x a y b, R x a y b -> lenN x = es /\ lenN y = es) ->
    (forall x a y b i rest, R x a y b -> conv (fun f => vis f i (x ++ rest) a) (Ok (true, y ++ rest, b))) ->
    chain R xs s ys s' ->
    forall i done rest, lenN done = i * es ->
    conv2 (fun a f => elts f i (i + lenN xs) es stop (vis a) (done ++ concat xs ++ rest) s) (Ok (done ++ concat ys ++ rest, s')).
  Proof.
    intros HL HV. induction 1 as [s|x y xs ys s s1 s2 Hx Hc IH]; intros i done rest Ld.
    - exists 1%nat. intros a [|f] _ Hf; [lia|]. cbn [elts]. change (lenN (@nil (list cell))) with 0.
      destruct (N.ltb_spec i (i + 0)); [lia|]. reflexivity.
    - destruct (HL _ _ _ _ Hx) as [L1 L2].
      destruct (HV x s y s1 i (concat xs ++ rest) Hx) as [n1 C1].
      destruct (IH (i + 1) (done ++ y) rest) as [n2 C2]; [rewrite lenN_app; nia|].
      exists (Datatypes.S (Nat.max n1 n2)). intros a [|f] Ha Hf; [lia|]. cbn [elts]. rewrite lenN_cons.
      destruct (N.ltb_spec i (i + (1 + lenN xs))); [|lia].
      cbn [concat]. rewrite <- !app_assoc.
      destruct (N.ltb_spec (lenN (done ++ x ++ concat xs ++ rest)) (i * es)); [rewrite lenN_app in *; lia|].
      rewrite (dropN_app_exact _ (eq_sym Ld)), C1 by lia. cbn [bind]. rewrite (takeN_app_exact _ (eq_sym Ld)).
      replace (stop && negb true) with false by (destruct stop; reflexivity).
      replace (i + (1 + lenN xs)) with (i + 1 + lenN xs) by lia.
      rewrite (app_assoc done y), C2 by lia. rewrite <- !app_assoc. reflexivity.
  Qed.

  Hypothesis Hfield : forall p nm off t s, vh_field h p nm off t s = None.

  Lemma map_concat_sing (bs : list N) : concat (map (fun b => [B b]) bs) = map B bs.
  Proof. induction bs; simpl; congruence. Qed.

  Theorem vvisit_ok :
    (forall t, wf t -> forall m s m' s' p rest, trav t m s m' s' ->
        conv (fun f => vvisit h f t p (m ++ rest) s) (Ok (true, m' ++ rest, s'))) /\
    (forall fs cur sz, wf_fields fs cur sz -> forall m s m' s' p done rest, trav_fields fs cur sz m s m' s' -> lenN done = cur ->
        conv (fun f => vvisit_fields h f fs p (done ++ m ++ rest) s) (Ok (true, done ++ m' ++ rest, s'))).
  Proof.
    apply ty_fields_ind; try (simpl; intros; contradiction).
    - intros n c _ m s m' s' p rest (Hn & bs & bs' & L & L' & -> & -> & E). cbn [vvisit]. rewrite Hn. subst n.
      rewrite take_raw_map. cbn [bind]. rewrite E. cbn [bind]. apply conv_const.
    - intros n vs _ m s m' s' p rest (Hn & bs & bs' & L & L' & -> & -> & E). cbn [vvisit]. rewrite <- Hn, <- L.
      rewrite take_raw_map. cbn [bind]. rewrite E. cbn [bind]. apply conv_const.
    - intros sz d e IH (_ & -> & _ & _ & He) m s m' s' p rest (xs & ys & <- & -> & -> & C). cbn [vvisit].
      eapply conv_bind.
      + apply conv2_diag with (f := fun a f => elts f 0 (lenN xs) (sizeof e) true (fun i x y => vvisit h a e (p ++ [SElt i]) x y) (concat xs ++ rest) s).
        change (lenN xs) with (0 + lenN xs).
        apply (@elts_ok (fun a i x y => vvisit h a e (p ++ [SElt i]) x y) _ true _ _ _ _ _
                 (fun x a y b Hx => proj1 trav_len e He _ _ _ _ Hx)
                 (fun x a y b i rst Hx => IH He _ _ _ _ _ rst Hx) C 0 [] rest). reflexivity.
      + cbn. apply conv_const.
    - intros k sz e IH Hw m s m' s' p rest H. assert (Hs := wf_cont_size Hw). destruct k; cbn [trav] in H.
      + destruct H as (cap & xs & ys & -> & -> & C). destruct Hw as (_ & _ & Hse & He). cbn [vvisit].
        rewrite take_obj_put by assumption. cbn [bind].
        assert (Hl := fun x a y b Hx => proj1 trav_len e He x a y b Hx).
        unfold vec_count. destruct (N.eqb_spec (sizeof e) 0); [lia|]. cbn [bind].
        rewrite (proj1 (chain_concat Hl C)), N.div_mul by lia.
        eapply conv_bind.
        * apply conv2_diag with (f := fun a f => elts f 0 (lenN xs) (sizeof e) false (fun i x y => vvisit h a e (p ++ [SElt i]) x y) (concat xs) s).
          change (lenN xs) with (0 + lenN xs). rewrite <- (app_nil_r (concat xs)).
          apply (@elts_ok (fun a i x y => vvisit h a e (p ++ [SElt i]) x y) _ false _ _ _ _ _ Hl
                 (fun x a y b i rst Hx => IH He _ _ _ _ _ rst Hx) C 0 [] []). reflexivity.
        * cbn. rewrite app_nil_r. apply conv_const.
      + destruct H as (bs & bs' & -> & -> & C). destruct Hw as (Hsz & _ & c & ->). cbn [vvisit].
        assert (He : wf (TNum 1 c)) by (split; [unfold two64; simpl; lia|exact I]).
        rewrite take_obj_put by assumption. cbn [bind].
        assert (C' : chain (trav (TNum 1 c)) (map (fun b => [B b]) bs) s (map (fun b => [B b]) bs') s').
        { clear - C. induction C; simpl; econstructor; eauto. }
        assert (Hl := fun x a y b Hx => proj1 trav_len (TNum 1 c) He x a y b Hx).
        eapply conv_bind.
        * apply conv2_diag with (f := fun a f => elts f 0 (lenN bs) 1 false (fun i x y => vvisit h a (TNum 1 c) (p ++ [SElt i]) x y) (map B bs) s).
          replace (lenN bs) with (0 + lenN (map (fun b => [B b]) bs)) by (unfold lenN; rewrite map_length; reflexivity).
          rewrite <- (app_nil_r (map B bs)), <- map_concat_sing.
          apply (@elts_ok (fun a i x y => vvisit h a (TNum 1 c) (p ++ [SElt i]) x y) _ false _ _ _ _ _ Hl
                 (fun x a y b i rst Hx => IH He _ _ _ _ _ rst Hx) C' 0 [] []). reflexivity.
        * cbn [app]. rewrite app_nil_r, map_concat_sing.
          rewrite (bytes_all (n := lenN bs')) by (exists bs'; auto). rewrite byte_of_map. apply conv_const.
    - intros sz fs IH (_ & Hw) m s m' s' p rest H. cbn [vvisit]. apply (IH _ _ Hw _ _ _ _ p [] rest H). reflexivity.
    - intros cur sz _ m s m' s' p done rest (_ & -> & ->) _. cbn [vvisit_fields]. apply conv_const.
    - intros nm off t IHt r IHr cur sz (Ho & Hw & Hwr) m s m' s' p done rest
        (q & x & y & z & w & s1 & -> & -> & Lq & Hx & Hy) Ld.
      destruct (proj1 trav_len t Hw _ _ _ _ Hx) as [L1 L2].
      cbn [vvisit_fields]. rewrite Hfield.
      assert (Lo : off = lenN (done ++ q)) by (rewrite lenN_app; lia).
      rewrite <- !app_assoc. rewrite (app_assoc done q).
      destruct (N.ltb_spec (lenN ((done ++ q) ++ x ++ y ++ rest)) off) as [Hlt|_]; [rewrite (lenN_app (done ++ q)) in Hlt; lia|].
      rewrite (dropN_app_exact _ Lo), (takeN_app_exact _ Lo).
      apply conv_bind with (a := (true, (done ++ q) ++ z ++ y ++ rest, s1)).
      + eapply conv_bind; [apply (IHt Hw _ _ _ _ (p ++ [SField nm]) (y ++ rest) Hx)|]. cbn. apply conv_const.
      + cbn. assert (Hy' := IHr _ _ Hwr _ _ _ _ p ((done ++ q) ++ z) rest Hy). rewrite <- !app_assoc in *. apply Hy'.
        rewrite !lenN_app. lia.
  Qed.
End Trav.
