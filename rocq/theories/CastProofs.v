(** * CastProofs *)
From Verif Require Import Base Types WellFormed Layout ValueOps ValueSpec InitProofs ValueAtoms ValueInst WalkProofs InitRun EltOps EltProofs VectorProofs Visitor VisitorProofs EndianSpec
  CompiledProofs Csv CastSpec.
From Verif Require Graph.
Local Open Scope N_scope.

(** What a visit with the casting visitor can do to the state: nothing, or set it to the bytes of a number of the wanted type. *)
Definition moved (P : list N -> Prop) (s s' : option (list N)) : Prop := s' = s \/ exists bs, s' = Some bs /\ P bs.
Lemma moved_refl P s : moved P s s. Proof. left. reflexivity. Qed.
Lemma moved_trans (P : list N -> Prop) a b c : moved P a b -> moved P b c -> moved P a c.
Proof. intros [-> |(x & -> & Hx)] [-> |(y & -> & Hy)]; unfold moved; eauto. Qed.
Lemma moved_impl (P Q : list N -> Prop) a b : (forall x, P x -> Q x) -> moved P a b -> moved Q a b.
Proof. intros H [-> |(x & -> & Hx)]; unfold moved; eauto. Qed.

Lemma elts_moved (vis : nat -> N -> list cell -> option (list N) -> res (bool * list cell * option (list N))) (P : list cell -> list N -> Prop)
        stop es xs s :
  Forall (fun x => lenN x = es) xs ->
  (forall x a i rest, In x xs -> exists b a', conv (fun f => vis f i (x ++ rest) a) (Ok (b, x ++ rest, a')) /\ moved (P x) a a') ->
  forall i done rest, lenN done = i * es ->
  exists s', conv2 (fun a f => elts f i (i + lenN xs) es stop (vis a) (done ++ concat xs ++ rest) s) (Ok (done ++ concat xs ++ rest, s')) /\
    moved (fun bs => exists x, In x xs /\ P x bs) s s'.
Proof.
  intros HL. revert s. induction HL as [|x xs Hx HL IH]; intros s HV i done rest Ld.
  - exists s. split; [|apply moved_refl]. exists 1%nat. intros a [|f] _ Hf; [lia|]. cbn [elts]. change (lenN (@nil (list cell))) with 0.
    destruct (N.ltb_spec i (i + 0)); [lia|]. reflexivity.
  - destruct (HV x s i (concat xs ++ rest) (or_introl eq_refl)) as (b & s1 & [n1 C1] & M1).
    destruct (IH s1 (fun y a j r Hy => HV y a j r (or_intror Hy)) (i + 1) (done ++ x) rest) as (s2 & [n2 C2] & M2); [rewrite lenN_app; nia|].
    exists (if stop && negb b then s1 else s2). split.
    + exists (Datatypes.S (Nat.max n1 n2)). intros a [|f] Ha Hf; [lia|]. cbn [elts]. rewrite lenN_cons.
      destruct (N.ltb_spec i (i + (1 + lenN xs))); [|lia].
      cbn [concat]. rewrite <- !app_assoc.
      destruct (N.ltb_spec (lenN (done ++ x ++ concat xs ++ rest)) (i * es)); [rewrite lenN_app in *; lia|].
      rewrite (dropN_app_exact _ (eq_sym Ld)), C1 by lia. cbn [bind]. rewrite (takeN_app_exact _ (eq_sym Ld)).
      replace (i + (1 + lenN xs)) with (i + 1 + lenN xs) by lia.
      destruct (stop && negb b); [reflexivity|]. rewrite (app_assoc done x), C2 by lia. rewrite <- !app_assoc. reflexivity.
    + assert (Q1 : moved (fun bs => exists y, In y (x :: xs) /\ P y bs) s s1) by (eapply moved_impl; [|exact M1]; intros y Hy; exists x; split; [left; reflexivity|exact Hy]).
      assert (Q2 : moved (fun bs => exists y, In y (x :: xs) /\ P y bs) s1 s2) by (eapply moved_impl; [|exact M2]; intros y (z & Hz & Hy); exists z; split; [right; exact Hz|exact Hy]).
      destruct (stop && negb b); [exact Q1|eapply moved_trans; eauto].
Qed.

Lemma slice_app_mid {A} (d x r : list A) : slice (lenN d) (lenN x) (d ++ x ++ r) = x.
Proof. unfold slice. rewrite (dropN_app_exact _ eq_refl). apply takeN_app_exact. reflexivity. Qed.
Lemma conc_len e ms : wf e -> Forall (valid e) ms -> Forall (fun y => lenN y = sizeof e) ms.
Proof. intros He. apply Forall_impl. intros x Hx. apply (proj1 valid_len e He _ Hx). Qed.

Section Cast.
  Context (n : N) (c : ncat).
  Let h := cast_visitor n c.
  Lemma cast_visit :
    (forall t, wf t -> swappable t = true -> forall m s p rest, valid t m ->
       exists b s', conv (fun f => vvisit h f t p (m ++ rest) s) (Ok (b, m ++ rest, s')) /\ moved (contains t m n c) s s') /\
    (forall fs cur sz, wf_fields fs cur sz -> swappable_fields fs = true -> forall m s p done rest, valid_fields fs cur sz m -> lenN done = cur ->
       exists b s', conv (fun f => vvisit_fields h f fs p (done ++ m ++ rest) s) (Ok (b, done ++ m ++ rest, s')) /\
         moved (contains_field fs (done ++ m) n c) s s').
  Proof.
    apply ty_fields_ind; try discriminate.
    - intros n' c' _ Hs m s p rest (bs & L & ->). cbn [vvisit].
      assert (Hn : num_supported n' c' = true).
      { unfold num_supported. cbn [swappable] in Hs. destruct c'; cbn in Hs |- *; rewrite ?orb_false_r in Hs; rewrite <- Hs, ?orb_assoc; reflexivity. }
      rewrite Hn. eexists false, _. split; [|instantiate (1 := if (n' =? n) && match c, c' with SInt, SInt | UInt, UInt | Float, Float => true | _, _ => false end then Some bs else s)].
      + exists 0%nat. intros m _. rewrite <- L at 1. rewrite take_raw_map. reflexivity.
      + destruct (N.eqb_spec n' n) as [-> |]; [|left; reflexivity]. destruct c, c'; try (left; reflexivity); right; exists bs; cbn; auto.
    - intros n' vs _ Hs m s p rest (bs & L & ->). cbn [vvisit swappable] in *. apply N.eqb_eq in Hs. exists true, s. split; [|left; reflexivity].
      exists 0%nat. intros m _. unfold enum_size. rewrite <- Hs, <- L. rewrite take_raw_map. reflexivity.
    - intros sz d e IH (_ & -> & _ & _ & He) Hs m s p rest (ms & Ld & -> & Hv). cbn [vvisit].
      assert (HL := conc_len He Hv).
      destruct (@elts_moved (fun a i x y => vvisit h a e (p ++ [SElt i]) x y) (fun x => contains e x n c) true (sizeof e) ms s HL) with (i := 0) (done := @nil cell) (rest := rest) as (s' & C & M).
      { intros x a i r Hx. rewrite Forall_forall in Hv. apply (IH He Hs). apply Hv, Hx. }
      { reflexivity. }
      exists true, s'. split.
      + apply conv_bind with (a := (concat ms ++ rest, s')); [|apply conv_const]. rewrite N.add_0_l in C.
        apply (conv2_diag (f := fun a f => elts f 0 d (sizeof e) true (fun i x y => vvisit h a e (p ++ [SElt i]) x y) (concat ms ++ rest) s)). rewrite <- Ld. exact C.
      + eapply moved_impl; [|exact M]. intros bs (x & Hx & Hc). exists ms, x. auto.
    - intros k sz e IH Hw Hs m s p rest Hv. assert (Hz := wf_cont_size Hw). destruct k.
      + destruct Hv as (cap & ms & -> & Hv & C1 & C2). destruct Hw as (_ & _ & Hse & He). cbn [vvisit].
        assert (HL := conc_len He Hv).
        destruct (@elts_moved (fun a i x y => vvisit h a e (p ++ [SElt i]) x y) (fun x => contains e x n c) false (sizeof e) ms s HL) with (i := 0) (done := @nil cell) (rest := @nil cell) as (s' & C & M).
        { intros x a i r Hx. rewrite Forall_forall in Hv. apply (IH He Hs). apply Hv, Hx. }
        { reflexivity. }
        exists true, s'. split.
        * rewrite take_obj_put by assumption. cbn [bind]. unfold vec_count. destruct (N.eqb_spec (sizeof e) 0); [lia|]. cbn [bind].
          rewrite (concat_len He Hv), N.div_mul by lia.
          apply conv_bind with (a := (concat ms, s')); [|apply conv_const].
          rewrite N.add_0_l, app_nil_r in C. cbn [app] in C.
          apply (conv2_diag (f := fun a f => elts f 0 (lenN ms) (sizeof e) false (fun i x y => vvisit h a e (p ++ [SElt i]) x y) (concat ms) s)). exact C.
        * eapply moved_impl; [|exact M]. intros bs (x & Hx & Hc). exists cap, ms, x. auto.
      + destruct Hv as (bs & -> & C1). destruct Hw as (Hsz & _ & c0 & ->). cbn [vvisit].
        assert (He : wf (TNum 1 c0)) by (split; [unfold two64; simpl; lia|exact I]).
        destruct (@elts_moved (fun a i x y => vvisit h a (TNum 1 c0) (p ++ [SElt i]) x y) (fun x => contains (TNum 1 c0) x n c) false 1 (map (fun b => [B b]) bs) s) with (i := 0) (done := @nil cell) (rest := @nil cell) as (s' & C & M).
        { apply Forall_forall. intros x Hx. apply in_map_iff in Hx as (b & <- & _). reflexivity. }
        { intros x a i r Hx. apply (IH He Hs). apply in_map_iff in Hx as (b & <- & _). exists [b]. auto. }
        { reflexivity. }
        exists true, s'. split.
        * rewrite take_obj_put by assumption. cbn [bind]. apply conv_bind with (a := (map B bs, s')).
          { rewrite N.add_0_l, app_nil_r in C. cbn [app] in C. rewrite map_concat_sing in C.
            apply (conv2_diag (f := fun a f => elts f 0 (lenN bs) 1 false (fun i x y => vvisit h a (TNum 1 c0) (p ++ [SElt i]) x y) (map B bs) s)).
            replace (lenN bs) with (lenN (map (fun b => [B b]) bs)) by (unfold lenN; rewrite map_length; reflexivity). exact C. }
          exists 0%nat. intros m _.
          replace (forallb is_byte (map B bs)) with true by (symmetry; apply forallb_forall; intros x Hx; apply in_map_iff in Hx as (b & <- & _); reflexivity).
          rewrite map_map. cbn [byte_of]. rewrite map_id. reflexivity.
        * eapply moved_impl; [|exact M]. intros bs' (x & Hx & Hc). apply in_map_iff in Hx as (b & <- & Hb). exists bs, b. auto.
    - intros sz fs IH (_ & Hw) Hs m s p rest Hv. cbn [vvisit contains].
      apply (IH 0 sz Hw Hs m s p [] rest Hv eq_refl).
    - intros cur sz _ _ m s p done rest _ _. exists true, s. split; [exists 0%nat; reflexivity|left; reflexivity].
    - intros nm off t IHt r IHr cur sz (Ho & Hw & Hwr) Hs m s p done rest (pd & x & y & -> & Bp & Vx & Vy) Ld.
      cbn [swappable_fields] in Hs. apply andb_true_iff in Hs as [Hs Hs'].
      assert (Lo : lenN (done ++ pd) = off) by (rewrite lenN_app, (bytes_len Bp); lia).
      assert (Lx := proj1 valid_len t Hw _ Vx).
      destruct (IHt Hw Hs x s (p ++ [SField nm]) (y ++ rest) Vx) as (b & s1 & C1 & M1).
      destruct (IHr _ _ Hwr Hs' y s1 p ((done ++ pd) ++ x) rest Vy) as (b2 & s2 & C2 & M2); [rewrite lenN_app; lia|].
      assert (Esl : slice off (sizeof t) (done ++ pd ++ x ++ y) = x).
      { rewrite <- Lx, <- Lo, app_assoc. apply slice_app_mid. }
      exists (if b then b2 else false), (if b then s2 else s1). split.
      + cbn [vvisit_fields].
        assert (G : conv (fun f => '(b', m2, s') <- ('(b0, m', s0) <- vvisit h f t (p ++ [SField nm]) (x ++ y ++ rest) s;; Ok (b0, (done ++ pd) ++ m', s0));;
                   (if (b' : bool) then vvisit_fields h f r p m2 s' else Ok (false, m2, s')))
                  (Ok (if b then b2 else false, done ++ (pd ++ x ++ y) ++ rest, if b then s2 else s1))).
        { eapply conv_bind; [eapply conv_bind; [exact C1|apply conv_const]|]. cbn beta iota. rewrite <- !app_assoc in *. destruct b; [exact C2|apply conv_const]. }
        destruct G as [k G]. exists k. intros f Hf. specialize (G f Hf).
        destruct (N.ltb_spec (lenN (done ++ (pd ++ x ++ y) ++ rest)) off); [rewrite !lenN_app in *; lia|].
        cbn [vh_field h cast_visitor].
        replace (done ++ (pd ++ x ++ y) ++ rest) with ((done ++ pd) ++ (x ++ y ++ rest)) by (rewrite <- !app_assoc; reflexivity).
        rewrite (dropN_app_exact _ (eq_sym Lo)), (takeN_app_exact _ (eq_sym Lo)).
        replace ((done ++ pd) ++ (x ++ y ++ rest)) with (done ++ (pd ++ x ++ y) ++ rest) by (rewrite <- !app_assoc; reflexivity).
        exact G.
      + cbn [contains_field]. rewrite Esl.
        assert (Q1 : moved (fun bs => contains t x n c bs \/ contains_field r (done ++ pd ++ x ++ y) n c bs) s s1) by (eapply moved_impl; [|exact M1]; auto).
        assert (Q2 : moved (fun bs => contains t x n c bs \/ contains_field r (done ++ pd ++ x ++ y) n c bs) s1 s2).
        { eapply moved_impl; [|exact M2]. intros bs Hb. right. rewrite <- !app_assoc in Hb. exact Hb. }
        destruct b; [eapply moved_trans; eauto|exact Q1].
  Qed.
  Lemma contains_has :
    (forall t m bs, contains t m n c bs -> has_num t n c) /\
    (forall fs m bs, contains_field fs m n c bs -> has_num_field fs n c).
  Proof.
    apply ty_fields_ind; try (simpl; intros; contradiction).
    - intros n' c' m bs (H1 & H2 & _). split; assumption.
    - intros s d e IH m bs (xs & x & _ & _ & _ & _ & H). eapply IH, H.
    - intros k s e IH m bs H. destruct k; cbn [contains] in H.
      + destruct H as (cap & xs & x & _ & _ & _ & H). eapply IH, H.
      + destruct H as (ch & b & _ & _ & H). eapply IH, H.
    - intros s fs IH m bs H. eapply IH, H.
    - intros nm off t IHt r IHr m bs [H|H]; [left; eapply IHt, H|right; eapply IHr, H].
  Qed.
End Cast.

Lemma field_getter_fields name f fs p m : forall cur sz, wf_fields fs cur sz -> lenN m = sz ->
  (exists off t, first_field name fs off t /\ forall s, vvisit_fields (field_getter name) f fs p m s = Ok (false, m, Some (p ++ [SField name], off, t))) \/
  (~ In name (field_names fs) /\ forall s, vvisit_fields (field_getter name) f fs p m s = Ok (true, m, s)).
Proof.
  induction fs as [|nm off t r IH]; intros cur sz Hw L; [right; auto|]. destruct Hw as (Ho & _ & Hw). cbn [vvisit_fields field_names vh_field field_getter].
  assert (K := fields_end_ge Hw). destruct (N.ltb_spec (lenN m) off); [lia|]. unfold Graph.seqb. destruct (list_eq_dec ascii_dec nm name) as [-> |Hn].
  - left. exists off, t. split; [constructor|]. reflexivity.
  - destruct (IH _ _ Hw L) as [(o' & t' & F & E)|(Hi & E)].
    + left. exists o', t'. split; [constructor; assumption|]. intros s. cbn [bind]. apply E.
    + right. split; [intros [H0|H0]; [congruence|auto]|]. intros s. cbn [bind]. apply E.
Qed.
