(** * LayoutSpecProofs: the layouts satisfy LayoutSpec. *)
From Verif Require Import Base Types WellFormed Layout LayoutProofs LayoutMain InitProofs LayoutFinal LayoutSpec.
Local Open Scope N_scope.

Definition of_atom (a : atom) : place := match a with AByte => Data | APad => Pad | ACont k s e => Cnt k s e end.
Lemma map_repN {A C} (f : A -> C) n x : map f (repN n x) = repN n (f x).
Proof. unfold repN. induction (N.to_nat n); simpl; congruence. Qed.
Lemma map_rep_list {A C} (f : A -> C) n x : map f (rep_list n x) = times n (map f x).
Proof. unfold rep_list, times, repN. induction (N.to_nat n); simpl; [reflexivity|]. rewrite map_app. congruence. Qed.
Lemma places_atoms :
  (forall t, places t = map of_atom (tatoms t)) /\
  (forall fs cur s, places_fields fs cur s = map of_atom (atoms (rfields fs cur s))).
Proof.
  unfold tatoms. apply ty_fields_ind; simpl; intros; rewrite ?app_nil_r, ?map_app, ?map_repN, ?map_rep_list; auto.
  - rewrite H. reflexivity.
  - rewrite atoms_sapp, map_app, H, H0. reflexivity.
Qed.
Lemma norm_merged mg l : map of_atom (norm mg l) = map (merged mg) (map of_atom l).
Proof. unfold norm. rewrite !map_map. apply map_ext. intros []; simpl; auto. destruct mg; reflexivity. Qed.

Lemma flat_describes mg o : wf_out mg o -> describes mg (flat o) (map of_atom (atoms o)).
Proof.
  induction o as [|n o IH|n o IH|n b IHb o IH|k s e b IHb o IH]; cbn [wf_out flat atoms]; intros H.
  - constructor.
  - rewrite map_app, map_repN. constructor. auto.
  - rewrite map_app, map_repN. constructor. auto.
  - rewrite map_app, map_rep_list. constructor; tauto.
  - cbn [map of_atom]. destruct H as (_ & E & _ & _ & H1 & H2). constructor; [|auto].
    rewrite (proj1 places_atoms), <- norm_merged, <- E. auto.
Qed.
Lemma places_size_atoms l : places_size (map of_atom l) = asizes l.
Proof. induction l as [|a l IH]; [reflexivity|]. simpl. rewrite IH. destruct a; reflexivity. Qed.

Lemma validate_ops_flat o : forall rest i, validate_ops (flat o ++ rest) i = validate_ops rest i.
Proof.
  induction o as [|n r IH|n r IH|n b IHb r IH|k s e b IHb r IH]; intros rest i; cbn [flat app validate_ops]; auto.
  - change (decode (W FLAG_MEMCPY)) with OMem. cbv iota. apply IH.
  - change (decode (W FLAG_SKIP)) with OSkip. cbv iota. apply IH.
  - change (decode (W FLAG_ARRAY)) with OArr. cbv iota. rewrite <- app_assoc, IHb. cbn [app validate_ops].
    change (decode (W FLAG_END)) with OEnd. cbv iota. apply IH.
  - change (decode (W FLAG_CONTAINER)) with OCont. cbv iota. rewrite <- app_assoc, IHb. cbn [app validate_ops].
    change (decode (W FLAG_END)) with OEnd. cbv iota. apply IH.
Qed.
Lemma validate_init_flat o : forall fuel rest i, (length (iflat o ++ rest) < fuel)%nat -> exists f', validate_init fuel (iflat o ++ rest) i = validate_init f' rest i /\ (length rest < f')%nat.
Proof.
  induction o as [|bs r IH|n r IH|n b IHb r IH|k s e r IH]; intros fuel rest i Hf; cbn [iflat app] in *.
  - exists fuel. auto.
  - destruct fuel as [|fuel]; [simpl in Hf; lia|]. cbn [validate_init]. change (decode (W FLAG_INIT)) with OMem. cbv iota.
    rewrite <- app_assoc in *. assert (L : lenN (map W bs) = lenN bs) by (unfold lenN; rewrite map_length; reflexivity).
    rewrite lenN_app, L. destruct (N.ltb_spec (1 + (lenN bs + lenN (iflat r ++ rest))) (lenN bs)); [lia|].
    destruct (N.ltb_spec (lenN bs + lenN (iflat r ++ rest)) (lenN bs)); [lia|].
    rewrite dropN_app_exact by auto. apply IH. cbn [length] in Hf. rewrite app_length in Hf. lia.
  - destruct fuel as [|fuel]; [simpl in Hf; lia|]. cbn [validate_init]. change (decode (W FLAG_INIT_SKIP)) with OSkip. cbv iota.
    apply IH. cbn [length] in Hf. lia.
  - destruct fuel as [|fuel]; [simpl in Hf; lia|]. cbn [validate_init]. change (decode (W FLAG_INIT_REPEAT)) with OArr. cbv iota.
    rewrite <- app_assoc in *. cbn [length app] in *. destruct (IHb fuel (W FLAG_INIT_END :: iflat r ++ rest) (S i)) as (f1 & E1 & L1); [lia|].
    rewrite E1. destruct f1 as [|f1]; [simpl in L1; lia|]. cbn [validate_init]. change (decode (W FLAG_INIT_END)) with OEnd. cbv iota.
    apply IH. cbn [length] in L1. lia.
  - destruct fuel as [|fuel]; [simpl in Hf; lia|]. cbn [validate_init]. change (decode (W FLAG_INIT_CONTAINER)) with OCont. cbv iota.
    apply IH. cbn [length] in Hf. lia.
Qed.

Theorem layout_validate ap merge t l : wf t -> supported ap t = true -> layout_of ap false merge true t = Ok l -> validate l = Ok tt.
Proof.
  intros Hw Hs Hl. destruct (@layout_ok ap merge t Hw Hs) as (l' & oi & k & Hl' & E1 & E2 & _).
  rewrite Hl in Hl'. inversion Hl'; subst l'. unfold validate. rewrite E1, E2.
  rewrite <- (app_nil_r (flat _)), validate_ops_flat. cbn [validate_ops bind].
  destruct (@validate_init_flat oi (S (length (iflat oi))) [] 0) as (f' & E & L).
  - rewrite app_nil_r. lia.
  - rewrite app_nil_r in E. rewrite E. destruct f'; [simpl in L; lia|]. reflexivity.
Qed.

Theorem layout_describes ap merge t : wf t -> supported ap t = true ->
  exists l pre k, layout_of ap false merge true t = Ok l /\ places t = pre ++ repN k Pad /\
    describes merge (ops l) (map (merged merge) pre).
Proof.
  intros Hw Hs. destruct (@layout_ok ap merge t Hw Hs) as (l & oi & k & Hl & E1 & _).
  destruct (stop_ok merge Hw) as (Hwo & pre & j & A & B). exists l, (map of_atom pre), j. split; [assumption|].
  split; [rewrite (proj1 places_atoms), A, map_app, map_repN; reflexivity|].
  rewrite E1, <- norm_merged, <- B. apply flat_describes. assumption.
Qed.
Lemma places_total t : wf t -> places_size (places t) = sizeof t.
Proof. intros Hw. rewrite (proj1 places_atoms), places_size_atoms. apply (proj1 tatoms_size t Hw). Qed.

(** ** When is there a layout *)
Lemma plain_contains :
  (forall t, plain t <-> contains is_null t = false /\ contains is_opaque t = false /\ contains is_ptr t = false) /\
  (forall fs, supported_fields false fs = true <-> contains_fields is_null fs = false /\ contains_fields is_opaque fs = false /\ contains_fields is_ptr fs = false).
Proof.
  unfold plain. apply ty_fields_ind; simpl; try (intros; split; intros; repeat split; try discriminate; try reflexivity; intuition; discriminate).
  - intros n o t IHt fs IHf. rewrite andb_true_iff, !orb_false_iff, IHt, IHf. tauto.
Qed.

(** On a type with no null type inside, the visitor succeeds or throws NoLayout. *)
Lemma visit_fails :
  (forall t l, wf t -> contains is_null t = false -> supported false t = false -> visit false false t l = Throw ENoLayout) /\
  (forall fs cur s c l, wf_fields fs cur s -> contains_fields is_null fs = false -> supported_fields false fs = false -> visit_fields false false fs c l = Throw ENoLayout).
Proof.
  apply ty_fields_ind; simpl; try discriminate; auto.
  - intros s d e IH l (_ & _ & _ & _ & He) Hn Hs. rewrite IH by assumption. reflexivity.
  - intros k s e IH l Hw Hn Hs. assert (He : wf e).
    { destruct k; [tauto|]. destruct Hw as (_ & _ & c & ->). simpl. unfold two64. split; [lia|exact I]. }
    rewrite IH by assumption. reflexivity.
  - intros s fs IH l [_ Hw] Hn Hs. rewrite (IH _ _ _ _ Hw) by assumption. reflexivity.
  - intros n o t IHt fs IHf cur s c l (H1 & H2 & H3) Hn Hs. apply orb_false_iff in Hn. destruct Hn as [Hn1 Hn2].
    destruct (supported false t) eqn:Et; cbn [andb] in Hs.
    + destruct (proj1 visit_rops t H2 false (push_skip (wsub o c) l) Et) as [io E]. rewrite E. cbn [bind].
      apply (IHf _ _ _ _ H3 Hn2 Hs).
    + rewrite IHt by assumption. reflexivity.
Qed.
Lemma visit_ok_supported :
  (forall t ap l l', visit ap false t l = Ok l' -> supported ap t = true) /\
  (forall fs ap c l l', visit_fields ap false fs c l = Ok l' -> supported_fields ap fs = true).
Proof.
  apply ty_fields_ind; simpl; intros; auto; try discriminate.
  - destruct ap; [reflexivity|discriminate].
  - destruct (visit false false elt empty_layout) eqn:E; simpl in *; try discriminate. eauto.
  - destruct (visit false false elt empty_layout) eqn:E; simpl in *; try discriminate. eauto.
  - destruct (visit_fields ap false fs 0 l) as [[? ?]| | |] eqn:E; simpl in *; try discriminate. eauto.
  - destruct (visit ap false t (push_skip (wsub off c) l)) eqn:E; simpl in *; try discriminate. rewrite (H _ _ _ E). simpl. eauto.
Qed.

Theorem layout_exists ap merge t : wf t -> ((exists l, layout_of ap false merge true t = Ok l) <-> supported ap t = true).
Proof.
  intros Hw. split.
  - intros [l H]. unfold layout_of, raw_layout_of in H. destruct (visit ap false t empty_layout) eqn:E; simpl in H; try discriminate.
    eapply (proj1 visit_ok_supported); eauto.
  - intros Hs. destruct (@layout_ok ap merge t Hw Hs) as (l & oi & k & Hl & _). eauto.
Qed.
Theorem layout_fails merge rts t : wf t -> contains is_null t = false -> contains is_opaque t || contains is_ptr t = true ->
  layout_of false false merge rts t = Throw ENoLayout.
Proof.
  intros Hw Hn Hp. unfold layout_of, raw_layout_of. rewrite (proj1 visit_fails t); auto.
  destruct (supported false t) eqn:E; [|reflexivity]. exfalso.
  apply (proj1 plain_contains t) in E. destruct E as (_ & E1 & E2). rewrite E1, E2 in Hp. discriminate.
Qed.
