(** * GraphProofs: comparison of type objects. *)
From Verif Require Import Base Types Graph GraphSpec.
Local Open Scope N_scope.

Lemma seqb_eq a b : seqb a b = true <-> a = b.
Proof. unfold seqb. destruct (list_eq_dec ascii_dec a b); split; congruence. Qed.
Lemma seqb_refl a : seqb a a = true.
Proof. apply seqb_eq. reflexivity. Qed.
Lemma ncat_eqb_eq a b : ncat_eqb a b = true <-> a = b.
Proof. destruct a, b; simpl; split; congruence. Qed.
Lemma ckind_eqb_eq a b : ckind_eqb a b = true <-> a = b.
Proof. destruct a, b; simpl; split; congruence. Qed.
Lemma values_eqb_eq a : forall b, values_eqb a b = true <-> a = b.
Proof.
  induction a as [|[x v] a IH]; intros [|[y w] b]; simpl; try (split; congruence).
  rewrite !andb_true_iff, seqb_eq, Z.eqb_eq, IH. split; [intros [[-> ->] ->]; reflexivity|intros E; inversion E; auto].
Qed.

(** ** Structural equality *)
Lemma Forall2_impl A B (P Q : A -> B -> Prop) l m : (forall x y, P x y -> Q x y) -> Forall2 P l m -> Forall2 Q l m.
Proof. intros Hi. induction 1; constructor; auto. Qed.
Lemma node_mono H (R S : tid -> tid -> Prop) l r : (forall x y, R x y -> S x y) -> node H R l r -> node H S l r.
Proof.
  intros HRS [Hs Hk]. split; [assumption|]. destruct (o_kind (H l)), (o_kind (H r)); try assumption; try (apply HRS; assumption); try (destruct Hk; split; auto; fail).
  eapply Forall2_impl; [|exact Hk]. intros x y (A & B & C). auto.
Qed.
Lemma node_refl H (R : tid -> tid -> Prop) l : (forall x, R x x) -> node H R l l.
Proof.
  intros HR. split; [reflexivity|]. destruct (o_kind (H l)); auto. induction fs; constructor; auto.
Qed.
Lemma Forall2_flip_ A B (P : A -> B -> Prop) l m : Forall2 P l m -> Forall2 (fun y x => P x y) m l.
Proof. induction 1; constructor; auto. Qed.
Lemma node_sym H (R : tid -> tid -> Prop) l r : node H R l r -> node H (fun x y => R y x) r l.
Proof.
  intros [Hs Hk]. split; [congruence|]. destruct (o_kind (H l)), (o_kind (H r)); try assumption; try contradiction; try congruence; try (destruct Hk; split; auto; fail).
  apply Forall2_flip_ in Hk. eapply Forall2_impl; [|exact Hk]. cbn beta. intros x y (A & B & C). auto.
Qed.
Lemma Forall2_comp A (P Q : A -> A -> Prop) l m n : Forall2 P l m -> Forall2 Q m n -> Forall2 (fun x z => exists y, P x y /\ Q y z) l n.
Proof. intros H1. revert n. induction H1; intros n H2; inversion H2; subst; constructor; eauto. Qed.
Lemma node_trans H (R S : tid -> tid -> Prop) a b c : node H R a b -> node H S b c -> node H (fun x z => exists y, R x y /\ S y z) a c.
Proof.
  intros [Hs Hk] [Hs' Hk']. split; [congruence|].
  destruct (o_kind (H a)), (o_kind (H b)); try contradiction; destruct (o_kind (H c)); try contradiction; try congruence; auto;
    try (destruct Hk, Hk'; split; [congruence|eauto]; fail); eauto.
  eapply Forall2_impl; [|eapply Forall2_comp; eassumption]. cbn beta. intros x z (y & (A & B & C) & (A' & B' & C')). repeat split; try congruence. eauto.
Qed.
Lemma same_node H a b : struct_same H a b -> node H (struct_same H) a b.
Proof. intros (R & HR & Hn). eapply node_mono; [|apply Hn; exact HR]. intros x y Hxy. exists R. auto. Qed.
Lemma same_refl H a : struct_same H a a.
Proof. exists eq. split; [reflexivity|]. intros l r ->. apply node_refl. reflexivity. Qed.
Lemma same_sym H a b : struct_same H a b -> struct_same H b a.
Proof. intros (R & HR & Hn). exists (fun x y => R y x). split; [assumption|]. intros l r Hr. apply node_sym. auto. Qed.
Lemma same_trans H a b c : struct_same H a b -> struct_same H b c -> struct_same H a c.
Proof.
  intros (R & HR & Hn) (S & HS & Hm). exists (fun x z => exists y, R x y /\ S y z). split; [eauto|].
  intros l r (y & A & B). eapply node_trans; eauto.
Qed.

(** ** Termination *)
Definition keys (st : stack) : list tid := map fst st.
Lemma lookup_None l st : lookup l st = None <-> ~ In l (keys st).
Proof.
  induction st as [|[x y] st IH]; cbn [lookup keys map fst]; [split; auto|]. destruct (Nat.eqb_spec x l) as [E|E].
  - split; [discriminate|]. intros H. exfalso. apply H. left. assumption.
  - rewrite IH. cbn [In]. tauto.
Qed.
Lemma lookup_In l x st : lookup l st = Some x -> In (l, x) st.
Proof.
  induction st as [|[a b] st IH]; cbn [lookup]; [discriminate|]. destruct (Nat.eqb_spec a l) as [E|E]; [intros H; inversion H; subst; left; reflexivity|right; auto].
Qed.
Definition todo (dom : list tid) (st : stack) : nat := length (filter (fun x => negb (existsb (Nat.eqb x) (keys st))) dom).
Lemma existsb_In x l : existsb (Nat.eqb x) l = true <-> In x l.
Proof. rewrite existsb_exists. split; [intros (y & A & B); apply Nat.eqb_eq in B; subst; assumption|intros H; exists x; rewrite Nat.eqb_refl; auto]. Qed.
Lemma filter_le A (f g : A -> bool) l : (forall x, f x = true -> g x = true) -> (length (filter f l) <= length (filter g l))%nat.
Proof. intros H. induction l as [|x l IH]; simpl; [lia|]. destruct (f x) eqn:E; [rewrite (H _ E); simpl; lia|]. destruct (g x); simpl; lia. Qed.
Lemma left_mono dom st st' : incl (keys st) (keys st') -> (todo dom st' <= todo dom st)%nat.
Proof.
  intros Hi. apply filter_le. intros x. rewrite !negb_true_iff. intros E. destruct (existsb (Nat.eqb x) (keys st)) eqn:E2; [|reflexivity].
  apply existsb_In in E2. apply Hi in E2. apply existsb_In in E2. congruence.
Qed.
Lemma left_push dom st l r : In l dom -> ~ In l (keys st) -> (todo dom ((l, r) :: st) < todo dom st)%nat.
Proof.
  intros Hd Hn. unfold todo. cbn [keys map fst existsb]. fold (keys st). induction dom as [|x dom IH]; [destruct Hd|]. cbn [filter].
  assert (Hle : (length (filter (fun x => negb ((x =? l)%nat || existsb (Nat.eqb x) (keys st))) dom) <= length (filter (fun x => negb (existsb (Nat.eqb x) (keys st))) dom))%nat).
  { apply filter_le. intros y. rewrite !negb_true_iff, orb_false_iff. tauto. }
  destruct (Nat.eq_dec x l) as [-> |E].
  - rewrite Nat.eqb_refl. cbn [orb negb]. replace (existsb (Nat.eqb l) (keys st)) with false; [cbn [negb length]; lia|].
    symmetry. destruct (existsb (Nat.eqb l) (keys st)) eqn:E; [|reflexivity]. apply existsb_In in E. contradiction.
  - destruct Hd as [Hd|Hd]; [contradiction|]. specialize (IH Hd). destruct (Nat.eqb_spec x l); [contradiction|]. cbn [orb].
    destruct (existsb (Nat.eqb x) (keys st)); cbn [negb length]; lia.
Qed.

Lemma terminates H dom root : finite_graph H dom root -> forall f l r eq st, reaches H root l -> (todo dom st < f)%nat ->
  exists b st', do_compare f H l r eq st = Ok (b, st') /\ incl (keys st) (keys st').
Proof.
  intros Hd. induction f as [|f IH]; intros l r eq st Hl Hf; [lia|].
  assert (Hrec : forall x y e st0, In x (dependsOn H l) -> (todo dom st0 <= todo dom st)%nat -> exists b st', rec_compare (do_compare f H) x y e st0 = Ok (b, st') /\ incl (keys st0) (keys st')).
  { intros x y e st0 Hx Hst. unfold rec_compare. destruct (x =? y)%nat; [eexists _, _; split; [reflexivity|apply incl_refl]|].
    destruct (lookup x st0) eqn:El; [eexists _, _; split; [reflexivity|apply incl_refl]|].
    apply lookup_None in El. assert (Hx' : reaches H root x) by (eapply reaches_step; eauto).
    destruct (IH x y e ((x, y) :: st0) Hx') as (b & st' & E & Hi); [assert (X := left_push y (Hd _ Hx') El); lia|].
    exists b, st'. split; [assumption|]. intros z Hz. apply Hi. right. assumption. }
  cbn [do_compare]. cbv zeta. unfold dependsOn in Hrec.
  destruct (o_kind (H l)) as [| |c|v|x|d x|k x|fs] eqn:Ek; try (eexists _, _; split; [reflexivity|apply incl_refl]).
  - destruct (base_compare (H l) (H r)) eqn:Eb; cbn [negb]; [|eexists _, _; split; [reflexivity|apply incl_refl]].
    unfold base_compare in Eb. rewrite Ek in Eb. destruct (o_kind (H r)); cbn in Eb; rewrite ?andb_false_r in Eb; try discriminate.
    eexists _, _; split; [reflexivity|apply incl_refl].
  - destruct (base_compare (H l) (H r)) eqn:Eb; cbn [negb]; [|eexists _, _; split; [reflexivity|apply incl_refl]].
    unfold base_compare in Eb. rewrite Ek in Eb. destruct (o_kind (H r)); cbn in Eb; rewrite ?andb_false_r in Eb; try discriminate.
    apply Hrec; [left; reflexivity|lia].
  - destruct (base_compare (H l) (H r)) eqn:Eb; cbn [negb]; [|eexists _, _; split; [reflexivity|apply incl_refl]].
    unfold base_compare in Eb. rewrite Ek in Eb. destruct (o_kind (H r)); cbn in Eb; rewrite ?andb_false_r in Eb; try discriminate.
    destruct (d =? dim); [|eexists _, _; split; [reflexivity|apply incl_refl]]. apply Hrec; [left; reflexivity|lia].
  - destruct (base_compare (H l) (H r)) eqn:Eb; cbn [negb]; [|eexists _, _; split; [reflexivity|apply incl_refl]].
    unfold base_compare in Eb. rewrite Ek in Eb. destruct (o_kind (H r)); cbn in Eb; rewrite ?andb_false_r in Eb; try discriminate.
    destruct (ckind_eqb k k0); [|eexists _, _; split; [reflexivity|apply incl_refl]]. apply Hrec; [left; reflexivity|lia].
  - destruct (o_kind (H r)) as [| | | | | | |gs]; try (eexists _, _; split; [reflexivity|apply incl_refl]).
    destruct (_ && _); [eexists _, _; split; [reflexivity|apply incl_refl]|].
    destruct (Nat.eqb_spec (length fs) (length gs)) as [El|El]; cbn [negb]; [|eexists _, _; split; [reflexivity|apply incl_refl]].
    assert (K : forall fs' gs' st0, incl fs' fs -> length fs' = length gs' -> incl (keys st) (keys st0) ->
      exists b st', fields_compare (fun x y st => rec_compare (do_compare f H) x y eq st) fs' gs' st0 = Ok (b, st') /\ incl (keys st0) (keys st')).
    { induction fs' as [|x fs' IHf]; intros [|y gs'] st0 Hi Hlen Hk; try discriminate; cbn [fields_compare]; [eexists _, _; split; [reflexivity|apply incl_refl]|].
      destruct (_ || _); [eexists _, _; split; [reflexivity|apply incl_refl]|].
      destruct (Hrec (f_type x) (f_type y) eq st0) as (b & st' & E & Hi'); [apply in_map; apply Hi; left; reflexivity|apply left_mono; assumption|].
      rewrite E. cbn [bind]. destruct b; [|eexists _, _; split; [reflexivity|assumption]].
      destruct (IHf gs' st') as (b & st2 & E2 & Hi2); [intros z Hz; apply Hi; right; assumption|injection Hlen; auto|eapply incl_tran; eauto|].
      exists b, st2. split; [assumption|eapply incl_tran; eauto]. }
    apply K; [apply incl_refl|assumption|apply incl_refl].
Qed.
Lemma filter_length_le A (f : A -> bool) l : (length (filter f l) <= length l)%nat.
Proof. induction l as [|x l IH]; simpl; [lia|]. destruct (f x); simpl; lia. Qed.
Theorem compare_terminates H dom a b eq : finite_graph H dom a -> forall f, (length dom < f)%nat -> exists v, compare_types f H a b eq = Ok v.
Proof.
  intros Hd f Hf. unfold compare_types. destruct (a =? b)%nat; [eauto|].
  destruct (@terminates H dom a Hd f a b eq [(a, b)] (reaches_refl H a)) as (v & st' & E & _).
  - unfold todo. eapply Nat.le_lt_trans; [apply filter_length_le|assumption].
  - rewrite E. cbn [bind]. eauto.
Qed.

(** ** Soundness: what isSame accepts is structurally equal *)
Definition rel (st : stack) (x y : tid) : Prop := x = y \/ In (x, y) st.
Lemma rel_mono st st' x y : incl st st' -> rel st x y -> rel st' x y.
Proof. intros Hi [E|E]; [left; assumption|right; auto]. Qed.
Definition grown (H : heap) (st st' : stack) : Prop := incl st st' /\ forall l r, In (l, r) st' -> In (l, r) st \/ node H (rel st') l r.
Lemma grown_trans H a b c : grown H a b -> grown H b c -> grown H a c.
Proof.
  intros [A1 A2] [B1 B2]. split; [eapply incl_tran; eauto|]. intros l r Hi. destruct (B2 _ _ Hi) as [Hb|Hb]; [|right; assumption].
  destruct (A2 _ _ Hb) as [Ha|Ha]; [left; assumption|right]. eapply node_mono; [|exact Ha]. intros x y. apply rel_mono. assumption.
Qed.
Lemma sound H : forall f l r st st', do_compare f H l r true st = Ok (true, st') -> grown H st st' /\ node H (rel st') l r.
Proof.
  induction f as [|f IH]; intros l r st st' E; [discriminate|].
  assert (G0 : grown H st st) by (split; [apply incl_refl|auto]).
  assert (Hrec : forall x y st0 st1, rec_compare (do_compare f H) x y true st0 = Ok (true, st1) -> grown H st0 st1 /\ rel st1 x y).
  { intros x y st0 st1. unfold rec_compare. destruct (Nat.eqb_spec x y) as [-> |Hne]; [intros E0; inversion E0; subst; split; [split; [apply incl_refl|auto]|left; reflexivity]|].
    destruct (lookup x st0) eqn:El.
    - intros E0. inversion E0 as [[Ey Es]]. subst st1. apply Nat.eqb_eq in Ey. subst t. apply lookup_In in El. split; [split; [apply incl_refl|auto]|right; assumption].
    - intros E0. apply IH in E0. destruct E0 as [[G1 G2] Hn]. split.
      + split; [intros p Hp; apply G1; right; assumption|]. intros a b Hi. destruct (G2 _ _ Hi) as [[Eab|Hs]|Hs]; auto. inversion Eab; subst. right. assumption.
      + right. apply G1. left. reflexivity. }
  cbn [do_compare] in E. cbv zeta in E. unfold node.
  destruct (o_kind (H l)) as [| |c|v|x|d x|k x|fs] eqn:Ek.
  - inversion E as [[E1 E2]]. unfold base_compare in E1. rewrite Ek in E1. apply andb_true_iff in E1. destruct E1 as [E1 E3]. apply N.eqb_eq in E1. subst st'.
    split; [assumption|split; [assumption|]]. destruct (o_kind (H r)); try discriminate; exact I.
  - inversion E as [[E1 E2]]. unfold base_compare in E1. rewrite Ek in E1. rewrite !andb_true_iff, seqb_eq in E1. destruct E1 as [[E1 E3] E4]. apply N.eqb_eq in E1. subst st'.
    split; [assumption|split; [assumption|]]. destruct (o_kind (H r)); try discriminate; assumption.
  - inversion E as [[E1 E2]]. unfold base_compare in E1. rewrite !andb_true_iff in E1. destruct E1 as [[E1 E3] E4]. apply N.eqb_eq in E1. subst st'.
    split; [assumption|split; [assumption|]]. destruct (o_kind (H r)); try discriminate. apply ncat_eqb_eq. assumption.
  - destruct (base_compare (H l) (H r)) eqn:Eb; cbn [negb] in E; [|discriminate]. unfold base_compare in Eb. apply andb_true_iff in Eb. destruct Eb as [Eb _]. apply N.eqb_eq in Eb.
    destruct (o_kind (H r)); try discriminate. inversion E as [[E1 E2]]. subst st'. apply values_eqb_eq in E1. auto.
  - destruct (base_compare (H l) (H r)) eqn:Eb; cbn [negb] in E; [|discriminate]. unfold base_compare in Eb. apply andb_true_iff in Eb. destruct Eb as [Eb _]. apply N.eqb_eq in Eb.
    destruct (o_kind (H r)); try discriminate. apply Hrec in E. tauto.
  - destruct (base_compare (H l) (H r)) eqn:Eb; cbn [negb] in E; [|discriminate]. unfold base_compare in Eb. apply andb_true_iff in Eb. destruct Eb as [Eb _]. apply N.eqb_eq in Eb.
    destruct (o_kind (H r)); try discriminate. destruct (N.eqb_spec d dim); [|discriminate]. apply Hrec in E. tauto.
  - destruct (base_compare (H l) (H r)) eqn:Eb; cbn [negb] in E; [|discriminate]. unfold base_compare in Eb. apply andb_true_iff in Eb. destruct Eb as [Eb _]. apply N.eqb_eq in Eb.
    destruct (o_kind (H r)); try discriminate. destruct (ckind_eqb k k0) eqn:Ekk; [|discriminate]. apply ckind_eqb_eq in Ekk. apply Hrec in E. tauto.
  - destruct (o_kind (H r)) as [| | | | | | |gs]; try discriminate. cbn [andb] in E.
    destruct (base_compare (H l) (H r)) eqn:Eb; cbn [negb] in E; [|discriminate]. unfold base_compare in Eb. apply andb_true_iff in Eb. destruct Eb as [Eb _]. apply N.eqb_eq in Eb.
    destruct (Nat.eqb_spec (length fs) (length gs)) as [El|El]; cbn [negb] in E; [|discriminate].
    assert (K : forall fs gs st0 st1, length fs = length gs -> fields_compare (fun x y st => rec_compare (do_compare f H) x y true st) fs gs st0 = Ok (true, st1) ->
      grown H st0 st1 /\ Forall2 (fun x y => f_name x = f_name y /\ f_off x = f_off y /\ rel st1 (f_type x) (f_type y)) fs gs).
    { clear fs gs Ek E El. induction fs as [|x fs IHf]; intros [|y gs] st0 st1 Hlen E; try discriminate; cbn [fields_compare] in E.
      - inversion E; subst. split; [split; [apply incl_refl|auto]|constructor].
      - destruct (negb (seqb (f_name x) (f_name y)) || negb (f_off x =? f_off y)) eqn:Ef; [discriminate|].
        apply orb_false_iff in Ef. destruct Ef as [Ef1 Ef2]. apply negb_false_iff in Ef1, Ef2. apply seqb_eq in Ef1. apply N.eqb_eq in Ef2.
        destruct (rec_compare (do_compare f H) (f_type x) (f_type y) true st0) as [[b st2]| | |] eqn:Er; try discriminate. cbn [bind] in E.
        destruct b; [|discriminate]. apply Hrec in Er. destruct Er as [G1 R1]. destruct (IHf gs st2 st1 ltac:(injection Hlen; auto) E) as [G2 F2].
        split; [eapply grown_trans; eauto|]. constructor; [|assumption]. repeat split; auto. eapply rel_mono; [apply G2|assumption]. }
    destruct (K fs gs st st' El E) as [G F]. auto.
Qed.
Theorem isSame_sound f H a b : isSame f H a b = Ok true -> struct_same H a b.
Proof.
  unfold isSame, compare_types. destruct (Nat.eqb_spec a b) as [-> |Hne]; [intros _; apply same_refl|].
  destruct (do_compare f H a b true [(a, b)]) as [[v st']| | |] eqn:E; try discriminate. cbn [bind]. intros Ev. inversion Ev; subst v.
  apply sound in E. destruct E as [[G1 G2] Hn]. exists (rel st'). split; [right; apply G1; left; reflexivity|].
  intros l r [-> |Hi]; [apply node_refl; intros; left; reflexivity|]. destruct (G2 _ _ Hi) as [[E|[]]|E]; [|assumption]. inversion E; subst. assumption.
Qed.

(** ** Completeness *)
Section complete.
  Variable H : heap.
  Variable F : tid -> tid -> Prop.
  Hypothesis functional : forall l r r', F l r -> F l r' -> r = r'.
  Hypothesis bisim : forall l r, F l r -> node H (fun x y => x = y \/ F x y) l r.
  Lemma base_node (R : tid -> tid -> Prop) l r : node H R l r -> base_compare (H l) (H r) = true.
  Proof.
    intros [Hs Hk]. unfold base_compare. rewrite Hs, N.eqb_refl. cbn [andb]. destruct (o_kind (H l)), (o_kind (H r)); try contradiction; reflexivity.
  Qed.
  Lemma complete : forall f l r st v st', F l r -> (forall x y, In (x, y) st -> F x y) -> do_compare f H l r true st = Ok (v, st') ->
    v = true /\ (forall x y, In (x, y) st' -> F x y).
  Proof.
    induction f as [|f IH]; intros l r st v st' Hlr Hst E; [discriminate|].
    assert (Hrec : forall x y st0 v st1, x = y \/ F x y -> (forall x y, In (x, y) st0 -> F x y) -> rec_compare (do_compare f H) x y true st0 = Ok (v, st1) ->
      v = true /\ (forall x y, In (x, y) st1 -> F x y)).
    { intros x y st0 v0 st1 Hxy Hst0. unfold rec_compare. destruct (Nat.eqb_spec x y) as [-> |Hne]; [intros E0; inversion E0; subst; auto|].
      destruct Hxy as [Hxy|Hxy]; [contradiction|]. destruct (lookup x st0) eqn:El.
      - intros E0. inversion E0; subst. apply lookup_In in El. apply Hst0 in El. rewrite (functional Hxy El), Nat.eqb_refl. auto.
      - apply IH; [assumption|]. intros a b [Eab|Hi]; [inversion Eab; subst; assumption|auto]. }
    assert (Hn := bisim Hlr). assert (Hb := base_node Hn). destruct Hn as [_ Hk].
    cbn [do_compare] in E. cbv zeta in E. rewrite Hb in E. cbn [negb andb] in E.
    destruct (o_kind (H l)) as [| |c|w|x|d x|k x|fs], (o_kind (H r)) as [| |c'|w'|y|d' y|k' y|gs]; try contradiction.
    - inversion E; subst. auto.
    - rewrite Hk, seqb_refl in E. inversion E; subst. auto.
    - subst c'. replace (ncat_eqb c c) with true in E by (destruct c; reflexivity). inversion E; subst. auto.
    - subst w'. inversion E; subst. split; [apply values_eqb_eq; reflexivity|assumption].
    - eapply Hrec; eauto.
    - destruct Hk as [-> Hk]. rewrite N.eqb_refl in E. eapply Hrec; eauto.
    - destruct Hk as [-> Hk]. replace (ckind_eqb k' k') with true in E by (destruct k'; reflexivity). eapply Hrec; eauto.
    - assert (El : length fs = length gs) by (clear -Hk; induction Hk; simpl; congruence). rewrite El, Nat.eqb_refl in E. cbn [negb] in E.
      clear Hb El. revert st v st' Hst E. induction Hk as [|x y fs gs (A & B & C) Hk IHf]; intros st v st' Hst E; cbn [fields_compare] in E.
      + inversion E; subst. auto.
      + rewrite A, seqb_refl, B, N.eqb_refl in E. cbn [negb orb] in E.
        destruct (rec_compare (do_compare f H) (f_type x) (f_type y) true st) as [[b st2]| | |] eqn:Er; try discriminate. cbn [bind] in E.
        apply Hrec in Er; auto. destruct Er as [-> Hst2]. eapply IHf; eauto.
  Qed.
End complete.
Theorem isSame_complete_functional H dom a b (F : tid -> tid -> Prop) : finite_graph H dom a -> F a b ->
  (forall l r r', F l r -> F l r' -> r = r') -> (forall l r, F l r -> node H (fun x y => x = y \/ F x y) l r) ->
  conv (fun f => isSame f H a b) (Ok true).
Proof.
  intros Hd Hab Hf Hb. exists (S (length dom)). intros f Hle. destruct (@compare_terminates H dom a b true Hd f ltac:(lia)) as [v E]. unfold isSame. rewrite E. f_equal.
  unfold compare_types in E. destruct (a =? b)%nat; [inversion E; reflexivity|].
  destruct (do_compare f H a b true [(a, b)]) as [[v' st']| | |] eqn:Ec; try discriminate. cbn [bind] in E. inversion E; subst v'.
  eapply complete in Ec; eauto; [tauto|]. intros x y [Exy|[]]. inversion Exy; subst; assumption.
Qed.
Lemma reaches_trans H a b c : reaches H a b -> reaches H b c -> reaches H a c.
Proof. intros H1 H2. induction H2; [assumption|]. eapply reaches_step; eauto. Qed.
Lemma node_deps H (R : tid -> tid -> Prop) l r : node H R l r -> node H (fun x y => R x y /\ In x (dependsOn H l) /\ In y (dependsOn H r)) l r.
Proof.
  intros [Hs Hk]. split; [assumption|]. unfold dependsOn. destruct (o_kind (H l)) as [| |c|w|x|d x|k x|fs] eqn:El, (o_kind (H r)) as [| |c'|w'|y|d' y|k' y|fs1] eqn:Er; try assumption; try contradiction;
    try (repeat split; simpl; auto; fail); try (destruct Hk; repeat split; simpl; auto; fail).
  assert (K : forall fs0 gs0, incl fs fs0 -> incl fs1 gs0 -> Forall2 (fun x y => f_name x = f_name y /\ f_off x = f_off y /\ R (f_type x) (f_type y) /\ In (f_type x) (map f_type fs0) /\ In (f_type y) (map f_type gs0)) fs fs1).
  { clear El Er. induction Hk as [|x y fs gs (A & B & C) Hk IH]; intros fs0 gs0 I1 I2; constructor.
    - repeat split; auto; apply in_map; [apply I1|apply I2]; left; reflexivity.
    - apply IH; intros z Hz; [apply I1|apply I2]; right; assumption. }
  apply K; apply incl_refl.
Qed.
Theorem isSame_complete H dom a b : finite_graph H dom a -> canonical H b -> struct_same H a b -> conv (fun f => isSame f H a b) (Ok true).
Proof.
  intros Hd Hc Hab. apply (@isSame_complete_functional H dom a b (fun l r => reaches H a l /\ reaches H b r /\ struct_same H l r)); auto.
  - repeat split; auto; apply reaches_refl.
  - intros l r r' (_ & R1 & S1) (_ & R2 & S2). apply Hc; auto. eapply same_trans; [apply same_sym; exact S1|exact S2].
  - intros l r (L1 & R1 & S1). apply same_node in S1. apply node_deps in S1. eapply node_mono; [|exact S1]. cbn beta.
    intros x y (A & B & C). right. repeat split; auto; eapply reaches_step; eauto.
Qed.

(** ** isSame implies canCastTo *)
Lemma value_find_In l n v : NoDup (map fst l) -> In (n, v) l -> value_find n l = Some v.
Proof.
  induction l as [|[x w] l IH]; intros Hn Hi; [destruct Hi|]. cbn [value_find]. inversion Hn; subst. destruct (seqb x n) eqn:E.
  - apply seqb_eq in E. subst x. destruct Hi as [Hi|Hi]; [inversion Hi; reflexivity|]. exfalso. apply H1. apply (in_map fst) in Hi. assumption.
  - destruct Hi as [Hi|Hi]; [inversion Hi; subst; rewrite seqb_refl in E; discriminate|]. auto.
Qed.
Lemma enum_sub v : NoDup (map fst v) -> enum_compare v v false = true.
Proof.
  intros Hn. unfold enum_compare. rewrite Nat.ltb_irrefl. apply forallb_forall. intros [n w] Hi. cbn [fst snd]. rewrite (value_find_In Hn Hi). apply Z.eqb_refl.
Qed.
Lemma cast H : enums_ok H -> forall f l r st st', do_compare f H l r true st = Ok (true, st') -> do_compare f H l r false st = Ok (true, st').
Proof.
  intros He. induction f as [|f IH]; intros l r st st' E; [discriminate|].
  assert (Hrec : forall x y st0 st1, rec_compare (do_compare f H) x y true st0 = Ok (true, st1) -> rec_compare (do_compare f H) x y false st0 = Ok (true, st1)).
  { intros x y st0 st1. unfold rec_compare. destruct (x =? y)%nat; auto. destruct (lookup x st0); auto. }
  cbn [do_compare] in *. cbv zeta in *.
  destruct (o_kind (H l)) as [| |c|v|x|d x|k x|fs] eqn:Ek; try assumption.
  - destruct (negb _); [assumption|]. destruct (o_kind (H r)); try assumption. inversion E as [[E1 E2]]. apply values_eqb_eq in E1. subst. rewrite enum_sub; [rewrite (proj2 (values_eqb_eq _ _) eq_refl); reflexivity|exact (He l _ Ek)].
  - destruct (negb _); [assumption|]. destruct (o_kind (H r)); auto.
  - destruct (o_kind (H r)) as [| | | | | | |gs]; try assumption. cbn [andb] in *. destruct (negb (base_compare _ _)); [discriminate|]. destruct (negb _); [assumption|].
    clear Ek. revert gs st st' E. induction fs as [|x fs IHf]; intros [|y gs] st st' E; cbn [fields_compare] in *; try assumption.
    destruct (_ || _); [assumption|].
    destruct (rec_compare (do_compare f H) (f_type x) (f_type y) true st) as [[b st2]| | |] eqn:Er; try discriminate. cbn [bind] in E.
    destruct b; [|discriminate]. apply Hrec in Er. rewrite Er. cbn [bind]. apply IHf. assumption.
Qed.
Theorem isSame_canCastTo H a b f : enums_ok H -> isSame f H a b = Ok true -> canCastTo f H a b = Ok true.
Proof.
  intros He. unfold isSame, canCastTo, compare_types. destruct (a =? b)%nat; [auto|].
  destruct (do_compare f H a b true [(a, b)]) as [[v st']| | |] eqn:E; try discriminate. cbn [bind]. intros Ev. inversion Ev; subst v.
  apply (cast He) in E. rewrite E. reflexivity.
Qed.

(** ** Exact characterization *)
Lemma NoDup_functional (st : stack) l r r' : NoDup (keys st) -> In (l, r) st -> In (l, r') st -> r = r'.
Proof.
  induction st as [|[x y] st IH]; intros Hn H1 H2; [destruct H1|]. inversion Hn as [|? ? Hx Hn']; subst.
  destruct H1 as [H1|H1], H2 as [H2|H2].
  - congruence.
  - inversion H1; subst. exfalso. apply Hx. apply (in_map fst) in H2. exact H2.
  - inversion H2; subst. exfalso. apply Hx. apply (in_map fst) in H1. exact H1.
  - auto.
Qed.
Lemma compare_NoDup H : forall f l r eq st v st', do_compare f H l r eq st = Ok (v, st') -> NoDup (keys st) -> NoDup (keys st').
Proof.
  induction f as [|f IH]; intros l r eq st v st' E Hn; [discriminate|].
  assert (Hrec : forall x y e st0 v0 st1, rec_compare (do_compare f H) x y e st0 = Ok (v0, st1) -> NoDup (keys st0) -> NoDup (keys st1)).
  { intros x y e st0 v0 st1. unfold rec_compare. destruct (x =? y)%nat; [intros E0; inversion E0; subst; auto|].
    destruct (lookup x st0) eqn:El; [intros E0; inversion E0; subst; auto|]. intros E0 Hn0. apply IH in E0; [assumption|].
    cbn [keys map fst]. constructor; [apply lookup_None; assumption|assumption]. }
  cbn [do_compare] in E. cbv zeta in E.
  destruct (o_kind (H l)) as [| |c|w|x|d x|k x|fs]; try (inversion E; subst; assumption).
  - destruct (negb _); [inversion E; subst; assumption|]. destruct (o_kind (H r)); try discriminate. inversion E; subst; assumption.
  - destruct (negb _); [inversion E; subst; assumption|]. destruct (o_kind (H r)); try discriminate. eauto.
  - destruct (negb _); [inversion E; subst; assumption|]. destruct (o_kind (H r)); try discriminate. destruct (d =? dim); [eauto|inversion E; subst; assumption].
  - destruct (negb _); [inversion E; subst; assumption|]. destruct (o_kind (H r)) as [| | | | | |k' y|]; try discriminate. destruct (ckind_eqb k k'); [eauto|inversion E; subst; assumption].
  - destruct (o_kind (H r)) as [| | | | | | |gs]; try (inversion E; subst; assumption).
    destruct (eq && _); [inversion E; subst; assumption|]. destruct (negb _); [inversion E; subst; assumption|].
    revert gs st v st' E Hn. induction fs as [|x fs IHf]; intros [|y gs] st v st' E Hn; cbn [fields_compare] in E; try discriminate; try (inversion E; subst; assumption).
    destruct (_ || _); [inversion E; subst; assumption|].
    destruct (rec_compare (do_compare f H) (f_type x) (f_type y) eq st) as [[b st2]| | |] eqn:Er; try discriminate. cbn [bind] in E.
    apply Hrec in Er; [|assumption]. destruct b; [eauto|inversion E; subst; assumption].
Qed.
Theorem isSame_functional H dom a b : finite_graph H dom a ->
  conv (fun f => isSame f H a b) (Ok true) <->
  a = b \/ exists F : tid -> tid -> Prop, F a b /\ (forall l r r', F l r -> F l r' -> r = r') /\ (forall l r, F l r -> node H (fun x y => x = y \/ F x y) l r).
Proof.
  intros Hd. split.
  - intros [n Hc]. specialize (Hc n (Nat.le_refl n)). unfold isSame, compare_types in Hc. destruct (Nat.eqb_spec a b) as [E|Hne]; [left; assumption|right].
    destruct (do_compare n H a b true [(a, b)]) as [[v st']| | |] eqn:E; try discriminate. cbn [bind] in Hc. inversion Hc; subst v.
    assert (Hn : NoDup (keys st')) by (eapply compare_NoDup; [exact E|constructor; [intros []|constructor]]).
    apply sound in E. destruct E as [[G1 G2] Hnode]. exists (fun x y => In (x, y) st'). repeat split.
    + apply G1. left. reflexivity.
    + intros l r r'. apply NoDup_functional. assumption.
    + destruct (G2 _ _ H0) as [[E|[]]|E]; [inversion E; subst; apply Hnode|apply E].
    + destruct (G2 _ _ H0) as [[E|[]]|E]; [inversion E; subst; apply Hnode|apply E].
  - intros [-> |(F & A & B & C)].
    + exists 0%nat. intros m _. unfold isSame, compare_types. rewrite Nat.eqb_refl. reflexivity.
    + eapply isSame_complete_functional; eauto.
Qed.

(** ** Soundness of canCastTo *)
Lemma cnode_mono H (R S : tid -> tid -> Prop) l r : (forall x y, R x y -> S x y) -> cnode H R l r -> cnode H S l r.
Proof.
  intros HRS. unfold cnode. destruct (o_kind (H l)), (o_kind (H r)); try tauto; try (intros [A B]; split; [assumption|]; try (destruct B; split; auto; fail); auto; fail).
  intros Hk. eapply Forall2_impl; [|exact Hk]. intros x y (A & B & C). auto.
Qed.
Lemma cnode_refl H (R : tid -> tid -> Prop) l : (forall x, R x x) -> cnode H R l l.
Proof.
  intros HR. unfold cnode. destruct (o_kind (H l)); repeat split; auto. induction fs; constructor; auto.
Qed.
Lemma value_find_Some n l v : value_find n l = Some v -> In (n, v) l.
Proof.
  induction l as [|[x w] l IH]; cbn [value_find]; [discriminate|]. destruct (seqb x n) eqn:E; [apply seqb_eq in E; intros E1; inversion E1; subst; left; reflexivity|right; auto].
Qed.
Lemma enum_compare_sub v w eq : enum_compare v w eq = true -> forall n x, In (n, x) v -> In (n, x) w.
Proof.
  unfold enum_compare. destruct eq; [intros E; apply values_eqb_eq in E; subst; auto|]. destruct (length w <? length v)%nat; [discriminate|].
  rewrite forallb_forall. intros Hf n x Hi. specialize (Hf _ Hi). cbn [fst snd] in Hf. destruct (value_find n w) eqn:E; [|discriminate]. apply Z.eqb_eq in Hf. subst. apply value_find_Some. assumption.
Qed.
Definition cgrown (H : heap) (st st' : stack) : Prop := incl st st' /\ forall l r, In (l, r) st' -> In (l, r) st \/ cnode H (rel st') l r.
Lemma cgrown_trans H a b c : cgrown H a b -> cgrown H b c -> cgrown H a c.
Proof.
  intros [A1 A2] [B1 B2]. split; [eapply incl_tran; eauto|]. intros l r Hi. destruct (B2 _ _ Hi) as [Hb|Hb]; [|right; assumption].
  destruct (A2 _ _ Hb) as [Ha|Ha]; [left; assumption|right]. eapply cnode_mono; [|exact Ha]. intros x y. apply rel_mono. assumption.
Qed.
Lemma csound H : forall f l r eq st st', do_compare f H l r eq st = Ok (true, st') -> cgrown H st st' /\ cnode H (rel st') l r.
Proof.
  induction f as [|f IH]; intros l r eq st st' E; [discriminate|].
  assert (G0 : cgrown H st st) by (split; [apply incl_refl|auto]).
  assert (Hrec : forall x y e st0 st1, rec_compare (do_compare f H) x y e st0 = Ok (true, st1) -> cgrown H st0 st1 /\ rel st1 x y).
  { intros x y e st0 st1. unfold rec_compare. destruct (Nat.eqb_spec x y) as [-> |Hne]; [intros E0; inversion E0; subst; split; [split; [apply incl_refl|auto]|left; reflexivity]|].
    destruct (lookup x st0) eqn:El.
    - intros E0. inversion E0 as [[Ey Es]]. subst st1. apply Nat.eqb_eq in Ey. subst t. apply lookup_In in El. split; [split; [apply incl_refl|auto]|right; assumption].
    - intros E0. apply IH in E0. destruct E0 as [[G1 G2] Hn]. split.
      + split; [intros p Hp; apply G1; right; assumption|]. intros a b Hi. destruct (G2 _ _ Hi) as [[Eab|Hs]|Hs]; auto. inversion Eab; subst. right. assumption.
      + right. apply G1. left. reflexivity. }
  cbn [do_compare] in E. cbv zeta in E. unfold cnode.
  destruct (o_kind (H l)) as [| |c|v|x|d x|k x|fs] eqn:Ek.
  - inversion E as [[E1 E2]]. unfold base_compare in E1. rewrite Ek in E1. apply andb_true_iff in E1. destruct E1 as [E1 E3]. apply N.eqb_eq in E1. subst st'.
    split; [assumption|split; [assumption|]]. destruct (o_kind (H r)); try discriminate; exact I.
  - inversion E as [[E1 E2]]. unfold base_compare in E1. rewrite Ek in E1. rewrite !andb_true_iff, seqb_eq in E1. destruct E1 as [[E1 E3] E4]. apply N.eqb_eq in E1. subst st'.
    split; [assumption|split; [assumption|]]. destruct (o_kind (H r)); try discriminate; assumption.
  - inversion E as [[E1 E2]]. unfold base_compare in E1. rewrite !andb_true_iff in E1. destruct E1 as [[E1 E3] E4]. apply N.eqb_eq in E1. subst st'.
    split; [assumption|split; [assumption|]]. destruct (o_kind (H r)); try discriminate. apply ncat_eqb_eq. assumption.
  - destruct (base_compare (H l) (H r)) eqn:Eb; cbn [negb] in E; [|discriminate]. unfold base_compare in Eb. apply andb_true_iff in Eb. destruct Eb as [Eb _]. apply N.eqb_eq in Eb.
    destruct (o_kind (H r)); try discriminate. inversion E as [[E1 E2]]. subst st'. split; [assumption|]. split; [assumption|]. exact (enum_compare_sub E1).
  - destruct (base_compare (H l) (H r)) eqn:Eb; cbn [negb] in E; [|discriminate]. unfold base_compare in Eb. apply andb_true_iff in Eb. destruct Eb as [Eb _]. apply N.eqb_eq in Eb.
    destruct (o_kind (H r)); try discriminate. apply Hrec in E. tauto.
  - destruct (base_compare (H l) (H r)) eqn:Eb; cbn [negb] in E; [|discriminate]. unfold base_compare in Eb. apply andb_true_iff in Eb. destruct Eb as [Eb _]. apply N.eqb_eq in Eb.
    destruct (o_kind (H r)); try discriminate. destruct (N.eqb_spec d dim); [|discriminate]. apply Hrec in E. tauto.
  - destruct (base_compare (H l) (H r)) eqn:Eb; cbn [negb] in E; [|discriminate]. unfold base_compare in Eb. apply andb_true_iff in Eb. destruct Eb as [Eb _]. apply N.eqb_eq in Eb.
    destruct (o_kind (H r)); try discriminate. destruct (ckind_eqb k k0) eqn:Ekk; [|discriminate]. apply ckind_eqb_eq in Ekk. apply Hrec in E. tauto.
  - destruct (o_kind (H r)) as [| | | | | | |gs]; try discriminate. destruct (eq && _); [discriminate|].
    destruct (Nat.eqb_spec (length fs) (length gs)) as [El|El]; cbn [negb] in E; [|discriminate].
    assert (K : forall fs gs st0 st1, length fs = length gs -> fields_compare (fun x y st => rec_compare (do_compare f H) x y eq st) fs gs st0 = Ok (true, st1) ->
      cgrown H st0 st1 /\ Forall2 (fun x y => f_name x = f_name y /\ f_off x = f_off y /\ rel st1 (f_type x) (f_type y)) fs gs).
    { clear fs gs Ek E El. induction fs as [|x fs IHf]; intros [|y gs] st0 st1 Hlen E; try discriminate; cbn [fields_compare] in E.
      - inversion E; subst. split; [split; [apply incl_refl|auto]|constructor].
      - destruct (negb (seqb (f_name x) (f_name y)) || negb (f_off x =? f_off y)) eqn:Ef; [discriminate|].
        apply orb_false_iff in Ef. destruct Ef as [Ef1 Ef2]. apply negb_false_iff in Ef1, Ef2. apply seqb_eq in Ef1. apply N.eqb_eq in Ef2.
        destruct (rec_compare (do_compare f H) (f_type x) (f_type y) eq st0) as [[b st2]| | |] eqn:Er; try discriminate. cbn [bind] in E.
        destruct b; [|discriminate]. apply Hrec in Er. destruct Er as [G1 R1]. destruct (IHf gs st2 st1 ltac:(injection Hlen; auto) E) as [G2 F2].
        split; [eapply cgrown_trans; eauto|]. constructor; [|assumption]. repeat split; auto. eapply rel_mono; [apply G2|assumption]. }
    destruct (K fs gs st st' El E) as [G F]. auto.
Qed.
Theorem canCastTo_sound f H a b : canCastTo f H a b = Ok true -> castable H a b.
Proof.
  unfold canCastTo, compare_types. destruct (Nat.eqb_spec a b) as [-> |Hne]; [intros _; exists eq; split; [reflexivity|]; intros l r ->; apply cnode_refl; reflexivity|].
  destruct (do_compare f H a b false [(a, b)]) as [[v st']| | |] eqn:E; try discriminate. cbn [bind]. intros Ev. inversion Ev; subst v.
  apply csound in E. destruct E as [[G1 G2] Hn]. exists (rel st'). split; [right; apply G1; left; reflexivity|].
  intros l r [-> |Hi]; [apply cnode_refl; intros; left; reflexivity|]. destruct (G2 _ _ Hi) as [[E|[]]|E]; [|assumption]. inversion E; subst. assumption.
Qed.


(** ** Fuel *)
Lemma compare_mono H : forall f l r eq st x, do_compare f H l r eq st = Ok x -> do_compare (S f) H l r eq st = Ok x.
Proof.
  induction f as [|f IH]; intros l r eq st v E; [discriminate|].
  assert (Hrec : forall x y e st0 v0, rec_compare (do_compare f H) x y e st0 = Ok v0 -> rec_compare (do_compare (S f) H) x y e st0 = Ok v0).
  { intros x y e st0 v0. unfold rec_compare. destruct (x =? y)%nat; auto. destruct (lookup x st0); auto. }
  remember (S f) as n eqn:En. cbn [do_compare]. cbv zeta. rewrite En in E. cbn [do_compare] in E. cbv zeta in E.
  destruct (o_kind (H l)) as [| |c|w|x|d x|k x|fs]; try assumption.
  - destruct (negb _); [assumption|]. destruct (o_kind (H r)); auto.
  - destruct (negb _); [assumption|]. destruct (o_kind (H r)); auto. destruct (_ =? _); auto.
  - destruct (negb _); [assumption|]. destruct (o_kind (H r)); auto. destruct (ckind_eqb _ _); auto.
  - destruct (o_kind (H r)) as [| | | | | | |gs]; try assumption.
    destruct (eq && _); [assumption|]. destruct (negb _); [assumption|].
    revert gs st v E. induction fs as [|x fs IHf]; intros [|y gs] st v E; cbn [fields_compare] in *; try assumption.
    destruct (_ || _); [assumption|].
    destruct (rec_compare (do_compare f H) (f_type x) (f_type y) eq st) as [[b st2]| | |] eqn:Er; try discriminate. cbn [bind] in E.
    rewrite (Hrec _ _ _ _ _ Er). cbn [bind]. destruct b; auto.
Qed.
Lemma compare_mono_le H f g l r eq st x : (f <= g)%nat -> do_compare f H l r eq st = Ok x -> do_compare g H l r eq st = Ok x.
Proof. induction 1; [auto|]. intros E. apply compare_mono. auto. Qed.
Theorem compare_conv H dom a b eq : finite_graph H dom a -> exists v, conv (fun f => compare_types f H a b eq) (Ok v).
Proof.
  intros Hd. destruct (@compare_terminates H dom a b eq Hd _ (Nat.lt_succ_diag_r _)) as [v E]. exists v, (S (length dom)). intros m Hm.
  unfold compare_types in *. destruct (a =? b)%nat; [assumption|].
  destruct (do_compare (S (length dom)) H a b eq [(a, b)]) as [[w st]| | |] eqn:Ec; try discriminate. rewrite (compare_mono_le Hm Ec). assumption.
Qed.
