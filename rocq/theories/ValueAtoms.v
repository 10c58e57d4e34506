(** * ValueAtoms: the specifications of ValueSpec, byte by byte. *)
From Verif Require Import Base Types WellFormed Layout LayoutProofs LayoutMain ValueOps ValueSpec.
Local Open Scope N_scope.

Section Arel.
  Context {X : Type}.
  Variables RB RP : cell -> list X -> Prop.
  Variable RC : ckind -> N -> ty -> cobj -> list X -> Prop.

  Inductive arel : list atom -> list cell -> list X -> Prop :=
  | ar_nil : arel [] [] []
  | ar_b c x l m xs : RB c x -> arel l m xs -> arel (AByte :: l) (c :: m) (x ++ xs)
  | ar_p c x l m xs : RP c x -> arel l m xs -> arel (APad :: l) (c :: m) (x ++ xs)
  | ar_c k s e o x l m xs : RC k s e o x -> arel l m xs ->
      arel (ACont k s e :: l) (put_obj s o ++ m) (x ++ xs).

  Lemma arel_app l1 l2 m1 m2 x1 x2 : arel l1 m1 x1 -> arel l2 m2 x2 -> arel (l1 ++ l2) (m1 ++ m2) (x1 ++ x2).
  Proof. induction 1; intros; simpl; rewrite <- ?app_assoc; [assumption|constructor; auto..]. Qed.
  Lemma arel_inv l1 l2 m x : arel (l1 ++ l2) m x ->
    exists m1 m2 x1 x2, m = m1 ++ m2 /\ x = x1 ++ x2 /\ arel l1 m1 x1 /\ arel l2 m2 x2.
  Proof.
    revert m x; induction l1 as [|a l1 IH]; intros m x H; simpl in *.
    - exists [], m, [], x. repeat split; auto; constructor.
    - inversion H as [|c y l0 m0 xs H1 H2|c y l0 m0 xs H1 H2|k s e o y l0 m0 xs H1 H2]; subst;
        destruct (IH _ _ H2) as (m1 & m2 & x1 & x2 & -> & -> & A1 & A2).
      + exists (c :: m1), m2, (y ++ x1), x2. rewrite app_assoc. repeat split; auto. constructor; auto.
      + exists (c :: m1), m2, (y ++ x1), x2. rewrite app_assoc. repeat split; auto. constructor; auto.
      + exists (put_obj s o ++ m1), m2, (y ++ x1), x2. rewrite !app_assoc. repeat split; auto. constructor; auto.
  Qed.
  Lemma arel_rep_list n l m x : arel (rep_list n l) m x <->
    exists ms xs, lenN ms = n /\ m = concat ms /\ x = concat xs /\ Forall2 (arel l) ms xs.
  Proof.
    revert m x; induction n as [|n IH] using N.peano_ind; intros m x; split.
    - intros H. inversion H; subst. exists [], []. repeat split; constructor.
    - intros (ms & xs & H1 & -> & -> & H2). apply lenN_0_nil in H1. subst ms. inversion H2; subst. constructor.
    - rewrite rep_list_S. intros H. destruct (arel_inv H) as (m1 & m2 & x1 & x2 & -> & -> & A1 & A2).
      apply IH in A2. destruct A2 as (ms & xs & H1 & -> & -> & H2).
      exists (m1 :: ms), (x1 :: xs). repeat split; [rewrite lenN_cons; lia|constructor; auto].
    - intros (ms & xs & H1 & -> & -> & H2). rewrite rep_list_S.
      destruct H2 as [|m1 x1 ms xs A1 A2]; [unfold lenN in H1; simpl in H1; lia|].
      simpl. apply arel_app; [assumption|]. apply IH. exists ms, xs. rewrite lenN_cons in H1. repeat split; auto. lia.
  Qed.
  Lemma arel_nil_inv m x : arel [] m x <-> m = [] /\ x = [].
  Proof. split; [inversion 1; auto|intros [-> ->]; constructor]. Qed.
  Lemma arel_c1 k s e m x : arel [ACont k s e] m x <-> exists o, m = put_obj s o /\ RC k s e o x.
  Proof.
    split.
    - inversion 1 as [| | |? ? ? o y ? ? ? H1 H2]; subst. inversion H2; subst. rewrite !app_nil_r. eauto.
    - intros (o & -> & H). rewrite <- (app_nil_r (put_obj s o)), <- (app_nil_r x). constructor; [assumption|constructor].
  Qed.

  (** A relation on types given by its unfoldings is the atom relation. *)
  Variable T : ty -> list cell -> list X -> Prop.
  Variable TF : fields -> N -> N -> list cell -> list X -> Prop.
  Record unfolds : Prop := {
    u_num : forall n c m x, T (TNum n c) m x <-> arel (repN n AByte) m x;
    u_enum : forall n vs m x, T (TEnum n vs) m x <-> arel (repN n AByte) m x;
    u_ptr : forall n m x, T (TPtr n) m x <-> arel (repN n AByte) m x;
    u_arr : forall s d e m x, T (TArray s d e) m x <->
              exists ms xs, lenN ms = d /\ m = concat ms /\ x = concat xs /\ Forall2 (T e) ms xs;
    u_cont : forall k s e m x, T (TCont k s e) m x <-> exists o, m = put_obj s o /\ RC k s e o x;
    u_comp : forall s fs m x, T (TComp s fs) m x <-> TF fs 0 s m x;
    u_nil : forall cur s m x, TF FNil cur s m x <-> arel (repN (s - cur) APad) m x;
    u_cons : forall nm off t r cur s m x, TF (FCons nm off t r) cur s m x <->
              exists p a b xp xa xb, m = p ++ a ++ b /\ x = xp ++ xa ++ xb /\
                 arel (repN (off - cur) APad) p xp /\ T t a xa /\ TF r (off + sizeof t) s b xb
  }.
  Lemma trel_arel : unfolds ->
    (forall t ap, supported ap t = true -> forall m x, T t m x <-> arel (tatoms t) m x) /\
    (forall fs ap, supported_fields ap fs = true -> forall cur s m x, TF fs cur s m x <-> arel (atoms (rfields fs cur s)) m x).
  Proof.
    intros U. unfold tatoms. apply ty_fields_ind.
    - discriminate.
    - discriminate.
    - intros n c ap _ m x. simpl. rewrite app_nil_r. apply (u_num U).
    - intros n c ap _ m x. simpl. rewrite app_nil_r. apply (u_enum U).
    - intros n ap _ m x. simpl. rewrite app_nil_r. apply (u_ptr U).
    - intros s d e IH ap Hs m x. simpl in *. rewrite app_nil_r, (u_arr U), arel_rep_list.
      split; intros (ms & xs & H1 & H2 & H3 & H4); exists ms, xs; repeat split; auto;
        clear - IH H4 Hs; induction H4; constructor; auto; eapply IH; eauto.
    - intros k s e IH ap Hs m x. simpl. rewrite (u_cont U), arel_c1. reflexivity.
    - intros s fs IH ap Hs m x. simpl in *. rewrite (u_comp U). eapply IH; eauto.
    - intros ap _ cur s m x. simpl. rewrite app_nil_r. apply (u_nil U).
    - intros nm off t IHt fs IHf ap Hs cur s m x. simpl in Hs. apply andb_true_iff in Hs. destruct Hs as [Hs1 Hs2].
      rewrite (u_cons U). cbn [rfields atoms]. rewrite atoms_sapp. split.
      + intros (p & a & b & xp & xa & xb & -> & -> & H1 & H2 & H3).
        apply arel_app; [assumption|]. apply arel_app; [eapply IHt; eauto|eapply IHf; eauto].
      + intros H. destruct (arel_inv H) as (p & m2 & xp & x2 & -> & -> & H1 & H2).
        destruct (arel_inv H2) as (a & b & xa & xb & -> & -> & H3 & H4).
        exists p, a, b, xp, xa, xb. repeat split; auto; [eapply IHt; eauto|eapply IHf; eauto].
  Qed.
End Arel.

Lemma arel_impl {X} (RB RP RB' RP' : cell -> list X -> Prop) (RC RC' : ckind -> N -> ty -> cobj -> list X -> Prop) l m x :
  (forall c y, RB c y -> RB' c y) -> (forall c y, RP c y -> RP' c y) ->
  (forall k s e o y, In (ACont k s e) l -> RC k s e o y -> RC' k s e o y) ->
  arel RB RP RC l m x -> arel RB' RP' RC' l m x.
Proof.
  intros H1 H2 H3 H. induction H; constructor; auto.
  - apply IHarel. intros; apply H3; [right; assumption|assumption].
  - apply IHarel. intros; apply H3; [right; assumption|assumption].
  - apply H3; [left; reflexivity|assumption].
  - apply IHarel. intros; apply H3; [right; assumption|assumption].
Qed.

(** The relation does not see the difference between data and padding when both are treated alike. *)
Lemma arel_norm {X} (R : cell -> list X -> Prop) RC mg l m x : arel R R RC l m x <-> arel R R RC (norm mg l) m x.
Proof.
  revert m x; induction l as [|a l IH]; intros m x; [reflexivity|].
  split; intros H.
  - inversion H as [|c y l0 m0 xs H1 H2|c y l0 m0 xs H1 H2|k s e o y l0 m0 xs H1 H2]; subst; simpl.
    + constructor; [assumption|apply IH; assumption].
    + destruct mg; constructor; auto; apply IH; assumption.
    + constructor; [assumption|apply IH; assumption].
  - destruct a; simpl in H; [| |inversion H; subst; constructor; [assumption|apply IH; assumption]].
    + inversion H; subst; constructor; [assumption|apply IH; assumption].
    + destruct mg; inversion H; subst; constructor; auto; apply IH; assumption.
Qed.

(** ** bytes *)
Lemma bytes_cons n m : bytes (N.succ n) m <-> exists b m', m = B b :: m' /\ bytes n m'.
Proof.
  split.
  - intros (bs & H & ->). destruct bs as [|b bs]; [unfold lenN in H; simpl in H; lia|].
    exists b, (map B bs). split; [reflexivity|]. exists bs. rewrite lenN_cons in H. split; [lia|reflexivity].
  - intros (b & m' & -> & bs & H & ->). exists (b :: bs). rewrite lenN_cons. split; [lia|reflexivity].
Qed.
Lemma bytes_0 m : bytes 0 m <-> m = [].
Proof.
  split; [intros (bs & H & ->); apply lenN_0_nil in H; subst; reflexivity|intros ->; exists []; auto].
Qed.
Lemma bytes_len n m : bytes n m -> lenN m = n.
Proof. intros (bs & H & ->). unfold lenN in *. rewrite map_length. assumption. Qed.
Lemma bytes_app a b m1 m2 : bytes a m1 -> bytes b m2 -> bytes (a + b) (m1 ++ m2).
Proof. intros (x & H1 & ->) (y & H2 & ->). exists (x ++ y). rewrite lenN_app, map_app. split; [lia|reflexivity]. Qed.
Lemma bytes_repN n b : bytes n (repN n (B b)).
Proof. exists (repN n b). rewrite lenN_repN. split; [reflexivity|]. unfold repN. induction (N.to_nat n); simpl; congruence. Qed.
Lemma bytes_forallb m : forallb is_byte m = true <-> bytes (lenN m) m.
Proof.
  induction m as [|c m IH].
  - split; [intros _; apply bytes_0; reflexivity|reflexivity].
  - rewrite lenN_cons. replace (1 + lenN m) with (N.succ (lenN m)) by lia. rewrite bytes_cons. simpl.
    rewrite andb_true_iff, IH. split.
    + intros [H1 H2]. destruct c; try discriminate. eauto.
    + intros (b & m' & E & H). inversion E; subst. auto.
Qed.
Lemma bytes_split a b m : bytes (a + b) m -> exists m1 m2, m = m1 ++ m2 /\ bytes a m1 /\ bytes b m2.
Proof.
  intros (bs & H & ->). exists (map B (takeN a bs)), (map B (dropN a bs)).
  rewrite <- map_app, takeN_dropN. repeat split.
  - exists (takeN a bs). rewrite lenN_takeN. split; [lia|reflexivity].
  - exists (dropN a bs). rewrite lenN_dropN. split; [lia|reflexivity].
Qed.
Lemma arel_repN_1 {X} RB RP RC a n (m : list cell) (x : list X) R :
  (a = AByte /\ R = RB \/ a = APad /\ R = RP) ->
  arel RB RP RC (repN n a) m x <-> exists xs, x = concat xs /\ Forall2 R m xs /\ lenN m = n.
Proof.
  intros Ha. revert m x. induction n as [|n IH] using N.peano_ind; intros m x.
  - change (repN 0 a) with (@nil atom). rewrite arel_nil_inv. split.
    + intros [-> ->]. exists []. repeat split; constructor.
    + intros (xs & -> & H & E). apply lenN_0_nil in E. subst. inversion H; auto.
  - replace (N.succ n) with (1 + n) by lia. rewrite repN_add. change (repN 1 a ++ repN n a) with (a :: repN n a).
    split.
    + intros H. destruct Ha as [[-> ->]|[-> ->]];
      inversion H as [|c y l0 m0 xs H1 H2|c y l0 m0 xs H1 H2|k s e o y l0 m0 xs H1 H2]; subst;
      apply IH in H2; destruct H2 as (ys & -> & H2 & E);
      exists (y :: ys); repeat split; [constructor; assumption| |constructor; assumption|];
      rewrite lenN_cons; lia.
    + intros (xs & -> & H & E). destruct H as [|c y m ys H1 H2]; [change (lenN (@nil cell)) with 0 in E; lia|].
      simpl. rewrite lenN_cons in E.
      destruct Ha as [[-> ->]|[-> ->]]; constructor; auto; apply IH; exists ys; repeat split; auto; lia.
Qed.
