(** * CastCopyGraph: what canCastTo establishes. *)
From Verif Require Import Base Types WellFormed GraphLayout GraphLayoutSpec CastCopySpec CastCopyProofs.
From Verif Require Import Graph GraphSpec GraphProofs.
Local Open Scope N_scope.

Section Cast.
  Variables (H : heap) (a : tid).
  Hypothesis Hsep : separate H a.

  Definition mnode (R : tid -> tid -> Prop) (l r : tid) : Prop := cnode H R l r /\ (element H a l -> o_size (H l) = o_size (H r)).
  Definition mgrown (st st' : stack) : Prop := incl st st' /\ forall l r, In (l, r) st' -> In (l, r) st \/ mnode (rel st') l r.
  Lemma mnode_mono (R S : tid -> tid -> Prop) l r : (forall x y, R x y -> S x y) -> mnode R l r -> mnode S l r.
  Proof. intros Hi [A B]. split; [eapply cnode_mono; eauto|assumption]. Qed.
  Lemma mgrown_trans x y z : mgrown x y -> mgrown y z -> mgrown x z.
  Proof.
    intros [A1 A2] [B1 B2]. split; [eapply incl_tran; eauto|]. intros l r Hi. destruct (B2 _ _ Hi) as [Hb|Hb]; [|right; assumption].
    destruct (A2 _ _ Hb) as [Ha|Ha]; [left; assumption|right]. eapply mnode_mono; [|exact Ha]. intros u v. apply rel_mono. assumption.
  Qed.
  Lemma cnode_size R l r : cnode H R l r -> (forall fs, o_kind (H l) <> OComp fs) -> o_size (H l) = o_size (H r).
  Proof. intros C Hn. unfold cnode in C. destruct (o_kind (H l)); try (destruct (o_kind (H r)); apply C; fail). destruct (Hn _ eq_refl). Qed.
  (** The mode of a comparison: strict inside of elements only. *)
  Definition mode (eq : bool) (l : tid) : Prop := if eq then element H a l else direct H a l.

  Lemma msound : forall f l r eq st st', mode eq l -> do_compare f H l r eq st = Ok (true, st') -> mgrown st st' /\ mnode (rel st') l r.
  Proof.
    induction f as [|f IH]; intros l r eq st st' Hm E; [discriminate|].
    assert (G0 : mgrown st st) by (split; [apply incl_refl|auto]).
    assert (Hrec : forall x y e st0 st1, mode e x -> rec_compare (do_compare f H) x y e st0 = Ok (true, st1) -> mgrown st0 st1 /\ rel st1 x y).
    { intros x y e st0 st1 Hx. unfold rec_compare. destruct (Nat.eqb_spec x y) as [-> |Hne]; [intros E0; inversion E0; subst; split; [split; [apply incl_refl|auto]|left; reflexivity]|].
      destruct (lookup x st0) eqn:El.
      - intros E0. inversion E0 as [[Ey Es]]. subst st1. apply Nat.eqb_eq in Ey. subst t. apply lookup_In in El. split; [split; [apply incl_refl|auto]|right; assumption].
      - intros E0. apply IH in E0; [|assumption]. destruct E0 as [[G1 G2] Hn]. split.
        + split; [intros p Hp; apply G1; right; assumption|]. intros u v Hi. destruct (G2 _ _ Hi) as [[Eab|Hs]|Hs]; auto. inversion Eab; subst. right. assumption.
        + right. apply G1. left. reflexivity. }
    assert (Hmn : forall R, cnode H R l r -> (forall fs, o_kind (H l) <> OComp fs) -> mnode R l r).
    { intros R C Hn. split; [assumption|]. intros _. exact (cnode_size C Hn). }
    destruct (csound E) as [_ CN].
    assert (Hstrict : forall x, element H a l -> In x (dependsOn H l) -> element H a x) by (intros; eapply element_more; eauto).
    cbn [do_compare] in E. cbv zeta in E.
    destruct (o_kind (H l)) as [| |c|v|x|d x|k x|fs] eqn:Ek.
    - inversion E as [[E1 E2]]. subst st'. split; [assumption|apply Hmn; [assumption|discriminate]].
    - inversion E as [[E1 E2]]. subst st'. split; [assumption|apply Hmn; [assumption|discriminate]].
    - inversion E as [[E1 E2]]. subst st'. split; [assumption|apply Hmn; [assumption|discriminate]].
    - destruct (negb _) in E; [discriminate|]. destruct (o_kind (H r)); try discriminate. inversion E as [[E1 E2]]. subst st'. split; [assumption|apply Hmn; [assumption|discriminate]].
    - destruct (negb _) in E; [discriminate|]. destruct (o_kind (H r)); try discriminate. apply Hrec in E.
      + split; [apply E|apply Hmn; [assumption|discriminate]].
      + destruct eq; cbn [mode] in *; [apply Hstrict; [assumption|]; unfold dependsOn; rewrite Ek; left; reflexivity|eapply direct_pointer; eauto].
    - destruct (negb _) in E; [discriminate|]. destruct (o_kind (H r)); try discriminate. destruct (d =? dim); [|discriminate]. apply Hrec in E.
      + split; [apply E|apply Hmn; [assumption|discriminate]].
      + destruct eq; cbn [mode] in *; [apply Hstrict; [assumption|]; unfold dependsOn; rewrite Ek; left; reflexivity|eapply element_array; eauto].
    - destruct (negb _) in E; [discriminate|]. destruct (o_kind (H r)); try discriminate. destruct (ckind_eqb _ _); [|discriminate]. apply Hrec in E.
      + split; [apply E|apply Hmn; [assumption|discriminate]].
      + destruct eq; cbn [mode] in *; [apply Hstrict; [assumption|]; unfold dependsOn; rewrite Ek; left; reflexivity|eapply element_container; eauto].
    - destruct (o_kind (H r)) as [| | | | | | |gs]; try discriminate.
      assert (Hsz : element H a l -> o_size (H l) = o_size (H r)).
      { intros He. destruct eq; cbn [mode] in Hm; [|destruct (Hsep Ek Hm He)].
        destruct (base_compare (H l) (H r)) eqn:Eb; cbn [andb negb] in E; [|discriminate]. unfold base_compare in Eb. apply andb_true_iff in Eb. destruct Eb as [Eb _]. apply N.eqb_eq in Eb. assumption. }
      destruct (eq && _); [discriminate|].
      destruct (Nat.eqb_spec (length fs) (length gs)) as [El|El]; cbn [negb] in E; [|discriminate].
      assert (Hch : forall x, In x fs -> mode eq (f_type x)).
      { intros x Hi. destruct eq; cbn [mode] in *; [apply Hstrict; [assumption|]; unfold dependsOn; rewrite Ek; apply in_map; assumption|eapply direct_field; eauto]. }
      split; [|split; assumption].
      clear CN Hsz El Hmn. revert gs st E G0. clear Ek. induction fs as [|x fs IHf]; intros [|y gs] st E G0; cbn [fields_compare] in E; try discriminate; try (inversion E; subst; assumption).
      destruct (_ || _); [discriminate|].
      destruct (rec_compare (do_compare f H) (f_type x) (f_type y) eq st) as [[b st2]| | |] eqn:Er; try discriminate. cbn [bind] in E.
      destruct b; [|discriminate]. apply Hrec in Er; [|apply Hch; left; reflexivity]. destruct Er as [G1 R1].
      eapply mgrown_trans; [exact G1|]. apply (IHf ltac:(intros; apply Hch; right; assumption) gs st2 E). split; [apply incl_refl|auto].
  Qed.
  Lemma cast_relation f b : canCastTo f H a b = Ok true -> exists R : tid -> tid -> Prop, R a b /\ forall l r, R l r -> mnode R l r.
  Proof.
    assert (Hr : forall st x, mnode (rel st) x x) by (intros; split; [apply cnode_refl; intros; left; reflexivity|reflexivity]).
    unfold canCastTo, compare_types. destruct (Nat.eqb_spec a b) as [<- |Hne].
    - intros _. exists (rel []). split; [left; reflexivity|]. intros l r [-> |[]]. apply Hr.
    - destruct (do_compare f H a b false [(a, b)]) as [[v st']| | |] eqn:E; try discriminate. cbn [bind]. intros Ev. inversion Ev; subst v.
      apply msound in E; [|constructor]. destruct E as [[G1 G2] Hn]. exists (rel st'). split; [right; apply G1; left; reflexivity|].
      intros l r [-> |Hi]; [apply Hr|]. destruct (G2 _ _ Hi) as [[E|[]]|E]; [|assumption]. inversion E; subst. assumption.
  Qed.

  Variable R : tid -> tid -> Prop.
  Hypothesis HR : forall l r, R l r -> mnode R l r.
  Lemma elements_erase :
    (forall l T, tree_of H l T -> forall r T', element H a l -> R l r -> tree_of H r T' -> erase T = erase T') /\
    (forall fs F, fields_of H fs F -> forall gs G, (forall x, In x fs -> element H a (f_type x)) ->
       Forall2 (fun x y => f_name x = f_name y /\ f_off x = f_off y /\ R (f_type x) (f_type y)) fs gs -> fields_of H gs G -> erasef F = erasef G).
  Proof.
    apply tree_fields_ind.
    - intros t Ek r T' He Hr HT. destruct (HR Hr) as [C S]. unfold cnode in C. rewrite Ek in C. inversion HT; subst; rewrite H0 in C; try tauto.
    - intros t Ek r T' He Hr HT. destruct (HR Hr) as [C S]. unfold cnode in C. rewrite Ek in C. inversion HT; subst; rewrite H0 in C; try tauto. cbn [erase]. f_equal. tauto.
    - intros t c Ek r T' He Hr HT. destruct (HR Hr) as [C S]. unfold cnode in C. rewrite Ek in C. inversion HT; subst; rewrite H0 in C; try tauto. destruct C as [-> ->]. reflexivity.
    - intros t v Ek r T' He Hr HT. destruct (HR Hr) as [C S]. unfold cnode in C. rewrite Ek in C. inversion HT; subst; rewrite H0 in C; try tauto. destruct C as [-> _]. reflexivity.
    - intros t x Ek r T' He Hr HT. destruct (HR Hr) as [C S]. unfold cnode in C. rewrite Ek in C. inversion HT; subst; rewrite H0 in C; try tauto. destruct C as [-> _]. reflexivity.
    - intros t d x e Ek HX IH r T' He Hr HT. destruct (HR Hr) as [C S]. unfold cnode in C. rewrite Ek in C. inversion HT; subst; rewrite H0 in C; try tauto.
      destruct C as (-> & -> & Rx). cbn [erase]. f_equal. apply (IH _ _ ltac:(eapply element_more; [exact He|unfold dependsOn; rewrite Ek; left; reflexivity]) Rx H1).
    - intros t k x e Ek HX IH r T' He Hr HT. destruct (HR Hr) as [C S]. unfold cnode in C. rewrite Ek in C. inversion HT; subst; rewrite H0 in C; try tauto.
      destruct C as (-> & -> & Rx). cbn [erase]. f_equal. apply (IH _ _ ltac:(eapply element_more; [exact He|unfold dependsOn; rewrite Ek; left; reflexivity]) Rx H1).
    - intros t fs F Ek HF IH r T' He Hr HT. destruct (HR Hr) as [C S]. unfold cnode in C. rewrite Ek in C. inversion HT; subst; rewrite H0 in C; try tauto.
      cbn [erase]. rewrite (S He). f_equal. apply (IH fs0); auto. intros x Hi. eapply element_more; [exact He|]. unfold dependsOn. rewrite Ek. apply in_map. assumption.
    - intros gs G _ F2 HG. inversion F2; subst. inversion HG; subst. reflexivity.
    - intros f fs T F HT IHT HF IHF gs G He F2 HG. inversion F2 as [|x y l l' (En & Eo & Rx) Fr]; subst. inversion HG as [|g gs0 T0 G0 Ht Hg]; subst. rewrite En, Eo. cbn [erasef].
      f_equal; [apply (IHT _ _ (He _ (or_introl eq_refl)) Rx Ht)|apply (IHF _ _ ltac:(intros; apply He; right; assumption) Fr Hg)].
  Qed.
  Lemma direct_casts :
    (forall l T, tree_of H l T -> forall r T', direct H a l -> R l r -> tree_of H r T' -> casts T T') /\
    (forall fs F, fields_of H fs F -> forall gs G, (forall x, In x fs -> direct H a (f_type x)) ->
       Forall2 (fun x y => f_name x = f_name y /\ f_off x = f_off y /\ R (f_type x) (f_type y)) fs gs -> fields_of H gs G -> casts_fields F G).
  Proof.
    apply tree_fields_ind.
    - intros t Ek r T' He Hr HT. destruct (HR Hr) as [C S]. unfold cnode in C. rewrite Ek in C. inversion HT; subst; rewrite H0 in C; try tauto. constructor.
    - intros t Ek r T' He Hr HT. destruct (HR Hr) as [C S]. unfold cnode in C. rewrite Ek in C. inversion HT; subst; rewrite H0 in C; try tauto. destruct C as [-> _]. constructor.
    - intros t c Ek r T' He Hr HT. destruct (HR Hr) as [C S]. unfold cnode in C. rewrite Ek in C. inversion HT; subst; rewrite H0 in C; try tauto. destruct C as [-> ->]. constructor.
    - intros t v Ek r T' He Hr HT. destruct (HR Hr) as [C S]. unfold cnode in C. rewrite Ek in C. inversion HT; subst; rewrite H0 in C; try tauto. destruct C as [-> _]. constructor.
    - intros t x Ek r T' He Hr HT. destruct (HR Hr) as [C S]. unfold cnode in C. rewrite Ek in C. inversion HT; subst; rewrite H0 in C; try tauto. destruct C as [-> _]. constructor.
    - intros t d x e Ek HX _ r T' He Hr HT. destruct (HR Hr) as [C S]. unfold cnode in C. rewrite Ek in C. inversion HT; subst; rewrite H0 in C; try tauto.
      destruct C as (-> & -> & Rx). constructor. apply (proj1 elements_erase _ _ HX _ _ ltac:(eapply element_array; eauto) Rx H1).
    - intros t k x e Ek HX _ r T' He Hr HT. destruct (HR Hr) as [C S]. unfold cnode in C. rewrite Ek in C. inversion HT; subst; rewrite H0 in C; try tauto.
      destruct C as (-> & -> & Rx). constructor. apply (proj1 elements_erase _ _ HX _ _ ltac:(eapply element_container; eauto) Rx H1).
    - intros t fs F Ek HF IH r T' He Hr HT. destruct (HR Hr) as [C S]. unfold cnode in C. rewrite Ek in C. inversion HT; subst; rewrite H0 in C; try tauto.
      constructor. apply (IH fs0); auto. intros x Hi. eapply direct_field; eauto.
    - intros gs G _ F2 HG. inversion F2; subst. inversion HG; subst. constructor.
    - intros f fs T F HT IHT HF IHF gs G He F2 HG. inversion F2 as [|x y l l' (En & Eo & Rx) Fr]; subst. inversion HG as [|g gs0 T0 G0 Ht Hg]; subst. rewrite En, Eo.
      constructor; [apply (IHT _ _ (He _ (or_introl eq_refl)) Rx Ht)|apply (IHF _ _ ltac:(intros; apply He; right; assumption) Fr Hg)].
  Qed.
End Cast.
Theorem canCast_trees f H a b T T' : separate H a -> canCastTo f H a b = Ok true -> tree_of H a T -> tree_of H b T' -> casts T T'.
Proof.
  intros Hs E HT HT'. destruct (cast_relation Hs E) as (R & Rab & HR). eapply (proj1 (direct_casts HR)); eauto. constructor.
Qed.
