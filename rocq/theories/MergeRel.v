(** * MergeRel: the invariant of a merge. *)
From Verif Require Import Base Types NamesSpec Names NamesProofs Registry RegistrySpec RegistryProofs RegistryOps RegistryMain RegistryAlias World TypeBuilderSpec TypeBuilder TypeBuilderProofs TlbCore Merge MergeSpec MergeProofs.
From Verif Require Import Graph GraphSpec GraphProofs.
Local Open Scope nat_scope.

Definition Rst (st : stack) (x y : tid) : Prop := x = y \/ In (x, y) st \/ In (y, x) st.
Lemma Rst_sym st x y : Rst st x y -> Rst st y x.
Proof. unfold Rst. intuition. Qed.
Lemma Rst_mono st st' x y : incl st st' -> Rst st x y -> Rst st' x y.
Proof. unfold Rst. intuition. Qed.
Lemma Rst_sym_node H st x y : node H (Rst st) x y -> node H (Rst st) y x.
Proof. intros N. apply node_sym in N. eapply node_mono; [|exact N]. intros u v. apply Rst_sym. Qed.

Section Rel.
Variables (H0 : heap) (N0 : tid) (A B0 : reg).
Hypothesis PA : proper H0 N0 A.
Hypothesis PB : proper H0 N0 B0.
Hypothesis Disj : forall t, registered A t -> registered B0 t -> False.
Let IA : Inv H0 A := reachable_Inv (pr_reachable PA).

Lemma A_name a : registered A a -> absolute (o_name (H0 a)) /\ get A (o_name (H0 a)) = Some a.
Proof. intros (n & Hn & Hg). exact (get_primary IA Hg). Qed.
Lemma A_plain a : registered A a -> plain (o_name (H0 a)).
Proof. intros Ha. destruct (A_name Ha) as [Hn Hg]. exact (plain_get IA Hn Hg). Qed.
Lemma A_unique a a' : registered A a -> registered A a' -> o_name (H0 a) = o_name (H0 a') -> a = a'.
Proof. apply (unique_named IA). Qed.
Lemma A_shape a sh n : registered A a -> absolute n -> o_name (H0 a) = shape_name sh n -> exists x, o_kind (H0 a) = shape_kind sh x /\ get A n = Some x.
Proof. intros Ha Hn E. destruct (A_name Ha) as [_ Hg]. rewrite E in Hg. destruct (pr_meant PA Hn Hg) as (x & Hx & K). eauto. Qed.
Lemma A_dep a x : registered A a -> In x (dependsOn H0 a) -> registered A x.
Proof. apply (pr_deps PA). Qed.
Lemma A_reaches a x : registered A a -> reaches H0 a x -> registered A x.
Proof. intros Ha. induction 1; [assumption|]. eapply A_dep; eassumption. Qed.

(** [W]: the compounds that are being merged, which are not in the registry yet; [Q0]: a type that has just been created, if it
    is not a compound. *)
Record Rel (Q0 W : list tid) (s : store) (r : reg) (st : stack) : Prop := {
  rl_next : N0 <= s_next s;
  rl_null : forall t, s_next s <= t -> s_heap s t = null_obj;
  rl_refs : forall t d, In d (dependsOn (s_heap s) t) -> d < s_next s;
  rl_old : forall t, t < N0 -> s_heap s t = H0 t;
  rl_inv : Inv (s_heap s) r;
  rl_names : names_ok (s_heap s);
  rl_mono : mono B0 r;
  rl_reg : forall t, registered r t -> t < s_next s /\ ~ In t W /\ ~ registered A t;
  rl_deps : forall t x, registered r t -> In x (dependsOn (s_heap s) t) -> registered r x \/ In x W;
  rl_work : forall t, In t W -> N0 <= t < s_next s /\ exists a, lookup a st = Some t /\ registered A a /\ (In t Q0 \/ (o_name (s_heap s t) = o_name (H0 a) /\
    (exists fs, o_kind (H0 a) = OComp fs) /\ get r (o_name (s_heap s t)) = None));
  rl_wdeps : forall t x, In t W -> In x (dependsOn (s_heap s) t) -> registered r x \/ In x W;
  rl_closed : closed_ (s_heap s) r;
  rl_meant : forall n sh t, absolute n -> get r (shape_name sh n) = Some t ->
    exists y, o_kind (s_heap s t) = shape_kind sh y /\ (get r n = Some y \/ (In y W /\ o_name (s_heap s y) = n));
  rl_clean : forall n t, absolute n -> get r n = Some t -> n <> o_name (s_heap s t) -> clean (s_heap s) W t;
  rl_image : forall t, registered r t -> clean (s_heap s) W t \/ exists a, lookup a st = Some t /\ registered A a /\ o_name (H0 a) = o_name (s_heap s t);
  rl_stack : forall x y, In (x, y) st -> (registered A x /\ (In y W \/ (registered r y /\ get r (o_name (H0 x)) = Some y))) \/ (registered r x /\ registered A y);
  rl_node : forall x y, In (x, y) st -> In y W \/ node (s_heap s) (Rst st) x y;
  rl_inj : forall x x' y, In y W -> In (x, y) st -> In (x', y) st -> x = x';
  rl_keys : NoDup (keys st);
  rl_types : forall t, registered r t -> registered B0 t \/ exists a, registered A a /\ lookup a st = Some t;
  rl_new : forall k t, absolute k -> get r k = Some t -> get B0 k = None -> get A k <> None \/ exists sh m, absolute m /\ k = shape_name sh m
}.

Lemma A_below a : registered A a -> a < N0.
Proof. apply (pr_exists PA). Qed.
Lemma A_heap Q0 W s r st a : Rel Q0 W s r st -> registered A a -> s_heap s a = H0 a.
Proof. intros R Ha. apply (rl_old R), A_below, Ha. Qed.
(** What a clean type reaches is in the registry, and stays as it is. *)
Lemma clean_reaches Q0 W s r st H' t x : Rel Q0 W s r st -> (forall b, registered r b -> H' b = s_heap s b) -> registered r t -> clean (s_heap s) W t ->
  reaches H' t x -> reaches (s_heap s) t x /\ registered r x.
Proof.
  intros R Hh Ht Hc. induction 1 as [|b c Hb [IH1 IH2] Hd]; [split; [constructor|assumption]|]. unfold dependsOn in Hd. rewrite Hh in Hd by assumption. fold (dependsOn (s_heap s) b) in Hd.
  assert (Hr : reaches (s_heap s) t c) by (econstructor; eassumption). split; [assumption|]. destruct (rl_deps R IH2 Hd) as [X|X]; [assumption|]. destruct (Hc _ Hr X).
Qed.
Lemma clean_keep Q0 W W' s r st H' t : Rel Q0 W s r st -> (forall b, registered r b -> H' b = s_heap s b) -> registered r t -> clean (s_heap s) W t ->
  (forall x, registered r x -> ~ In x W') -> clean H' W' t.
Proof. intros R Hh Ht Hc Hw x Hx. apply Hw. eapply clean_reaches; eassumption. Qed.

(** ** The empty stack *)
Lemma Rel_start s : s_heap s = H0 -> s_next s = N0 -> proper_heap H0 N0 -> derived_names H0 B0 -> Rel [] [] s B0 [].
Proof.
  intros Eh En (Hc & Hnull & Hrefs) Hd. assert (IB := reachable_Inv (pr_reachable PB)). constructor; rewrite ?Eh, ?En.
  - apply le_n.
  - exact Hnull.
  - exact Hrefs.
  - reflexivity.
  - exact IB.
  - intros t x mk Hi. destruct (indirect_shape Hi) as (sh & K & ->). specialize (Hc t). unfold constructed_as in Hc. rewrite K in Hc. destruct sh; apply Hc.
  - intros k t _ Hg. exact Hg.
  - intros t Ht. split; [apply (pr_exists PB); assumption|]. split; [intros []|]. intros Ha. exact (Disj Ha Ht).
  - intros t x Ht Hx. left. eapply (pr_deps PB); eassumption.
  - intros t [].
  - intros t x [].
  - intros D x mk a HD Hi Ha Hg. destruct (indirect_shape Hi) as (sh & K & ->). eapply Hd; eassumption.
  - intros n sh t Hn Hg. destruct (pr_meant PB Hn Hg) as (y & Hy & K). eauto.
  - intros n t _ _ _ x _ [].
  - intros t _. left. intros x _ [].
  - intros x y [].
  - intros x y [].
  - intros x x' y [].
  - constructor.
  - intros t Ht. left. assumption.
  - congruence.
Qed.

(** ** A comparison that succeeds *)
Lemma Rel_compare Q0 W s r st f a old st' : Rel Q0 W s r st -> registered A a -> lookup a st = None -> get r (o_name (H0 a)) = Some old ->
  do_compare f (s_heap s) old a true st = Ok (true, st') ->
  Rel Q0 W s r ((a, old) :: st') /\ stack_insert a old st' = (a, old) :: st' /\ (forall x y, lookup x st = Some y -> lookup x ((a, old) :: st') = Some y).
Proof.
  intros R Ha Hl Hg E. destruct (A_name Ha) as [Hab _]. assert (Hreg : registered r old) by (eapply registered_get; [apply (rl_inv R)|eassumption]).
  assert (Hcl : clean (s_heap s) W old).
  { destruct (str_dec (o_name (H0 a)) (o_name (s_heap s old))) as [En|En]; [|exact (rl_clean R Hab Hg En)].
    destruct (rl_image R Hreg) as [X|(a' & Hl' & Ha' & En')]; [exact X|]. exfalso. assert (a = a') by (apply A_unique; congruence). congruence. }
  destruct (sound E) as [[Hi Hgr] Hn]. destruct (compare_pairs E) as [Hnd Hp].
  assert (P : forall x y, In (x, y) st' -> In (x, y) st \/ (registered r x /\ registered A y)).
  { intros x y Hxy. destruct (Hp _ _ Hxy) as [X|[X Y]]; [left; assumption|right]. split.
    - destruct (@clean_reaches Q0 W s r st (s_heap s) old x R (fun b _ => eq_refl) Hreg Hcl X) as [_ Z]. exact Z.
    - assert (Y' : reaches H0 a y /\ registered A y).
      { clear - PA Ha Y R. induction Y as [|b c Hb [IH1 IH2] Hd]; [split; [constructor|assumption]|]. unfold dependsOn in Hd. rewrite (A_heap R IH2) in Hd. fold (dependsOn H0 b) in Hd.
        split; [econstructor; eassumption|eapply A_dep; eassumption]. }
      apply Y'. }
  assert (Hl' : lookup a st' = None).
  { destruct (lookup a st') as [y|] eqn:El; [|reflexivity]. apply lookup_In in El. destruct (P _ _ El) as [X|[X _]].
    - apply (nodup_lookup (rl_keys R)) in X. congruence.
    - destruct (rl_reg R X) as (_ & _ & Z). contradiction. }
  assert (Hi2 : incl st ((a, old) :: st')) by (intros z Hz; right; apply Hi; assumption).
  assert (Hin : forall x y, rel st' x y -> Rst ((a, old) :: st') x y) by (intros x y [-> |X]; [left; reflexivity|right; left; right; assumption]).
  assert (Lk : forall x y, lookup x st = Some y -> lookup x ((a, old) :: st') = Some y).
  { intros x y Hx. cbn [lookup]. destruct (Nat.eqb_spec a x) as [-> |Hne]; [congruence|]. apply nodup_lookup; [apply Hnd, (rl_keys R)|]. apply Hi, lookup_In, Hx. }
  split; [|split; [unfold stack_insert; rewrite Hl'; reflexivity|exact Lk]].
  constructor; try apply R.
  - intros t Ht. destruct (rl_work R Ht) as (Hb & a' & L & Ra & Rest). split; [assumption|]. exists a'. split; [apply Lk; assumption|]. split; assumption.
  - intros t Ht. destruct (rl_image R Ht) as [X|(a' & L & Rest)]; [left; assumption|right]. exists a'. split; [apply Lk; assumption|assumption].
  - intros x y [Eq|Hxy]; [injection Eq as <- <-; left; split; [assumption|right; split; assumption]|]. destruct (P _ _ Hxy) as [X|X]; [apply (rl_stack R X)|right; assumption].
  - intros x y [Eq|Hxy].
    + injection Eq as <- <-. right. apply Rst_sym_node. eapply node_mono; [|exact Hn]. exact Hin.
    + destruct (Hgr _ _ Hxy) as [X|X]; [|right; eapply node_mono; [|exact X]; exact Hin].
      destruct (rl_node R X) as [Y|Y]; [left; assumption|right]. eapply node_mono; [|exact Y]. intros u v. apply Rst_mono. assumption.
  - intros x x' y Hy Hx Hx'. assert (Z : forall x, In (x, y) ((a, old) :: st') -> In (x, y) st).
    { intros z [Eq|Hz].
      - injection Eq as <- <-. destruct (rl_reg R Hreg) as (_ & X & _). contradiction.
      - destruct (P _ _ Hz) as [X|[_ X]]; [assumption|]. destruct (rl_work R Hy) as [[X1 _] _]. assert (X2 := A_below X). lia. }
    eapply (rl_inj R Hy); apply Z; assumption.
  - cbn [keys map fst]. constructor; [|apply Hnd, (rl_keys R)]. apply lookup_None. assumption.
  - intros t Ht. destruct (rl_types R Ht) as [X|(a' & Ra & L)]; [left; assumption|right]. exists a'. split; [assumption|apply Lk; assumption].
Qed.

(** ** A new compound *)
Lemma set_names H t o : names_ok H -> (forall x mk, indirect_name (upd H t o) t = Some (x, mk) -> o_name o = mk (o_name (upd H t o x))) ->
  ((forall u, ~ In t (dependsOn H u)) \/ o_name o = o_name (H t)) -> names_ok (upd H t o).
Proof.
  intros N Ho Hu u x mk Hi. destruct (Nat.eq_dec u t) as [-> |Hne].
  - rewrite upd_same. apply Ho. assumption.
  - unfold indirect_name in Hi. rewrite upd_other in Hi by assumption. change (indirect_name H u = Some (x, mk)) in Hi. rewrite upd_other by assumption.
    replace (o_name (upd H t o x)) with (o_name (H x)); [apply (N _ _ _ Hi)|]. destruct (Nat.eq_dec x t) as [-> |Hx]; [|rewrite upd_other by assumption; reflexivity].
    destruct Hu as [Hu|Hu]; [|rewrite upd_same; congruence]. exfalso. apply (Hu u). destruct (indirect_shape Hi) as (sh & K & _). rewrite (shape_deps K). left. reflexivity.
Qed.
Lemma upd_deps H t o u x : In x (dependsOn (upd H t o) u) -> (u = t /\ In x (match o_kind o with OPtr x | OArr _ x | OCont _ x => [x] | OComp fs => map f_type fs | _ => [] end)) \/ (u <> t /\ In x (dependsOn H u)).
Proof.
  intros Hi. unfold dependsOn in Hi. destruct (Nat.eq_dec u t) as [-> |Hne]; [rewrite upd_same in Hi; left; auto|]. rewrite upd_other in Hi by assumption. right. auto.
Qed.
Lemma node_heap H H' R x y : H' x = H x -> H' y = H y -> node H R x y -> node H' R x y.
Proof. unfold node. intros -> ->. auto. Qed.
(** Changes of the compounds being merged. *)
Lemma Rel_set Q0 W s r st t o : Rel Q0 W s r st -> In t W -> o_name o = o_name (s_heap s t) -> (forall x mk, indirect_name (upd (s_heap s) t o) t = Some (x, mk) -> o_name o = mk (o_name (upd (s_heap s) t o x))) ->
  (forall x, In x (match o_kind o with OPtr x | OArr _ x | OCont _ x => [x] | OComp fs => map f_type fs | _ => [] end) -> registered r x \/ In x W) ->
  Rel Q0 W (Store (upd (s_heap s) t o) (s_next s)) r st.
Proof.
  intros R Hw Hn Hi Hd. assert (Hne : forall b, registered r b -> b <> t) by (intros b Hb ->; destruct (rl_reg R Hb) as (_ & X & _); contradiction).
  assert (Hh : forall b, registered r b -> upd (s_heap s) t o b = s_heap s b) by (intros b Hb; apply upd_other, Hne, Hb).
  assert (Hnm : forall b, o_name (upd (s_heap s) t o b) = o_name (s_heap s b)) by (intros b; destruct (Nat.eq_dec b t) as [-> |X]; [rewrite upd_same; assumption|rewrite upd_other by assumption; reflexivity]).
  assert (Hnw : forall x, registered r x -> ~ In x W) by (intros x Hx; apply (rl_reg R Hx)).
  assert (Ht : N0 <= t < s_next s) by apply (rl_work R Hw).
  assert (Hlt : forall x, registered r x \/ In x W -> x < s_next s) by (intros x [X|X]; [apply (rl_reg R X)|apply (rl_work R X)]).
  constructor; cbn [s_heap s_next]; try apply R.
  - intros u Hu. rewrite upd_other by lia. apply (rl_null R Hu).
  - intros u d X. apply upd_deps in X. destruct X as [[-> X]|[_ X]]; [apply Hlt, Hd, X|apply (rl_refs R X)].
  - intros u Hu. rewrite upd_other by lia. apply (rl_old R Hu).
  - eapply Inv_agree; [exact Hh|apply (rl_inv R)].
  - apply set_names; [apply (rl_names R)|exact Hi|right; assumption].
  - intros u x Hu X. apply upd_deps in X. destruct X as [[-> X]|[_ X]]; [apply Hd, X|apply (rl_deps R Hu X)].
  - intros u Hu. destruct (rl_work R Hu) as (Hb & a & X & Y & Z). split; [assumption|]. exists a. rewrite Hnm. auto.
  - intros u x Hu X. apply upd_deps in X. destruct X as [[-> X]|[_ X]]; [apply Hd, X|apply (rl_wdeps R Hu X)].
  - intros D x mk a HD X. apply (rl_closed R HD). unfold indirect_name in *. rewrite Hh in X by assumption. exact X.
  - intros n sh u Hab Hg. destruct (rl_meant R Hab Hg) as (y & K & Y). exists y. rewrite Hh by (eapply registered_get; [apply (rl_inv R)|exact Hg]). rewrite Hnm. auto.
  - intros n u Hab Hg X. rewrite Hnm in X. assert (Hu : registered r u) by (eapply registered_get; [apply (rl_inv R)|exact Hg]). eapply clean_keep; [exact R|exact Hh|exact Hu|apply (rl_clean R Hab Hg X)|exact Hnw].
  - intros u Hu. rewrite Hnm. destruct (rl_image R Hu) as [X|X]; [left|right; assumption]. eapply clean_keep; [exact R|exact Hh|exact Hu|exact X|exact Hnw].
  - intros x y Hxy. destruct (rl_node R Hxy) as [X|X]; [left; assumption|]. destruct (in_dec Nat.eq_dec y W) as [Hy|Hy]; [left; assumption|right].
    assert (Hx : x <> t /\ y <> t).
    { split; intros ->; [|contradiction]. destruct (rl_stack R Hxy) as [[Z _]|[Z _]]; [assert (Q := A_below Z); lia|apply (Hne _ Z); reflexivity]. }
    eapply node_heap; [| |exact X]; apply upd_other; apply Hx.
Qed.
(** The new object [c] for the type [a]. *)
Lemma Rel_new Q0 W s r st a o : Rel [] W s r st -> registered A a -> lookup a st = None ->
  (In (s_next s) Q0 \/ (o_name o = o_name (H0 a) /\ (exists fs, o_kind (H0 a) = OComp fs) /\ get r (o_name o) = None)) ->
  (forall x, In x (match o_kind o with OPtr x | OArr _ x | OCont _ x => [x] | OComp fs => map f_type fs | _ => [] end) -> registered r x \/ In x W) ->
  (forall x mk, indirect_name (upd (s_heap s) (s_next s) o) (s_next s) = Some (x, mk) -> o_name o = mk (o_name (s_heap s x))) ->
  Rel Q0 (s_next s :: W) (alloc s o) r ((a, s_next s) :: st).
Proof.
  intros R Ha Hl Hq Hd Hno. set (c := s_next s) in *.
  assert (Hne : forall b, registered r b -> b <> c) by (intros b Hb; destruct (rl_reg R Hb) as [X _]; unfold c; lia).
  assert (Hh : forall b, registered r b -> upd (s_heap s) c o b = s_heap s b) by (intros b Hb; apply upd_other, Hne, Hb).
  assert (Hnw : forall x, registered r x -> ~ In x (c :: W)) by (intros x Hx [X|X]; [apply (Hne _ Hx); congruence|destruct (rl_reg R Hx) as (_ & Y & _); contradiction]).
  assert (HWne : forall x, In x W -> x <> c) by (intros x Hx; destruct (rl_work R Hx) as [[_ X] _]; unfold c; lia).
  assert (Hdw : forall x, registered r x \/ In x W -> x <> c) by (intros x [X|X]; auto).
  assert (N : N0 <= c) by apply (rl_next R).
  assert (Hi2 : incl st ((a, c) :: st)) by (intros z Hz; right; assumption).
  assert (Lk : forall x y, lookup x st = Some y -> lookup x ((a, c) :: st) = Some y) by (intros x y Hx; cbn [lookup]; destruct (Nat.eqb_spec a x) as [-> |X]; [congruence|assumption]).
  unfold alloc. fold c. constructor; cbn [s_heap s_next].
  - lia.
  - intros u Hu. rewrite upd_other by lia. apply (rl_null R). unfold c in *. lia.
  - intros u d X. apply upd_deps in X. destruct X as [[-> X]|[_ X]]; [|assert (Q := rl_refs R X); unfold c; lia].
    destruct (Hd _ X) as [Y|Y]; [destruct (rl_reg R Y) as [Q _]|destruct (rl_work R Y) as [[_ Q] _]]; unfold c; lia.
  - intros u Hu. rewrite upd_other by lia. apply (rl_old R Hu).
  - eapply Inv_agree; [exact Hh|apply (rl_inv R)].
  - apply set_names; [apply (rl_names R)| |left; intros u X; assert (Q := rl_refs R X); unfold c in *; lia]. intros x mk X. rewrite (Hno _ _ X).
    rewrite upd_other; [reflexivity|]. apply Hdw, Hd. destruct (indirect_shape X) as (sh & K & _). rewrite upd_same in K. rewrite K. destruct sh; left; reflexivity.
  - apply (rl_mono R).
  - intros u Hu. destruct (rl_reg R Hu) as (X & _ & Y). split; [unfold c; lia|]. split; [apply Hnw; assumption|assumption].
  - intros u x Hu X. apply upd_deps in X. destruct X as [[-> X]|[_ X]]; [destruct (Hne _ Hu eq_refl)|]. destruct (rl_deps R Hu X); [left|right; right]; assumption.
  - intros u [<-|Hu].
    + split; [unfold c in *; lia|]. exists a. cbn [lookup]. rewrite Nat.eqb_refl. rewrite upd_same. auto.
    + destruct (rl_work R Hu) as ([Hb1 Hb2] & a' & X & Y & [[]|Z]). split; [unfold c; lia|]. exists a'. rewrite upd_other by (apply HWne; assumption). auto.
  - intros u x [<-|Hu] X; apply upd_deps in X; destruct X as [[E X]|[E X]]; [|destruct (E eq_refl)|subst u; destruct (HWne _ Hu eq_refl)|].
    + destruct (Hd _ X); [left|right; right]; assumption.
    + destruct (rl_wdeps R Hu X); [left|right; right]; assumption.
  - intros D x mk a' HD X. apply (rl_closed R HD). unfold indirect_name in *. rewrite Hh in X by assumption. exact X.
  - intros n sh u Hab Hg'. destruct (rl_meant R Hab Hg') as (y & Ky & Y). exists y. rewrite Hh by (eapply registered_get; [apply (rl_inv R)|exact Hg']). split; [assumption|].
    destruct Y as [Y|[Y1 Y2]]; [left; assumption|right]. split; [right; assumption|]. rewrite upd_other by (apply HWne; assumption). assumption.
  - intros n u Hab Hg' X. assert (Hu : registered r u) by (eapply registered_get; [apply (rl_inv R)|exact Hg']). rewrite Hh in X by assumption. eapply clean_keep; [exact R|exact Hh|exact Hu|apply (rl_clean R Hab Hg' X)|exact Hnw].
  - intros u Hu. rewrite Hh by assumption. destruct (rl_image R Hu) as [X|(a' & X & Y)]; [left|right; exists a'; auto]. eapply clean_keep; [exact R|exact Hh|exact Hu|exact X|exact Hnw].
  - intros x y [E|Hxy]; [injection E as <- <-; left; split; [assumption|left; left; reflexivity]|]. destruct (rl_stack R Hxy) as [[X [Y|Y]]|X]; [left; split; [assumption|left; right; assumption]|left; auto|right; assumption].
  - intros x y [E|Hxy]; [injection E as <- <-; left; left; reflexivity|]. destruct (rl_node R Hxy) as [X|X]; [left; right; assumption|]. destruct (in_dec Nat.eq_dec y W) as [Hy|Hy]; [left; right; assumption|right].
    assert (Hx : x <> c /\ y <> c).
    { destruct (rl_stack R Hxy) as [[Z [Y|[Y _]]]|[Z Y]]; [contradiction| |]; split; try (apply Hne; assumption); try (assert (Q := A_below Z); lia); assert (Q := A_below Y); lia. }
    eapply node_heap; [apply upd_other; apply Hx|apply upd_other; apply Hx|]. eapply node_mono; [|exact X]. intros p q. apply Rst_mono. assumption.
  - assert (Z : forall z, ~ In (z, c) st).
    { intros z Hz. destruct (rl_stack R Hz) as [[_ [Y|[Y _]]]|[_ Y]]; [apply (HWne _ Y); reflexivity|apply (Hne _ Y); reflexivity|assert (Q := A_below Y); lia]. }
    intros x x' y [<-|Hy] Hx Hx'.
    + destruct Hx as [E|Hx]; [|destruct (Z _ Hx)]. destruct Hx' as [E'|Hx']; [|destruct (Z _ Hx')]. congruence.
    + destruct Hx as [E|Hx]; [injection E as _ <-; destruct (HWne _ Hy eq_refl)|]. destruct Hx' as [E'|Hx']; [injection E' as _ <-; destruct (HWne _ Hy eq_refl)|]. apply (rl_inj R Hy Hx Hx').
  - cbn [keys map fst]. constructor; [apply lookup_None; assumption|apply (rl_keys R)].
  - intros u Hu. destruct (rl_types R Hu) as [X|(a' & X & Y)]; [left; assumption|right; exists a'; auto].
  - apply (rl_new R).
Qed.

(** ** A type that is finished, and added *)
Lemma clean_sub H W W' t : clean H W t -> incl W' W -> clean H W' t.
Proof. intros C I x Hx Hi. exact (C x Hx (I _ Hi)). Qed.
Lemma Rel_done Q0 W s r st a b r' : Rel Q0 (b :: W) s r st -> (forall q, In q Q0 -> q = b) -> ~ In b W -> registered A a -> lookup a st = Some b ->
  node (s_heap s) (Rst st) a b ->
  (o_name (s_heap s b) = o_name (H0 a) \/ exists sh x m, o_kind (s_heap s b) = shape_kind sh x /\ registered r x /\ clean (s_heap s) W x /\
     o_name (H0 a) = shape_name sh m /\ absolute m /\ get r m = Some x) ->
  (forall sh n, absolute n -> o_name (s_heap s b) = shape_name sh n ->
     exists y, o_kind (s_heap s b) = shape_kind sh y /\ (get r n = Some y \/ (In y W /\ o_name (s_heap s y) = n))) ->
  added (s_heap s) r b r' -> Rel [] W s r' st /\ get r' (o_name (H0 a)) = Some b.
Proof.
  intros R Hq Hb Ha Hl Hnode Hnm Hmean (I' & M & Rg & G & K & C). set (H := s_heap s) in *.
  assert (Lb : In b (b :: W)) by (left; reflexivity). destruct (rl_work R Lb) as [[Hb1 Hb2] _].
  assert (NW : forall t, registered r' t -> t < s_next s /\ ~ In t W /\ ~ registered A t).
  { intros t Ht. apply Rg in Ht. destruct Ht as [Ht| ->].
    - destruct (rl_reg R Ht) as (X & Y & Z). split; [assumption|]. split; [intros Hi; apply Y; right; assumption|assumption].
    - split; [assumption|]. split; [assumption|]. intros X. assert (Q := A_below X). lia. }
  assert (WK : forall t, In t W -> exists a, lookup a st = Some t /\ registered A a /\ o_name (H t) = o_name (H0 a) /\ (exists fs, o_kind (H0 a) = OComp fs) /\ get r (o_name (H t)) = None).
  { intros t Ht. destruct (rl_work R (or_intror Ht)) as (_ & a' & X & Y & [Z|Z]); [apply Hq in Z; subst t; contradiction|]. exists a'. auto. }
  assert (WN : forall t, In t W -> get r' (o_name (H t)) = None).
  { intros t Ht. destruct (WK _ Ht) as (a' & Hl' & Ha' & En & (fs & Ec) & Hg). destruct (get r' (o_name (H t))) as [u|] eqn:Eu; [|reflexivity]. exfalso.
    assert (Hab : absolute (o_name (H t))) by (rewrite En; apply (A_name Ha')).
    assert (NS : forall sh n, absolute n -> o_name (H t) <> shape_name sh n).
    { intros sh n Hn E. rewrite En in E. destruct (A_shape Ha' Hn E) as (x & Kx & _). rewrite Ec in Kx. destruct sh; discriminate. }
    destruct (K _ _ Hab Hg Eu) as [[E _]|D].
    - destruct Hnm as [Hnm|(sh & x & m & Kx & Rx & _)].
      + assert (a' = a) by (apply A_unique; congruence). subst a'. assert (t = b) by congruence. subst t. contradiction.
      + assert (Hx : absolute (o_name (H x))) by (destruct Rx as (k & Hk & Hgk); apply (get_primary (rl_inv R) Hgk)).
        apply (NS sh _ Hx). rewrite E. apply (rl_names R (shape_indirect Kx)).
    - destruct (derived_shape D) as (sh & x & n & _ & Hn & _ & _ & E). exact (NS _ _ Hn E). }
  assert (ME : forall n sh t, absolute n -> get r' (shape_name sh n) = Some t -> exists y, o_kind (H t) = shape_kind sh y /\ (get r' n = Some y \/ (In y W /\ o_name (H y) = n))).
  { intros n sh t Hn Ht. destruct (get r (shape_name sh n)) as [t0|] eqn:E0.
    - assert (X := M _ _ (shape_abs sh Hn) E0). assert (t0 = t) by congruence. subst t0. destruct (rl_meant R Hn E0) as (y & Ky & Y). exists y. split; [assumption|].
      destruct Y as [Y|[[<- |Y] Y2]]; [left; apply M; assumption|left; rewrite <- Y2; exact G|right; auto].
    - destruct (K _ _ (shape_abs sh Hn) E0 Ht) as [[E ->]|D].
      + destruct (Hmean _ _ Hn (eq_sym E)) as (y & Ky & Y). exists y. split; [assumption|]. destruct Y as [Y|Y]; [left; apply M; assumption|right; assumption].
      + destruct (derived_shape D) as (sh' & x & n' & Kx & Hn' & Hgx & _ & E). apply shape_name_inj in E. destruct E as [-> ->]. exists x. auto. }
  assert (CL : forall l n t, length n < l -> absolute n -> get r' n = Some t -> n <> o_name (H t) -> clean H W t).
  { induction l as [|l IHl]; intros n t Hlen Hn Ht Hne; [lia|]. destruct (get r n) as [t0|] eqn:E0.
    - assert (X := M _ _ Hn E0). assert (t0 = t) by congruence. subst t0. eapply clean_sub; [apply (rl_clean R Hn E0 Hne)|]. intros z Hz. right. assumption.
    - destruct (K _ _ Hn E0 Ht) as [[E ->]|D]; [contradiction|]. destruct (derived_shape D) as (sh & x & n' & Kx & Hn' & Hgx & Hnx & ->).
      assert (Cx : clean H W x). { apply (IHl n' x); try assumption. assert (Q := shape_longer sh n'). lia. }
      intros z Hz. destruct (reaches_inv Hz) as [-> |(d & Hd & Hr)]; [apply NW; eapply registered_get; [exact I'|exact Ht]|].
      rewrite (shape_deps Kx) in Hd. destruct Hd as [<- |[]]. apply (Cx _ Hr). }
  assert (GA : get r' (o_name (H0 a)) = Some b).
  { destruct Hnm as [<- |(sh & x & m & Kx & Rx & Cx & -> & Hm & Hg)]; [exact G|]. assert (Hg' := M _ _ Hm Hg).
    assert (Rb : registered r' b) by (apply Rg; auto). destruct (get r' (shape_name sh m)) as [z|] eqn:Ez; [|destruct (C b x (shape_name sh) m Rb (shape_indirect Kx) Hm Hg' Ez)].
    destruct (ME _ _ _ Hm Ez) as (y & Ky & [Y|[Y1 Y2]]); [|rewrite <- Y2, (WN _ Y1) in Hg'; discriminate].
    assert (y = x) by congruence. subst y. f_equal. apply (unique_named I'); [eapply registered_get; [exact I'|exact Ez]|assumption|].
    assert (X := rl_names R (shape_indirect Ky)). assert (Y0 := rl_names R (shape_indirect Kx)). unfold H. congruence. }
  split; [|exact GA]. constructor; try apply R; try assumption.
  - intros k t Hk Hg. apply M; [assumption|]. apply (rl_mono R Hk Hg).
  - intros t x Ht Hx. apply Rg in Ht. assert (X : registered r x \/ In x (b :: W)) by (destruct Ht as [Ht| ->]; [apply (rl_deps R Ht Hx)|apply (rl_wdeps R Lb Hx)]).
    destruct X as [X|[<- |X]]; [left; apply Rg; auto|left; apply Rg; auto|right; assumption].
  - intros t Ht. destruct (WK _ Ht) as (a' & X & Y & Z & U & _). split; [apply (rl_work R (or_intror Ht))|]. exists a'. split; [assumption|]. split; [assumption|]. right. auto.
  - intros t x Ht Hx. destruct (rl_wdeps R (or_intror Ht) Hx) as [X|[<- |X]]; [left; apply Rg; auto|left; apply Rg; auto|right; assumption].
  - intros n t Hn Hg Hne. eapply CL; [apply Nat.lt_succ_diag_r|eassumption..].
  - intros t Ht. apply Rg in Ht. destruct Ht as [Ht| ->].
    + destruct (rl_image R Ht) as [X|X]; [left|right; assumption]. eapply clean_sub; [exact X|]. intros z Hz. right. assumption.
    + destruct Hnm as [Hnm|(sh & x & m & Kx & Rx & Cx & _)]; [right; exists a; auto|left]. intros z Hz. destruct (reaches_inv Hz) as [-> |(d & Hd & Hr)]; [assumption|].
      change (In d (dependsOn H b)) in Hd; rewrite (shape_deps Kx) in Hd. destruct Hd as [<- |[]]. apply (Cx _ Hr).
  - intros x y Hxy. destruct (rl_stack R Hxy) as [[X [[<- |Y]|[Y1 Y2]]]|[X Y]].
    + left. split; [assumption|]. right. assert (x = a) by (apply (rl_inj R Lb Hxy); apply lookup_In; assumption). subst x. split; [apply Rg; auto|assumption].
    + left. split; [assumption|]. left. assumption.
    + left. split; [assumption|]. right. split; [apply Rg; auto|]. apply M; [apply (A_name X)|assumption].
    + right. split; [apply Rg; auto|assumption].
  - intros x y Hxy. destruct (rl_node R Hxy) as [[<- |X]|X]; [|left; assumption|right; assumption]. right. assert (x = a) by (apply (rl_inj R Lb Hxy); apply lookup_In; assumption). subst x. assumption.
  - intros x x' y Hy. apply (rl_inj R (or_intror Hy)).
  - intros t Ht. apply Rg in Ht. destruct Ht as [Ht| ->]; [apply (rl_types R Ht)|]. right. exists a. auto.
  - intros k t Hk Hg Hn. destruct (get r k) as [t0|] eqn:E0; [apply (rl_new R Hk E0 Hn)|]. destruct (K _ _ Hk E0 Hg) as [[-> ->]|D].
    + destruct Hnm as [Hnm|(sh & x & m & Kx & Rx & _)].
      * left. rewrite Hnm. destruct (A_name Ha) as [_ ->]. discriminate.
      * right. exists sh, (o_name (H x)). split; [destruct Rx as (k & Hk' & Hgk); apply (get_primary (rl_inv R) Hgk)|]. apply (rl_names R (shape_indirect Kx)).
    + right. destruct (derived_shape D) as (sh & x & n' & Kx & Hn' & _ & _ & E). eauto.
Qed.
End Rel.
