(** * MergeReg: Registry::merge. *)
From Verif Require Import Base Types NamesSpec Names NamesProofs Registry RegistrySpec RegistryProofs RegistryOps RegistryMain RegistryAlias World TypeBuilderSpec TypeBuilder TypeBuilderProofs TlbCore TlbBuild Merge MergeSpec MergeProofs MergeRel MergeMain.
From Verif Require Import Graph GraphSpec GraphProofs.
Local Open Scope nat_scope.

Lemma get_current r r' n : r_current r = r_current r' -> get r n = get r' n.
Proof. unfold get. intros ->. reflexivity. Qed.
Lemma copy_current H o : forall r, r_current (copySourceIDs H r o) = r_current r.
Proof.
  unfold copySourceIDs. induction (r_global o) as [|p l IH]; intros r; [reflexivity|]. cbn [fold_left]. rewrite IH. unfold copy_source. destruct (find_ (fst p) (r_global r)) as [e|]; [|reflexivity].
  destruct (e_src (snd p)); [reflexivity|]. destruct (e_src e); reflexivity.
Qed.
(** Objects that are equal in two memories, as far as they are reachable. *)
Lemma reaches_agree H H' a b (D : tid -> Prop) : D a -> (forall t d, D t -> In d (dependsOn H t) -> D d) -> (forall t, D t -> H' t = H t) -> reaches H' a b -> D b /\ reaches H a b.
Proof.
  intros Da Dd E. induction 1 as [|b c Hb [IH1 IH2] Hc]; [split; [assumption|constructor]|]. unfold dependsOn in Hc. rewrite E in Hc by assumption. fold (dependsOn H b) in Hc. split; [eapply Dd; eassumption|econstructor; eassumption].
Qed.
Lemma same_agree H H' a b (D : tid -> Prop) : D a -> D b -> (forall t d, D t -> In d (dependsOn H t) -> D d) -> (forall t, D t -> H' t = H t) -> struct_same H' a b -> struct_same H a b.
Proof.
  intros Da Db Dd E (R & HR & Hn). exists (fun x y => R x y /\ D x /\ D y). split; [auto|]. intros l r (HR' & Dl & Dr). assert (N := Hn _ _ HR'). apply node_deps in N. unfold node in *. rewrite (E _ Dl), (E _ Dr) in N. destruct N as [N1 N2]. split; [exact N1|].
  assert (Dl' : forall d, In d (dependsOn H l) -> D d) by (intros d; apply Dd; assumption). assert (Dr' : forall d, In d (dependsOn H r) -> D d) by (intros d; apply Dd; assumption).
  unfold dependsOn in Dl', Dr'. unfold dependsOn in N2. rewrite (E _ Dl), (E _ Dr) in N2. destruct (o_kind (H l)), (o_kind (H r)); try exact N2.
  - destruct N2 as (X & _). split; [exact X|]. split; [apply Dl'; left; reflexivity|apply Dr'; left; reflexivity].
  - destruct N2 as (X & Y & _). split; [exact X|]. split; [exact Y|]. split; [apply Dl'; left; reflexivity|apply Dr'; left; reflexivity].
  - destruct N2 as (X & Y & _). split; [exact X|]. split; [exact Y|]. split; [apply Dl'; left; reflexivity|apply Dr'; left; reflexivity].
  - eapply Forall2_impl; [|exact N2]. intros x y (X & Y & Z & I1 & I2). split; [exact X|]. split; [exact Y|]. split; [exact Z|]. split; [apply Dl', I1|apply Dr', I2].
Qed.
Section Reg.
Variables (H0 : heap) (N0 : tid) (A B0 : reg).
Hypothesis PA : proper H0 N0 A.
Hypothesis Disj : forall t, registered A t -> registered B0 t -> False.
Hypothesis Cons : forall t, constructed_as H0 t.
Hypothesis Arr : forall t, registered A t -> no_array_cycle H0 t.
Let IA : Inv H0 A := reachable_Inv (pr_reachable PA).
Notation Rel := (Rel H0 N0 A B0).
Notation RelS Q W st := (Rel Q W (m_store st) (m_reg st) (m_stack st)).
Notation wp := (wp H0 N0 B0).

Lemma mall_ok {X} (m : X -> MM unit) (P : list X -> mstate -> Prop) (l : list X) :
  (forall done x st, incl (x :: done) l -> P done st -> wp (m x) st (fun _ st' => P (x :: done) st')) ->
  forall st, P [] st -> wp (mall m l) st (fun _ st' => P (rev l) st').
Proof.
  intros Hm. assert (G : forall l' done st, (forall x, In x done \/ In x l' -> In x l) -> P done st -> wp (mall m l') st (fun _ st' => P (rev l' ++ done) st')).
  { induction l' as [|x l' IH]; intros done st Hi HP; cbn [mall]; [apply wp_ret; exact HP|]. apply wp_bind. eapply wp_mono; [|apply Hm; [|exact HP]].
    - intros [] st' HP'. cbv beta in *. eapply wp_mono; [|apply (IH (x :: done)); [|exact HP']]; [intros [] st''; cbn [rev]; rewrite <- app_assoc; auto|].
      intros y [[<- |Hy]|Hy]; apply Hi; [right; left; reflexivity|left; assumption|right; right; assumption].
    - intros y [<- |Hy]; apply Hi; [right; left; reflexivity|left; assumption]. }
  intros st HP. assert (X0 := G l [] st). rewrite app_nil_r in X0. apply X0; [|exact HP]. intros x [[]|Hx]. assumption.
Qed.
Lemma entry_reg p : In p (r_global A) -> registered A (e_type (snd p)).
Proof. destruct p as [n e]. intros Hp. destruct (global_get IA Hp) as (Hn & _ & G). exists n. auto. Qed.
Lemma phase1 d f st : RelS [] [] st -> wp (mall (merge_entry d f) (r_global A)) st (fun _ st' => RelS [] [] st' /\ forall a, registered A a -> exists b, lookup a (m_stack st') = Some b).
Proof.
  intros R. eapply wp_mono; [|apply (@mall_ok _ (merge_entry d f) (fun done st' => RelS [] [] st' /\ forall p, In p done -> isAlias H0 p = false -> exists b, lookup (e_type (snd p)) (m_stack st') = Some b))].
  - intros [] st' [R' L]. split; [exact R'|]. intros a Ha. destruct (A_name PA Ha) as [Hn Hg]. destruct (get_In IA Hn Hg) as (e & Hi & <-). destruct (L (o_name (H0 (e_type e)), e)) as (b & Hb); [apply in_rev in Hi; exact Hi| |eauto].
    unfold isAlias. cbn [fst snd]. rewrite seqb_refl. reflexivity.
  - intros done p st1 Hi [R1 L]. unfold merge_entry, m_isAlias. apply wp_asks. assert (Hp := entry_reg (Hi p (or_introl eq_refl))).
    assert (Ei : isAlias (m_heap st1) p = isAlias H0 p) by (unfold isAlias, m_heap; rewrite (A_heap PA R1 Hp); reflexivity). rewrite Ei. destruct (isAlias H0 p) eqn:Ea.
    + apply wp_ret. split; [exact R1|]. intros q [<- |Hq] Hal; [congruence|apply L; assumption].
    + apply wp_bind. eapply wp_mono; [|apply (merge_ok PA Disj Cons Arr f d (W := []) (st := st1) R1 Hp)]; [|intros t a' []].
      intros b st2 (R2 & L2 & E2). apply wp_ret. split; [exact R2|]. intros q [<- |Hq] Hal; [eauto|]. destruct (L q Hq Hal) as (b' & Hb'). exists b'. apply E2. exact Hb'.
  - split; [exact R|]. intros p [].
Qed.
(** The images of the types, when all of them are merged. *)
Lemma Rst_node s r st : Rel [] [] s r st -> forall x y, Rst st x y -> node (s_heap s) (Rst st) x y.
Proof.
  intros R x y [-> |[X|X]]; [apply node_refl; intros z; left; reflexivity| |apply Rst_sym_node]; destruct (rl_node R X) as [[]|Y]; exact Y.
Qed.
Lemma image_same s r st a b : Rel [] [] s r st -> registered A a -> lookup a st = Some b -> get r (o_name (H0 a)) = Some b /\ struct_same (s_heap s) a b.
Proof.
  intros R Ha Hl. split; [destruct (image R Ha Hl) as [[]|[_ X]]; exact X|]. exists (Rst st). split; [apply Rst_in, Hl|]. apply Rst_node with (1 := R).
Qed.

(** What holds at the end of a merge, and in its second phase. *)
Record After (s1 : store) (st1 : stack) (r1 r : reg) : Prop := {
  af_inv : Inv (s_heap s1) r;
  af_mono : mono r1 r;
  af_reg : forall t, registered r t <-> registered r1 t;
  af_new : forall k t, absolute k -> get r k = Some t -> get B0 k = None -> get A k <> None \/ exists sh m, absolute m /\ k = shape_name sh m
}.
Lemma phase2 f st : RelS [] [] st -> (forall a, registered A a -> exists b, lookup a (m_stack st) = Some b) ->
  wp (mall (merge_alias f) (r_global A)) st (fun _ st' => m_store st' = m_store st /\ After (m_store st) (m_stack st) (m_reg st) (m_reg st') /\
    forall n t, absolute n -> get A n = Some t -> exists t', get (m_reg st') n = Some t' /\ struct_same (m_heap st) t t').
Proof.
  intros R Hall. assert (Im : forall a, registered A a -> exists b, get (m_reg st) (o_name (H0 a)) = Some b /\ struct_same (m_heap st) a b).
  { intros a Ha. destruct (Hall a Ha) as (b & Hb). exists b. exact (image_same R Ha Hb). }
  eapply wp_mono; [|apply (@mall_ok _ (merge_alias f) (fun done st' => m_store st' = m_store st /\ After (m_store st) (m_stack st) (m_reg st) (m_reg st') /\
     forall p, In p done -> exists t', get (m_reg st') (fst p) = Some t' /\ struct_same (m_heap st) (e_type (snd p)) t'))].
  - intros [] st' (Es & Af & L). split; [exact Es|]. split; [exact Af|]. intros n t Hn Hg. destruct (get_In IA Hn Hg) as (e & Hi & <-). apply in_rev in Hi. exact (L _ Hi).
  - intros done p st1 Hi (Es & Af & L). assert (Hp := Hi p (or_introl eq_refl)). assert (Rp := entry_reg Hp). assert (Hh : m_heap st1 = m_heap st) by (unfold m_heap; congruence).
    destruct p as [n e]. cbn [fst snd] in *. destruct (global_get IA Hp) as (Hn & _ & Gn). assert (Pn := plain_get IA Hn Gn).
    assert (S1 : Safe H0 N0 B0 st1).
    { destruct (Rel_safe R) as (X1 & X2 & X3). split; [rewrite Es; exact X1|]. rewrite Hh. split; [exact X2|]. intros k t Hk G. apply (af_mono Af Hk). apply X3; assumption. }
    assert (Keep : forall r', mono (m_reg st1) r' -> forall p, In p done -> exists t', get r' (fst p) = Some t' /\ struct_same (m_heap st) (e_type (snd p)) t').
    { intros r' M p Hpd. destruct (L p Hpd) as (t' & G & S). exists t'. split; [|exact S]. apply M; [|exact G]. destruct p as [m e']. apply (global_get IA (Hi _ (or_intror Hpd))). }
    assert (Ht : m_heap st1 (e_type e) = H0 (e_type e)) by (rewrite Hh; exact (A_heap PA R Rp)).
    unfold merge_alias, m_isAlias. apply wp_asks. cbn [snd fst]. unfold isAlias. cbn [fst snd]. rewrite Ht. destruct (seqb n (o_name (H0 (e_type e)))) eqn:Ea; cbn [negb].
    + apply wp_ret. split; [exact Es|]. split; [exact Af|]. intros q [<- |Hq]; [|apply (Keep (m_reg st1)); [intros k t _ G; exact G|assumption]].
      cbn [fst snd]. apply seqb_eq in Ea. subst n. destruct (Im _ Rp) as (b & G & S). exists b. split; [apply (af_mono Af Hn G)|exact S].
    + apply wp_asks. destruct (get (m_reg st1) n) as [u|] eqn:Eu.
      * apply wp_bind. unfold MergeMain.wp. destruct (isSame f (m_heap st1) u (e_type e)) as [ok|x|x|] eqn:Ei; [|exact S1| |exact S1].
        -- destruct ok; [|exact S1]. apply wp_ret. split; [exact Es|]. split; [exact Af|]. intros q [<- |Hq]; [|apply (Keep (m_reg st1)); [intros k t _ G; exact G|assumption]].
           cbn [fst snd]. exists u. split; [exact Eu|]. apply same_sym. rewrite <- Hh. exact (isSame_sound Ei).
        -- unfold isSame, compare_types in Ei. destruct (u =? e_type e); [discriminate|]. destruct (do_compare f (m_heap st1) u (e_type e) true _) as [[? ?]| |y|] eqn:Ec; try discriminate. exact (@compare_noub _ _ _ _ _ _ _ Ec).
      * apply wp_asks. rewrite Ht. unfold MergeMain.wp, m_alias. destruct (alias_ f (m_heap st1) (m_reg st1) (o_name (H0 (e_type e))) n (e_pers e) (e_src e)) as [r' x] eqn:El.
        assert (I1 : Inv (m_heap st1) (m_reg st1)) by (rewrite Hh; apply (af_inv Af)). destruct (alias_effect I1 Pn El) as (I' & M & _ & Ef). assert (Rg := alias_registered I1 Pn El).
        assert (S' : Safe H0 N0 B0 (MS (m_store st1) r' (m_stack st1) (m_freed st1))).
        { destruct S1 as (X1 & X2 & X3). split; [exact X1|]. split; [exact X2|]. intros k t Hk G. apply M; [assumption|]. apply X3; assumption. }
        destruct (Im _ Rp) as (b & Gb & Sb). assert (Gb1 := af_mono Af (plain_absolute (A_plain PA Rp)) Gb).
        destruct x as [[]|x|x|]; [|exact S'|exact (proj1 (alias_noub _ _ f) _ _ _ _ _ _ El)|exact S']. split; [exact Es|]. split.
        -- constructor; cbn [m_reg].
           ++ change (Inv (m_heap st) r'); rewrite <- Hh. exact I'.
           ++ intros k t Hk G. apply M; [assumption|]. apply (af_mono Af Hk G).
           ++ intros t. rewrite Rg. apply (af_reg Af).
           ++ intros k t Hk G Gb0. destruct (Ef k Hk) as [Eq|(_ & y & Ey & [[-> _]|D])]; [rewrite Eq in G; apply (af_new Af Hk G Gb0)|left; congruence|].
              right. destruct (derived_shape D) as (sh & x & m & _ & Hm & _ & _ & E). eauto.
        -- intros q [<- |Hq]; [|apply (Keep r' M q Hq)]. cbn [fst snd m_reg]. exists b. split; [|exact Sb]. destruct (proj2 (complete_ (m_heap st1) f) _ _ _ _ _ _ _ I1 Pn Gb1 El) as (_ & X & _). exact X.
  - split; [reflexivity|]. split; [|intros p []]. constructor; [apply (rl_inv R)|intros k t _ G; exact G|intros t; reflexivity|apply (rl_new R)].
Qed.

(** ** The merge of registries *)
Lemma reg_merge_ok d f st : RelS [] [] st -> wp (merge_body d f A) st (fun _ st' =>
  (forall t, t < N0 -> m_heap st' t = H0 t) /\ mono B0 (m_reg st') /\
  (forall n t, absolute n -> get A n = Some t -> exists t', get (m_reg st') n = Some t' /\ struct_same (m_heap st') t t') /\
  (forall t, registered (m_reg st') t -> registered B0 t \/ exists a, registered A a /\ get (m_reg st') (o_name (H0 a)) = Some t /\ struct_same (m_heap st') a t) /\
  (forall k t, absolute k -> get (m_reg st') k = Some t -> get B0 k = None -> get A k <> None \/ exists sh m, absolute m /\ k = shape_name sh m) /\
  deps_closed (m_heap st') (m_reg st') /\ (forall t, registered (m_reg st') t -> ~ registered A t)).
Proof.
  intros R. unfold merge_body. apply wp_bind. eapply wp_mono; [|apply (phase1 d f R)]. intros [] st1 [R1 L1]. cbv beta. apply wp_bind. eapply wp_mono; [|apply (phase2 f R1 L1)].
  intros [] st2 (Es & Af & G2). cbv beta. assert (Hh : m_heap st2 = m_heap st1) by (unfold m_heap; congruence).
  unfold MergeMain.wp, m_copySourceIDs. set (r' := copySourceIDs _ _ _). unfold m_heap. cbn [m_store m_reg]. fold (m_heap st2).
  assert (Gr : forall n, get r' n = get (m_reg st2) n) by (intros n; apply get_current, copy_current).
  assert (Rr : forall t, registered r' t <-> registered (m_reg st1) t) by (intros t; rewrite <- (af_reg Af); unfold registered; split; intros (n & Hn & G); exists n; rewrite Gr in *; auto).
  rewrite Hh. split; [intros t Ht; apply (rl_old R1 Ht)|]. split; [intros k t Hk G; rewrite Gr; apply (af_mono Af Hk), (rl_mono R1 Hk G)|].
  split; [intros n t Hn G; rewrite Gr; apply G2; assumption|]. split.
  - intros t Ht. apply Rr in Ht. destruct (rl_types R1 Ht) as [X|(a & Ha & Hl)]; [left; assumption|right]. destruct (image_same R1 Ha Hl) as [G S]. exists a. split; [assumption|]. split; [|exact S].
    rewrite Gr. apply (af_mono Af); [apply (A_name PA Ha)|exact G].
  - split; [intros k t Hk G Gn; rewrite Gr in G; apply (af_new Af Hk G Gn)|]. split.
    + intros t x Ht Hx. apply Rr in Ht. apply Rr. destruct (rl_deps R1 Ht Hx) as [X|[]]. exact X.
    + intros t Ht. apply Rr in Ht. apply (rl_reg R1 Ht).
Qed.
End Reg.
