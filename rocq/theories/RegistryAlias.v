(** * RegistryAlias: aliasing terminates and names all the derived types. *)
From Coq Require Import Sorted DecimalString DecimalN DecimalFacts.
From Verif Require Import Base Types NamesSpec Names NamesProofs NamesPath Graph GraphProofs Registry RegistrySpec RegistryProofs RegistryOps RegistryMain.
Local Open Scope nat_scope.

(** ** Termination *)
Lemma each_mono A (f g : reg -> A -> reg * res unit) l : (forall r x r' out, f r x = (r', out) -> out <> Fuel -> g r x = (r', out)) ->
  forall r r' out, each f l r = (r', out) -> out <> Fuel -> each g l r = (r', out).
Proof.
  intros Hf. induction l as [|x l IH]; intros r r' out E Ho; simpl in *; [assumption|]. destruct (f r x) as [r1 o1] eqn:E1.
  destruct o1 as [u| | |]; simpl in E; try (inversion E; subst; rewrite (Hf _ _ _ _ E1) by assumption; reflexivity).
  rewrite (Hf _ _ _ _ E1) by discriminate. simpl. auto.
Qed.
Lemma seq_mono x (f g : reg -> reg * res unit) r' out : (forall r r' out, f r = (r', out) -> out <> Fuel -> g r = (r', out)) -> seq_ x f = (r', out) -> out <> Fuel -> seq_ x g = (r', out).
Proof. intros Hf. destruct x as [r [u| | |]]; simpl; auto. Qed.
Lemma fuel_mono H : forall f,
  (forall r t r' out, mda f H r t = (r', out) -> out <> Fuel -> mda (S f) H r t = (r', out)) /\
  (forall r base n pers src r' out, alias_ f H r base n pers src = (r', out) -> out <> Fuel -> alias_ (S f) H r base n pers src = (r', out)).
Proof.
  induction f as [|f [IHm IHa]]; [split; simpl; intros; match goal with E : (_, Fuel) = _ |- _ => inversion E; subst; contradiction end|]. split.
  - intros r t r' out E Ho. remember (S f) as k eqn:Ek. cbn [mda]. rewrite Ek in E. cbn [mda] in E. destruct (indirect_name H t) as [[x mk]|]; [|assumption].
    eapply each_mono; [|exact E|exact Ho]. clear r r' out E Ho. intros r a r' out E Ho. cbn beta in *. destruct (has r (mk a)); [assumption|]. auto.
  - intros r base n pers src r' out E Ho. remember (S f) as k eqn:Ek. cbn [alias_]. rewrite Ek in E. cbn [alias_] in E. destruct (negb _); [assumption|]. destruct (get r base) as [b|]; [|assumption].
    eapply seq_mono; [|exact E|exact Ho]. clear r' out E Ho. intros r1 r' out E Ho. cbn beta in *. eapply each_mono; [|exact E|exact Ho]. auto.
Qed.
Lemma fuel_mono_le H f g r base n pers src r' out : f <= g -> alias_ f H r base n pers src = (r', out) -> out <> Fuel -> alias_ g H r base n pers src = (r', out).
Proof. intros Hl E Ho. induction Hl; [assumption|]. apply fuel_mono; assumption. Qed.

Definition ranked (H : heap) (rank : tid -> nat) : Prop := forall t x mk, indirect_name H t = Some (x, mk) -> rank x < rank t.
Definition below (rank : tid -> nat) (M : nat) (r : reg) : Prop := forall t, registered r t -> rank t <= M.
Lemma registered_get H r n t : Inv H r -> get r n = Some t -> registered r t.
Proof. intros I Hg. destruct (get_primary I Hg). eexists. eauto. Qed.
Lemma indirect_dep H D x mk b : indirect_name H D = Some (x, mk) -> In b (dependsOn H D) -> b = x.
Proof. unfold indirect_name, dependsOn. destruct (o_kind (H D)); try discriminate; try (destruct k; try discriminate); intros E [<- |[]]; inversion E; reflexivity. Qed.
Lemma each_no_fuel H A (f : reg -> A -> reg * res unit) (P : reg -> A -> Prop) l :
  (forall r x r' out, Inv H r -> P r x -> f r x = (r', out) -> chain H r r' /\ out <> Fuel) ->
  (forall r r' x, Inv H r -> chain H r r' -> P r x -> P r' x) ->
  forall r r' out, Inv H r -> (forall x, In x l -> P r x) -> each f l r = (r', out) -> out <> Fuel.
Proof.
  intros Hf Hp. induction l as [|x l IH]; intros r r' out I Hl E; simpl in E; [inversion E; discriminate|].
  destruct (f r x) as [r1 o1] eqn:E1. destruct (Hf _ _ _ _ I (Hl x (or_introl eq_refl)) E1) as [C1 O1].
  destruct o1; simpl in E; try (inversion E; subst; assumption).
  eapply IH; [apply (chain_spec C1 I)| |exact E]. intros y Hy. eapply Hp; [exact I|exact C1|]. apply Hl. right. assumption.
Qed.
Lemma chain_below rank M H r r' : chain H r r' -> Inv H r -> below rank M r -> below rank M r'.
Proof. intros Hc I Hb t Ht. apply Hb. apply (chain_spec Hc I). assumption. Qed.
Lemma bound_below rank M H r n e r' m : Inv H r -> bound H r n e r' -> get r m = Some (e_type e) -> below rank M r -> below rank M r'.
Proof.
  intros I Hb Hm Hl t (k & Hk & Hg). destruct (bound_Inv I Hb) as (_ & G & _); [right; eauto|]. rewrite G in Hg by assumption. destruct (seqb n k).
  - inversion Hg; subst t. apply Hl. eapply registered_get; eauto.
  - apply Hl. exists k. auto.
Qed.
Lemma no_fuel H rank M : ranked H rank -> forall f,
  (forall r t r' out, Inv H r -> below rank M r -> get r (o_name (H t)) = Some t ->
     (indirect_name H t = None /\ 0 < f) \/ 2 * (M - rank t) + 3 <= f -> mda f H r t = (r', out) -> out <> Fuel) /\
  (forall r base n pers src r' out b, Inv H r -> below rank M r -> plain n -> get r base = Some b -> 2 * (M - rank b) + 2 <= f ->
     alias_ f H r base n pers src = (r', out) -> out <> Fuel).
Proof.
  intros HR. induction f as [|f [IHm IHa]]; [split; intros; simpl in *; lia|]. split.
  - intros r t r' out I Hb Hg Hf E. cbn [mda] in E. destruct (indirect_name H t) as [[x mk]|] eqn:Ei; [|inversion E; discriminate].
    assert (Hf' : 2 * (M - rank t) + 3 <= S f) by (destruct Hf as [[X _]|X]; [discriminate|assumption]).
    eapply (@each_no_fuel H _ _ (fun r a => below rank M r /\ get r (o_name (H t)) = Some t /\ absolute a /\ get r a = Some x /\ a <> o_name (H x))); [| |exact I| |exact E].
    + clear r r' out I Hb Hg E Hf. intros r a r' out I (Hb & Hg & Ha & Hx & Hn) E. unfold has in E. destruct (find_ (mk a) (r_current r)) eqn:Ef; [inversion E; split; [constructor|discriminate]|].
      destruct (get_In I Ha Hx) as (ea & Hia & _). destruct (global_get I Hia) as (_ & Hpa & _). assert (Hp := plain_indirect Ei Hpa). assert (HR1 := HR _ _ _ Ei). split; [|eapply (IHa _ _ _ _ _ _ _ t I Hb Hp Hg); [lia|exact E]].
      destruct (proj2 (mda_alias_chain H f) _ _ _ _ _ _ _ _ I Hp Hg E) as [-> |(r1 & [Hb1|[-> Hq]] & Hc)]; [constructor| |assumption].
      econstructor; [|exact Hc]. split; [exact Hb1|]. cbn [e_type]. split; [exact Hg|]. exists x, mk, a. repeat split; auto.
    + clear r r' out I Hb Hg E. intros r r' a I Hc (Hb & Hg & Ha & Hx & Hn). destruct (chain_spec Hc I) as (_ & Mo & _). split; [eapply chain_below; eauto|]. repeat split; auto. apply Mo; [apply (get_primary I Hg)|assumption].
    + intros a Hi. apply (aliases_get x a I) in Hi. tauto.
  - intros r base n pers src r' out b I Hbl Hp Hg Hf E. cbn [alias_] in E. destruct (isValidTypename n true); cbn [negb] in E; [|inversion E; discriminate]. rewrite Hg in E.
    destruct (add_named H r n (Ent b pers src)) as [r1 o1] eqn:Ea.
    assert (Hbm : rank b <= M) by (apply Hbl; eapply registered_get; eauto).
    assert (K : forall r1, Inv H r1 -> below rank M r1 -> each (mda f H) (map (fun p => e_type (snd p)) (filter (fun p => negb (isAlias H p) && depends_on H (e_type (snd p)) b) (r_global r1))) r1 = (r', out) -> out <> Fuel).
    { clear E Ea r1. intros r1 I1 Hb1 E. eapply (@each_no_fuel H _ _ (fun r t => below rank M r /\ get r (o_name (H t)) = Some t /\ In b (dependsOn H t))); [| |exact I1| |exact E].
      - intros r2 t r3 o3 I2 (B2 & G2 & D2) E2. split; [eapply (proj1 (mda_alias_chain H f)); eauto|]. eapply IHm; [exact I2|exact B2|exact G2| |exact E2].
        destruct (indirect_name H t) as [[x mk]|] eqn:Ei; [|left; split; [reflexivity|lia]]. right. assert (b = x) by (eapply indirect_dep; eauto). subst x.
        assert (X := HR _ _ _ Ei). assert (Y : rank t <= M) by (apply B2; eapply registered_get; eauto). lia.
      - intros r2 r3 t I2 Hc (B2 & G2 & D2). destruct (chain_spec Hc I2) as (_ & Mo & _). split; [eapply chain_below; eauto|]. split; [|assumption]. apply Mo; [apply (get_primary I2 G2)|assumption].
      - intros t Ht. apply (triggers_spec b t I1) in Ht. tauto. }
    destruct (add_named_spec Hp Ea) as [(-> & -> & _)|[(-> & -> & Hq)|[(-> & -> & _)|(-> & Hb)]]]; cbn [seq_] in E; try (inversion E; discriminate).
    + eapply K; eauto.
    + destruct (bound_Inv I Hb) as (I1 & _ & _); [right; eauto|]. eapply K; [exact I1| |exact E]. exact (@bound_below rank M H r n (Ent b pers src) r1 base I Hb Hg Hbl).
Qed.

(** ** Completeness *)
Definition newok (H : heap) (r r' : reg) : Prop :=
  forall D x mk a, registered r' D -> indirect_name H D = Some (x, mk) -> absolute a -> get r a = None -> get r' a = Some x -> a <> o_name (H x) -> get r' (mk a) <> None.
Lemma newok_refl H r : newok H r r.
Proof. intros D x mk a _ _ _ E1 E2. congruence. Qed.
Lemma indirect_abs H t x mk a : indirect_name H t = Some (x, mk) -> absolute a -> absolute (mk a).
Proof.
  unfold indirect_name. intros E [q ->]. destruct (o_kind (H t)); try discriminate; try (destruct k; try discriminate); inversion E; subst; eexists; reflexivity.
Qed.
Lemma mono_not_None r r' k : mono r r' -> absolute k -> get r k <> None -> get r' k <> None.
Proof. intros Hm Hk Hg. destruct (get r k) as [t|] eqn:E; [|contradiction]. rewrite (Hm _ _ Hk E). discriminate. Qed.
Lemma newok_trans H r r1 r2 : mono r1 r2 -> (forall t, registered r2 t <-> registered r1 t) -> newok H r r1 -> newok H r1 r2 -> newok H r r2.
Proof.
  intros M2 R2 N1 N2 D x mk a HD Hi Ha Hn Hg Hne. destruct (get r1 a) as [y|] eqn:E.
  - assert (X := M2 _ _ Ha E). rewrite Hg in X. inversion X; subst y. eapply mono_not_None; [exact M2|eapply indirect_abs; eauto|]. eapply N1; eauto. apply R2. assumption.
  - eapply N2; eauto.
Qed.
Lemma each_post H A (f : reg -> A -> reg * res unit) (P : reg -> A -> Prop) (Q : reg -> A -> Prop) l :
  (forall r x r', Inv H r -> P r x -> f r x = (r', Ok tt) -> chain H r r' /\ newok H r r' /\ Q r' x) ->
  (forall r r' x, Inv H r -> chain H r r' -> P r x -> P r' x) ->
  (forall r r' x, Inv H r -> chain H r r' -> Q r x -> Q r' x) ->
  forall r r', Inv H r -> (forall x, In x l -> P r x) -> each f l r = (r', Ok tt) -> chain H r r' /\ newok H r r' /\ forall x, In x l -> Q r' x.
Proof.
  intros Hf Hp Hq. induction l as [|x l IH]; intros r r' I Hl E; simpl in E; [inversion E; subst; split; [constructor|split; [apply newok_refl|intros y []]]|].
  destruct (f r x) as [r1 o1] eqn:E1. destruct o1 as [u| | |]; simpl in E; try discriminate. destruct u.
  destruct (Hf _ _ _ I (Hl x (or_introl eq_refl)) E1) as (C1 & N1 & Q1). assert (I1 : Inv H r1) by (apply (chain_spec C1 I)).
  destruct (IH r1 r' I1) as (C2 & N2 & Q2); [intros y Hy; eapply Hp; [exact I|exact C1|apply Hl; right; assumption]|exact E|].
  destruct (chain_spec C2 I1) as (_ & M2 & _ & R2 & _). split; [eapply chain_trans; eauto|]. split; [eapply newok_trans; eauto|].
  intros y [<- |Hy]; [|auto]. eapply Hq; eauto.
Qed.
Lemma complete_ H : forall f,
  (forall r t r', Inv H r -> get r (o_name (H t)) = Some t -> mda f H r t = (r', Ok tt) ->
     newok H r r' /\ forall x mk a, indirect_name H t = Some (x, mk) -> absolute a -> get r a = Some x -> a <> o_name (H x) -> get r' (mk a) <> None) /\
  (forall r base n pers src r' b, Inv H r -> plain n -> get r base = Some b -> alias_ f H r base n pers src = (r', Ok tt) ->
     newok H r r' /\ get r' n = Some b /\ forall t mk, registered r t -> indirect_name H t = Some (b, mk) -> n <> o_name (H b) -> get r' (mk n) <> None).
Proof.
  induction f as [|f [IHm IHa]]; [split; intros; simpl in *; discriminate|]. split.
  - intros r t r' I Hg E. cbn [mda] in E. destruct (indirect_name H t) as [[x mk]|] eqn:Ei; [|inversion E; subst; split; [apply newok_refl|intros; discriminate]].
    destruct (@each_post H _ (fun r a => if has r (mk a) then (r, Ok tt) else alias_ f H r (o_name (H t)) (mk a) false [])
      (fun r a => get r (o_name (H t)) = Some t /\ absolute a /\ get r a = Some x /\ a <> o_name (H x)) (fun r a => absolute a /\ get r (mk a) <> None) (getAliasesOf H r x)) with (r := r) (r' := r') as (C & N & Q); auto.
    + clear r r' I Hg E. intros r a r' I (Hg & Ha & Hx & Hn) E. unfold has in E. destruct (find_ (mk a) (r_current r)) eqn:Ef.
      { inversion E; subst. split; [constructor|]. split; [apply newok_refl|]. split; [assumption|]. unfold get. rewrite Ef. discriminate. }
      destruct (get_In I Ha Hx) as (ea & Hia & _). destruct (global_get I Hia) as (_ & Hpa & _). assert (Hp := plain_indirect Ei Hpa).
      destruct (IHa _ _ _ _ _ _ _ I Hp Hg E) as (N & G & _).
      split; [|split; [assumption|split; [assumption|rewrite G; discriminate]]].
      destruct (proj2 (mda_alias_chain H f) _ _ _ _ _ _ _ _ I Hp Hg E) as [-> |(r1 & [Hb1|[-> Hq]] & Hc)]; [constructor| |assumption].
      econstructor; [|exact Hc]. split; [exact Hb1|]. cbn [e_type]. split; [exact Hg|]. exists x, mk, a. repeat split; auto.
    + clear r r' I Hg E. intros r r' a I Hc (Hg & Ha & Hx & Hn). destruct (chain_spec Hc I) as (_ & Mo & _). repeat split; auto. apply Mo; [apply (get_primary I Hg)|assumption].
    + clear r r' I Hg E. intros r r' a I Hc [Ha Hq]. destruct (chain_spec Hc I) as (_ & Mo & _). split; [assumption|]. eapply mono_not_None; eauto. eapply indirect_abs; eauto.
    + intros a Hi. apply (aliases_get x a I) in Hi. tauto.
    + split; [assumption|]. intros y mk' a E0 Ha Hx Hn. inversion E0; subst y mk'. apply Q. apply (aliases_get x a I). auto.
  - intros r base n pers src r' b I Hp Hg E. cbn [alias_] in E. destruct (isValidTypename n true); cbn [negb] in E; [|inversion E]. rewrite Hg in E.
    destruct (add_named H r n (Ent b pers src)) as [r1 o1] eqn:Ea.
    assert (K : forall r1, Inv H r1 -> get r1 n = Some b ->
      each (mda f H) (map (fun p => e_type (snd p)) (filter (fun p => negb (isAlias H p) && depends_on H (e_type (snd p)) b) (r_global r1))) r1 = (r', Ok tt) ->
      chain H r1 r' /\ newok H r1 r' /\ forall t mk, registered r1 t -> indirect_name H t = Some (b, mk) -> n <> o_name (H b) -> get r' (mk n) <> None).
    { clear E Ea r1. intros r1 I1 Gn E.
      destruct (@each_post H _ (mda f H) (fun r t => get r (o_name (H t)) = Some t /\ get r n = Some b)
        (fun r t => forall mk, indirect_name H t = Some (b, mk) -> n <> o_name (H b) -> get r (mk n) <> None)
        (map (fun p => e_type (snd p)) (filter (fun p => negb (isAlias H p) && depends_on H (e_type (snd p)) b) (r_global r1)))) with (r := r1) (r' := r') as (C & N & Q); auto.
      - intros r2 t r3 I2 (G2 & Gn2) E2. split; [eapply (proj1 (mda_alias_chain H f)); eauto|]. destruct (IHm _ _ _ I2 G2 E2) as [N2 A2]. split; [assumption|].
        intros mk Ei Hn. eapply A2; eauto. apply plain_absolute; assumption.
      - intros r2 r3 t I2 Hc (G2 & Gn2). destruct (chain_spec Hc I2) as (_ & Mo & _). split; apply Mo; auto; [apply (get_primary I2 G2)|apply plain_absolute; assumption].
      - intros r2 r3 t I2 Hc Hq mk Ei Hn. destruct (chain_spec Hc I2) as (_ & Mo & _). eapply mono_not_None; eauto. eapply indirect_abs; eauto. apply plain_absolute; assumption.
      - intros t Ht. apply (triggers_spec b t I1) in Ht. tauto.
      - split; [assumption|]. split; [assumption|]. intros t mk Hr Ei Hn. refine (Q t _ mk Ei Hn). apply (triggers_spec b t I1).
        destruct Hr as (k & Hk & Hkt). destruct (get_primary I1 Hkt) as [A B]. repeat split; auto. unfold indirect_name, dependsOn in *. destruct (o_kind (H t)); try discriminate; try (destruct k0; try discriminate); inversion Ei; left; reflexivity. }
    destruct (add_named_spec Hp Ea) as [(-> & -> & _)|[(-> & -> & Hq)|[(-> & -> & _)|(-> & Hb)]]]; cbn [seq_] in E; try discriminate.
    + destruct (K r I Hq E) as (C & N & Q). split; [assumption|]. split; [apply (chain_spec C I); [apply plain_absolute; assumption|assumption]|exact Q].
    + destruct (bound_Inv I Hb) as (I1 & G1 & _); [right; eauto|]. assert (Mb := bound_mono Hb G1).
      assert (Gn : get r1 n = Some b) by (rewrite G1, seqb_refl by (apply plain_absolute; assumption); reflexivity).
      destruct (K r1 I1 Gn E) as (C & N & Q). destruct (chain_spec C I1) as (_ & M2 & _ & R2 & _). split; [|split; [apply M2; [apply plain_absolute; assumption|assumption]|]].
      2: { intros t mk (k & Hk & Hkt). apply Q. exists k. split; [assumption|]. apply Mb; assumption. }
      intros D x mk a HD Hi Ha Hn Hx Hne. destruct (get r1 a) as [y|] eqn:Ey.
      * assert (X := M2 _ _ Ha Ey). rewrite Hx in X. inversion X; subst y. rewrite G1 in Ey by assumption. destruct (seqb n a) eqn:En; [|congruence]. apply seqb_eq in En. subst a. cbn [e_type] in Ey. inversion Ey; subst x.
        eapply Q; eauto. apply R2. assumption.
      * eapply N; eauto.
Qed.

(** ** Derived names are distinct *)
Lemma app_last_inj (a b : str) x y : a ++ [x] = b ++ [y] -> a = b /\ x = y.
Proof. apply app_inj_tail. Qed.
Lemma digits_app_inj (a b d d' : str) : Forall (fun c => isdigit c = true) d -> Forall (fun c => isdigit c = true) d' -> a ++ "["%char :: d = b ++ "["%char :: d' -> a = b /\ d = d'.
Proof.
  revert b. induction a as [|x a IH]; intros [|y b] Hd Hd' E; simpl in E.
  - inversion E; auto.
  - inversion E; subst. rewrite Forall_forall in Hd. assert (X : isdigit "["%char = true) by (apply Hd; apply in_or_app; right; left; reflexivity). discriminate.
  - inversion E; subst. rewrite Forall_forall in Hd'. assert (X : isdigit "["%char = true) by (apply Hd'; apply in_or_app; right; left; reflexivity). discriminate.
  - inversion E; subst. destruct (IH b Hd Hd' H1) as [-> ->]. auto.
Qed.
Lemma list_ascii_inj a b : list_ascii_of_string a = list_ascii_of_string b -> a = b.
Proof. intros E. rewrite <- (string_of_list_ascii_of_string a), <- (string_of_list_ascii_of_string b). congruence. Qed.
Lemma dec_inj m n : dec m = dec n -> m = n.
Proof.
  unfold dec, s_. intros E. apply list_ascii_inj in E. rewrite <- (DecimalN.Unsigned.of_to m), <- (DecimalN.Unsigned.of_to n).
  assert (X : NilZero.uint_of_string (NilZero.string_of_uint (N.to_uint m)) = NilZero.uint_of_string (NilZero.string_of_uint (N.to_uint n))) by congruence.
  assert (Hne : forall k, N.to_uint k <> Decimal.Nil) by (intros k Hk; assert (Y := DecimalN.Unsigned.of_to k); rewrite Hk in Y; simpl in Y; subst k; discriminate).
  rewrite !NilZero.usu in X by apply Hne. inversion X as [X']. rewrite X'. reflexivity.
Qed.
Lemma indirect_inj H t u x y mk mk' a b : indirect_name H t = Some (x, mk) -> indirect_name H u = Some (y, mk') -> mk a = mk' b -> a = b /\ forall c, mk c = mk' c.
Proof.
  assert (L : forall (p q : str) c d, c <> d -> p ++ [c] = q ++ [d] -> False) by (intros p q c d Hn E; apply app_inj_tail in E; tauto).
  assert (V : forall c, vector_fullName c = (s_ "/std/vector<" ++ c) ++ [">"%char]) by (intros c; unfold vector_fullName; rewrite app_assoc; reflexivity).
  assert (A : forall c d, getArrayName c d = (c ++ "["%char :: dec d) ++ ["]"%char]) by (intros c d; unfold getArrayName; simpl; rewrite <- app_assoc; reflexivity).
  assert (P : forall c, getPointerName c = c ++ ["*"%char]) by reflexivity.
  unfold indirect_name. intros E1 E2. destruct (o_kind (H t)) as [| | | |x1|d1 x1|k1 x1|]; try discriminate; try (destruct k1; try discriminate);
    destruct (o_kind (H u)) as [| | | |x2|d2 x2|k2 x2|]; try discriminate; try (destruct k2; try discriminate); inversion E1; inversion E2; subst; clear E1 E2; intros E;
    rewrite ?V, ?A, ?P in E; try (exfalso; eapply L in E; [exact E|discriminate]).
  - apply app_inj_tail in E. split; [apply E|reflexivity].
  - apply app_inj_tail in E. destruct E as [E _]. apply digits_app_inj in E; [|apply dec_digits|apply dec_digits]. destruct E as [-> E]. apply dec_inj in E. subst. auto.
  - apply app_inj_tail in E. destruct E as [E _]. apply app_inv_head in E. auto.
Qed.

(** ** The names of indirect types *)
(** A pointer, array or vector type bears the name built on the name of the type it is an indirection to. *)
Definition names_ok (H : heap) : Prop := forall t x mk, indirect_name H t = Some (x, mk) -> o_name (H t) = mk (o_name (H x)).
Lemma indirect_longer H t x mk (a : str) : indirect_name H t = Some (x, mk) -> length a < length (mk a).
Proof.
  unfold indirect_name. destruct (o_kind (H t)); try discriminate; try (destruct k; try discriminate); intros E; inversion E; subst; clear E;
    unfold getPointerName, getArrayName, vector_fullName; rewrite ?app_length; simpl; lia.
Qed.
Lemma names_ranked H : names_ok H -> ranked H (fun t => length (o_name (H t))).
Proof. intros Hn t x mk E. rewrite (Hn _ _ _ E). eapply indirect_longer. exact E. Qed.
Lemma below_exists H (rank : tid -> nat) r : Inv H r -> exists M, below rank M r.
Proof.
  intros I. exists (list_max (map (fun p => rank (e_type (snd p))) (r_global r))). intros t (n & Ha & Hg). destruct (get_In I Ha Hg) as (e & Hi & <-).
  assert (X := proj1 (list_max_le (map (fun p => rank (e_type (snd p))) (r_global r)) _) (le_n _)). rewrite Forall_forall in X. apply X. apply in_map_iff. exists (n, e). auto.
Qed.
Lemma unique_named H r t u : Inv H r -> registered r t -> registered r u -> o_name (H t) = o_name (H u) -> t = u.
Proof. intros I (n & _ & Ht) (m & _ & Hu) E. destruct (get_primary I Ht) as [_ A]. destruct (get_primary I Hu) as [_ B]. congruence. Qed.
Lemma mda_fuel_le H f g r t r' out : f <= g -> mda f H r t = (r', out) -> out <> Fuel -> mda g H r t = (r', out).
Proof. intros Hl E Ho. induction Hl; [assumption|]. apply fuel_mono; assumption. Qed.
Lemma add_ok f H r t pers src r' : Inv H r -> plain (o_name (H t)) -> add_type f H r t pers src = (r', Ok tt) ->
  get r' (o_name (H t)) = Some t /\ newok H r r' /\ (forall d, registered r' d <-> registered r d \/ d = t) /\  forall x mk a, indirect_name H t = Some (x, mk) -> absolute a -> get r' a = Some x -> a <> o_name (H x) -> get r' (mk a) <> None.
Proof.
  intros I Hp E. assert (Ha := plain_absolute Hp). unfold add_type in E. destruct (add_named H r (o_name (H t)) (Ent t pers src)) as [r1 o1] eqn:Ea.
  assert (K : forall r1, Inv H r1 -> get r1 (o_name (H t)) = Some t ->
    (if existsb (fun d => negb (match getAliasesOf H r1 d with [] => true | _ => false end)) (dependsOn H t) then mda f H r1 t else (r1, Ok tt)) = (r', Ok tt) ->
    chain H r1 r' /\ newok H r1 r' /\ forall x mk a, indirect_name H t = Some (x, mk) -> absolute a -> get r1 a = Some x -> a <> o_name (H x) -> get r' (mk a) <> None).
  { clear r1 Ea E. intros r1 I1 G1 E. destruct (existsb (fun d => negb _) _) eqn:Ee.
    - split; [eapply (proj1 (mda_alias_chain H f)); eauto|]. apply (proj1 (complete_ H f) _ _ _ I1 G1 E).
    - inversion E; subst r'. split; [constructor|]. split; [apply newok_refl|]. intros x mk a Hi Hab Hg Hne. exfalso.
      assert (Hin : In a (getAliasesOf H r1 x)) by (apply (aliases_get x a I1); auto).
      assert (Hd : In x (dependsOn H t)) by (unfold indirect_name, dependsOn in *; destruct (o_kind (H t)); try discriminate; try (destruct k; try discriminate); inversion Hi; left; reflexivity).
      assert (X : existsb (fun d => negb (match getAliasesOf H r1 d with [] => true | _ => false end)) (dependsOn H t) = true).
      { apply existsb_exists. exists x. split; [assumption|]. destruct (getAliasesOf H r1 x); [destruct Hin|reflexivity]. }
      congruence. }
  assert (L : forall r1, Inv H r1 -> get r1 (o_name (H t)) = Some t -> newok H r r1 ->
    (forall d, registered r1 d <-> registered r d \/ d = t) ->
    chain H r1 r' /\ newok H r1 r' /\ (forall x mk a, indirect_name H t = Some (x, mk) -> absolute a -> get r1 a = Some x -> a <> o_name (H x) -> get r' (mk a) <> None) ->
    get r' (o_name (H t)) = Some t /\ newok H r r' /\ (forall d, registered r' d <-> registered r d \/ d = t) /\    forall x mk a, indirect_name H t = Some (x, mk) -> absolute a -> get r' a = Some x -> a <> o_name (H x) -> get r' (mk a) <> None).
  { clear r1 Ea E K. intros r1 I1 G1 N1 R1 (C & N & Q). destruct (chain_spec C I1) as (I2 & M2 & _ & R2 & _).
    split; [apply M2; assumption|]. split; [eapply newok_trans; eauto|]. split; [intros d; rewrite R2; apply R1|].
    intros x mk a Hi Hab Hg Hne. destruct (get r1 a) as [y|] eqn:Ey.
    - assert (X := M2 _ _ Hab Ey). rewrite Hg in X. inversion X; subst y. eapply Q; eauto.
    - eapply N; eauto. exists (o_name (H t)). split; [assumption|]. apply M2; assumption. }
  destruct (add_named_spec Hp Ea) as [(-> & -> & _)|[(-> & -> & Hq)|[(-> & -> & _)|(-> & Hb)]]]; cbn [seq_] in E; try discriminate.
  - apply (L r I Hq (@newok_refl H r)); [|apply K; assumption]. intros d. split; [auto|]. intros [X| ->]; [assumption|]. exists (o_name (H t)). auto.
  - destruct (bound_Inv I Hb) as (I1 & G1 & _); [left; reflexivity|]. cbn [e_type] in G1.
    assert (Gt : get r1 (o_name (H t)) = Some t) by (rewrite G1, seqb_refl by assumption; reflexivity).
    apply (L r1 I1 Gt); [| |apply K; assumption].
    + intros D x mk a HD Hi Hab Hn Hx Hne. exfalso. rewrite G1 in Hx by assumption. destruct (seqb (o_name (H t)) a) eqn:Es; [|congruence]. apply seqb_eq in Es. inversion Hx; subst. apply Hne. reflexivity.
    + intros d. split.
      * intros (k & Hk & Hkd). rewrite G1 in Hkd by assumption. destruct (seqb (o_name (H t)) k); [inversion Hkd; auto|left; exists k; auto].
      * intros [(k & Hk & Hkd)| ->]; [exists k; split; [assumption|apply (bound_mono Hb G1); assumption]|exists (o_name (H t)); auto].
Qed.
Lemma alias_registered f H r base n pers src r' out : Inv H r -> plain n -> alias_ f H r base n pers src = (r', out) -> forall d, registered r' d <-> registered r d.
Proof.
  intros I Hp E. destruct (get r base) as [b|] eqn:Hg; [|rewrite (alias_undefined Hg E); intros; apply iff_refl].
  destruct (proj2 (mda_alias_chain H f) _ _ _ _ _ _ _ _ I Hp Hg E) as [-> |(r1 & [Hb|[-> Hq]] & Hc)]; [intros; apply iff_refl| |apply (chain_spec Hc I)].
  destruct (bound_Inv I Hb) as (I1 & G1 & _); [right; eauto|]. cbn [e_type] in G1. intros d. destruct (chain_spec Hc I1) as (_ & _ & _ & R & _). rewrite R. split.
  - intros (k & Hk & Hkd). rewrite G1 in Hkd by assumption. destruct (seqb n k); [inversion Hkd; subst; eapply registered_get; eauto|exists k; auto].
  - intros (k & Hk & Hkd). exists k. split; [assumption|apply (bound_mono Hb G1); assumption].
Qed.
(** Every indirection to a type has a name built on each of the names of this type. *)
Definition closed_ (H : heap) (r : reg) : Prop :=
  forall D x mk a, registered r D -> indirect_name H D = Some (x, mk) -> absolute a -> get r a = Some x -> get r (mk a) <> None.
Lemma primary_closed H r D x mk a : names_ok H -> Inv H r -> registered r D -> indirect_name H D = Some (x, mk) -> a = o_name (H x) -> get r (mk a) <> None.
Proof. intros Hn I (k & Hk & Hg) Hi ->. rewrite <- (Hn _ _ _ Hi). destruct (get_primary I Hg) as [_ ->]. discriminate. Qed.
Lemma alias_closed f H r base n pers src r' : names_ok H -> Inv H r -> plain n -> closed_ H r -> alias_ f H r base n pers src = (r', Ok tt) -> closed_ H r'.
Proof.
  intros Hn I Hp Hc E D x mk a HD Hi Ha Hg. destruct (alias_effect I Hp E) as (I' & M & _). assert (R := alias_registered I Hp E).
  destruct (str_dec a (o_name (H x))) as [Ea|Ea]; [eapply primary_closed; eauto|].
  destruct (get r a) as [y|] eqn:Ey.
  - assert (X := M _ _ Ha Ey). rewrite Hg in X. inversion X; subst y. eapply mono_not_None; [exact M|eapply indirect_abs; eauto|]. eapply Hc; eauto. apply R. assumption.
  - destruct (get r base) as [b|] eqn:Eb.
    + destruct (proj2 (complete_ H f) _ _ _ _ _ _ _ I Hp Eb E) as (N & _ & _). eapply N; eauto.
    + rewrite (alias_undefined Eb E) in Hg. congruence.
Qed.
Lemma add_closed f H r t pers src r' : names_ok H -> Inv H r -> plain (o_name (H t)) -> closed_ H r -> add_type f H r t pers src = (r', Ok tt) -> closed_ H r'.
Proof.
  intros Hn I Hp Hc E D x mk a HD Hi Ha Hg. destruct (add_effect I Hp E) as (I' & M & _). destruct (add_ok I Hp E) as (_ & N & R & Q).
  destruct (str_dec a (o_name (H x))) as [Ea|Ea]; [eapply primary_closed; eauto|].
  destruct (get r a) as [y|] eqn:Ey; [|eapply N; eauto].
  assert (X := M _ _ Ha Ey). rewrite Hg in X. inversion X; subst y. destruct (proj1 (R D) HD) as [HD'| ->]; [|eapply Q; eauto].
  eapply mono_not_None; [exact M|eapply indirect_abs; eauto|]. eapply Hc; eauto.
Qed.
Lemma alias_derived f H r base n pers src r' b D mk : names_ok H -> Inv H r -> plain n -> get r base = Some b -> alias_ f H r base n pers src = (r', Ok tt) ->
  registered r D -> indirect_name H D = Some (b, mk) -> get r' (mk n) = Some D \/ exists x, get r (mk n) = Some x /\ get r' (mk n) = Some x.
Proof.
  intros Hn I Hp Hb E HD Hi. destruct (alias_effect I Hp E) as (I' & M & _ & Ef). assert (R := alias_registered I Hp E). assert (Ha := plain_absolute Hp).
  assert (Hmk := indirect_abs Hi Ha). destruct (proj2 (complete_ H f) _ _ _ _ _ _ _ I Hp Hb E) as (_ & G & Q).
  destruct (str_dec n (o_name (H b))) as [-> |Hne].
  { left. rewrite <- (Hn _ _ _ Hi). destruct HD as (k & Hk & Hg). destruct (get_primary I Hg) as [A B]. apply M; assumption. }
  specialize (Q _ _ HD Hi Hne). destruct (Ef _ Hmk) as [Eq|(En & t & Et & [[Ek _]|(x & mk' & a & Hi' & Ha' & Hg' & _ & Ek)])].
  - destruct (get r (mk n)) as [x|] eqn:Ex; [right; eauto|congruence].
  - exfalso. assert (X := indirect_longer n Hi). rewrite Ek in X. lia.
  - left. destruct (indirect_inj Hi Hi' Ek) as [<- Emk]. assert (x = b) by congruence. subst x. rewrite Et. f_equal. symmetry.
    eapply (unique_named I'); [apply R; assumption|eapply registered_get; eauto|]. rewrite (Hn _ _ _ Hi), (Hn _ _ _ Hi'). apply Emk.
Qed.
Lemma alias_terminates H r base n pers src : names_ok H -> Inv H r -> plain n ->
  exists k r' out, out <> Fuel /\ forall f, k <= f -> alias_ f H r base n pers src = (r', out).
Proof.
  intros Hn I Hp. destruct (below_exists (fun t => length (o_name (H t))) I) as [M HM]. exists (2 * M + 2). destruct (alias_ (2 * M + 2) H r base n pers src) as [r' out] eqn:E. exists r', out.
  assert (Ho : out <> Fuel).
  { destruct (get r base) as [b|] eqn:Eb.
    - eapply (proj2 (no_fuel M (names_ranked Hn) (2 * M + 2)) r base n pers src r' out b); eauto. lia.
    - replace (2 * M + 2) with (S (2 * M + 1)) in E by lia. cbn [alias_] in E. rewrite Eb in E. destruct (isValidTypename n true); inversion E; discriminate. }
  split; [assumption|]. intros f Hf. eapply fuel_mono_le; eauto.
Qed.
Lemma add_terminates H r t pers src : names_ok H -> Inv H r -> plain (o_name (H t)) ->
  exists k r' out, out <> Fuel /\ forall f, k <= f -> add_type f H r t pers src = (r', out).
Proof.
  intros Hn I Hp. unfold add_type. destruct (add_named H r (o_name (H t)) (Ent t pers src)) as [r1 o1] eqn:Ea.
  assert (K : forall r1, Inv H r1 -> get r1 (o_name (H t)) = Some t -> exists k r' out, out <> Fuel /\ forall f, k <= f ->
    (if existsb (fun d => negb (match getAliasesOf H r1 d with [] => true | _ => false end)) (dependsOn H t) then mda f H r1 t else (r1, Ok tt)) = (r', out)).
  { clear r1 Ea. intros r1 I1 G1. destruct (existsb (fun d => negb _) _); [|exists 0, r1, (Ok tt); split; [discriminate|reflexivity]].
    destruct (below_exists (fun t => length (o_name (H t))) I1) as [M HM]. exists (2 * M + 3). destruct (mda (2 * M + 3) H r1 t) as [r' out] eqn:E. exists r', out.
    assert (Ho : out <> Fuel) by (eapply (proj1 (no_fuel M (names_ranked Hn) (2 * M + 3)) r1 t r' out); eauto; right; lia).
    split; [assumption|]. intros f Hf. eapply mda_fuel_le; eauto. }
  destruct (add_named_spec Hp Ea) as [(-> & -> & _)|[(-> & -> & Hq)|[(-> & -> & _)|(-> & Hb)]]]; cbn [seq_].
  - exists 0, r, (Throw EBadName). split; [discriminate|reflexivity].
  - apply K; assumption.
  - exists 0, r, (Throw EAlreadyDefined). split; [discriminate|reflexivity].
  - destruct (bound_Inv I Hb) as (I1 & G1 & _); [left; reflexivity|]. apply K; [assumption|]. rewrite G1, seqb_refl by (apply plain_absolute; assumption). reflexivity.
Qed.
