(** * RegistryOps: the operations of a registry keep its invariant and only bind the names they should. *)
From Coq Require Import Sorted DecimalString.
From Verif Require Import Base Types NamesSpec Names NamesProofs NamesPath Graph GraphProofs Registry RegistrySpec RegistryProofs.
Local Open Scope nat_scope.

(** ** Derived names *)
Fixpoint dslash (s : str) : bool :=
  match s with
  | a :: r => ceqb a sep && isAbsoluteName r || dslash r
  | [] => false
  end.
Lemma dslash_spec s : dslash s = false <-> forall a b, s <> a ++ sep :: sep :: b.
Proof.
  split.
  - intros Hd a b ->. induction a as [|x a IH]; simpl in Hd; [discriminate|]. apply orb_false_iff in Hd. destruct Hd. auto.
  - induction s as [|x s IH]; intros Hs; [reflexivity|]. simpl. apply orb_false_iff. split.
    + destruct (ceqb x sep) eqn:E; [|reflexivity]. apply ceqb_eq in E. subst. destruct s as [|c s]; [reflexivity|]. simpl. apply ceqb_neq. intros ->. apply (Hs [] s). reflexivity.
    + apply IH. intros a b ->. apply (Hs (x :: a) b). reflexivity.
Qed.
Lemma plain_iff n : plain n <-> isAbsoluteName n = true /\ dslash n = false.
Proof. unfold plain. rewrite absolute_iff, dslash_spec. tauto. Qed.
Lemma dslash_no_sep s : ~ In sep s -> dslash s = false.
Proof. induction s as [|x s IH]; simpl; intros Hn; [reflexivity|]. rewrite IH by tauto. destruct (ceqb x sep) eqn:E; [apply ceqb_eq in E; subst; tauto|reflexivity]. Qed.
Lemma dslash_app a s : dslash a = false -> ~ In sep s -> dslash (a ++ s) = false.
Proof.
  induction a as [|x a IH]; intros Ha Hs; [apply dslash_no_sep; assumption|]. simpl in *. apply orb_false_iff in Ha. destruct Ha as [Ha1 Ha2].
  rewrite IH by assumption. rewrite orb_false_r. destruct a as [|y a]; [|exact Ha1]. simpl. destruct s as [|c s]; [apply andb_false_r|]. simpl. apply andb_false_iff. right. apply ceqb_neq. intros ->. apply Hs. left. reflexivity.
Qed.
Lemma plain_suffix a s : plain a -> ~ In sep s -> plain (a ++ s).
Proof.
  rewrite !plain_iff. intros [Ha Hd] Hs. split; [|apply dslash_app; assumption]. destruct a; [discriminate|assumption].
Qed.
Lemma plain_vector a : plain a -> plain (vector_fullName a).
Proof.
  intros Hp. apply (plain_suffix (s := s_ ">")) in Hp; [|simpl; intros [E|[]]; discriminate]. unfold vector_fullName. revert Hp. generalize (a ++ s_ ">"). intros b. rewrite !plain_iff. intros [_ Hd].
  split; [reflexivity|]. simpl. assumption.
Qed.
Lemma uint_digits u : Forall (fun c => isdigit c = true) (list_ascii_of_string (NilEmpty.string_of_uint u)).
Proof. induction u; simpl; try constructor; auto. Qed.
Lemma dec_digits n : Forall (fun c => isdigit c = true) (dec n).
Proof. unfold dec, s_. destruct (N.to_uint n) eqn:E; try apply (uint_digits). simpl. repeat constructor. Qed.
Lemma dec_no_sep n : ~ In sep (dec n).
Proof. intros Hi. assert (X := dec_digits n). rewrite Forall_forall in X. apply X in Hi. discriminate. Qed.
Lemma plain_indirect H t x mk a : indirect_name H t = Some (x, mk) -> plain a -> plain (mk a).
Proof.
  unfold indirect_name. intros E Ha. destruct (o_kind (H t)); try discriminate; try (destruct k; try discriminate); inversion E; subst.
  - apply plain_suffix; [assumption|]. simpl. intros [X|[]]. discriminate.
  - apply plain_suffix; [assumption|]. rewrite !in_app_iff. intros [[X|[]]|[X|[X|[]]]]; try discriminate. apply dec_no_sep in X. assumption.
  - apply plain_vector. assumption.
Qed.

(** ** Sets of names *)
Lemma slt_total a : forall b, slt a b = false -> slt b a = false -> a = b.
Proof.
  induction a as [|x a IH]; intros [|y b]; simpl; try discriminate; [reflexivity|]. destruct (ceqb x y) eqn:E.
  - apply ceqb_eq in E. subst. rewrite ceqb_refl. intros A B. f_equal. auto.
  - destruct (ceqb y x) eqn:E2; [apply ceqb_eq in E2; subst; rewrite ceqb_refl in E; discriminate|]. intros A B. apply Nat.ltb_ge in A, B.
    apply ceqb_neq in E. exfalso. apply E. rewrite <- (ascii_nat_embedding x), <- (ascii_nat_embedding y). f_equal. lia.
Qed.
Lemma set_insert_In n l x : In x (set_insert n l) <-> x = n \/ In x l.
Proof.
  induction l as [|k l IH]; simpl; [intuition|]. destruct (slt k n) eqn:E1; [simpl; rewrite IH; intuition|]. destruct (slt n k) eqn:E2; simpl; [intuition|].
  assert (k = n) by (apply slt_total; assumption). subst. intuition.
Qed.
Lemma fold_set_In (l : nmap) : forall s x, In x (fold_left (fun s p => set_insert (fst p) s) l s) <-> In x s \/ In x (map fst l).
Proof. induction l as [|p l IH]; intros s x; simpl; [tauto|]. rewrite IH, set_insert_In. intuition. Qed.
Lemma aliases_spec H r t a : In a (getAliasesOf H r t) <-> exists e, In (a, e) (r_global r) /\ e_type e = t /\ a <> o_name (H t).
Proof.
  unfold getAliasesOf. rewrite fold_set_In. split.
  - intros [[]|Hi]. apply in_map_iff in Hi. destruct Hi as ([n e] & E & Hi). simpl in E. subst n. apply filter_In in Hi. destruct Hi as [Hi Hf]. simpl in Hf.
    apply andb_true_iff in Hf. destruct Hf as [Ha Ht]. apply Nat.eqb_eq in Ht. unfold isAlias in Ha. simpl in Ha. apply negb_true_iff, seqb_neq in Ha. rewrite Ht in Ha. eauto.
  - intros (e & Hi & <- & Ha). right. apply in_map_iff. exists (a, e). split; [reflexivity|]. apply filter_In. split; [assumption|]. unfold isAlias. simpl. rewrite Nat.eqb_refl, andb_true_r. apply negb_true_iff, seqb_neq. assumption.
Qed.
Lemma global_get H r n e : Inv H r -> In (n, e) (r_global r) -> absolute n /\ plain n /\ get r n = Some (e_type e).
Proof.
  intros I Hi. assert (Hp : plain n) by (generalize (inv_plain I); rewrite Forall_forall; intros X; apply (X (n, e)); assumption).
  repeat split; try apply Hp. rewrite (get_global I (plain_absolute Hp)). rewrite (In_find (gsorted_NoDup (inv_sorted I)) Hi). reflexivity.
Qed.
Lemma get_In H r n t : Inv H r -> absolute n -> get r n = Some t -> exists e, In (n, e) (r_global r) /\ e_type e = t.
Proof.
  intros I Ha Hg. rewrite (get_global I Ha) in Hg. destruct (find_ n (r_global r)) as [e|] eqn:E; [|discriminate]. exists e. split; [apply find_In; assumption|simpl in Hg; congruence].
Qed.
Lemma aliases_get H r t a : Inv H r -> (In a (getAliasesOf H r t) <-> absolute a /\ get r a = Some t /\ a <> o_name (H t)).
Proof.
  intros I. rewrite aliases_spec. split.
  - intros (e & Hi & <- & Hn). destruct (global_get I Hi) as (A & _ & B). auto.
  - intros (A & B & C). destruct (get_In I A B) as (e & Hi & He). exists e. auto.
Qed.
(** A type found in the registry is found under its primary name. *)
Lemma get_primary H r n t : Inv H r -> get r n = Some t -> absolute (o_name (H t)) /\ get r (o_name (H t)) = Some t.
Proof.
  intros I Hg. unfold get in Hg. destruct (find_ n (r_current r)) as [e|] eqn:E; [|discriminate]. apply find_In in E. destruct (inv_current I E) as (m & e' & Hi & Et).
  assert (Ht : e_type e' = t) by (simpl in Hg; congruence). destruct (inv_primary I Hi) as (e2 & Hi2 & Et2). rewrite Ht in *. destruct (global_get I Hi2) as (A & _ & B). rewrite Et2 in B. auto.
Qed.

(** ** Chains of derived names *)
Definition dstep (H : heap) (r : reg) (n : str) (e : entry) (r' : reg) : Prop :=
  bound H r n e r' /\ get r (o_name (H (e_type e))) = Some (e_type e) /\
  exists x mk a, indirect_name H (e_type e) = Some (x, mk) /\ absolute a /\ get r a = Some x /\ a <> o_name (H x) /\ n = mk a.
Inductive chain (H : heap) : reg -> reg -> Prop :=
| chain_nil r : chain H r r
| chain_cons r n e r1 r2 : dstep H r n e r1 -> chain H r1 r2 -> chain H r r2.
Lemma chain_trans H a b c : chain H a b -> chain H b c -> chain H a c.
Proof. induction 1; [auto|]. intros. econstructor; eauto. Qed.
Lemma dstep_spec H r n e r' : Inv H r -> dstep H r n e r' ->
  Inv H r' /\ (forall k, absolute k -> get r' k = if seqb n k then Some (e_type e) else get r k) /\ r_global r' = ginsert n e (r_global r).
Proof. intros I (Hb & Hg & _). apply bound_Inv; [assumption|assumption|]. eauto. Qed.
Definition mono (r r' : reg) : Prop := forall k t, absolute k -> get r k = Some t -> get r' k = Some t.
Lemma bound_mono H r n e r' : bound H r n e r' -> (forall k, absolute k -> get r' k = if seqb n k then Some (e_type e) else get r k) -> mono r r'.
Proof. intros (_ & Hn & _) Hg k t Hk Ht. rewrite Hg by assumption. destruct (seqb n k) eqn:E; [apply seqb_eq in E; subst; congruence|assumption]. Qed.
Lemma derived_mono H r r' n t : mono r r' -> derived H r n t -> derived H r' n t.
Proof. intros Hm (x & mk & a & A & B & C & D & E). exists x, mk, a. repeat split; auto. Qed.
Lemma chain_spec H r r' : chain H r r' -> Inv H r ->
  Inv H r' /\ mono r r' /\
  (forall k, absolute k -> get r' k = get r k \/ (get r k = None /\ exists t, get r' k = Some t /\ derived H r' k t /\ get r (o_name (H t)) = Some t)) /\
  (forall t, registered r' t <-> registered r t) /\ r_ns r' = r_ns r.
Proof.
  induction 1 as [r|r n e r1 r2 Hs Hc IH]; intros I; [split; [exact I|]; split; [intros k t; auto|]; split; [auto|]; split; [intros t; apply iff_refl|reflexivity]|].
  destruct (dstep_spec I Hs) as (I1 & G1 & _). destruct (IH I1) as (I2 & M2 & D2 & R2 & N2). destruct Hs as (Hb & Hp & x & mk & a & E1 & E2 & E3 & E4 & E5).
  assert (M1 := bound_mono Hb G1). assert (Ab := plain_absolute (proj1 Hb)).
  split; [assumption|]. split; [intros k t Hk Ht; apply M2; auto|]. split; [|split].
  - intros k Hk. destruct (D2 k Hk) as [E|(En & t & Et & Dt & Pt)].
    + rewrite E, G1 by assumption. destruct (seqb n k) eqn:Ek; [|left; reflexivity]. apply seqb_eq in Ek. subst k. right. split; [apply Hb|].
      exists (e_type e). split; [reflexivity|]. split; [|assumption]. eapply derived_mono; [exact M2|]. exists x, mk, a. repeat split; auto.
    + rewrite G1 in En by assumption. destruct (seqb n k) eqn:Ek; [discriminate|]. right. split; [assumption|]. exists t. repeat split; auto.
      assert (Ap : absolute (o_name (H t))) by (apply (get_primary I1 Pt)). rewrite G1 in Pt by assumption. destruct (seqb n (o_name (H t))) eqn:Ek2; [|assumption].
      inversion Pt; subst t. assumption.
  - intros t. rewrite R2. split.
    + intros (k & Hk & Ht). rewrite G1 in Ht by assumption. destruct (seqb n k); [|exists k; auto]. inversion Ht; subst t. exists (o_name (H (e_type e))). split; [apply (get_primary I Hp)|assumption].
    + intros (k & Hk & Ht). exists k. split; [assumption|]. apply M1; assumption.
  - rewrite N2. destruct Hb as (_ & _ & _ & ->). reflexivity.
Qed.

(** ** alias and modifiedDependencyAliases *)
Lemma each_chain H A (f : reg -> A -> reg * res unit) (P : reg -> A -> Prop) l :
  (forall r x r' out, Inv H r -> P r x -> f r x = (r', out) -> chain H r r') ->
  (forall r r' x, Inv H r -> chain H r r' -> P r x -> P r' x) ->
  forall r r' out, Inv H r -> (forall x, In x l -> P r x) -> each f l r = (r', out) -> chain H r r'.
Proof.
  intros Hf Hp. induction l as [|x l IH]; intros r r' out I Hl E; simpl in E; [inversion E; constructor|].
  destruct (f r x) as [r1 o1] eqn:E1. assert (C1 : chain H r r1) by (eapply Hf; eauto; apply Hl; left; reflexivity).
  destruct o1; simpl in E; try (inversion E; subst; assumption).
  eapply chain_trans; [exact C1|]. eapply IH; [apply (chain_spec C1 I)| |exact E]. intros y Hy. eapply Hp; [exact I|exact C1|]. apply Hl. right. assumption.
Qed.
Lemma triggers_spec H r b t : Inv H r -> In t (map (fun p => e_type (snd p)) (filter (fun p => negb (isAlias H p) && depends_on H (e_type (snd p)) b) (r_global r))) <->
  get r (o_name (H t)) = Some t /\ absolute (o_name (H t)) /\ In b (dependsOn H t).
Proof.
  intros I. rewrite in_map_iff. split.
  - intros ([n e] & Et & Hi). simpl in Et. subst t. apply filter_In in Hi. destruct Hi as [Hi Hf]. cbn [fst snd] in Hf. apply andb_true_iff in Hf. destruct Hf as [Ha Hd].
    unfold isAlias in Ha. rewrite negb_involutive in Ha. apply seqb_eq in Ha. cbn [fst snd] in Ha. destruct (global_get I Hi) as (A & _ & B). rewrite Ha in *.
    repeat split; auto. unfold depends_on in Hd. apply existsb_In. assumption.
  - intros (Hg & Ha & Hd). destruct (get_In I Ha Hg) as (e & Hi & He). exists (o_name (H t), e). split; [assumption|]. apply filter_In. split; [assumption|].
    cbn [fst snd]. rewrite He. unfold isAlias. cbn [fst snd]. rewrite He, seqb_refl. simpl. apply existsb_In. assumption.
Qed.
Lemma mda_alias_chain H : forall f,
  (forall r t r' out, Inv H r -> get r (o_name (H t)) = Some t -> mda f H r t = (r', out) -> chain H r r') /\
  (forall r base n pers src r' out b, Inv H r -> plain n -> get r base = Some b -> alias_ f H r base n pers src = (r', out) ->
     r' = r \/ exists r1, (bound H r n (Ent b pers src) r1 \/ (r1 = r /\ get r n = Some b)) /\ chain H r1 r').
Proof.
  induction f as [|f [IHm IHa]]; [split; intros; simpl in *; match goal with E : (_, Fuel) = _ |- _ => inversion E end; [constructor|left; reflexivity]|]. split.
  - intros r t r' out I Hg E. cbn [mda] in E. destruct (indirect_name H t) as [[x mk]|] eqn:Ei; [|inversion E; constructor].
    eapply (@each_chain H _ _ (fun r a => get r (o_name (H t)) = Some t /\ absolute a /\ get r a = Some x /\ a <> o_name (H x))); [| |exact I| |exact E].
    + clear r r' out I Hg E. intros r a r' out I (Hg & Ha & Hx & Hn) E. unfold has in E. destruct (find_ (mk a) (r_current r)) eqn:Ef; [inversion E; constructor|].
      destruct (get_In I Ha Hx) as (ea & Hia & _). destruct (global_get I Hia) as (_ & Hpa & _). assert (Hp := plain_indirect Ei Hpa).
      destruct (IHa _ _ _ _ _ _ _ _ I Hp Hg E) as [-> |(r1 & [Hb|[-> Hq]] & Hc)]; [constructor| |].
      * econstructor; [|exact Hc]. split; [exact Hb|]. cbn [e_type]. split; [exact Hg|]. exists x, mk, a. repeat split; auto.
      * assumption.
    + clear r r' out I Hg E. intros r r' a I Hc (Hg & Ha & Hx & Hn). destruct (chain_spec Hc I) as (_ & M & _). repeat split; auto. apply M; [apply (get_primary I Hg)|assumption].
    + intros a Hi. apply (aliases_get x a I) in Hi. tauto.
  - intros r base n pers src r' out b I Hp Hg E. cbn [alias_] in E. destruct (isValidTypename n true); cbn [negb] in E; [|inversion E; auto]. rewrite Hg in E.
    destruct (add_named H r n (Ent b pers src)) as [r1 o1] eqn:Ea. destruct (add_named_spec Hp Ea) as [(-> & -> & _)|[(-> & -> & Hq)|[(-> & -> & _)|(-> & Hb)]]]; cbn [seq_] in E; try (inversion E; auto; fail).
    + right. exists r. split; [right; auto|]. eapply (@each_chain H _ _ (fun r t => get r (o_name (H t)) = Some t)); [| |exact I| |exact E].
      * intros. eapply IHm; eauto.
      * intros r2 r3 t I2 Hc Ht. destruct (chain_spec Hc I2) as (_ & M & _). apply M; [apply (get_primary I2 Ht)|assumption].
      * intros t Ht. apply (triggers_spec b t I) in Ht. tauto.
    + right. exists r1. split; [left; exact Hb|]. destruct (bound_Inv I Hb) as (I1 & _ & _); [right; eauto|].
      eapply (@each_chain H _ _ (fun r t => get r (o_name (H t)) = Some t)); [| |exact I1| |exact E].
      * intros. eapply IHm; eauto.
      * intros r2 r3 t I2 Hc Ht. destruct (chain_spec Hc I2) as (_ & M & _). apply M; [apply (get_primary I2 Ht)|assumption].
      * intros t Ht. apply (triggers_spec b t I1) in Ht. tauto.
Qed.
Lemma alias_undefined f H r base n pers src r' out : get r base = None -> alias_ f H r base n pers src = (r', out) -> r' = r.
Proof. destruct f; cbn [alias_]; intros Hg E; [inversion E; reflexivity|]. destruct (negb _); [inversion E; reflexivity|]. rewrite Hg in E. inversion E; reflexivity. Qed.

(** ** What an operation does to the absolute names *)
Definition effect (H : heap) (r r' : reg) (n : str) (b : option tid) : Prop :=
  Inv H r' /\ mono r r' /\ r_ns r' = r_ns r /\
  forall k, absolute k -> get r' k = get r k \/
    (get r k = None /\ exists t, get r' k = Some t /\ ((k = n /\ b = Some t) \/ derived H r' k t)).
Lemma effect_refl H r n b : Inv H r -> effect H r r n b.
Proof. intros I. split; [assumption|]. split; [intros k t; auto|]. auto. Qed.
Lemma bound_effect H r n e r1 r' : Inv H r -> bound H r n e r1 -> (n = o_name (H (e_type e)) \/ exists m, get r m = Some (e_type e)) -> chain H r1 r' ->
  effect H r r' n (Some (e_type e)) /\ get r' n = Some (e_type e).
Proof.
  intros I Hb Hr Hc. destruct (bound_Inv I Hb Hr) as (I1 & G1 & _). destruct (chain_spec Hc I1) as (I2 & M2 & D2 & _ & N2). assert (M1 := bound_mono Hb G1).
  assert (Ab := plain_absolute (proj1 Hb)).
  assert (Gn : get r1 n = Some (e_type e)) by (rewrite G1, seqb_refl by assumption; reflexivity).
  split; [|apply M2; assumption]. split; [assumption|]. split; [intros k t Hk Ht; apply M2; auto|]. split; [rewrite N2; destruct Hb as (_ & _ & _ & ->); reflexivity|].
  intros k Hk. destruct (D2 k Hk) as [E|(En & t & Et & Dt & _)].
  - rewrite E, G1 by assumption. destruct (seqb n k) eqn:Ek; [|auto]. apply seqb_eq in Ek. subst k. right. split; [apply Hb|]. eexists. split; [reflexivity|]. left. auto.
  - rewrite G1 in En by assumption. destruct (seqb n k) eqn:Ek; [discriminate|]. right. split; [assumption|]. eauto.
Qed.
Lemma chain_effect H r r' n b : Inv H r -> chain H r r' -> effect H r r' n b.
Proof.
  intros I Hc. destruct (chain_spec Hc I) as (I2 & M2 & D2 & _ & N2). split; [exact I2|]. split; [exact M2|]. split; [exact N2|]. intros k Hk. destruct (D2 k Hk) as [E|(En & t & Et & Dt & _)]; [auto|]. right. eauto.
Qed.
Lemma alias_effect f H r base n pers src r' out : Inv H r -> plain n -> alias_ f H r base n pers src = (r', out) -> effect H r r' n (get r base).
Proof.
  intros I Hp E. destruct (get r base) as [b|] eqn:Hg; [|rewrite (alias_undefined Hg E); apply effect_refl; assumption].
  destruct (proj2 (mda_alias_chain H f) _ _ _ _ _ _ _ _ I Hp Hg E) as [-> |(r1 & [Hb|[-> Hq]] & Hc)]; [apply effect_refl; assumption| |apply chain_effect; assumption].
  destruct (bound_effect I Hb (or_intror (ex_intro _ base Hg)) Hc) as [Hr _]. exact Hr.
Qed.
Lemma add_effect f H r t pers src r' out : Inv H r -> plain (o_name (H t)) -> add_type f H r t pers src = (r', out) -> effect H r r' (o_name (H t)) (Some t).
Proof.
  intros I Hp E. unfold add_type in E. destruct (add_named H r (o_name (H t)) (Ent t pers src)) as [r1 o1] eqn:Ea.
  destruct (add_named_spec Hp Ea) as [(-> & -> & _)|[(-> & -> & Hq)|[(-> & -> & _)|(-> & Hb)]]]; cbn [seq_] in E; try (inversion E; subst; apply effect_refl; assumption).
  - destruct (existsb (fun d => negb _) _); [|inversion E; subst; apply effect_refl; assumption]. apply chain_effect; [assumption|]. eapply (proj1 (mda_alias_chain H f)); eauto.
  - destruct (bound_Inv I Hb) as (I1 & G1 & _); [left; reflexivity|]. assert (Gt : get r1 (o_name (H t)) = Some t) by (rewrite G1, seqb_refl by (apply plain_absolute; assumption); reflexivity).
    assert (Hc : chain H r1 r') by (destruct (existsb (fun d => negb _) _); [eapply (proj1 (mda_alias_chain H f)); eauto|inversion E; constructor]).
    apply (bound_effect I Hb (or_introl eq_refl) Hc).
Qed.
