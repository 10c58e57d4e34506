(** * TlbCore: a registry that is filled with the types of another one. *)
From Coq Require Import Sorted.
From Verif Require Import Base Types NamesSpec Names NamesProofs Graph GraphProofs Registry RegistrySpec RegistryProofs RegistryOps RegistryAlias World TypeBuilderSpec TypeBuilder TypeBuilderProofs Exporter ExporterSpec ExporterProofs Smap Xml Tlb TlbSpec.
From Verif Require Import Graph.
Local Open Scope nat_scope.

(** ** Names of reachable registries *)
Definition valid_names (r : reg) : Prop := forall n e, In (n, e) (r_global r) -> isValidTypename n true = true.
Lemma bound_valid H r n e r' : bound H r n e r' -> valid_names r -> valid_names r'.
Proof. intros (_ & _ & Hv & ->) V m e' Hi. cbn [r_global] in Hi. apply In_ginsert in Hi. destruct Hi as [X|Hi]; [injection X as -> ->; assumption|eapply V; eassumption]. Qed.
Lemma chain_valid H r r' : RegistryOps.chain H r r' -> valid_names r -> valid_names r'.
Proof. induction 1 as [|r n e r1 r2 [Hb _] Hc IH]; [auto|]. intros V. apply IH. eapply bound_valid; eassumption. Qed.
Lemma exec_valid f H r o r' out : Inv H r -> op_ok H o -> exec f H r o = (r', out) -> valid_names r -> valid_names r'.
Proof.
  intros I Hok E V. destruct o; cbn [exec op_ok] in E, Hok.
  - unfold add_type in E. destruct (add_named H r (o_name (H t)) (Ent t pers src)) as [r1 o1] eqn:Ea.
    destruct (add_named_spec Hok Ea) as [(-> & -> & _)|[(-> & -> & Hq)|[(-> & -> & _)|(-> & Hb)]]]; cbn [seq_] in E; try (inversion E; subst; assumption).
    + destruct (existsb (fun d => negb _) _); [|inversion E; subst; assumption]. eapply chain_valid; [|exact V]. eapply (proj1 (mda_alias_chain H f)); eauto.
    + destruct (bound_Inv I Hb) as (I1 & G1 & _); [left; reflexivity|]. assert (Gt : get r1 (o_name (H t)) = Some t) by (rewrite G1, seqb_refl by (apply plain_absolute; assumption); reflexivity).
      assert (Hc : RegistryOps.chain H r1 r') by (destruct (existsb (fun d => negb _) _); [eapply (proj1 (mda_alias_chain H f)); eauto|inversion E; constructor]).
      eapply chain_valid; [exact Hc|]. eapply bound_valid; eassumption.
  - destruct (get r base) as [b|] eqn:Hg; [|rewrite (alias_undefined Hg E); assumption].
    destruct (proj2 (mda_alias_chain H f) _ _ _ _ _ _ _ _ I Hok Hg E) as [-> |(r1 & [Hb|[-> Hq]] & Hc)]; [assumption| |eapply chain_valid; eassumption].
    eapply chain_valid; [exact Hc|]. eapply bound_valid; eassumption.
  - unfold remove in E. destruct (reverseDepends f H r t) as [ts| | |]; cbn [bind] in E; inversion E; subst; try assumption. intros n e Hi. cbn [r_global] in Hi. apply filter_In in Hi. eapply V, Hi.
  - unfold removeAlias in E. destruct (find_ n (r_global r)) as [e|]; [|inversion E; subst; assumption]. destruct (seqb (o_name (H (e_type e))) n); inversion E; subst; [assumption|].
    intros m e' Hi. unfold updateCurrentNameMap in Hi. cbn [r_global] in Hi. unfold erase_ in Hi. apply filter_In in Hi. eapply V, Hi.
  - inversion E; subst. intros m e' Hi. unfold clearAliases, updateCurrentNameMap in Hi. cbn [r_global] in Hi. apply filter_In in Hi. eapply V, Hi.
  - inversion E; subst. intros m e' [].
  - inversion E; subst. unfold setDefaultNamespace. destruct (isValidNamespace s true); [|assumption]. exact V.
  - inversion E; subst. exact V.
Qed.
Lemma reachable_valid H r : reachable H r -> valid_names r.
Proof. intros Hr. assert (X : Inv H r /\ valid_names r); [|apply X]. induction Hr as [|r o f r' out Hr [I V] _ Hok E Ho]; [split; [apply Inv0|intros n e []]|]. split; [eapply exec_Inv; eassumption|eapply exec_valid; eassumption]. Qed.
Lemma valid_get H r n t : Inv H r -> valid_names r -> absolute n -> get r n = Some t -> isValidTypename n true = true.
Proof. intros I V Ha Hg. destruct (get_In I Ha Hg) as (e & Hi & _). eapply V; eassumption. Qed.
Lemma plain_get H r n t : Inv H r -> absolute n -> get r n = Some t -> plain n.
Proof. intros I Ha Hg. destruct (get_In I Ha Hg) as (e & Hi & _). apply (global_get I Hi). Qed.

(** ** One registry in another *)
Lemma kind_like_impl (R S : tid -> tid -> Prop) a b : (forall x x', R x x' -> S x x') -> kind_like R a b -> kind_like S a b.
Proof. intros Hi K. destruct K; constructor; auto. eapply Forall2_impl; [|eassumption]. cbn. intros f f' (A & B & C). auto. Qed.
Lemma kind_like_deps (R S : tid -> tid -> Prop) (H : heap) t a : kind_like R a (o_kind (H t)) -> (forall x x', In x' (dependsOn H t) -> R x x' -> S x x') -> kind_like S a (o_kind (H t)).
Proof.
  unfold dependsOn. intros K. destruct K as [| | | |x x' Hx|d x x' Hx|k x x' Hx|fs fs' F]; intros Hi; try (constructor; auto; fail); try (constructor; apply Hi; [left; reflexivity|assumption]).
  constructor. induction F as [|f f' fs fs' (A & B & C) F IH]; [constructor|]. constructor; [split; [assumption|]; split; [assumption|apply Hi; [left; reflexivity|assumption]]|]. apply IH. intros x x' Hx. apply Hi. right. assumption.
Qed.
Section Core.
Variables (H0 : heap) (r0 : reg).
Hypothesis I0 : Inv H0 r0.
Hypothesis V0 : valid_names r0.
Hypothesis D0 : deps_closed H0 r0.
Hypothesis A0 : forall t x mk a, registered r0 t -> indirect_name H0 t = Some (x, mk) -> absolute a -> get r0 a = Some x -> get r0 (mk a) = Some t.
Definition like0 (H : heap) (t t' : tid) : Prop := o_name (H t') = o_name (H0 t) /\ kind_like (fun x x' => o_name (H x') = o_name (H0 x)) (o_kind (H0 t)) (o_kind (H t')).
Definition Sub (H : heap) (r : reg) : Prop := forall n t', absolute n -> get r n = Some t' -> exists t, get r0 n = Some t /\ like0 H t t'.

Lemma like_indirect H t t' x' mk : like0 H t t' -> indirect_name H t' = Some (x', mk) -> exists x, indirect_name H0 t = Some (x, mk) /\ In x (dependsOn H0 t) /\ o_name (H x') = o_name (H0 x).
Proof.
  intros [_ K]. unfold indirect_name, dependsOn. destruct K as [| | | |x x1 Hx|d x x1 Hx|k x x1 Hx|]; try discriminate; [| |destruct k; try discriminate]; intros E; injection E as -> <-; exists x; repeat split; try assumption; left; reflexivity.
Qed.
Lemma sub_unique H r n t' t : Inv H r -> Sub H r -> absolute n -> get r n = Some t' -> get r0 n = Some t -> o_name (H t') = o_name (H0 t).
Proof. intros I S Ha Hg H1. destruct (S _ _ Ha Hg) as (u & Hu & L). rewrite H1 in Hu. injection Hu as ->. apply L. Qed.
(** The name of a derived type of an alias is a name of the other registry. *)
Lemma sub_derived H r t' x' mk a : Inv H r -> Sub H r -> get r (o_name (H t')) = Some t' -> indirect_name H t' = Some (x', mk) -> absolute a -> get r a = Some x' ->
  exists t, get r0 (mk a) = Some t /\ like0 H t t'.
Proof.
  intros I S Hg Hi Ha Hx. destruct (get_primary I Hg) as [Hab _]. destruct (S _ _ Hab Hg) as (t & Ht & L). destruct (like_indirect L Hi) as (x & Hi0 & Hd & En).
  assert (Rt : registered r0 t) by (eapply registered_get; eassumption). destruct (S _ _ Ha Hx) as (y & Hy & Ly). assert (x = y).
  { apply (unique_named I0); [apply (D0 Rt Hd)|eapply registered_get; eassumption|]. rewrite <- En. apply Ly. }
  subst y. exists t. split; [|exact L]. eapply A0; eassumption.
Qed.
Lemma sub_bound H r n e r' t : Inv H r -> bound H r n e r' -> (n = o_name (H (e_type e)) \/ exists m, get r m = Some (e_type e)) -> Sub H r -> get r0 n = Some t -> like0 H t (e_type e) -> Sub H r'.
Proof.
  intros I Hb Hr S Ht L k u Hk Hg. destruct (bound_Inv I Hb Hr) as (_ & G & _). rewrite G in Hg by assumption. destruct (seqb n k) eqn:E; [|apply S; assumption].
  apply seqb_eq in E. subst k. injection Hg as <-. exists t. auto.
Qed.
Definition fine (H : heap) (r' : reg) (out : res unit) : Prop := (out = Ok tt /\ Sub H r') \/ out = Fuel.
Lemma each_fine H A (f : reg -> A -> reg * res unit) (P : reg -> A -> Prop) l :
  (forall r x r' out, Inv H r -> Sub H r -> P r x -> f r x = (r', out) -> RegistryOps.chain H r r' /\ fine H r' out) ->
  (forall r r' x, Inv H r -> RegistryOps.chain H r r' -> P r x -> P r' x) ->
  forall r r' out, Inv H r -> Sub H r -> (forall x, In x l -> P r x) -> each f l r = (r', out) -> fine H r' out.
Proof.
  intros Hf Hp. induction l as [|x l IH]; intros r r' out I S Hl E; cbn [each] in E; [injection E as <- <-; left; auto|].
  destruct (f r x) as [r1 o1] eqn:E1. destruct (Hf _ _ _ _ I S (Hl x (or_introl eq_refl)) E1) as [C [[-> S1]| ->]]; cbn [seq_] in E; [|injection E as <- <-; right; reflexivity].
  destruct (chain_spec C I) as (I1 & _). eapply IH; [exact I1|exact S1| |exact E]. intros y Hy. eapply Hp; [exact I|exact C|]. apply Hl. right. assumption.
Qed.
Lemma core H : forall f,
  (forall r t' r' out, Inv H r -> Sub H r -> get r (o_name (H t')) = Some t' -> mda f H r t' = (r', out) -> fine H r' out) /\
  (forall r base n pers src r' out b' b, Inv H r -> Sub H r -> absolute n -> get r base = Some b' -> get r0 n = Some b -> like0 H b b' -> alias_ f H r base n pers src = (r', out) -> fine H r' out).
Proof.
  induction f as [|f [IHm IHa]]; [split; intros; cbn [mda alias_] in *; match goal with E : (_, Fuel) = _ |- _ => injection E as <- <-; right; reflexivity end|]. split.
  - intros r t' r' out I S Hg E. cbn [mda] in E. destruct (indirect_name H t') as [[x mk]|] eqn:Ei; [|injection E as <- <-; left; auto].
    eapply (@each_fine H _ _ (fun r a => get r (o_name (H t')) = Some t' /\ absolute a /\ get r a = Some x /\ a <> o_name (H x))); [| |exact I|exact S| |exact E].
    + clear r r' out I S Hg E. intros r a r' out I S (Hg & Ha & Hx & Hn) E. unfold has in E. destruct (find_ (mk a) (r_current r)) eqn:Ef; [injection E as <- <-; split; [constructor|left; auto]|].
      destruct (sub_derived I S Hg Ei Ha Hx) as (t & Ht & L). assert (Hab := indirect_abs Ei Ha). assert (Hp := plain_get I0 Hab Ht). split; [|eapply IHa; [exact I|exact S|exact Hab|exact Hg|exact Ht|exact L|exact E]].
      destruct (proj2 (mda_alias_chain H f) _ _ _ _ _ _ _ _ I Hp Hg E) as [-> |(r1 & [Hb|[-> Hq]] & Hc)]; [constructor| |assumption].
      econstructor; [|exact Hc]. split; [exact Hb|]. cbn [e_type]. split; [exact Hg|]. exists x, mk, a. auto.
    + clear r r' out I S Hg E. intros r r' a I Hc (Hg & Ha & Hx & Hn). destruct (chain_spec Hc I) as (_ & M & _). repeat split; auto. apply M; [apply (get_primary I Hg)|assumption].
    + intros a Hi. apply (aliases_get x a I) in Hi. tauto.
  - intros r base n pers src r' out b' b I S Ha Hg Hn L E. cbn [alias_] in E. assert (Hv := valid_get I0 V0 Ha Hn). assert (Hp := plain_get I0 Ha Hn). rewrite Hv in E. cbn [negb] in E. rewrite Hg in E.
    assert (T : forall r1, Inv H r1 -> Sub H r1 ->
      each (mda f H) (map (fun p => e_type (snd p)) (filter (fun p => negb (isAlias H p) && depends_on H (e_type (snd p)) b') (r_global r1))) r1 = (r', out) -> fine H r' out).
    { clear E. intros r1 I1 S1 E. eapply (@each_fine H _ _ (fun r t => get r (o_name (H t)) = Some t)); [| |exact I1|exact S1| |exact E].
      - intros r2 x r3 o2 I2 S2 Hx E2. split; [|eapply IHm; eassumption]. eapply (proj1 (mda_alias_chain H f)); eassumption.
      - intros r2 r3 t I2 Hc Ht. destruct (chain_spec Hc I2) as (_ & M & _). apply M; [apply (get_primary I2 Ht)|assumption].
      - intros t Ht. apply (triggers_spec b' t I1) in Ht. tauto. }
    destruct (add_named H r n (Ent b' pers src)) as [r1 o1] eqn:Ea. destruct (add_named_spec Hp Ea) as [(-> & -> & X)|[(-> & -> & Hq)|[(-> & -> & (u & Hu & Hne))|(-> & Hb)]]]; cbn [seq_] in E.
    + congruence.
    + apply T with r; assumption.
    + exfalso. apply Hne. cbn [e_type]. apply (unique_named I); [eapply registered_get; eassumption|eapply registered_get; eassumption|]. rewrite (sub_unique I S Ha Hu Hn). symmetry. apply L.
    + assert (Hr : n = o_name (H (e_type (Ent b' pers src))) \/ exists m, get r m = Some (e_type (Ent b' pers src))) by (right; exists base; exact Hg).
      apply T with r1; [apply (bound_Inv I Hb Hr)| |exact E]. eapply sub_bound; eassumption.
Qed.
(** Registry::alias. *)
Lemma core_alias H r base n pers src b' b : names_ok H -> Inv H r -> Sub H r -> absolute n -> get r base = Some b' -> get r0 n = Some b -> like0 H b b' ->
  exists k r', (forall f, k <= f -> alias_ f H r base n pers src = (r', Ok tt)) /\ Inv H r' /\ Sub H r' /\ mono r r' /\ (forall d, registered r' d <-> registered r d) /\ get r' n = Some b'.
Proof.
  intros N I S Ha Hg Hn L. assert (Hp := plain_get I0 Ha Hn). destruct (alias_terminates base pers src N I Hp) as (k & r' & out & Ho & E). exists k, r'.
  destruct (proj2 (core H k) _ _ _ _ _ _ _ _ _ I S Ha Hg Hn L (E k (le_n k))) as [[-> S']| ->]; [|contradiction]. split; [exact E|].
  destruct (alias_effect I Hp (E k (le_n k))) as (I' & M & _). split; [exact I'|]. split; [exact S'|]. split; [exact M|]. split; [apply (alias_registered I Hp (E k (le_n k)))|].
  apply (proj2 (complete_ H k) _ _ _ _ _ _ _ I Hp Hg (E k (le_n k))).
Qed.
(** Registry::add. *)
Lemma core_add H r t' src t : names_ok H -> Inv H r -> Sub H r -> get r0 (o_name (H t')) = Some t -> absolute (o_name (H t')) -> like0 H t t' -> get r (o_name (H t')) = None ->
  exists k r', (forall f, k <= f -> add f H r t' src = (r', Ok tt)) /\ Inv H r' /\ Sub H r' /\ mono r r' /\ (forall d, registered r' d <-> registered r d \/ d = t') /\ get r' (o_name (H t')) = Some t'.
Proof.
  intros N I S Ht Ha L Hg. assert (Hp := plain_get I0 Ha Ht). assert (Hv := valid_get I0 V0 Ha Ht). unfold add. set (pers := isPersistent H (o_name (H t')) t').
  destruct (add_terminates pers src N I Hp) as (k & r' & out & Ho & E). exists k, r'. assert (Ek := E k (le_n k)). assert (F : fine H r' out).
  { unfold add_type in Ek. destruct (add_named H r (o_name (H t')) (Ent t' pers src)) as [r1 o1] eqn:Ea.
    destruct (add_named_spec Hp Ea) as [(-> & -> & X)|[(-> & -> & Hq)|[(-> & -> & (u & Hu & _))|(-> & Hb)]]]; try congruence. cbn [seq_] in Ek.
    assert (S1 : Sub H r1) by (eapply sub_bound; [exact I|exact Hb|left; reflexivity|exact S|exact Ht|exact L]). destruct (bound_Inv I Hb) as (I1 & G1 & _); [left; reflexivity|]. cbn [e_type] in G1.
    destruct (existsb (fun d => negb _) _); [|injection Ek as <- <-; left; auto]. eapply (proj1 (core H k)); [exact I1|exact S1| |exact Ek]. rewrite G1, seqb_refl by assumption. reflexivity. }
  destruct F as [[-> S']| ->]; [|contradiction]. split; [exact E|]. destruct (add_effect I Hp Ek) as (I' & M & _). destruct (add_ok I Hp Ek) as (Gt & _ & R & _). auto.
Qed.
(** ** Stores and registries *)
Record Core (s : store) (r : reg) : Prop := {
  co_world : world_ok s r;
  co_null : forall t, s_next s <= t -> s_heap s t = null_obj;
  co_sub : Sub (s_heap s) r;
  co_deps : deps_closed (s_heap s) r
}.
Lemma sub_agree H H' r : deps_closed H r -> (forall n t, absolute n -> get r n = Some t -> registered r t) -> (forall t, registered r t -> o_name (H' t) = o_name (H t) /\ o_kind (H' t) = o_kind (H t)) -> Sub H r -> Sub H' r.
Proof.
  intros D R A S n t' Ha Hg. destruct (S n t' Ha Hg) as (t & Ht & En & K). exists t. split; [assumption|]. assert (Rt := R _ _ Ha Hg). destruct (A _ Rt) as [A1 A2]. split; [congruence|]. rewrite A2.
  eapply kind_like_deps; [exact K|]. intros x x' Hx E. cbv beta in *. rewrite (proj1 (A x' (D _ _ Rt Hx))). exact E.
Qed.
(** A new type. *)
Lemma core_new s r o t src : Core s r -> constructed s o -> get r0 (o_name o) = Some t -> absolute (o_name o) -> o_name o = o_name (H0 t) ->
  kind_like (fun x x' => registered r x' /\ o_name (s_heap s x') = o_name (H0 x)) (o_kind (H0 t)) (o_kind o) -> get r (o_name o) = None ->
  exists k r', (forall f, k <= f -> add f (s_heap (alloc s o)) r (s_next s) src = (r', Ok tt)) /\ Core (alloc s o) r' /\ mono r r' /\
    (forall d, registered r' d <-> registered r d \/ d = s_next s) /\ get r' (o_name o) = Some (s_next s).
Proof.
  intros [W Z S D] C Ht Ha En K Hg. destruct (alloc_ok W Z C) as [W' Z']. set (s' := alloc s o) in *. assert (Ho : s_heap s' (s_next s) = o) by apply upd_same.
  assert (Old : forall x, registered r x -> s_heap s' x = s_heap s x) by (intros x Hx; apply upd_other; specialize (wo_reg W Hx); lia).
  assert (S' : Sub (s_heap s') r).
  { eapply sub_agree; [exact D| | |exact S]; [intros n x Hn Hx; exists n; auto|]. intros x Hx. rewrite (Old x Hx). auto. }
  assert (L : like0 (s_heap s') t (s_next s)).
  { split; rewrite Ho; [exact En|]. eapply kind_like_impl; [|exact K]. intros x x' [Rx E]. cbv beta. rewrite (Old _ Rx). exact E. }
  destruct (@core_add (s_heap s') r (s_next s) src t (wo_names W') (wo_inv W') S') as (k & r' & E & I' & S2 & M & R & G); try (rewrite Ho; assumption); [exact L|].
  exists k, r'. rewrite Ho in G. split; [exact E|]. split; [|auto]. constructor; [|exact Z'|exact S2|].
  - constructor; [exact I'| |apply (wo_names W')|apply (wo_deps W')]. intros d Hd. apply R in Hd. destruct Hd as [Hd| ->]; [apply (wo_reg W' Hd)|cbn; lia].
  - intros d x Hd Hx. apply R. apply R in Hd. destruct Hd as [Hd| ->].
    + left. unfold dependsOn in Hx. rewrite (Old d Hd) in Hx. apply (D d x Hd Hx).
    + left. unfold dependsOn in Hx. rewrite Ho in Hx. clear - K Hx. destruct K as [| | | |y y' [Ry _]|dd y y' [Ry _]|k y y' [Ry _]|fs fs' F]; try destruct Hx as [<- |[]]; try assumption; try contradiction.
      apply in_map_iff in Hx. destruct Hx as (f & <- & Hf). induction F as [|g g' fs fs' (_ & _ & Rg & _) F IH]; [destruct Hf|]. destruct Hf as [<- |Hf]; [assumption|auto].
Qed.
(** setSize: names and kinds do not change. *)
Lemma core_size s r t n : Core s r -> Core (Store (upd (s_heap s) t (Obj (o_name (s_heap s t)) n (o_kind (s_heap s t)))) (s_next s)) r \/ s_next s <= t.
Proof.
  intros [W Z S D]. destruct (Nat.lt_ge_cases t (s_next s)) as [Hlt|Hge]; [left|auto]. set (H' := upd (s_heap s) t (Obj (o_name (s_heap s t)) n (o_kind (s_heap s t)))).
  assert (A : forall x, o_name (H' x) = o_name (s_heap s x) /\ o_kind (H' x) = o_kind (s_heap s x)) by (intros x; unfold H', upd; destruct (Nat.eqb_spec x t); [subst|]; auto).
  assert (Dp : forall x, dependsOn H' x = dependsOn (s_heap s) x) by (intros x; unfold dependsOn; rewrite (proj2 (A x)); reflexivity).
  constructor; cbn [s_heap s_next].
  - constructor; cbn [s_heap s_next].
    + destruct (wo_inv W) as [I1 I2 I3 I4 I5 I6]. constructor; try assumption. intros m e Hi. rewrite (proj1 (A _)). exact (I4 m e Hi).
    + apply (wo_reg W).
    + intros x y mk Hi. rewrite !(proj1 (A _)). apply (wo_names W). unfold indirect_name in *. rewrite <- (proj2 (A x)). exact Hi.
    + intros x d. rewrite Dp. apply (wo_deps W).
  - intros x Hx. unfold H'. rewrite upd_other by lia. apply Z. assumption.
  - eapply sub_agree; [exact D| | |exact S]; [intros m x Hm Hx; exists m; auto|]. intros x _. apply A.
  - intros d x Hd Hx. rewrite Dp in Hx. apply (D d x Hd Hx).
Qed.
End Core.
