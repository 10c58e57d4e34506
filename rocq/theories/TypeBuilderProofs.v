(** * TypeBuilderProofs *)
From Verif Require Import Base Types NamesSpec Names NamesProofs Graph GraphSpec GraphProofs Registry RegistrySpec RegistryProofs RegistryOps RegistryMain RegistryAlias
  CsvSpec Csv CsvProofs World TypeBuilder TypeBuilderSpec.
Local Open Scope nat_scope.

(** ** Worlds *)
Lemma add_registered f H r t pers src r' out : Inv H r -> plain (o_name (H t)) -> add_type f H r t pers src = (r', out) -> forall d, registered r' d -> registered r d \/ d = t.
Proof.
  intros I Hp E. unfold add_type in E. destruct (add_named H r (o_name (H t)) (Ent t pers src)) as [r1 o1] eqn:Ea.
  assert (K : forall r1 d, Inv H r1 -> get r1 (o_name (H t)) = Some t ->
    (if existsb (fun d => negb (match getAliasesOf H r1 d with [] => true | _ => false end)) (dependsOn H t) then mda f H r1 t else (r1, Ok tt)) = (r', out) -> registered r' d -> registered r1 d).
  { clear r1 Ea E. intros r1 d I1 G1 E Hd. assert (C : RegistryOps.chain H r1 r') by (destruct (existsb (fun d => negb _) _); [eapply (proj1 (mda_alias_chain H f)); eauto|inversion E; constructor]).
    apply (chain_spec C I1) in Hd. assumption. }
  destruct (add_named_spec Hp Ea) as [(-> & -> & _)|[(-> & -> & Hq)|[(-> & -> & _)|(-> & Hb)]]]; cbn [seq_] in E; try (inversion E; subst; auto; fail).
  intros d Hd. destruct (bound_Inv I Hb) as (I1 & G1 & _); [left; reflexivity|]. cbn [e_type] in G1.
    apply (K r1 d I1) in Hd; [|rewrite G1, seqb_refl by (apply plain_absolute; assumption); reflexivity|assumption].
    destruct Hd as (k & Hk & Hkd). rewrite G1 in Hkd by assumption. destruct (seqb (o_name (H t)) k); [inversion Hkd; auto|left; exists k; auto].
Qed.
Lemma exec_Inv f H r o r' out : Inv H r -> op_ok H o -> exec f H r o = (r', out) -> Inv H r'.
Proof.
  intros I Hok E. destruct o; cbn [exec op_ok] in E, Hok.
  - apply (add_effect I Hok E).
  - apply (alias_effect I Hok E).
  - destruct (remove f H r t) as [[r2 ts]| | |] eqn:Er; inversion E; subst; try assumption. apply (remove_Inv I Er).
  - destruct (isAbsoluteName n) eqn:Ea.
    + apply absolute_iff in Ea. apply (removeAlias_spec I Ea E).
    + assert (Hn : ~ absolute n) by (rewrite absolute_iff; congruence). destruct (removeAlias_relative I Hn E) as [-> _]. assumption.
  - inversion E. apply clearAliases_spec. assumption.
  - inversion E. constructor; simpl; try constructor; try tauto.
  - inversion E. apply namespace_spec. assumption.
  - inversion E. apply importNamespace_spec. assumption.
Qed.
Lemma exec_registered f H r o r' out : Inv H r -> op_ok H o -> exec f H r o = (r', out) -> forall d, registered r' d -> registered r d \/ exists p q, o = OpAdd d p q.
Proof.
  intros I Hok E d Hd. assert (G : (forall k, absolute k -> get r' k = Some d -> get r k = Some d) -> registered r d) by (intros X; destruct Hd as (k & Hk & Hg); exists k; auto).
  destruct o; cbn [exec op_ok] in E, Hok.
  - destruct (add_registered I Hok E Hd) as [X| ->]; eauto.
  - left. apply (alias_registered I Hok E). assumption.
  - left. destruct (remove f H r t) as [[r2 ts]| | |] eqn:Er; inversion E; subst; try assumption. apply G. intros k Hk Hg. destruct (remove_Inv I Er) as (_ & X & _). rewrite X in Hg. destruct (get r k); [|discriminate]. destruct (mem t0 ts); [discriminate|assumption].
  - left. destruct (isAbsoluteName n) eqn:Ea.
    + apply absolute_iff in Ea. destruct (removeAlias_spec I Ea E) as [_ [(-> & _)|(-> & _ & _ & X)]]; [assumption|]. apply G. intros k Hk Hg. rewrite X in Hg by assumption. destruct (seqb n k); [discriminate|assumption].
    + assert (Hn : ~ absolute n) by (rewrite absolute_iff; congruence). destruct (removeAlias_relative I Hn E) as [-> _]. assumption.
  - left. inversion E; subst. apply G. intros k Hk Hg. destruct (clearAliases_spec I) as (_ & _ & X). rewrite X in Hg by assumption. destruct (get r k); [|discriminate]. destruct (seqb k _); [assumption|discriminate].
  - left. inversion E; subst. destruct Hd as (k & _ & X). discriminate.
  - left. inversion E; subst. apply G. intros k Hk Hg. destruct (namespace_spec s I) as [_ X]. rewrite X in Hg; assumption.
  - left. inversion E; subst. apply G. intros k Hk Hg. destruct (importNamespace_spec s erase_existing I) as [_ X]. rewrite X in Hg; assumption.
Qed.
Lemma upd_same H t o : upd H t o t = o.
Proof. unfold upd. rewrite Nat.eqb_refl. reflexivity. Qed.
Lemma upd_other H t o x : x <> t -> upd H t o x = H x.
Proof. unfold upd. destruct (Nat.eqb_spec x t); [contradiction|reflexivity]. Qed.
Lemma Inv_agree H H' r : (forall t, registered r t -> H' t = H t) -> Inv H r -> Inv H' r.
Proof.
  intros Ha I. destruct I as [I1 I2 I3 I4 I5 I6] eqn:EI. constructor; try assumption. intros n e Hi. destruct (I4 n e Hi) as (e' & A & B). exists e'. split; [|assumption]. rewrite Ha; [assumption|].
  destruct (global_get (Build_Inv I1 I2 I3 I4 I5 I6) Hi) as (Ab & _ & G). exists n. auto.
Qed.
Record world_ok (s : store) (r : reg) : Prop := {
  wo_inv : Inv (s_heap s) r;
  wo_reg : forall t, registered r t -> t < s_next s;
  wo_names : names_ok (s_heap s);
  wo_deps : forall t d, In d (dependsOn (s_heap s) t) -> d < t
}.
Lemma dependsOn_kind H t : dependsOn H t = match o_kind (H t) with OPtr x | OArr _ x | OCont _ x => [x] | OComp fs => map f_type fs | _ => [] end.
Proof. reflexivity. Qed.
Lemma alloc_ok s r o : world_ok s r -> (forall t, s_next s <= t -> s_heap s t = null_obj) -> constructed s o ->
  world_ok (alloc s o) r /\ (forall t, s_next (alloc s o) <= t -> s_heap (alloc s o) t = null_obj).
Proof.
  intros [I R N D] Hz [C1 C2]. split; [|intros t Ht; cbn [alloc s_heap s_next] in *; rewrite upd_other by lia; apply Hz; lia]. constructor; cbn [alloc s_heap s_next].
  - apply (@Inv_agree (s_heap s)); [|assumption]. intros t Ht. apply upd_other. specialize (R t Ht). lia.
  - intros t Ht. specialize (R t Ht). lia.
  - intros t x mk. unfold indirect_name. destruct (Nat.eq_dec t (s_next s)) as [-> |Ht].
    + rewrite upd_same. intros Hi. assert (Hx : x < s_next s).
      { apply C1. destruct (o_kind o); try discriminate; try (destruct k; try discriminate); inversion Hi; left; reflexivity. }
      rewrite upd_other by lia. destruct (o_kind o); try discriminate; try (destruct k; try discriminate); inversion Hi; subst; assumption.
    + rewrite upd_other by assumption. intros Hi. assert (Hd : In x (dependsOn (s_heap s) t)).
      { unfold dependsOn. destruct (o_kind (s_heap s t)); try discriminate; try (destruct k; try discriminate); inversion Hi; left; reflexivity. }
      specialize (D _ _ Hd). assert (t < s_next s).
      { destruct (Nat.lt_ge_cases t (s_next s)); [assumption|]. unfold dependsOn in Hd. rewrite (Hz t) in Hd by assumption. destruct Hd. }
      rewrite upd_other by lia. apply (N t x mk). exact Hi.
  - intros t d. unfold dependsOn. destruct (Nat.eq_dec t (s_next s)) as [-> |Ht]; [rewrite upd_same; apply C1|]. rewrite upd_other by assumption. apply D.
Qed.
Lemma world_facts s r : world s r -> world_ok s r /\ (forall t, s_next s <= t -> s_heap s t = null_obj).
Proof.
  intros W. induction W as [|s r o W [IH Hz] C|s r o f r' out W [IH Hz] Hx Hok E Ho].
  - split; [|reflexivity]. constructor; cbn [s_heap s_next]; [apply Inv0| | |].
    + intros t (n & _ & X). discriminate.
    + intros t x mk X. discriminate.
    + intros t d [].
  - apply alloc_ok; assumption.
  - split; [|assumption]. destruct IH as [I R N D]. constructor; [eapply exec_Inv; eauto| |assumption|assumption].
    intros t Ht. destruct (exec_registered I Hok E Ht) as [X|(p & q & ->)]; [auto|assumption].
Qed.
Lemma extends_refl s : extends s s.
Proof. split; [lia|reflexivity]. Qed.
Lemma extends_trans a b c : extends a b -> extends b c -> extends a c.
Proof. intros [A1 A2] [B1 B2]. split; [lia|]. intros t Ht. rewrite B2 by lia. auto. Qed.
Lemma extends_alloc s o : extends s (alloc s o).
Proof. split; cbn [alloc s_next s_heap]; [lia|]. intros t Ht. apply upd_other. lia. Qed.
Lemma built_extends s s' ms : extends s s' -> (forall t, s_next s <= t -> s_heap s t = null_obj) -> forall t x, built (s_heap s) t ms x -> built (s_heap s') t ms x.
Proof.
  intros [_ Hx] Hz. induction ms as [|m ms IH]; intros t x; cbn [built]; [auto|]. intros (y & Hy & Hb). exists y. split; [|auto].
  assert (y < s_next s). { destruct (Nat.lt_ge_cases y (s_next s)); [assumption|]. rewrite (Hz y) in Hy by assumption. destruct m; discriminate. }
  rewrite Hx by assumption. assumption.
Qed.

(** ** Names *)
Lemma mod_text_eq m : mod_text m = match m with MPtr => s_ "*" | MArr d => s_ "[" ++ dec d ++ s_ "]" end.
Proof. destruct m; reflexivity. Qed.
Definition mk_name (m : modif) (n : str) : str := match m with MPtr => getPointerName n | MArr d => getArrayName n d end.
Lemma mk_name_eq m n : mk_name m n = n ++ mod_text m.
Proof. destruct m; reflexivity. Qed.
Lemma mod_plain m a : plain a -> plain (a ++ mod_text m).
Proof.
  intros Hp. apply plain_suffix; [assumption|]. rewrite mod_text_eq. destruct m; simpl; [intros [X|[]]; discriminate|].
  intros [X|X]; [discriminate|]. apply in_app_or in X. destruct X as [X|[X|[]]]; [apply dec_no_sep in X; assumption|discriminate].
Qed.
Definition means (H : heap) (m : modif) (t x : tid) : Prop := match m with MPtr => o_kind (H x) = OPtr t | MArr d => o_kind (H x) = OArr d t end.
Lemma means_indirect H m t x : means H m t x -> indirect_name H x = Some (t, mk_name m).
Proof. unfold means, indirect_name. destruct m; intros ->; reflexivity. Qed.
Lemma mod_text_inj a b m m' : a ++ mod_text m = b ++ mod_text m' -> a = b /\ m = m'.
Proof.
  rewrite !mod_text_eq. destruct m as [|d], m' as [|d']; simpl; intros E.
  - apply app_last_inj in E. intuition.
  - exfalso. change (a ++ ["*"%char]  = b ++ ("["%char :: dec d') ++ ["]"%char]) in E. rewrite app_assoc in E. apply app_last_inj in E. destruct E; discriminate.
  - exfalso. change (a ++ ("["%char :: dec d) ++ ["]"%char] = b ++ ["*"%char]) in E. rewrite app_assoc in E. apply app_last_inj in E. destruct E; discriminate.
  - change (a ++ ("["%char :: dec d) ++ ["]"%char] = b ++ ("["%char :: dec d') ++ ["]"%char]) in E. rewrite !app_assoc in E. apply app_last_inj in E. destruct E as [E _].
    destruct (digits_app_inj (dec_digits d) (dec_digits d') E) as [-> Ed]. apply dec_inj in Ed. subst. auto.
Qed.
(** A derived name that ends with a modifier is derived by this modifier. *)
Lemma derived_mod H x y mk a n m : indirect_name H x = Some (y, mk) -> mk a = n ++ mod_text m -> a = n /\ means H m y x.
Proof.
  unfold indirect_name, means. destruct (o_kind (H x)) as [| | | |z|d z|k z|]; try discriminate; [| |destruct k; try discriminate]; intros Hi E; inversion Hi; subst y mk.
  - change (getPointerName a) with (a ++ mod_text MPtr) in E. apply mod_text_inj in E. destruct E as [-> <-]. auto.
  - change (getArrayName a d) with (a ++ mod_text (MArr d)) in E. apply mod_text_inj in E. destruct E as [-> <-]. auto.
  - exfalso. unfold vector_fullName in E. rewrite mod_text_eq, app_assoc in E. change (s_ ">") with [">"%char] in E. destruct m as [|d].
    + change (s_ "*") with ["*"%char] in E. apply app_last_inj in E. destruct E; discriminate.
    + change (s_ "]") with ["]"%char] in E. rewrite (app_assoc (s_ "[")), (app_assoc n) in E. apply app_last_inj in E. destruct E; discriminate.
Qed.

(** ** Finding or adding *)
Definition mod_obj (H : heap) (m : modif) (t : tid) : tobj := match m with MPtr => pointer_obj H t | MArr d => array_obj H t d end.
Lemma mod_obj_name H m t : o_name (mod_obj H m t) = o_name (H t) ++ mod_text m.
Proof. destruct m; reflexivity. Qed.
Lemma mod_constructed s m t : t < s_next s -> constructed s (mod_obj (s_heap s) m t).
Proof. intros Ht. destruct m; split; cbn; try reflexivity; intros z [<-|[]]; assumption. Qed.
Lemma meant_add f H r t pers src r' out m b : Inv H r -> plain (o_name (H t)) -> o_name (H t) = o_name (H b) ++ mod_text m -> means H m b t -> get r (o_name (H b)) = Some b ->
  modifiers_meant H r -> add_type f H r t pers src = (r', out) -> modifiers_meant H r'.
Proof.
  intros I Hp En Hm Hb Hs E. destruct (add_effect I Hp E) as (I' & M & _ & Ef). intros n m' x Ha Hg.
  assert (Ha' : absolute (n ++ mod_text m')) by (destruct Ha as [z ->]; exists (z ++ mod_text m'); reflexivity).
  destruct (Ef _ Ha') as [Eq|(Hn & y & Ey & [[Ek Eb]|(z & mk & a & Hi & Ab & Hgz & Hne & Ek)])].
  - rewrite Eq in Hg. destruct (Hs n m' x Ha Hg) as (u & Hu & K). exists u. split; [apply M; assumption|assumption].
  - inversion Eb; subst y. rewrite Hg in Ey. inversion Ey; subst x. rewrite En in Ek. apply mod_text_inj in Ek. destruct Ek as [-> ->]. exists b. split; [apply M; [assumption|assumption]|assumption].
  - rewrite Hg in Ey. inversion Ey; subst y. symmetry in Ek. destruct (derived_mod Hi Ek) as [-> K]. exists z. split; [assumption|exact K].
Qed.
Lemma add_is_op s r t pers src : exec 0 (s_heap s) r (OpAdd t pers src) = add_type 0 (s_heap s) r t pers src.
Proof. reflexivity. Qed.
Definition good (s : store) (r : reg) : Prop := world s r /\ modifiers_meant (s_heap s) r.
Lemma meant_agree s o r : world s r -> modifiers_meant (s_heap s) r -> modifiers_meant (s_heap (alloc s o)) r.
Proof.
  intros W Hs n m x Ha Hg. destruct (Hs n m x Ha Hg) as (t & Ht & K). exists t. split; [assumption|]. destruct (world_facts W) as [[I R _ _] _].
  assert (Hx : x < s_next s) by (apply R; eapply registered_get; eauto). cbn [alloc s_heap]. rewrite upd_other by lia. assumption.
Qed.
Lemma find_or_add_ok f s r m t w x : good s r -> registered r t -> find_or_add f (s, r) (mod_obj (s_heap s) m t) = (w, Ok x) ->
  exists s' r', w = (s', r') /\ good s' r' /\ extends s s' /\ mono r r' /\ means (s_heap s') m t x /\ o_name (s_heap s' x) = o_name (s_heap s t) ++ mod_text m /\ registered r' x.
Proof.
  intros [W Hs] Ht E. destruct (world_facts W) as [[I R N D] Hz]. assert (Ht' := Ht). destruct Ht as (nt & Hnt & Hgt). destruct (get_primary I Hgt) as [Hab Hpr].
  cbn [find_or_add] in E. rewrite mod_obj_name in E. destruct (get r (o_name (s_heap s t) ++ mod_text m)) as [y|] eqn:Eg.
  - inversion E; subst. exists s, r. split; [reflexivity|]. split; [split; assumption|]. split; [apply extends_refl|]. split; [intros k u; auto|].
    destruct (Hs _ _ _ Hab Eg) as (u & Hu & K). rewrite Hpr in Hu. inversion Hu; subst u. split; [exact K|]. split; [|eapply registered_get; eauto].
    assert (X := N _ _ _ (means_indirect K)). rewrite mk_name_eq in X. assumption.
  - set (o := mod_obj (s_heap s) m t) in *. set (s' := alloc s o) in *.
    destruct (add f (s_heap s') r (s_next s) []) as [r' out] eqn:Ea. destruct out as [[]|e|u|]; inversion E; subst.
    assert (Eo : s_heap s' (s_next s) = o) by (unfold s'; cbn [alloc s_heap]; apply upd_same).
    assert (Hn : o_name (s_heap s' (s_next s)) = o_name (s_heap s t) ++ mod_text m) by (rewrite Eo; apply mod_obj_name).
    assert (Htn : t < s_next s) by (apply R; assumption).
    assert (Ext : extends s s') by apply extends_alloc.
    assert (Hst : s_heap s' t = s_heap s t) by (apply Ext; assumption).
    assert (W1 : world s' r) by (apply world_new; [assumption|apply mod_constructed; assumption]).
    destruct (world_facts W1) as [[I1 R1 N1 D1] Hz1].
    assert (Hpl : plain (o_name (s_heap s' (s_next s)))).
    { rewrite Hn. apply mod_plain. destruct (get_In I Hab Hpr) as (e & Hi & _). destruct (global_get I Hi) as (_ & P & _). assumption. }
    assert (K : means (s_heap s') m t (s_next s)) by (unfold means; rewrite Eo; unfold o; destruct m; reflexivity).
    unfold add in Ea. exists s', r'. split; [reflexivity|]. split; [split|].
    + eapply world_op with (o := OpAdd (s_next s) _ []); [exact W1|cbn; lia|exact Hpl|exact Ea|discriminate].
    + eapply (meant_add (m := m) (b := t) I1 Hpl); [rewrite Hst; exact Hn|exact K|rewrite Hst; exact Hpr|apply meant_agree; assumption|exact Ea].
    + destruct (add_effect I1 Hpl Ea) as (_ & M & _). split; [assumption|]. split; [exact M|]. split; [exact K|]. split; [exact Hn|]. destruct (add_ok I1 Hpl Ea) as (G & _). eapply registered_get; [|exact G].
      apply (add_effect I1 Hpl Ea).
Qed.

Definition as_mod (m : modif) : modifier := match m with MPtr => (ModPtr, 1%Z) | MArr d => (ModArr, Z.of_N d) end.
Lemma to_size_of d : (d < 2 ^ 64)%N -> to_size (Z.of_N d) = d.
Proof. intros Hd. unfold to_size. rewrite Z.mod_small; [apply N2Z.id|]. split; [lia|]. change (2 ^ 64)%Z with (Z.of_N (2 ^ 64)). lia. Qed.
Lemma apply_cons f s r t m ms : dims_below (2 ^ 64) (m :: ms) -> apply_mods f (s, r) t (map as_mod (m :: ms)) =
  match find_or_add f (s, r) (mod_obj (s_heap s) m t) with (w', Ok m') => apply_mods f w' m' (map as_mod ms) | x => x end.
Proof.
  intros Hd. inversion Hd as [|? ? Hm _]; subst. destruct m as [|d]; cbn [map as_mod apply_mods].
  - change (Z.to_nat 1) with 1. change (1 <? 0)%Z with false. cbn [addPointer fst]. change (mod_obj (s_heap s) MPtr t) with (pointer_obj (s_heap s) t).
    destruct (find_or_add f (s, r) (pointer_obj (s_heap s) t)) as [w' [x|e|u|]]; reflexivity.
  - unfold addArrayMajor. cbn [fst]. rewrite to_size_of by assumption. reflexivity.
Qed.
Lemma name_with_cons b m ms : name_with b (m :: ms) = name_with (b ++ mod_text m) ms.
Proof. unfold name_with. simpl. rewrite app_assoc. reflexivity. Qed.
Lemma apply_ok f ms : dims_below (2 ^ 64) ms -> forall s r t w x, good s r -> registered r t -> apply_mods f (s, r) t (map as_mod ms) = (w, Ok x) ->
  exists s' r', w = (s', r') /\ good s' r' /\ extends s s' /\ mono r r' /\ built (s_heap s') t ms x /\ o_name (s_heap s' x) = name_with (o_name (s_heap s t)) ms /\ registered r' x.
Proof.
  induction ms as [|m ms IH]; intros Hd s r t w x G Ht E.
  - cbn in E. inversion E; subst. exists s, r. split; [reflexivity|]. split; [assumption|]. split; [apply extends_refl|]. split; [intros k u; auto|]. split; [reflexivity|]. split; [|assumption]. unfold name_with. simpl. rewrite app_nil_r. reflexivity.
  - rewrite (apply_cons f s r t Hd) in E. destruct (find_or_add f (s, r) (mod_obj (s_heap s) m t)) as [w1 [y|e|u|]] eqn:Ef; try discriminate.
    destruct (find_or_add_ok G Ht Ef) as (s1 & r1 & -> & G1 & X1 & M1 & K1 & N1 & R1). inversion Hd as [|? ? _ Hd']; subst.
    destruct (IH Hd' _ _ _ _ _ G1 R1 E) as (s2 & r2 & -> & G2 & X2 & M2 & B2 & N2 & R2). exists s2, r2. split; [reflexivity|]. split; [assumption|].
    split; [eapply extends_trans; eassumption|]. split; [intros k u Hk Hu; auto|]. split; [|split; [|assumption]].
    + cbn [built]. exists y. split; [|assumption]. assert (Hy : y < s_next s1) by (destruct G1 as [W1 _]; destruct (world_facts W1) as [[_ R _ _] _]; auto).
      assert (Ey : s_heap s2 y = s_heap s1 y) by (apply X2; assumption). unfold means in K1. rewrite <- Ey in K1. exact K1.
    + rewrite N2, N1, <- name_with_cons. reflexivity.
Qed.
(** Names with modifiers that are registered have registered prefixes. *)
Lemma meant_prefix H r : modifiers_meant H r -> forall ms a x, absolute a -> get r (name_with a ms) = Some x -> exists t, get r a = Some t.
Proof.
  intros Hs. induction ms as [|m ms IH]; intros a x Ha Hg; [unfold name_with in Hg; simpl in Hg; rewrite app_nil_r in Hg; eauto|].
  rewrite name_with_cons in Hg. assert (Ha' : absolute (a ++ mod_text m)) by (destruct Ha as [z ->]; exists (z ++ mod_text m); reflexivity).
  destruct (IH _ _ Ha' Hg) as (t & Ht). destruct (Hs _ _ _ Ha Ht) as (u & Hu & _). eauto.
Qed.
Lemma apply_found f s r : world s r -> modifiers_meant (s_heap s) r -> forall ms, dims_below (2 ^ 64) ms -> forall a t x, absolute a -> get r a = Some t -> get r (name_with a ms) = Some x ->
  apply_mods f (s, r) t (map as_mod ms) = ((s, r), Ok x).
Proof.
  intros W Hs. destruct (world_facts W) as [[I R N D] Hz]. induction ms as [|m ms IH]; intros Hd a t x Ha Ht Hx.
  - replace (name_with a []) with a in Hx by (unfold name_with; simpl; rewrite app_nil_r; reflexivity). rewrite Ht in Hx. inversion Hx. reflexivity.
  - rewrite (apply_cons f s r t Hd). rewrite name_with_cons in Hx. assert (Ha' : absolute (a ++ mod_text m)) by (destruct Ha as [z ->]; exists (z ++ mod_text m); reflexivity).
    destruct (meant_prefix Hs Ha' Hx) as (y & Hy). destruct (Hs _ _ _ Ha Hy) as (u & Hu & K). rewrite Ht in Hu. inversion Hu; subst u.
    assert (En : o_name (s_heap s y) = o_name (s_heap s t) ++ mod_text m) by (rewrite (N _ _ _ (means_indirect K)); apply mk_name_eq).
    destruct (get_primary I Hy) as [_ Hp]. rewrite En in Hp. cbn [find_or_add]. rewrite mod_obj_name, Hp. inversion Hd as [|? ? _ Hd']; subst. apply (IH Hd' _ _ _ Ha' Hy Hx).
Qed.

(** ** Parsing *)
Lemma read_digits_app c rest : isdigit c = false -> forall ds acc, Forall is_digit ds -> (0 <= acc)%Z ->
  read_digits acc (ds ++ c :: rest) = Z.of_N (fold_left (fun a c => 10 * a + digit_val c)%N ds (Z.to_N acc)).
Proof.
  intros Hc. induction ds as [|d ds IH]; intros acc Hd Ha; cbn [app read_digits fold_left]; [rewrite Hc; rewrite Z2N.id by assumption; reflexivity|].
  inversion Hd as [|? ? Hd1 Hd2]; subst. unfold is_digit in Hd1. unfold N_of_ascii in *. assert (Dd : isdigit d = true).
  { unfold isdigit. change nat_of_ascii with (fun a => N.to_nat (N_of_ascii a)). cbv beta. unfold N_of_ascii. lia. }
  rewrite Dd. change (nat_of_ascii d) with (N.to_nat (N_of_ascii d)). rewrite IH; [|assumption|unfold N_of_ascii; lia]. f_equal. f_equal. unfold digit_val, N_of_ascii. lia.
Qed.
Lemma atoi_dec d post : (d < 2 ^ 31)%N -> atoi (dec d ++ "]"%char :: post) = Ok (Z.of_N d).
Proof.
  intros Hd. destruct (decN_decimal d) as (Hne & Hdig & Hr). unfold decN in *. unfold atoi.
  assert (E : read_digits 0 (dec d ++ "]"%char :: post) = Z.of_N d).
  { rewrite read_digits_app; [|reflexivity|assumption|lia]. unfold read_dec in Hr. simpl Z.to_N. rewrite Hr. reflexivity. }
  clear Hr. destruct (dec d) as [|c ds]; [contradiction|]. cbn [app] in *. inversion Hdig as [|? ? Hc _]; subst. unfold is_digit in Hc.
  assert (S1 : isspace c = false) by (unfold isspace; change (nat_of_ascii c) with (N.to_nat (N_of_ascii c)); lia).
  assert (S2 : ceqb c "-" = false) by (apply Ascii.eqb_neq; intros ->; vm_compute in Hc; destruct Hc as [Hc _]; apply Hc; reflexivity).
  assert (S3 : ceqb c "+" = false) by (apply Ascii.eqb_neq; intros ->; vm_compute in Hc; destruct Hc as [Hc _]; apply Hc; reflexivity).
  cbn [skip_space]. rewrite S1, S2, S3, E. change (2 ^ 31)%N with 2147483648%N in Hd. change (2 ^ 31)%Z with 2147483648%Z.
  change (- (2147483648))%Z with (-2147483648)%Z.   rewrite (proj2 (Z.leb_le (-2147483648) (Z.of_N d))) by lia. rewrite (proj2 (Z.ltb_lt (Z.of_N d) 2147483648)) by lia. reflexivity.
Qed.
Lemma find_open_app ds r : ~ In "["%char ds -> forall inside, find_open inside (ds ++ "["%char :: r) = Some (rev ds ++ inside, r).
Proof.
  induction ds as [|d ds IH]; intros Hn inside; cbn [app find_open]; [reflexivity|]. destruct (ceqb d "[") eqn:E; [apply Ascii.eqb_eq in E; subst; exfalso; apply Hn; left; reflexivity|].
  rewrite IH by (intros X; apply Hn; right; assumption). simpl. rewrite <- app_assoc. reflexivity.
Qed.
Lemma dec_no_open d : ~ In "["%char (dec d).
Proof. intros Hi. destruct (decN_decimal d) as (_ & Hd & _). rewrite Forall_forall in Hd. unfold decN in Hd. specialize (Hd _ Hi). vm_compute in Hd. destruct Hd as [_ Hd]. apply Hd. reflexivity. Qed.
Lemma parse_loop_ok base : base_name base -> forall ms, dims_below (2 ^ 31) ms -> forall f post acc, length (name_with base ms) < f ->
  parse_loop f (rev (name_with base ms)) post acc = Ok (base, map as_mod ms ++ acc).
Proof.
  intros (c & r & d & Eb & D1 & D2 & D3). induction ms as [|m ms IH] using rev_ind; intros Hd f post acc Hf.
  - unfold name_with in *. simpl. simpl in Hf. rewrite app_nil_r in *. destruct f; [lia|]. rewrite Eb at 1. replace (rev (c :: r ++ [d])) with (d :: rev (c :: r)) by (simpl; rewrite rev_app_distr; reflexivity).
    destruct (rev (c :: r)) as [|z zs] eqn:Er; [apply (f_equal (@length ascii)) in Er; rewrite rev_length in Er; discriminate|]. cbn [parse_loop].
    assert (F1 : ceqb d "]" = false) by (apply Ascii.eqb_neq; assumption). assert (F2 : ceqb d "*" = false) by (apply Ascii.eqb_neq; assumption). assert (F3 : ceqb d " " = false) by (apply Ascii.eqb_neq; assumption).
    rewrite F1, F2, F3. f_equal. f_equal. rewrite Eb. rewrite <- Er. change (d :: rev (c :: r)) with ([d] ++ rev (c :: r)). rewrite rev_app_distr, rev_involutive. reflexivity.
  - assert (En : name_with base (ms ++ [m]) = name_with base ms ++ mod_text m) by (unfold name_with; rewrite map_app, concat_app; simpl; rewrite app_nil_r, app_assoc; reflexivity).
    apply Forall_app in Hd. destruct Hd as [Hd Hm]. apply Forall_inv in Hm; rename Hm into Hm'. rewrite En in *. rewrite map_app. simpl map. rewrite <- app_assoc. simpl app at 2.
    assert (Hlong : exists z zs, rev (name_with base ms) = z :: zs).
    { destruct (rev (name_with base ms)) as [|z zs] eqn:Er; [|eauto]. apply (f_equal (@length ascii)) in Er. rewrite rev_length in Er. unfold name_with in Er. rewrite Eb, app_length in Er. simpl in Er. lia. }
    destruct Hlong as (z & zs & Ez). destruct f; [lia|]. rewrite app_length in Hf. rewrite rev_app_distr. rewrite mod_text_eq in *. destruct m as [|k].
    + simpl rev at 1. cbn [app]. rewrite Ez. cbn [parse_loop]. change (ceqb "*" "]") with false. change (ceqb "*" "*") with true. cbn [tl]. rewrite <- Ez. rewrite IH; [reflexivity|assumption|simpl in Hf; lia].
    + assert (Er : rev (s_ "[" ++ dec k ++ s_ "]") ++ rev (name_with base ms) = "]"%char :: rev (dec k) ++ "["%char :: rev (name_with base ms)).
      { rewrite !rev_app_distr. simpl. rewrite <- !app_assoc. reflexivity. }
      rewrite Er. cbn [parse_loop]. change (ceqb "]" "]") with true. cbn [find_open].
      destruct (rev (dec k) ++ "["%char :: rev (name_with base ms)) as [|y ys] eqn:Ey; [destruct (rev (dec k)); discriminate|]. rewrite <- Ey. change (ceqb "]" "[") with false.
      rewrite find_open_app by (rewrite <- in_rev; apply dec_no_open). rewrite rev_involutive. cbn [bind]. rewrite <- app_assoc. cbn [app]. rewrite atoi_dec by assumption. cbn [bind].
      rewrite IH; [reflexivity|assumption|]. rewrite !app_length in Hf. simpl in Hf. lia.
Qed.
Lemma parse_ok base ms : base_name base -> dims_below (2 ^ 31) ms -> parseTypename (name_with base ms) = Ok (base, map as_mod ms).
Proof. intros Hb Hd. unfold parseTypename. rewrite (parse_loop_ok Hb Hd) by lia. rewrite app_nil_r. reflexivity. Qed.

(** ** Termination *)
Lemma add_no_ub f H r t pers src r' out u : add_type f H r t pers src = (r', out) -> out <> UB u.
Proof.
  assert (E1 : forall A (g : reg -> A -> reg * res unit) l r r' out, (forall r x r' out, g r x = (r', out) -> out <> UB u) -> each g l r = (r', out) -> out <> UB u).
  { intros A g. induction l as [|x l IH]; intros r0 r1 o Hg; cbn [each]; [intros X; inversion X; discriminate|]. destruct (g r0 x) as [r2 o2] eqn:Eg. specialize (Hg r0 x r2 o2 Eg) as Hg'.
    destruct o2; cbn [seq_]; intros X; try (inversion X; subst; assumption). eapply IH; eauto. }
  assert (An : forall H r n e r' out, add_named H r n e = (r', out) -> out <> UB u).
  { intros H0 r0 n e r1 o. unfold add_named. destruct (negb _); [intros X; inversion X; discriminate|]. destruct (get r0 n); [destruct (_ =? _)|]; intros X; inversion X; discriminate. }
  assert (M : forall f, (forall r t r' out, mda f H r t = (r', out) -> out <> UB u) /\ (forall r b n p s r' out, alias_ f H r b n p s = (r', out) -> out <> UB u)).
  { induction f0 as [|f0 [IH1 IH2]]; [split; intros; match goal with X : _ = _ |- _ => inversion X; discriminate end|]. split.
    - intros r0 t0 r1 o. cbn [mda]. destruct (indirect_name H t0) as [[x mk]|]; [|intros X; inversion X; discriminate]. apply E1. intros r2 a r3 o3. destruct (has r2 (mk a)); [intros X; inversion X; discriminate|apply IH2].
    - intros r0 b n p s r1 o. cbn [alias_]. destruct (negb _); [intros X; inversion X; discriminate|]. destruct (get r0 b); [|intros X; inversion X; discriminate].
      destruct (add_named H r0 n (Ent t0 p s)) as [r2 o2] eqn:Ea. specialize (An _ _ _ _ _ _ Ea). destruct o2; cbn [seq_]; intros X; try (inversion X; subst; assumption). eapply E1; [|exact X]. intros. eapply IH1; eauto. }
  unfold add_type. destruct (add_named H r (o_name (H t)) (Ent t pers src)) as [r2 o2] eqn:Ea. specialize (An _ _ _ _ _ _ Ea). destruct o2; cbn [seq_]; intros X; try (inversion X; subst; assumption).
  destruct (existsb _ _); [eapply (proj1 (M f)); eauto|inversion X; discriminate].
Qed.
Lemma find_or_add_conv s r m t : world s r -> registered r t ->
  exists k w out, (forall f, k <= f -> find_or_add f (s, r) (mod_obj (s_heap s) m t) = (w, out)) /\
    ((exists x, out = Ok x /\ registered (snd w) x) \/ exists e, out = Throw e) /\ world (fst w) (snd w) /\ extends s (fst w) /\ mono r (snd w).
Proof.
  intros W Ht. destruct (world_facts W) as [[I R N D] Hz]. assert (Ht' := Ht). destruct Ht as (nt & Hnt & Hgt). destruct (get_primary I Hgt) as [Hab Hpr].
  cbn [find_or_add]. rewrite mod_obj_name. destruct (get r (o_name (s_heap s t) ++ mod_text m)) as [y|] eqn:Eg.
  - exists 0, (s, r), (Ok y). split; [reflexivity|]. split; [left; exists y; split; [reflexivity|eapply registered_get; eauto]|]. split; [assumption|]. split; [apply extends_refl|intros k u; auto].
  - set (o := mod_obj (s_heap s) m t) in *. set (s' := alloc s o) in *.
    assert (Eo : s_heap s' (s_next s) = o) by (unfold s'; cbn [alloc s_heap]; apply upd_same).
    assert (Hn : o_name (s_heap s' (s_next s)) = o_name (s_heap s t) ++ mod_text m) by (rewrite Eo; apply mod_obj_name).
    assert (Htn : t < s_next s) by (apply R; assumption).
    assert (W1 : world s' r) by (apply world_new; [assumption|apply mod_constructed; assumption]).
    destruct (world_facts W1) as [[I1 R1 N1 D1] Hz1].
    assert (Hpl : plain (o_name (s_heap s' (s_next s)))).
    { rewrite Hn. apply mod_plain. destruct (get_In I Hab Hpr) as (e & Hi & _). destruct (global_get I Hi) as (_ & P & _). assumption. }
    set (pers := isPersistent (s_heap s') (o_name (s_heap s' (s_next s))) (s_next s)) in *.
    destruct (add_terminates pers [] N1 I1 Hpl) as (k & r' & out & Ho & Hk).
    assert (W2 : world s' r') by (eapply world_op with (o := OpAdd (s_next s) pers []); [exact W1|cbn; lia|exact Hpl|apply (Hk k); lia|assumption]).
    assert (M : mono r r') by (destruct (add_effect I1 Hpl (Hk k (le_n _))) as (_ & M & _); exact M).
    exists k, (s', r'), (match out with Ok _ => Ok (s_next s) | Throw e => Throw e | UB u => UB u | Fuel => Fuel end). split.
    { intros f Hf. change (add f (s_heap s') r (s_next s) []) with (add_type f (s_heap s') r (s_next s) pers []). rewrite (Hk f Hf). destruct out; reflexivity. }
    split; [|split; [assumption|split; [apply extends_alloc|assumption]]]. destruct out as [[]|e|u|]; [left|right; eauto| |contradiction].
    + exists (s_next s). split; [reflexivity|]. destruct (add_ok I1 Hpl (Hk k (le_n _))) as (G & _). eapply registered_get; [|exact G]. apply (add_effect I1 Hpl (Hk k (le_n _))).
    + exfalso. eapply add_no_ub; [apply (Hk k (le_n _))|reflexivity].
Qed.
Lemma apply_conv ms : dims_below (2 ^ 64) ms -> forall s r t, world s r -> registered r t ->
  exists k w out, (forall f, k <= f -> apply_mods f (s, r) t (map as_mod ms) = (w, out)) /\
    ((exists x, out = Ok x) \/ exists e, out = Throw e) /\ world (fst w) (snd w) /\ extends s (fst w) /\ mono r (snd w).
Proof.
  induction ms as [|m ms IH]; intros Hd s r t W Ht.
  - exists 0, (s, r), (Ok t). split; [reflexivity|]. split; [eauto|]. split; [assumption|]. split; [apply extends_refl|intros k u; auto].
  - destruct (find_or_add_conv m W Ht) as (k1 & [s1 r1] & o1 & E1 & O1 & W1 & X1 & M1). cbn [fst snd] in *. destruct O1 as [(x & -> & Hx)|(e & ->)].
    + inversion Hd as [|? ? _ Hd']; subst. destruct (IH Hd' s1 r1 x W1 Hx) as (k2 & w & out & E2 & O2 & W2 & X2 & M2). exists (k1 + k2), w, out. split.
      { intros f Hf. rewrite (apply_cons f s r t Hd), E1 by lia. apply E2. lia. }
      split; [assumption|]. split; [assumption|]. split; [eapply extends_trans; eassumption|]. intros k u Hk Hu; auto.
    + exists k1, (s1, r1), (Throw e). split; [intros f Hf; rewrite (apply_cons f s r t Hd), E1 by lia; reflexivity|]. split; [eauto|]. split; [assumption|]. split; assumption.
Qed.

(** ** Success without aliases *)
Definition no_aliases (H : heap) (r : reg) : Prop := forall n x, absolute n -> get r n = Some x -> n = o_name (H x).
Lemma no_aliases_none H r t : Inv H r -> no_aliases H r -> getAliasesOf H r t = [].
Proof.
  intros I Hn. destruct (getAliasesOf H r t) as [|a l] eqn:E; [reflexivity|]. exfalso. assert (X : In a (getAliasesOf H r t)) by (rewrite E; left; reflexivity).
  apply (aliases_get t a I) in X. destruct X as (A & B & C). apply C. apply Hn; assumption.
Qed.
Lemma add_no_alias f H r t pers src : Inv H r -> no_aliases H r -> plain (o_name (H t)) -> isValidTypename (o_name (H t)) true = true -> get r (o_name (H t)) = None ->
  exists r', add_type f H r t pers src = (r', Ok tt) /\ no_aliases H r'.
Proof.
  intros I Hn Hp Hv Hg. unfold add_type. destruct (add_named H r (o_name (H t)) (Ent t pers src)) as [r1 o1] eqn:Ea.
  destruct (add_named_spec Hp Ea) as [(-> & -> & X)|[(-> & -> & Hq)|[(-> & -> & X)|(-> & Hb)]]].
  - unfold add_named in Ea. rewrite Hv in Ea. cbn [negb] in Ea. rewrite Hg in Ea. discriminate.
  - congruence.
  - unfold add_named in Ea. rewrite Hv in Ea. cbn [negb] in Ea. rewrite Hg in Ea. discriminate.
  - destruct (bound_Inv I Hb) as (I1 & G1 & _); [left; reflexivity|]. cbn [e_type] in G1. cbn [seq_].
    assert (N1 : no_aliases H r1).
    { intros n x Ha Hx. rewrite G1 in Hx by assumption. destruct (seqb (o_name (H t)) n) eqn:Es; [apply seqb_eq in Es; inversion Hx; subst; reflexivity|auto]. }
    exists r1. split; [|assumption]. replace (existsb _ _) with false; [reflexivity|]. symmetry. apply not_true_is_false. intros X. apply existsb_exists in X. destruct X as (d & _ & X). rewrite (no_aliases_none d I1 N1) in X. discriminate.
Qed.
Lemma no_aliases_agree s o r : world s r -> no_aliases (s_heap s) r -> no_aliases (s_heap (alloc s o)) r.
Proof.
  intros W Hs n x Ha Hg. rewrite (Hs n x Ha Hg). destruct (world_facts W) as [[I R _ _] _].
  assert (Hx : x < s_next s) by (apply R; eapply registered_get; eauto). cbn [alloc s_heap]. rewrite upd_other by lia. reflexivity.
Qed.
Lemma find_or_add_succeeds f s r m t : good s r -> no_aliases (s_heap s) r -> registered r t -> isValidTypename (o_name (s_heap s t) ++ mod_text m) true = true ->
  exists s' r' x, find_or_add f (s, r) (mod_obj (s_heap s) m t) = ((s', r'), Ok x) /\ no_aliases (s_heap s') r'.
Proof.
  intros [W Hs] Hna Ht Hv. destruct (world_facts W) as [[I R N D] Hz]. assert (Ht' := Ht). destruct Ht as (nt & Hnt & Hgt). destruct (get_primary I Hgt) as [Hab Hpr].
  cbn [find_or_add]. rewrite mod_obj_name. destruct (get r (o_name (s_heap s t) ++ mod_text m)) as [y|] eqn:Eg.
  - exists s, r, y. auto.
  - set (o := mod_obj (s_heap s) m t) in *. set (s' := alloc s o) in *.
    assert (Eo : s_heap s' (s_next s) = o) by (unfold s'; cbn [alloc s_heap]; apply upd_same).
    assert (Hn : o_name (s_heap s' (s_next s)) = o_name (s_heap s t) ++ mod_text m) by (rewrite Eo; apply mod_obj_name).
    assert (W1 : world s' r) by (apply world_new; [assumption|apply mod_constructed; apply R; assumption]).
    destruct (world_facts W1) as [[I1 R1 N1 D1] Hz1].
    assert (Hpl : plain (o_name (s_heap s' (s_next s)))).
    { rewrite Hn. apply mod_plain. destruct (get_In I Hab Hpr) as (e & Hi & _). destruct (global_get I Hi) as (_ & P & _). assumption. }
    destruct (@add_no_alias f (s_heap s') r (s_next s) (isPersistent (s_heap s') (o_name (s_heap s' (s_next s))) (s_next s)) [] I1 (no_aliases_agree o W Hna) Hpl) as (r' & E & Hna'); [rewrite Hn; assumption|rewrite Hn; assumption|].
    exists s', r', (s_next s). change (add f (s_heap s') r (s_next s) []) with (add_type f (s_heap s') r (s_next s) (isPersistent (s_heap s') (o_name (s_heap s' (s_next s))) (s_next s)) []). rewrite E. auto.
Qed.
Lemma apply_succeeds f ms : dims_below (2 ^ 64) ms -> forall s r t, good s r -> no_aliases (s_heap s) r -> registered r t ->
  (forall p q, ms = p ++ q -> p <> [] -> isValidTypename (name_with (o_name (s_heap s t)) p) true = true) ->
  exists w x, apply_mods f (s, r) t (map as_mod ms) = (w, Ok x).
Proof.
  induction ms as [|m ms IH]; intros Hd s r t G Hna Ht Hv; [cbn; eauto|]. rewrite (apply_cons f s r t Hd).
  destruct (find_or_add_succeeds f (m := m) G Hna Ht) as (s1 & r1 & x & E & Hna1).
  { specialize (Hv [m] ms eq_refl ltac:(discriminate)). unfold name_with in Hv. simpl in Hv. rewrite app_nil_r in Hv. assumption. }
  rewrite E. destruct (find_or_add_ok G Ht E) as (s2 & r2 & X & G1 & _ & _ & _ & N1 & R1). inversion X; subst s2 r2. inversion Hd as [|? ? _ Hd']; subst. apply (IH Hd' s1 r1 x G1 Hna1 R1).
  intros p q -> Hp. rewrite N1. rewrite <- name_with_cons. apply (Hv (m :: p) q eq_refl). discriminate.
Qed.

(** ** Arrays on the inside *)
Lemma strip_ok s r : world s r -> forall ds t x, dims_below (2 ^ 31) (map MArr ds) -> (forall d y, o_kind (s_heap s t) <> OArr d y) -> built (s_heap s) t (map MArr ds) x ->
  forall f acc, x < f -> strip_arrays f (s_heap s) x acc = Ok (map Z.of_N ds ++ acc, t).
Proof.
  intros W. destruct (world_facts W) as [[I R N D] Hz]. induction ds as [|d ds IH] using rev_ind; intros t x Hd Ht Hb f acc Hf.
  - cbn in Hb. subst x. destruct f; [lia|]. cbn [strip_arrays]. destruct (o_kind (s_heap s t)) eqn:Ek; try reflexivity. exfalso. eapply Ht; reflexivity.
  - assert (Sn : exists y, built (s_heap s) t (map MArr ds) y /\ o_kind (s_heap s x) = OArr d y).
    { clear -Hb. revert t Hb. induction ds as [|d0 ds IH]; intros t Hb; cbn in Hb |- *.
      - destruct Hb as (y & Hy & ->). exists t. auto.
      - destruct Hb as (y & Hy & Hb). destruct (IH y Hb) as (z & Hz & Hk). exists z. split; [exists y; auto|assumption]. }
    destruct Sn as (y & Hb' & Hk). destruct f; [lia|]. cbn [strip_arrays]. rewrite Hk. rewrite map_app in Hd. apply Forall_app in Hd. destruct Hd as [Hd Hd2]. apply Forall_inv in Hd2. cbn in Hd2.
    assert (Hy : y < x) by (apply (D x y); unfold dependsOn; rewrite Hk; left; reflexivity).
    rewrite (IH t y Hd Ht Hb' f (to_int d :: acc)) by lia. rewrite map_app, <- app_assoc. cbn [map app]. f_equal. f_equal. f_equal. f_equal. unfold to_int.
    assert (Z.of_N d < 2147483648)%Z by (change (2 ^ 31)%N with 2147483648%N in Hd2; lia). rewrite Z.mod_small by (change (2 ^ 32)%Z with 4294967296%Z; lia).
    change (2 ^ 31)%Z with 2147483648%Z. rewrite (proj2 (Z.ltb_lt (Z.of_N d) 2147483648)) by assumption. reflexivity.
Qed.

(** ** Registries filled in the usual way *)
Lemma rdep_more H g : forall f res q ts, rdep_loop f H g res q = Ok ts -> forall k, rdep_loop (f + k) H g res q = Ok ts.
Proof.
  induction f as [|f IH]; intros res q ts E k; cbn [rdep_loop plus] in E |- *; [discriminate|]. destruct q; [assumption|]. apply IH. assumption.
Qed.
Lemma remove_dependents f H r t r' ts : Inv H r -> remove f H r t = Ok (r', ts) -> forall d, In d ts <-> dependent H r t d.
Proof.
  intros I E. unfold remove in E. destruct (reverseDepends f H r t) as [ts'| | |] eqn:Er; cbn [bind] in E; try discriminate. inversion E; subst ts'.
  destruct (reverseDepends_spec t I) as (ts2 & [k Hc] & Hts). specialize (Hc (f + k) ltac:(lia)). unfold reverseDepends in *. rewrite (rdep_more Er k) in Hc. inversion Hc; subst. assumption.
Qed.
Lemma meant_effect H r r' n b : effect H r r' n b -> modifiers_meant H r ->
  (forall a m x, n = a ++ mod_text m -> b = Some x -> absolute a -> exists t, get r' a = Some t /\ means H m t x) -> modifiers_meant H r'.
Proof.
  intros (I' & M & _ & Ef) Hs Hn a m x Ha Hg. assert (Ha' : absolute (a ++ mod_text m)) by (destruct Ha as [z ->]; exists (z ++ mod_text m); reflexivity).
  destruct (Ef _ Ha') as [Eq|(Hno & y & Ey & [[Ek Eb]|(z & mk & a' & Hi & Ab & Hgz & Hne & Ek)])].
  - rewrite Eq in Hg. destruct (Hs a m x Ha Hg) as (u & Hu & K). exists u. split; [apply M; assumption|assumption].
  - rewrite Hg in Ey. inversion Ey; subst y. apply (Hn a m x); auto.
  - rewrite Hg in Ey. inversion Ey; subst y. symmetry in Ek. destruct (derived_mod Hi Ek) as [-> K]. exists z. split; [assumption|exact K].
Qed.
Lemma orderly_good s r : orderly s r -> good s r.
Proof.
  intros O. induction O as [|s r o O [W M] C|s r o f r' out O [W M] Hx Hok Hor E Ho].
  - split; [constructor|]. intros n m x _ X. discriminate.
  - split; [constructor; assumption|apply meant_agree; assumption].
  - split; [eapply world_op; eassumption|]. destruct (world_facts W) as [[I R N D] Hz].
    assert (Sub : (forall k, absolute k -> get r' k = get r k) -> modifiers_meant (s_heap s) r').
    { intros Hs a m x Ha Hg. assert (Ha' : absolute (a ++ mod_text m)) by (destruct Ha as [z ->]; exists (z ++ mod_text m); reflexivity). rewrite Hs in Hg by assumption. rewrite Hs by assumption. apply M; assumption. }
    destruct o; cbn [exec op_ok orderly_op op_exists] in *; try contradiction.
    + apply (meant_effect (add_effect I Hok E) M). intros a m x En Ex Ha. inversion Ex; subst x.
      destruct (o_kind (s_heap s t)) as [| | | |x|d x|k x|fs] eqn:Ek; try (exfalso; eapply Hor; exact En; fail).
      * assert (K : means (s_heap s) MPtr x t) by exact Ek. assert (Em := N _ _ _ (means_indirect K)). rewrite mk_name_eq in Em. rewrite En in Em. apply mod_text_inj in Em. destruct Em as [-> ->].
        exists x. split; [|exact K]. destruct (add_effect I Hok E) as (_ & Mo & _). apply Mo; [assumption|]. destruct Hor as (k & Hk & Hg). apply (get_primary I Hg).
      * assert (K : means (s_heap s) (MArr d) x t) by exact Ek. assert (Em := N _ _ _ (means_indirect K)). rewrite mk_name_eq in Em. rewrite En in Em. apply mod_text_inj in Em. destruct Em as [-> ->].
        exists x. split; [|exact K]. destruct (add_effect I Hok E) as (_ & Mo & _). apply Mo; [assumption|]. destruct Hor as (k & Hk & Hg). apply (get_primary I Hg).
    + apply (meant_effect (alias_effect I Hok E) M). intros a m x En _ _. exfalso. eapply Hor; exact En.
    + destruct (remove f (s_heap s) r t) as [[r2 ts]| | |] eqn:Er; inversion E; subst; try assumption. destruct (remove_Inv I Er) as (_ & G & _). assert (Dp := remove_dependents I Er).
      intros a m x Ha Hg. rewrite G in Hg. destruct (get r (a ++ mod_text m)) as [y|] eqn:Ey; [|discriminate]. destruct (mem y ts) eqn:Em; [discriminate|]. inversion Hg; subst y.
      destruct (M a m x Ha Ey) as (u & Hu & K). exists u. split; [|exact K]. rewrite G, Hu. destruct (mem u ts) eqn:Eu; [|reflexivity]. exfalso.
      apply mem_In in Eu. apply Dp in Eu. assert (dependent (s_heap s) r t x) as X.
      { apply dep_step with u; [eapply registered_get; eauto| |assumption]. unfold dependsOn. unfold means in K. destruct m; rewrite K; left; reflexivity. }
      apply Dp, mem_In in X. congruence.
    + inversion E; subst. intros a m x _ X. discriminate.
    + inversion E; subst. apply Sub. apply namespace_spec with (s := s0) in I. apply I.
    + inversion E; subst. apply Sub. apply importNamespace_spec with (s := s0) (b := erase_existing) in I. apply I.
Qed.
