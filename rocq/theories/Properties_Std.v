(** * Properties_Std: the standard types (C67, C68).

    Notions used: [world], [extends] (World.v, TypeBuilderSpec.v), [absolute] (RegistrySpec.v), [spell], [c_type], [canonical]
    (StdTypesSpec.v). [std_names]: the names addStandardTypes gives, /std/string excepted. *)
From Verif Require Import Base Types NamesSpec Names NamesProofs Graph GraphSpec GraphProofs Registry RegistrySpec RegistryProofs RegistryOps RegistryMain RegistryAlias
  World TypeBuilder TypeBuilderSpec TypeBuilderProofs StdTypes StdTypesSpec StdTypesProofs.
From Verif Require Import Graph.
Local Open Scope nat_scope.

(** ** C67 *)
Definition vacant (r : reg) : Prop := get r (s_ "/std/string") = None /\ forall n, In n std_names -> get r n = None.
Definition number (s : store) (t : tid) (size : N) (c : ncat) : Prop := o_size (s_heap s t) = size /\ o_kind (s_heap s t) = ONum c.
(** The call succeeds on every registry that uses none of the names, and all that was there stays. *)
Theorem C67_succeeds f s r : world s r -> vacant r -> exists s' r', addStandardTypes (S f) (s, r) = ((s', r'), Ok tt) /\ world s' r' /\ extends s s' /\
  forall k, absolute k -> ~ In k std_names -> k <> s_ "/std/string" -> get r' k = get r k.
Proof.
  intros W [Hs Hc]. destruct (@std_fresh f s r W Hc Hs) as (s' & r' & E & W' & X & _ & _ & G). exists s', r'. split; [exact E|]. split; [exact W'|]. split; [exact X|].
  intros k Hk Hn Hne. rewrite (G k Hk). rewrite assoc_None by (intros Y; apply Hn, std_names_table, Y). destruct (seqb (s_ "/std/string") k) eqn:Es; [apply seqb_eq in Es; congruence|reflexivity].
Qed.
(** What each name then denotes. A decidable check on the table, used below. *)
Definition object_of (n : str) : option tobj := match assoc n (snd std_table) with Some i => nth_error (fst std_table) i | None => None end.
Lemma std_object f s r s' r' n : world s r -> vacant r -> addStandardTypes (S f) (s, r) = ((s', r'), Ok tt) -> In n std_names ->
  exists t o, get r' n = Some t /\ object_of n = Some o /\ s_heap s' t = o.
Proof.
  intros W [Hs Hc] E Hn. destruct (@std_fresh f s r W Hc Hs) as (s2 & r2 & E2 & W' & X & Ho & _ & G). rewrite E in E2. inversion E2; subst s2 r2.
  assert (Hn' := proj1 (std_names_table n) Hn). destruct (assoc_Some Hn') as [i Hi].
  assert (Ha : absolute n). { apply absolute_iff. assert (A : forallb isAbsoluteName std_names = true) by (vm_compute; reflexivity). rewrite forallb_forall in A. apply A. exact Hn. }
  assert (Hl : i < length (fst std_table)).
  { assert (A : forallb (fun p => snd p <? length (fst std_table)) (snd std_table) = true) by (vm_compute; reflexivity). rewrite forallb_forall in A.
    apply (@assoc_lt n (snd std_table)); [|exact Hi]. apply Forall_forall. intros p Hp. apply Nat.ltb_lt. apply A. exact Hp. }
  destruct (nth_error (fst std_table) i) as [o|] eqn:Eo; [|apply nth_error_None in Eo; lia].
  exists (s_next s + i), o. split; [rewrite (G n Ha), Hi; reflexivity|]. split; [unfold object_of; rewrite Hi; exact Eo|apply Ho; exact Eo].
Qed.
Lemma spell_length l : length l <= length (spell l).
Proof. induction l as [|k [|k2 l] IH]; [reflexivity|destruct k; cbn; lia|]. change (spell (k :: k2 :: l)) with (kw_text k ++ " "%char :: spell (k2 :: l)). rewrite app_length. cbn [length] in *. lia. Qed.
(** A name made of the words of integer types, if the registry did not have it before, is the type of the C standard. *)
Theorem C67_c_types f s r s' r' l t : world s r -> vacant r -> addStandardTypes (S f) (s, r) = ((s', r'), Ok tt) ->
  get r (sep :: spell l) = None -> get r' (sep :: spell l) = Some t -> exists size c, c_type l = Some (size, c) /\ number s' t size c.
Proof.
  intros W V E Hn Ht. assert (Ha : absolute (sep :: spell l)) by (eexists; reflexivity).
  assert (Hin : In (sep :: spell l) std_names).
  { destruct V as [Hs Hc]. destruct (@std_fresh f s r W Hc Hs) as (s2 & r2 & E2 & _ & _ & _ & _ & G). rewrite E in E2. inversion E2; subst s2 r2. rewrite (G _ Ha) in Ht.
    destruct (in_dec (list_eq_dec ascii_dec) (sep :: spell l) (map fst (snd std_table))) as [Y|Y]; [apply std_names_table; exact Y|]. exfalso. rewrite (assoc_None Y) in Ht.
    destruct (seqb (s_ "/std/string") (sep :: spell l)) eqn:Es; [|congruence]. apply seqb_eq in Es. assert (U := @unspell_spell l (S (length l)) (Nat.lt_succ_diag_r _)).
    inversion Es as [Es']. rewrite <- Es' in U. vm_compute in U. discriminate. }
  destruct (@std_object f s r s' r' _ W V E Hin) as (t2 & o & G & Ob & Eo). rewrite Ht in G. inversion G; subst t2.
  assert (A : forallb (fun n => (length n <? 40) && match unspell 40 (tl n) with
       | Some l => match c_type l, object_of n with Some (sz, c), Some o => (o_size o =? sz)%N && match o_kind o, c with ONum SInt, SInt | ONum UInt, UInt => true | _, _ => false end | _, _ => false end
       | None => true end) std_names = true) by (vm_compute; reflexivity).
  rewrite forallb_forall in A. specialize (A _ Hin). cbn [tl] in A. rewrite Ob in A. apply andb_true_iff in A. destruct A as [A1 A2]. apply Nat.ltb_lt in A1. cbn [length] in A1.
  assert (L := spell_length l). rewrite (@unspell_spell l 40) in A2 by lia. destruct (c_type l) as [[sz c]|]; [|discriminate]. exists sz, c. split; [reflexivity|].
  apply andb_true_iff in A2. destruct A2 as [A2 A3]. apply N.eqb_eq in A2. unfold number. rewrite Eo. split; [exact A2|]. clear - A3. destruct (o_kind o); try discriminate A3; repeat match goal with x : ncat |- _ => destruct x end; try discriminate A3; reflexivity.
Qed.
(** All the usual spellings are there. *)
Theorem C67_spellings f s r s' r' l : world s r -> vacant r -> addStandardTypes (S f) (s, r) = ((s', r'), Ok tt) -> canonical l ->
  exists t, get r' (sep :: spell l) = Some t.
Proof.
  intros W V E (sg & len & int & Hne & Hsg & Hlen & Hint & Hci & Hl).
  assert (In (sep :: spell l) std_names).
  { assert (M : existsb (seqb (sep :: spell l)) std_names = true -> In (sep :: spell l) std_names) by (intros X; apply existsb_exists in X; destruct X as (x & Hx & Ex); apply seqb_eq in Ex; subst; exact Hx).
    apply M. destruct Hl as [->|[Hnc ->]]; simpl in Hsg, Hlen, Hint; repeat (destruct Hsg as [<-|Hsg] || destruct Hsg); repeat (destruct Hlen as [<-|Hlen] || destruct Hlen); repeat (destruct Hint as [<-|Hint] || destruct Hint);
      try contradiction; try (specialize (Hci eq_refl); discriminate); vm_compute; reflexivity. }
  destruct (@std_object f s r s' r' _ W V E H) as (t & _ & G & _). eauto.
Qed.
(** The other names. *)
Theorem C67_other_names f s r s' r' : world s r -> vacant r -> addStandardTypes (S f) (s, r) = ((s', r'), Ok tt) ->
  (forall n size c, In (n, size, c) [("/int8_t", 1, SInt); ("/uint8_t", 1, UInt); ("/int16_t", 2, SInt); ("/uint16_t", 2, UInt); ("/int32_t", 4, SInt); ("/uint32_t", 4, UInt);
       ("/int64_t", 8, SInt); ("/uint64_t", 8, UInt); ("/wchar_t", 4, SInt); ("/float", 4, Float); ("/double", 8, Float); ("/bool", 1, UInt)]%string%N ->
     exists t, get r' (s_ n) = Some t /\ number s' t size c) /\
  (exists t, get r' (s_ "/nil") = Some t /\ get r' (s_ "/void") = Some t /\ o_kind (s_heap s' t) = ONull) /\
  (exists t c, get r' (s_ "/std/string") = Some t /\ get r' (s_ "/char") = Some c /\ o_kind (s_heap s' t) = OCont KStr c /\ o_size (s_heap s' t) = 32%N).
Proof.
  intros W V E. assert (Hin : forall n, existsb (seqb (s_ n)) std_names = true -> In (s_ n) std_names).
  { intros n X. apply existsb_exists in X. destruct X as (x & Hx & Ex). apply seqb_eq in Ex. subst. exact Hx. }
  assert (O := fun n => @std_object f s r s' r' n W V E). split; [|split].
  - intros n size c Hi. simpl in Hi. repeat (destruct Hi as [Hi|Hi]; [inversion Hi; subst n size c; match goal with |- exists t, get _ (s_ ?n) = _ /\ _ => destruct (O (s_ n) (Hin n eq_refl)) as (t & o & G & Ob & Eo) end; vm_compute in Ob; subst o; injection Ob as Ob; exists t; split; [exact G|]; unfold number; rewrite <- Ob; split; reflexivity|]). destruct Hi.
  - destruct V as [Hs Hc]. destruct (@std_fresh f s r W Hc Hs) as (s2 & r2 & E2 & _ & _ & Ho & _ & G). rewrite E in E2. inversion E2; subst s2 r2.
    exists (s_next s + 0). split; [rewrite G by (eexists; reflexivity); vm_compute (assoc _ _); reflexivity|]. split; [rewrite G by (eexists; reflexivity); vm_compute (assoc _ _); reflexivity|].
    rewrite (Ho 0 (Obj (s_ "/nil") 0 ONull)); reflexivity.
  - destruct V as [Hs Hc]. destruct (@std_fresh f s r W Hc Hs) as (s2 & r2 & E2 & _ & _ & _ & Hst & G). rewrite E in E2. inversion E2; subst s2 r2.
    exists (s_next s + length (fst std_table)), (s_next s + 1). split; [rewrite G by (eexists; reflexivity); vm_compute (assoc _ _); reflexivity|].
    split; [rewrite G by (eexists; reflexivity); vm_compute (assoc _ _); reflexivity|]. rewrite Hst. split; reflexivity.
Qed.
(** A second call changes nothing, whatever was done to the registry in between that kept /bool and /std/string. *)
Theorem C67_again f s r s' r' : world s r -> vacant r -> addStandardTypes (S f) (s, r) = ((s', r'), Ok tt) ->
  forall g s2 r2, get r2 (s_ "/bool") = get r' (s_ "/bool") -> get r2 (s_ "/std/string") = get r' (s_ "/std/string") ->
  addStandardTypes g (s2, r2) = ((s2, r2), Ok tt).
Proof.
  intros W V E g s2 r2 Hb Hst. destruct (@C67_other_names f s r s' r' W V E) as (A & _ & t & c & B & _).
  destruct (A "/bool"%string 1%N UInt) as (tb & C & _); [simpl; tauto|].
  unfold addStandardTypes. cbn [snd]. rewrite (has_get r2 (s_ "/bool")), Hb, C. cbn [snd]. rewrite (has_get r2 (s_ "/std/string")), Hst, B. reflexivity.
Qed.
(** Not all orders of the words are there: int long is a type of C, but not a name of the registry. *)
Theorem C67_missing_order f s r s' r' : world s r -> vacant r -> addStandardTypes (S f) (s, r) = ((s', r'), Ok tt) ->
  c_type [Int; Long] = Some (8%N, SInt) /\ get r' (sep :: spell [Int; Long]) = get r (sep :: spell [Int; Long]).
Proof.
  intros W V E. split; [reflexivity|]. destruct (@C67_succeeds f s r W V) as (s2 & r2 & E2 & _ & _ & G). rewrite E in E2. inversion E2; subst s2 r2. apply G; [eexists; reflexivity| |discriminate].
  intros X. assert (Y : existsb (seqb (sep :: spell [Int; Long])) std_names = false) by (vm_compute; reflexivity).
  assert (Z : existsb (seqb (sep :: spell [Int; Long])) std_names = true) by (apply existsb_exists; exists (sep :: spell [Int; Long]); split; [exact X|apply seqb_refl]). congruence.
Qed.

(** ** C68: names that are taken *)
(** If another type has one of the names (and /bool is free), the call throws; what was there stays. *)
Theorem C68_taken f s r n : world s r -> get r (s_ "/bool") = None -> In n std_names -> get r n <> None ->
  exists s' r', addStandardTypes (S f) (s, r) = ((s', r'), Throw EAlreadyDefined) /\ world s' r' /\ extends s s' /\
    forall k x, absolute k -> get r k = Some x -> get r' k = Some x.
Proof. intros W Hb Hi Hn. destruct (@std_taken f s r n W Hb Hi Hn) as ([s' r'] & H). exists s', r'. exact H. Qed.
(** ... but some of the standard types have been added by then, and further calls throw on what the first one added. *)
Definition my_double : tobj := Obj (s_ "/double") 16 (ONum Float).
Definition s_double : store := alloc (Store (fun _ => null_obj) 0) my_double.
Definition r_double : reg := fst (add 5 (s_heap s_double) reg0 0 []).
Lemma w_double : world s_double r_double.
Proof.
  eapply (@world_op _ _ (OpAdd 0 true []) 5 _ (Ok tt)); [eapply world_new; [apply world_init|split; [intros d []|exact Logic.I]]|cbn; lia|apply plain_iff; split; vm_compute; reflexivity|vm_compute; reflexivity|discriminate].
Qed.
Theorem C68_partial_registry_refuted : world s_double r_double /\ get r_double (s_ "/int") = None /\
  exists s1 r1, addStandardTypes 5 (s_double, r_double) = ((s1, r1), Throw EAlreadyDefined) /\ get r1 (s_ "/int") <> None /\
    get r1 (s_ "/bool") = None /\ exists w2, addStandardTypes 5 (s1, r1) = (w2, Throw EAlreadyDefined).
Proof.
  split; [exact w_double|]. split; [vm_compute; reflexivity|].
  destruct (addStandardTypes 5 (s_double, r_double)) as [[s1 r1] o] eqn:E.
  assert (Eo : snd (addStandardTypes 5 (s_double, r_double)) = Throw EAlreadyDefined) by (vm_compute; reflexivity). rewrite E in Eo. cbn [snd] in Eo. subst o.
  exists s1, r1. split; [reflexivity|].
  assert (Er : r1 = snd (fst (addStandardTypes 5 (s_double, r_double)))) by (rewrite E; reflexivity).
  assert (Gb : get r1 (s_ "/bool") = None) by (rewrite Er; vm_compute; reflexivity).
  assert (Gi : get r1 (s_ "/nil") = Some 1) by (rewrite Er; vm_compute; reflexivity).
  split; [rewrite Er; vm_compute; discriminate|]. split; [exact Gb|].
  assert (Es : exists w2, addStandardTypes 5 (s1, r1) = (w2, Throw EAlreadyDefined)).
  { destruct (@C68_taken 4 s_double r_double (s_ "/double") w_double) as (sa & ra & Ea & Wa & _); [vm_compute; reflexivity| |vm_compute; discriminate|].
    { assert (X : existsb (seqb (s_ "/double")) std_names = true) by (vm_compute; reflexivity). apply existsb_exists in X. destruct X as (x & Hx & Ex). apply seqb_eq in Ex. subst x. exact Hx. }
    rewrite E in Ea. inversion Ea; subst sa ra. destruct (@C68_taken 4 s1 r1 (s_ "/nil") Wa Gb) as (s2 & r2 & E2 & _); [left; reflexivity|congruence|]. eauto. }
  exact Es.
Qed.
(** A type of one's own named /bool: nothing is added, and the type of the characters of /std/string is read through a null pointer. *)
Definition my_bool : tobj := Obj (s_ "/bool") 1 (ONum UInt).
Definition s_bool : store := alloc (Store (fun _ => null_obj) 0) my_bool.
Definition r_bool : reg := fst (add 5 (s_heap s_bool) reg0 0 []).
Theorem C68_bool_refuted : world s_bool r_bool /\ addStandardTypes 5 (s_bool, r_bool) = ((s_bool, r_bool), UB UOther).
Proof.
  split; [|vm_compute; reflexivity].
  eapply (@world_op _ _ (OpAdd 0 true []) 5 _ (Ok tt)); [eapply world_new; [apply world_init|split; [intros d []|exact Logic.I]]|cbn; lia|apply plain_iff; split; vm_compute; reflexivity|vm_compute; reflexivity|discriminate].
Qed.

(** The hypotheses are met: a registry with a compound of one's own. *)
Definition s_own : store := alloc (Store (fun _ => null_obj) 0) (Obj (s_ "/own/Type") 8 (OComp [])).
Definition r_own : reg := fst (add 5 (s_heap s_own) reg0 0 []).
Example C67_case : world s_own r_own /\ vacant r_own /\ get r_own (s_ "/own/Type") = Some 0.
Proof.
  split; [|split; [split; [vm_compute; reflexivity|]|vm_compute; reflexivity]].
  - eapply (@world_op _ _ (OpAdd 0 true []) 5 _ (Ok tt)); [eapply world_new; [apply world_init|split; [intros d []|exact Logic.I]]|cbn; lia|apply plain_iff; split; vm_compute; reflexivity|vm_compute; reflexivity|discriminate].
  - assert (A : forallb (fun n => match get r_own n with None => true | _ => false end) std_names = true) by (vm_compute; reflexivity). rewrite forallb_forall in A. intros n Hn. specialize (A n Hn). destruct (get r_own n); [discriminate|reflexivity].
Qed.

Print Assumptions C67_succeeds.
Print Assumptions C67_c_types.
Print Assumptions C67_spellings.
Print Assumptions C67_other_names.
Print Assumptions C67_again.
Print Assumptions C67_missing_order.
Print Assumptions C68_taken.
Print Assumptions C68_partial_registry_refuted.
Print Assumptions C68_bool_refuted.
