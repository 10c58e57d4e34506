(** * StdTypesProofs *)
From Verif Require Import Base Types NamesSpec Names NamesProofs Graph GraphSpec GraphProofs Registry RegistrySpec RegistryProofs RegistryOps RegistryMain RegistryAlias
  World TypeBuilder TypeBuilderSpec TypeBuilderProofs StdTypes StdTypesSpec.
From Verif Require Import Graph.
Local Open Scope nat_scope.

(** ** What the statements do, on names and objects only *)
Fixpoint assoc (k : str) (t : list (str * nat)) : option nat :=
  match t with [] => None | (n, i) :: r => if seqb n k then Some i else assoc k r end.
Definition table := (list tobj * list (str * nat))%type.
Definition tab_do (st : std_step) (w : table) : option table :=
  let '(os, t) := w in
  match st with
  | SAdd o => if isValidTypename (o_name o) true && isAbsoluteName (o_name o) && negb (dslash (o_name o)) &&
                 match assoc (o_name o) t with None => true | _ => false end && match o_kind o with ONum _ | ONull => true | _ => false end
              then Some (os ++ [o], (o_name o, length os) :: t) else None
  | SAlias b n => if isValidTypename n true && isAbsoluteName n && negb (dslash n) && isAbsoluteName b then
                    match assoc b t with
                    | None => None
                    | Some i => match assoc n t with None => Some (os, (n, i) :: t) | Some j => if i =? j then Some w else None end
                    end
                  else None
  end.
Fixpoint tab_run (l : list std_step) (w : table) : option table :=
  match l with [] => Some w | st :: r => match tab_do st w with None => None | Some w' => tab_run r w' end end.
Definition step_name (st : std_step) : str := match st with SAdd o => o_name o | SAlias _ n => n end.

Section Run.
  Variables (s0 : store) (r0 : reg).
  Hypothesis Hold : forall t, registered r0 t -> t < s_next s0.
  Definition rel (w : bstate) (t : table) : Prop :=
    let '(s, r) := w in let '(os, tb) := t in
    world s r /\ s_next s = s_next s0 + length os /\ (forall x, x < s_next s0 -> s_heap s x = s_heap s0 x) /\
    (forall i o, nth_error os i = Some o -> s_heap s (s_next s0 + i) = o) /\
    Forall (fun o => match o_kind o with ONum _ | ONull => True | _ => False end) os /\
    Forall (fun p => snd p < length os) tb /\
    (forall k, absolute k -> get r k = match assoc k tb with Some i => Some (s_next s0 + i) | None => get r0 k end).
  Lemma assoc_lt k tb n : Forall (fun p => snd p < n) tb -> forall i, assoc k tb = Some i -> i < n.
  Proof. intros F i. induction F as [|[m j] tb Hj F IH]; cbn [assoc]; [discriminate|]. destruct (seqb m k); [intros E; inversion E; subst; exact Hj|apply IH]. Qed.
  Lemma no_dependent s r os tb i : rel (s, r) (os, tb) -> i < length os -> forall x, ~ In (s_next s0 + i) (dependsOn (s_heap s) x).
  Proof.
    intros (W & Hn & _ & Ho & Fo & _ & _) Hi x Hx. destruct (world_facts W) as [[I R N D] Hz]. assert (Hlt := D _ _ Hx).
    destruct (Nat.lt_ge_cases x (s_next s)) as [Hl|Hl]; [|unfold dependsOn in Hx; rewrite (Hz x Hl) in Hx; destruct Hx].
    destruct (nth_error os (x - s_next s0)) as [o|] eqn:Eo; [|apply nth_error_None in Eo; lia].
    assert (Eh := Ho _ _ Eo). replace (s_next s0 + (x - s_next s0)) with x in Eh by lia. unfold dependsOn in Hx. rewrite Eh in Hx.
    rewrite Forall_forall in Fo. specialize (Fo o (nth_error_In _ _ Eo)). destruct (o_kind o); try contradiction; destruct Hx.
  Qed.
  Lemma std_do_ok f w t st t' : rel w t -> get r0 (step_name st) = None -> tab_do st t = Some t' ->
    exists w', std_do (S f) w st = (w', Ok tt) /\ rel w' t'.
  Proof.
    destruct w as [s r], t as [os tb]. intros Hrel Hc. assert (Hrel' := Hrel). destruct Hrel' as (W & Hn & Hh & Ho & Fo & Ft & Hg).
    destruct (world_facts W) as [[I R N D] Hz]. destruct st as [o|b n]; cbn [tab_do step_name] in *.
    - destruct (isValidTypename (o_name o) true && _ && _ && _ && _) eqn:E; [|discriminate]. intros X; inversion X; subst t'; clear X.
      rewrite !andb_true_iff in E. destruct E as ((((Hv & Ha) & Hd) & Has) & Hk). apply negb_true_iff in Hd. destruct (assoc (o_name o) tb) eqn:Eas; [discriminate|].
      assert (Hp : plain (o_name o)) by (apply plain_iff; auto). assert (Hab := plain_absolute Hp).
      assert (Hdeps : dependsOn (s_heap (alloc s o)) (s_next s) = []) by (unfold dependsOn; cbn [alloc s_heap]; rewrite upd_same; destruct (o_kind o); try discriminate; reflexivity).
      assert (Hcon : constructed s o) by (split; [intros d|]; destruct (o_kind o); try discriminate; try exact Logic.I; intros []).
      assert (W1 := world_new W Hcon).
      destruct (add_type (S f) (s_heap (alloc s o)) r (s_next s) (isPersistent (s_heap (alloc s o)) (o_name (s_heap (alloc s o) (s_next s))) (s_next s)) []) as [r' out] eqn:Ead.
      assert (On : o_name (s_heap (alloc s o) (s_next s)) = o_name o) by (cbn [alloc s_heap]; rewrite upd_same; reflexivity).
      assert (Ead' := Ead). unfold add_type in Ead'. rewrite Hdeps, On in Ead'. cbn [existsb] in Ead'.
      assert (Gn : get r (o_name o) = None) by (rewrite (Hg _ Hab), Eas; exact Hc).
      unfold add_named in Ead'. rewrite Hv, Gn in Ead'. cbn [negb seq_] in Ead'. assert (out = Ok tt) by congruence. subst out.
      assert (Wr : world (alloc s o) r').
      { eapply (@world_op _ _ (OpAdd (s_next s) _ _)); [exact W1| | |exact Ead|discriminate]; [cbn [op_exists alloc s_next]; lia|cbn [op_ok]; rewrite On; exact Hp]. }
      exists (alloc s o, r'). split; [cbn [std_do]; unfold add; rewrite Ead; reflexivity|].
      split; [exact Wr|]. rewrite app_length. cbn [length alloc s_next s_heap]. split; [lia|]. split; [intros x Hx; rewrite upd_other by lia; apply Hh; lia|]. split; [|split; [|split]].
      + intros i o1 Hi. destruct (Nat.lt_ge_cases i (length os)) as [Hl|Hl].
        * rewrite nth_error_app1 in Hi by assumption. rewrite upd_other by lia. apply Ho. exact Hi.
        * rewrite nth_error_app2 in Hi by assumption. destruct (i - length os) as [|j] eqn:Ei; [|destruct j; discriminate]. cbn in Hi. inversion Hi; subst o1. replace (s_next s0 + i) with (s_next s) by lia. apply upd_same.
      + apply Forall_app. split; [assumption|]. constructor; [|constructor]. destruct (o_kind o); try discriminate; exact Logic.I.
      + constructor; [cbn [snd]; lia|]. eapply Forall_impl; [|exact Ft]. cbn. intros; lia.
      + destruct (world_facts W1) as [[I1 _ _ _] _].
        intros k Hka. cbn [assoc]. assert (Hp1 : plain (o_name (s_heap (alloc s o) (s_next s)))) by (rewrite On; exact Hp).
        unfold add_type in Ead. destruct (add_named (s_heap (alloc s o)) r _ _) as [r1 o1] eqn:Ean in Ead.
        rewrite Hdeps in Ead. cbn [existsb] in Ead.
        destruct (add_named_spec Hp1 Ean) as [(-> & -> & X)|[(-> & -> & X)|[(-> & -> & X)|(-> & Hb)]]]; cbn [seq_] in Ead; try discriminate.
        { exfalso. rewrite On in X. cbn [e_type] in X. congruence. }
        inversion Ead; subst r1. destruct (bound_Inv I1 Hb) as (_ & G1 & _); [left; reflexivity|]. rewrite (G1 k Hka), On. cbn [e_type].
        destruct (seqb (o_name o) k) eqn:Ek; [f_equal; lia|]. apply Hg. exact Hka.
    - destruct (isValidTypename n true && _ && _ && _) eqn:E; [|discriminate]. rewrite !andb_true_iff in E. destruct E as (((Hv & Ha) & Hd) & Hb). apply negb_true_iff in Hd.
      destruct (assoc b tb) as [i|] eqn:Eb; [|discriminate]. intros Etab.
      assert (Hp : plain n) by (apply plain_iff; auto). assert (Hab := plain_absolute Hp). apply absolute_iff in Hb.
      assert (Gb : get r b = Some (s_next s0 + i)) by (rewrite (Hg _ Hb), Eb; reflexivity).
      assert (Hi := assoc_lt Ft Eb).
      assert (Htr : forall r1, map (fun p => e_type (snd p)) (filter (fun p => negb (isAlias (s_heap s) p) && depends_on (s_heap s) (e_type (snd p)) (s_next s0 + i)) (r_global r1)) = []).
      { intros r1. replace (filter _ (r_global r1)) with (@nil (str * entry)); [reflexivity|]. symmetry. induction (r_global r1) as [|p g IHg]; [reflexivity|]. cbn [filter]. rewrite IHg.
        replace (depends_on _ _ _) with false; [rewrite andb_false_r; reflexivity|]. symmetry. unfold depends_on. destruct (existsb _ _) eqn:Ex; [|reflexivity]. exfalso.
        apply existsb_exists in Ex. destruct Ex as (y & Hy & Hyb). apply Nat.eqb_eq in Hyb. subst y. exact (@no_dependent s r os tb i Hrel Hi _ Hy). }
      destruct (alias_ (S f) (s_heap s) r b n (isPersistent (s_heap s) n (s_next s0 + i)) []) as [r' out] eqn:Eal.
      assert (Eal' := Eal). cbn [alias_] in Eal'. rewrite Hv, Gb in Eal'. cbn [negb] in Eal'.
      destruct (add_named (s_heap s) r n _) as [r1 o1] eqn:Ean in Eal'. destruct (add_named_spec Hp Ean) as [(-> & -> & X)|[(-> & -> & X)|[(-> & -> & X)|(-> & Hbd)]]].
      + congruence.
      + cbn [seq_] in Eal'. rewrite Htr in Eal'. cbn [each] in Eal'. inversion Eal'; subst r' out. exists (s, r). split; [cbn [std_do]; unfold alias; rewrite Gb, Eal; reflexivity|].
        cbn [e_type] in X. rewrite (Hg _ Hab) in X. destruct (assoc n tb) as [j|] eqn:Ej; [|congruence]. destruct (i =? j) eqn:Eij; inversion Etab; subst t'. exact Hrel.
      + exfalso. destruct X as (x & Hx & Hne). cbn [e_type] in Hne. rewrite (Hg _ Hab) in Hx. destruct (assoc n tb) as [j|] eqn:Ej; [|congruence]. inversion Hx; subst x. destruct (i =? j) eqn:Eij; [|discriminate]. apply Nat.eqb_eq in Eij. subst j. apply Hne. reflexivity.
      + assert (Hbd' := Hbd). cbn [seq_] in Eal'. rewrite Htr in Eal'. cbn [each] in Eal'. inversion Eal'; subst r' out. exists (s, r1). split; [cbn [std_do]; unfold alias; rewrite Gb, Eal; reflexivity|].
        destruct (bound_Inv I Hbd) as (_ & G1 & _); [right; exists b; exact Gb|]. cbn [e_type] in G1.
        destruct Hbd' as (_ & Gn & _). assert (En : assoc n tb = None). { rewrite (Hg _ Hab) in Gn. destruct (assoc n tb); [discriminate|reflexivity]. }
        rewrite En in Etab. inversion Etab; subst t'.
        split; [eapply (@world_op _ _ (OpAlias b n _ _)); [exact W|exact Logic.I|exact Hp|exact Eal|discriminate]|]. split; [exact Hn|]. split; [exact Hh|]. split; [exact Ho|]. split; [exact Fo|]. split; [constructor; [exact Hi|exact Ft]|].
        intros k Hk. rewrite (G1 k Hk). cbn [assoc]. destruct (seqb n k); [reflexivity|]. apply Hg. exact Hk.
  Qed.
  (** A statement whose name is taken throws and changes no name. *)
  Lemma std_do_clash f w t st t' : rel w t -> get r0 (step_name st) <> None -> assoc (step_name st) (snd t) = None -> tab_do st t = Some t' ->
    exists w', std_do (S f) w st = (w', Throw EAlreadyDefined) /\ snd w' = snd w /\ extends (fst w) (fst w') /\ world (fst w') (snd w').
  Proof.
    destruct w as [s r], t as [os tb]. intros Hrel Hc Has. assert (Hrel' := Hrel). destruct Hrel' as (W & Hn & Hh & Ho & Fo & Ft & Hg).
    destruct (world_facts W) as [[I R N D] Hz]. destruct st as [o|b n]; cbn [tab_do step_name snd fst] in *.
    - destruct (isValidTypename (o_name o) true && _ && _ && _ && _) eqn:E; [|discriminate]. intros _.
      rewrite !andb_true_iff in E. destruct E as ((((Hv & Ha) & Hd) & _) & Hk). apply negb_true_iff in Hd.
      assert (Hp : plain (o_name o)) by (apply plain_iff; auto). assert (Hab := plain_absolute Hp).
      assert (Hcon : constructed s o) by (split; [intros d|]; destruct (o_kind o); try discriminate; try exact Logic.I; intros []).
      assert (W1 := world_new W Hcon). destruct (get r0 (o_name o)) as [x|] eqn:Ex; [|contradiction].
      assert (Gn : get r (o_name o) = Some x) by (rewrite (Hg _ Hab), Has; exact Ex).
      assert (Hx : x < s_next s). { apply R. exists (o_name o). auto. }
      exists (alloc s o, r). split; [|split; [reflexivity|split; [apply extends_alloc|exact W1]]].
      cbn [std_do]. unfold add, add_type, add_named. cbn [alloc s_heap]. rewrite upd_same, Hv, Gn. cbn [negb e_type]. destruct (Nat.eqb_spec x (s_next s)); [lia|]. reflexivity.
    - destruct (isValidTypename n true && _ && _ && _) eqn:E; [|discriminate]. rewrite !andb_true_iff in E. destruct E as (((Hv & Ha) & Hd) & Hb). apply negb_true_iff in Hd.
      destruct (assoc b tb) as [i|] eqn:Eb; [|discriminate]. intros _. apply absolute_iff in Hb, Ha. destruct (get r0 n) as [x|] eqn:Ex; [|contradiction].
      assert (Gb : get r b = Some (s_next s0 + i)) by (rewrite (Hg _ Hb), Eb; reflexivity).
      assert (Gn : get r n = Some x) by (rewrite (Hg _ Ha), Has; exact Ex).
      exists (s, r). split; [|split; [reflexivity|split; [apply extends_refl|exact W]]].
      cbn [std_do]. unfold alias. rewrite Gb. cbn [alias_]. rewrite Hv, Gb. cbn [negb]. unfold add_named. rewrite Hv, Gn. cbn [negb e_type].
      destruct (Nat.eqb_spec x (s_next s0 + i)) as [->|]; [|reflexivity]. exfalso. assert (X : registered r0 (s_next s0 + i)) by (exists n; auto). apply Hold in X. lia.
  Qed.
  Lemma rel_mono w t : rel w t -> (forall st, In st (map fst (snd t)) -> get r0 st = None) -> forall k x, absolute k -> get r0 k = Some x -> get (snd w) k = Some x.
  Proof.
    destruct w as [s r], t as [os tb]. intros (_ & _ & _ & _ & _ & _ & Hg) Hc k x Hk Hx. cbn [snd] in *. rewrite (Hg k Hk). destruct (assoc k tb) as [i|] eqn:E; [|exact Hx]. exfalso.
    assert (X : In k (map fst tb)). { clear -E. induction tb as [|[n j] tb IH]; [discriminate|]. cbn [assoc] in E. destruct (seqb n k) eqn:Es; [apply seqb_eq in Es; subst; left; reflexivity|right; auto]. }
    rewrite (Hc k X) in Hx. discriminate.
  Qed.
  Lemma tab_do_names st t t' : tab_do st t = Some t' -> forall n, In n (map fst (snd t')) <-> n = step_name st \/ In n (map fst (snd t)).
  Proof.
    destruct t as [os tb]. assert (A : forall n i, assoc n tb = Some i -> In n (map fst tb)).
    { clear. intros k i E. induction tb as [|[n j] tb IH]; [discriminate|]. cbn [assoc] in E. destruct (seqb n k) eqn:Es; [apply seqb_eq in Es; subst; left; reflexivity|right; auto]. }
    destruct st as [o|b m]; cbn [tab_do step_name].
    - destruct (_ && _); [|discriminate]. intros E; inversion E; subst. cbn [snd map fst]. intros n. split; (intros [X|X]; [left; symmetry; exact X|right; exact X]).
    - destruct (_ && _); [|discriminate]. destruct (assoc b tb) as [i|]; [|discriminate]. destruct (assoc m tb) as [j|] eqn:Em.
      + destruct (i =? j); [|discriminate]. intros E; inversion E; subst. cbn [snd]. intros n. split; [auto|]. intros [->|X]; [apply (A _ _ Em)|exact X].
      + intros E; inversion E; subst. cbn [snd map fst]. intros n. split; (intros [X|X]; [left; symmetry; exact X|right; exact X]).
  Qed.
  Lemma assoc_None k tb : ~ In k (map fst tb) -> assoc k tb = None.
  Proof. induction tb as [|[n j] tb IH]; intros X; [reflexivity|]. cbn [assoc]. destruct (seqb n k) eqn:Es; [apply seqb_eq in Es; subst; exfalso; apply X; left; reflexivity|apply IH; intros Y; apply X; right; exact Y]. Qed.
  Lemma std_run_ok f l : forall w t t', rel w t -> tab_run l t = Some t' -> (forall st, In st l -> get r0 (step_name st) = None) ->
    exists w', std_run (S f) w l = (w', Ok tt) /\ rel w' t'.
  Proof.
    induction l as [|st l IH]; intros w t t' Hr Ht Hc; cbn [tab_run std_run] in *; [inversion Ht; subst; eauto|].
    destruct (tab_do st t) as [t1|] eqn:Et; [|discriminate]. destruct (@std_do_ok f w t st t1 Hr (Hc st (or_introl eq_refl)) Et) as (w1 & E1 & R1). rewrite E1.
    apply (IH w1 t1 t' R1 Ht). intros x Hx. apply Hc. right. exact Hx.
  Qed.
  Lemma extends_rel w t : rel w t -> extends s0 (fst w).
  Proof. destruct w as [s r], t as [os tb]. intros (_ & Hn & Hh & _). split; cbn [fst]; [lia|exact Hh]. Qed.
  Lemma std_run_clash f l : forall w t t', rel w t -> tab_run l t = Some t' -> (forall n, In n (map fst (snd t)) -> get r0 n = None) ->
    (exists st, In st l /\ get r0 (step_name st) <> None) ->
    exists w', std_run (S f) w l = (w', Throw EAlreadyDefined) /\ world (fst w') (snd w') /\ extends s0 (fst w') /\
      forall k x, absolute k -> get r0 k = Some x -> get (snd w') k = Some x.
  Proof.
    induction l as [|st l IH]; intros w t t' Hr Ht Hn (st0 & Hi & Hc); [destruct Hi|]. cbn [tab_run std_run] in *.
    destruct (tab_do st t) as [t1|] eqn:Et; [|discriminate]. destruct (get r0 (step_name st)) as [x|] eqn:Ex.
    - assert (Has : assoc (step_name st) (snd t) = None) by (apply assoc_None; intros X; rewrite (Hn _ X) in Ex; discriminate).
      destruct (@std_do_clash f w t st t1 Hr) as (w1 & E1 & Ew & Xw & Ww); [congruence|exact Has|exact Et|]. rewrite E1. exists w1. split; [reflexivity|]. split; [exact Ww|].
      split; [eapply extends_trans; [eapply extends_rel; eauto|exact Xw]|]. rewrite Ew. apply (rel_mono Hr Hn).
    - destruct (@std_do_ok f w t st t1 Hr Ex Et) as (w1 & E1 & R1). rewrite E1. apply (IH w1 t1 t' R1 Ht).
      + intros n Hin. apply (tab_do_names Et) in Hin. destruct Hin as [->|Hin]; auto.
      + destruct Hi as [->|Hi]; [congruence|]. eauto.
  Qed.
End Run.

(** ** The whole function *)
Definition std_table : table := match tab_run std_steps ([], []) with Some t => t | None => ([], []) end.
Lemma std_table_ok : tab_run std_steps ([], []) = Some std_table.
Proof. vm_compute. reflexivity. Qed.
Lemma rel_init s r : world s r -> rel s r (s, r) ([], []).
Proof. intros W. repeat split; auto; cbn; try constructor; try lia. intros i o X. destruct i; discriminate. Qed.
Lemma has_get r n : has r n = match get r n with Some _ => true | None => false end.
Proof. unfold has, get. destruct (find_ n (r_current r)); reflexivity. Qed.
(** Adding the string type. *)
Lemma add_string f s r c : world s r -> registered r c -> get r (s_ "/std/string") = None ->
  exists r', std_do (S f) (s, r) (SAdd (string_obj c)) = ((alloc s (string_obj c), r'), Ok tt) /\ world (alloc s (string_obj c)) r' /\
    forall k, absolute k -> get r' k = if seqb (s_ "/std/string") k then Some (s_next s) else get r k.
Proof.
  intros W Hc Gn. destruct (world_facts W) as [[I R N D] Hz]. set (o := string_obj c).
  assert (Hp : plain (o_name o)) by (apply plain_iff; split; vm_compute; reflexivity).
  assert (Hcon : constructed s o). { split; cbn [o o_kind string_obj]; [|exact Logic.I]. intros d [<-|[]]. apply R. exact Hc. }
  assert (W1 := world_new W Hcon).
  assert (On : o_name (s_heap (alloc s o) (s_next s)) = o_name o) by (cbn [alloc s_heap]; rewrite upd_same; reflexivity).
  destruct (add_type (S f) (s_heap (alloc s o)) r (s_next s) (isPersistent (s_heap (alloc s o)) (o_name (s_heap (alloc s o) (s_next s))) (s_next s)) []) as [r' out] eqn:Ead.
  destruct (world_facts W1) as [[I1 _ _ _] _].
  assert (Hp1 : plain (o_name (s_heap (alloc s o) (s_next s)))) by (rewrite On; exact Hp).
  assert (Hm : forall r1, mda (S f) (s_heap (alloc s o)) r1 (s_next s) = (r1, Ok tt)).
  { intros r1. cbn [mda]. unfold indirect_name. cbn [alloc s_heap]. rewrite upd_same. reflexivity. }
  assert (Ead' := Ead). unfold add_type in Ead'. destruct (add_named (s_heap (alloc s o)) r _ _) as [r1 o1] eqn:Ean in Ead'.
  destruct (add_named_spec Hp1 Ean) as [(-> & -> & X)|[(-> & -> & X)|[(-> & -> & X)|(-> & Hb)]]].
  - rewrite On in X. vm_compute in X. discriminate.
  - exfalso. rewrite On in X. cbn [e_type] in X. change (o_name o) with (s_ "/std/string") in X. congruence.
  - exfalso. rewrite On in X. change (o_name o) with (s_ "/std/string") in X. destruct X as (x & X & _). congruence.
  - cbn [seq_] in Ead'. rewrite Hm in Ead'. assert (r1 = r' /\ out = Ok tt) as [-> ->] by (destruct (existsb _ _); inversion Ead'; auto).
    exists r'. split; [cbn [std_do]; unfold add; rewrite Ead; reflexivity|]. split.
    + eapply (@world_op _ _ (OpAdd (s_next s) _ _)); [exact W1| | |exact Ead|discriminate]; [cbn [op_exists alloc s_next]; lia|cbn [op_ok]; exact Hp1].
    + intros k Hk. destruct (bound_Inv I1 Hb) as (_ & G1 & _); [left; reflexivity|]. rewrite (G1 k Hk), On. reflexivity.
Qed.
Definition std_names : list str := map step_name std_steps.
Lemma std_names_table n : In n std_names <-> In n (map fst (snd std_table)).
Proof.
  assert (A : forallb (fun n => existsb (seqb n) (map fst (snd std_table))) std_names = true) by (vm_compute; reflexivity).
  assert (B : forallb (fun n => existsb (seqb n) std_names) (map fst (snd std_table)) = true) by (vm_compute; reflexivity).
  rewrite forallb_forall in A, B. split; intros H; [apply A in H|apply B in H]; apply existsb_exists in H; destruct H as (x & Hx & E); apply seqb_eq in E; subst; assumption.
Qed.
Lemma assoc_Some k tb : In k (map fst tb) -> exists i, assoc k tb = Some i.
Proof. induction tb as [|[n j] tb IH]; intros X; [destruct X|]. cbn [assoc]. destruct (seqb n k) eqn:Es; [eauto|]. destruct X as [X|X]; [cbn in X; subst; rewrite seqb_refl in Es; discriminate|auto]. Qed.
Theorem std_fresh f s r : world s r -> (forall n, In n std_names -> get r n = None) -> get r (s_ "/std/string") = None ->
  exists s' r', addStandardTypes (S f) (s, r) = ((s', r'), Ok tt) /\ world s' r' /\ extends s s' /\
    (forall i o, nth_error (fst std_table) i = Some o -> s_heap s' (s_next s + i) = o) /\
    s_heap s' (s_next s + length (fst std_table)) = string_obj (s_next s + 1) /\
    forall k, absolute k -> get r' k = match assoc k (snd std_table) with Some i => Some (s_next s + i) | None =>
                                if seqb (s_ "/std/string") k then Some (s_next s + length (fst std_table)) else get r k end.
Proof.
  intros W Hc Hs. destruct (world_facts W) as [[I R N D] Hz].
  destruct (@std_run_ok s r R f std_steps (s, r) ([], []) std_table (rel_init W) std_table_ok) as ([s1 r1] & E1 & R1).
  { intros st Hi. apply Hc. apply in_map. exact Hi. }
  assert (Hr1 := R1). unfold rel in Hr1. destruct std_table as [os tb] eqn:Etab. destruct Hr1 as (W1 & Hn & Hh & Ho & Fo & Ft & Hg).
  assert (Ai : assoc (s_ "/int8_t") tb = Some 1) by (replace tb with (snd std_table) by (rewrite Etab; reflexivity); vm_compute; reflexivity).
  assert (As : assoc (s_ "/std/string") tb = None) by (replace tb with (snd std_table) by (rewrite Etab; reflexivity); vm_compute; reflexivity).
  assert (Gb : get r (s_ "/bool") = None). { apply Hc. unfold std_names. vm_compute. tauto. }
  assert (Gi : get r1 (s_ "/int8_t") = Some (s_next s + 1)). { rewrite Hg by (eexists; reflexivity). rewrite Ai. reflexivity. }
  assert (Gs : get r1 (s_ "/std/string") = None). { rewrite Hg by (eexists; reflexivity). rewrite As. exact Hs. }
  destruct (@add_string f s1 r1 (s_next s + 1) W1) as (r' & E2 & W2 & G2); [exists (s_ "/int8_t"); split; [eexists; reflexivity|exact Gi]|exact Gs|].
  exists (alloc s1 (string_obj (s_next s + 1))), r'. split.
  { unfold addStandardTypes. cbn [snd]. rewrite (has_get r (s_ "/bool")), Gb, E1. cbn [snd]. rewrite (has_get r1 (s_ "/std/string")), Gs, Gi. exact E2. }
  split; [exact W2|]. split; [eapply extends_trans; [exact (extends_rel R1)|apply extends_alloc]|].
  assert (Lo : length os = length (fst std_table)) by (rewrite Etab; reflexivity). cbn [fst snd].
  split.
  - intros i o Hi. assert (i < length os) by (apply nth_error_Some; congruence). cbn [alloc s_heap]. rewrite upd_other by lia. apply Ho. exact Hi.
  - split; [cbn [alloc s_heap]; rewrite <- Hn; apply upd_same|]. intros k Hk. rewrite (G2 k Hk), Hn. destruct (seqb (s_ "/std/string") k) eqn:Es.
    + apply seqb_eq in Es. subst k. rewrite As. reflexivity.
    + apply Hg. exact Hk.
Qed.
Theorem std_taken f s r n : world s r -> get r (s_ "/bool") = None -> In n std_names -> get r n <> None ->
  exists w', addStandardTypes (S f) (s, r) = (w', Throw EAlreadyDefined) /\ world (fst w') (snd w') /\ extends s (fst w') /\
    forall k x, absolute k -> get r k = Some x -> get (snd w') k = Some x.
Proof.
  intros W Hb Hi Hn. destruct (world_facts W) as [[I R N D] Hz]. apply in_map_iff in Hi. destruct Hi as (st & <- & Hi).
  destruct (@std_run_clash s r R f std_steps (s, r) ([], []) std_table (rel_init W) std_table_ok) as (w' & E & Ww & Xw & M); [intros ? []|eauto|].
  exists w'. split; [unfold addStandardTypes; cbn [snd]; rewrite (has_get r (s_ "/bool")), Hb, E; reflexivity|]. auto.
Qed.

(** ** Reading the spelling back *)
Definition kws : list kw := [Signed; Unsigned; Short; Long; Int; Char].
Fixpoint strip (p s : str) : option str :=
  match p, s with [], _ => Some s | c :: p', d :: s' => if ceqb c d then strip p' s' else None | _, [] => None end.
Fixpoint unspell (f : nat) (s : str) : option (list kw) :=
  match f with
  | 0 => None
  | S f' =>
      match s with
      | [] => Some []
      | _ => (fix go ks := match ks with
                | [] => None
                | k :: ks' => match strip (kw_text k) s with
                              | Some [] => Some [k]
                              | Some (c :: r) => if ceqb c " " then option_map (cons k) (unspell f' r) else go ks'
                              | None => go ks'
                              end
                end) kws
      end
  end.
Lemma unspell_spell l : forall f, length l < f -> unspell f (spell l) = Some l.
Proof.
  induction l as [|k l IH]; intros f Hf; [destruct f; [lia|reflexivity]|]. destruct f as [|f]; [lia|]. cbn [length] in Hf.
  assert (G : forall r, r = [] \/ (exists q, r = " "%char :: q) -> match r with [] => l = [] | c :: q => unspell f q = Some l end -> unspell (S f) (kw_text k ++ r) = Some (k :: l)).
  { intros r Hr. destruct k; (destruct Hr as [->|[q ->]]; [intros ->; vm_compute; reflexivity|intros E; cbn -[unspell]; change (unspell (S f)) with (unspell (S f)); cbn; rewrite E; reflexivity]). }
  destruct l as [|k2 l].
  - cbn [spell]. rewrite <- (app_nil_r (kw_text k)). apply G; auto.
  - change (spell (k :: k2 :: l)) with (kw_text k ++ " "%char :: spell (k2 :: l)). apply G; [eauto|]. apply IH. lia.
Qed.
