(** * RegistryNames: relative names. *)
From Coq Require Import Sorted.
From Verif Require Import Base Types NamesSpec Names NamesProofs NamesPath Graph GraphProofs Registry RegistrySpec RegistryProofs RegistryOps RegistryMain.
Local Open Scope nat_scope.

(** ** Import, exactly *)
Fixpoint takewhile (f : str * entry -> bool) (m : nmap) : nmap :=
  match m with p :: r => if f p then p :: takewhile f r else [] | [] => [] end.
Lemma glower_filter p g : gsorted g -> takewhile (fun x => has_prefix p (fst x)) (glower p g) = filter (fun x => has_prefix p (fst x)) g.
Proof.
  unfold gsorted, sorted. induction g as [|[k e] g IH]; simpl; intros Hs; [reflexivity|]. inversion Hs as [|? ? Hs' Hf]; subst. destruct (nameSort k p) eqn:Ek.
  - destruct (has_prefix p k) eqn:Ep; [apply prefix_ge in Ep; congruence|]. auto.
  - assert (K : forall m, StronglySorted (fun a b => nameSort a b = true) (map fst m) -> (forall x, In x (map fst m) -> nameSort x p = false) ->
      takewhile (fun x => has_prefix p (fst x)) m = filter (fun x => has_prefix p (fst x)) m).
    { clear. induction m as [|[k e] m IH]; simpl; intros Hs Hn; [reflexivity|]. inversion Hs as [|? ? Hs' Hf]; subst. destruct (has_prefix p k) eqn:Ek; [f_equal; auto|].
      symmetry. apply filter_none. intros [x y] Hx. simpl. destruct (has_prefix p x) eqn:Ex; [|reflexivity]. rewrite Forall_forall in Hf. assert (Hkx := Hf x (in_map fst _ _ Hx)).
      assert (X := prefix_first Hkx Ex Ek). rewrite Hn in X by auto. discriminate. }
    apply (K ((k, e) :: g)); [assumption|]. simpl. intros x [<- |Hx]; [assumption|]. rewrite Forall_forall in Hf. specialize (Hf _ Hx).
    destruct (nameSort x p) eqn:Ex; [|reflexivity]. rewrite (nameSort_trans Hf Ex) in Ek. discriminate.
Qed.
Lemma import_loop_takewhile s erase it : forall cur, import_loop (getNormalizedNamespace s) erase it cur =
  fold_left (fun c p => let rel := skipn (length (getNormalizedNamespace s)) (fst p) in insert_ rel (snd p) (if erase then erase_ rel c else c))
    (takewhile (fun x => has_prefix (getNormalizedNamespace s) (fst x)) it) cur.
Proof.
  induction it as [|[k e] it IH]; intros cur; [reflexivity|]. cbn [import_loop takewhile fst]. rewrite inNamespace_norm. destruct (has_prefix _ k); [|reflexivity]. rewrite IH. reflexivity.
Qed.
Lemma fold_import p (erase : bool) : forall l cur n, NoDup (map fst l) -> (forall k e, In (k, e) l -> has_prefix p k = true) ->
  find_ n (fold_left (fun c q => let rel := skipn (length p) (fst q) in insert_ rel (snd q) (if erase then erase_ rel c else c)) l cur) =
  (if erase then match find_ (p ++ n) l with Some e => Some e | None => find_ n cur end
   else match find_ n cur with Some e => Some e | None => find_ (p ++ n) l end).
Proof.
  induction l as [|[k e] l IH]; intros cur n Hn Hp; [simpl; destruct erase; [reflexivity|destruct (find_ n cur); reflexivity]|].
  cbn [fold_left fst snd]. cbv zeta. inversion Hn as [|? ? Hk Hn']; subst. rewrite IH; [|assumption|intros k' e' Hi; apply (Hp k' e'); right; assumption].
  assert (Ek : has_prefix p k = true) by (apply (Hp k e); left; reflexivity). apply has_prefix_skip in Ek. cbn [find_].
  assert (Es : seqb (skipn (length p) k) n = seqb k (p ++ n)).
  { destruct (seqb k (p ++ n)) eqn:E.
    - apply seqb_eq in E. apply seqb_eq. rewrite E. rewrite skipn_app, skipn_all, Nat.sub_diag. reflexivity.
    - apply seqb_neq in E. apply seqb_neq. intros X. apply E. rewrite Ek, X. reflexivity. }
  rewrite find_insert, Es. destruct erase.
  - rewrite !find_erase, seqb_refl, Es. destruct (seqb k (p ++ n)) eqn:E; [|destruct (find_ (p ++ n) l); reflexivity].
    apply seqb_eq in E. subst k. rewrite (proj2 (find_None _ _) Hk). reflexivity.
  - destruct (seqb k (p ++ n)) eqn:E; [|reflexivity]. apply seqb_eq in Es. rewrite Es. destruct (find_ n cur); reflexivity.
Qed.
Lemma import_find s (erase : bool) g cur n : gsorted g ->
  find_ n (import_ s erase g cur) =
  (if erase then match find_ (getNormalizedNamespace s ++ n) g with Some e => Some e | None => find_ n cur end
   else match find_ n cur with Some e => Some e | None => find_ (getNormalizedNamespace s ++ n) g end).
Proof.
  intros Hs. unfold import_. rewrite import_loop_takewhile, glower_filter by assumption. set (p := getNormalizedNamespace s).
  assert (Hf : find_ (p ++ n) (filter (fun x => has_prefix p (fst x)) g) = find_ (p ++ n) g).
  { rewrite find_filter by (apply gsorted_NoDup; assumption). cbn [fst]. rewrite has_prefix_app_. destruct (find_ (p ++ n) g); reflexivity. }
  rewrite fold_import; [rewrite Hf; reflexivity| |].
  - apply NoDup_filter_. apply gsorted_NoDup. assumption.
  - intros k e Hi. apply filter_In in Hi. tauto.
Qed.

(** ** Enclosing namespaces *)
Fixpoint innermost_e (g : nmap) (n : str) (spaces : list str) : option entry :=
  match spaces with
  | [] => None
  | s :: r => match innermost_e g n r with Some t => Some t | None => find_ (s ++ n) g end
  end.
Lemma norm_snoc p : getNormalizedNamespace (p ++ [sep]) = p ++ [sep].
Proof. unfold getNormalizedNamespace. destruct (p ++ [sep]) eqn:Ep; [destruct p; discriminate|]. rewrite <- Ep, last_is_slash_snoc. reflexivity. Qed.
Lemma enclosing_ends toks : forall s q, s = q ++ [sep] -> Forall (fun x => exists q, x = q ++ [sep]) (enclosing_ s toks).
Proof. induction toks as [|t toks IH]; intros s q ->; simpl; constructor; eauto. eapply (IH _ (q ++ [sep] ++ t)). rewrite <- !app_assoc. reflexivity. Qed.
Lemma enclosing_abs toks : forall s, absolute s -> Forall absolute (enclosing_ s toks).
Proof. induction toks as [|t toks IH]; intros s [r ->]; simpl; constructor; try (exists r; reflexivity); auto. apply IH. exists (r ++ t ++ [sep]). reflexivity. Qed.
Lemma import_spaces_find toks g n : gsorted g -> forall s cur,
  find_ n (import_spaces s toks g cur) = match innermost_e g n (tl (enclosing_ s toks)) with Some e => Some e | None => find_ n cur end.
Proof.
  intros Hs. induction toks as [|t toks IH]; intros s cur; [reflexivity|]. cbn [import_spaces enclosing_ tl]. cbv zeta. rewrite IH. clear IH. rewrite import_find by assumption.
  change (t ++ [slash]) with (t ++ [sep]). rewrite app_assoc. rewrite norm_snoc. destruct toks as [|u toks]; cbn [enclosing_ tl innermost_e]; [reflexivity|].
  generalize (innermost_e g n (enclosing_ (((s ++ t) ++ [sep]) ++ u ++ [sep]) toks)). intros [e|]; reflexivity.
Qed.
Lemma innermost_agree g (look : str -> option tid) n spaces : Forall absolute spaces -> (forall k, absolute k -> look k = option_map e_type (find_ k g)) ->
  option_map e_type (innermost_e g n spaces) = innermost look n spaces.
Proof.
  intros Hs Hl. induction spaces as [|s r IH]; [reflexivity|]. inversion Hs as [|? ? Ha Hs']; subst. cbn [innermost_e innermost]. rewrite <- (IH Hs').
  destruct (innermost_e g n r); [reflexivity|]. simpl. symmetry. apply Hl. destruct Ha as [q ->]. exists (q ++ n). reflexivity.
Qed.
(** After updateCurrentNameMap, a relative name designates the type of the innermost enclosing namespace. *)
Lemma update_names H g c ns n : gsorted g -> Forall (fun p => plain (fst p)) g ->
  (forall m e, In (m, e) g -> exists e', In (o_name (H (e_type e)), e') g /\ e_type e' = e_type e) -> isAbsoluteName n = false ->
  get (updateCurrentNameMap (Reg g c ns)) n = innermost (get (updateCurrentNameMap (Reg g c ns))) n (enclosing (tokens ns)).
Proof.
  intros Hs Hp Hpr Hn. destruct (@update_Inv H g c ns Hs Hp Hpr) as [_ G].
  assert (Hgn : find_ n g = None).
  { destruct (find_ n g) as [e|] eqn:E; [|reflexivity]. apply find_In in E. rewrite Forall_forall in Hp. apply Hp in E. cbn [fst] in E. apply plain_absolute, absolute_iff in E. congruence. }
  rewrite <- (@innermost_agree g); [|apply enclosing_abs; exists []; reflexivity|exact G].
  unfold get, updateCurrentNameMap. cbn [r_current r_global r_ns]. rewrite import_spaces_find by assumption. rewrite import_find by assumption. rewrite fold_insert_find. cbn [find_]. rewrite Hgn.
  unfold enclosing. change (getNormalizedNamespace [slash]) with [sep]. change [slash] with [sep].
  destruct (tokens ns) as [|t toks]; cbn [enclosing_ tl innermost_e]; [reflexivity|].
  generalize (innermost_e g n (enclosing_ ([sep] ++ t ++ [sep]) toks)). intros [e|]; reflexivity.
Qed.
Lemma innermost_In look n spaces t : innermost look n spaces = Some t -> exists s, In s spaces /\ look (s ++ n) = Some t.
Proof.
  induction spaces as [|s r IH]; [discriminate|]. cbn [innermost]. destruct (innermost look n r); [intros E; destruct (IH E) as (q & A & B); exists q; split; [right|]; assumption|].
  intros E. exists s. split; [left; reflexivity|assumption].
Qed.
Lemma innermost_None look n spaces : innermost look n spaces = None <-> forall s, In s spaces -> look (s ++ n) = None.
Proof.
  induction spaces as [|s r IH]; [simpl; intuition|]. cbn [innermost]. destruct (innermost look n r) eqn:E.
  - split; [discriminate|]. intros X. exfalso. assert (Y : innermost look n r = None) by (rewrite E; apply IH; intros; apply X; right; assumption). congruence.
  - split; [|intros X; apply X; left; reflexivity]. intros Hl q [<- |Hq]; [assumption|]. apply IH; auto.
Qed.

(** ** Adding a name *)
Lemma enclosing_prefix toks : forall s x, In x (enclosing_ s toks) -> has_prefix s x = true.
Proof.
  induction toks as [|t toks IH]; intros s x; simpl; [intros [<- |[]]; apply has_prefix_app; exists []; symmetry; apply app_nil_r|].
  intros [<- |Hx]; [apply has_prefix_app; exists []; symmetry; apply app_nil_r|]. apply IH in Hx. apply has_prefix_app in Hx. destruct Hx as [r ->]. apply has_prefix_app. exists ((t ++ [sep]) ++ r). rewrite <- !app_assoc. reflexivity.
Qed.
Lemma add_loop_names H n e : forall toks s cur q, s = q ++ [sep] -> forall k,
  let cur' := add_loop H n e s toks cur in
  (find_ k cur' = find_ k cur \/ (find_ k cur' = Some e /\ exists x, In x (enclosing_ s toks) /\ n = x ++ k)) /\
  (find_ k cur <> None -> find_ k cur' <> None) /\
  (forall x, In x (enclosing_ s toks) -> n = x ++ k -> k <> [] -> find_ k cur' <> None).
Proof.
  induction toks as [|t toks IH]; intros s cur q Eq k; cbn [add_loop].
  all: destruct ((length n <=? length s) || negb (has_prefix s n)) eqn:Ec;
    [cbn zeta; split; [auto|]; split; [auto|]; intros x Hx En Hk; exfalso; apply enclosing_prefix in Hx; apply has_prefix_app in Hx; destruct Hx as [w ->]; subst n;
     apply orb_true_iff in Ec; destruct Ec as [Ec|Ec];
     [apply Nat.leb_le in Ec; rewrite !app_length in Ec; destruct k; [contradiction|simpl in Ec; lia]
     |apply negb_true_iff in Ec; rewrite <- app_assoc, has_prefix_app_ in Ec; discriminate]|].
  all: apply orb_false_iff in Ec; destruct Ec as [El Ep]; apply negb_false_iff in Ep; apply Nat.leb_gt in El.
  all: assert (Er : getRelativeName n s = Ok (skipn (length s) n))
    by (unfold getRelativeName; subst s; destruct (q ++ [sep]) as [|c0 s0] eqn:Eq'; [destruct q; discriminate|]; rewrite <- Eq' in *;
        rewrite last_is_slash_snoc; change (ceqb sep slash) with true; cbv iota; replace (length n <? length (q ++ [sep])) with false by (symmetry; apply Nat.ltb_ge; lia); reflexivity).
  all: rewrite Er; set (rel := skipn (length s) n); assert (En : n = s ++ rel) by (apply has_prefix_skip; assumption).
  all: set (cur1 := match find_ rel cur with Some x => _ | None => _ end).
  all: assert (K : (find_ k cur1 = find_ k cur \/ (find_ k cur1 = Some e /\ n = s ++ k)) /\ (find_ k cur <> None -> find_ k cur1 <> None) /\ (n = s ++ k -> find_ k cur1 <> None)).
  1, 3: assert (K0 : find_ k (insert_ rel e (erase_ rel cur)) = if seqb rel k then Some e else find_ k cur)
    by (rewrite find_insert, !find_erase, seqb_refl; destruct (seqb rel k); reflexivity);
    assert (Ek : n = s ++ k -> seqb rel k = true) by (intros X; apply seqb_eq; rewrite En in X; apply app_inv_head in X; assumption);
    assert (K1 : (find_ k (insert_ rel e (erase_ rel cur)) = find_ k cur \/ (find_ k (insert_ rel e (erase_ rel cur)) = Some e /\ n = s ++ k)) /\
                 (find_ k cur <> None -> find_ k (insert_ rel e (erase_ rel cur)) <> None) /\ (n = s ++ k -> find_ k (insert_ rel e (erase_ rel cur)) <> None));
    [rewrite K0; destruct (seqb rel k) eqn:E; [apply seqb_eq in E; rewrite <- E; split; [right; auto|]; split; intros; discriminate|]; split; [auto|]; split; [auto|]; intros X; apply Ek in X; discriminate|];
    unfold cur1; destruct (find_ rel cur) eqn:Ef; [|exact K1]; destruct (nameSort _ n); [|exact K1]; split; [auto|]; split; [auto|]; intros X; apply Ek, seqb_eq in X; rewrite <- X, Ef; discriminate.
  - cbn zeta. destruct K as (A & B & C). split; [destruct A as [A|[A A']]; [left; exact A|right; split; [exact A|]; exists s; split; [left; reflexivity|exact A']]|]. split; [exact B|].
    intros x [<- |[]] E _. auto.
  - cbn zeta. destruct K as (A & B & C). destruct (IH (s ++ t ++ [slash]) cur1 (s ++ t) ltac:(rewrite <- app_assoc; reflexivity) k) as (A' & B' & C'). cbn zeta in *. split; [|split].
    + destruct A' as [A'|[A' (x & Hx & Ex)]]; [rewrite A'; destruct A as [A|[A A2]]; [auto|right; split; [exact A|]; exists s; split; [left; reflexivity|exact A2]]|].
      right. split; [exact A'|]. exists x. split; [right; exact Hx|exact Ex].
    + auto.
    + intros x [<- |Hx] E Hk; [apply B'; auto|]. eapply C'; eauto.
Qed.

(** ** Relative names in reachable registries *)
Definition grow_stable (H : heap) (P : reg -> Prop) : Prop :=
  forall r n e r', Inv H r -> bound H r n e r' -> (n = o_name (H (e_type e)) \/ exists m, get r m = Some (e_type e)) -> P r -> P r'.
Lemma chain_stable H P r r' : grow_stable H P -> chain H r r' -> Inv H r -> P r -> P r'.
Proof.
  intros Hg. induction 1 as [r|r n e r1 r2 Hs Hc IH]; intros I Hp; [assumption|]. apply IH; [apply (dstep_spec I Hs)|]. destruct Hs as (Hb & Hq & _). eapply Hg; eauto.
Qed.
Lemma alias_stable H P f r base n pers src r' out : grow_stable H P -> Inv H r -> plain n -> alias_ f H r base n pers src = (r', out) -> P r -> P r'.
Proof.
  intros Hg I Hp E Pr. destruct (get r base) as [b|] eqn:Eb; [|rewrite (alias_undefined Eb E); assumption].
  destruct (proj2 (mda_alias_chain H f) _ _ _ _ _ _ _ _ I Hp Eb E) as [-> |(r1 & [Hb|[-> Hq]] & Hc)]; [assumption| |eapply chain_stable; eauto].
  assert (Hs : n = o_name (H (e_type (Ent b pers src))) \/ exists m, get r m = Some (e_type (Ent b pers src))) by (right; eauto).
  eapply chain_stable; [exact Hg|exact Hc|apply (bound_Inv I Hb Hs)|]. eapply Hg; eauto.
Qed.
Lemma add_stable H P f r t pers src r' out : grow_stable H P -> Inv H r -> plain (o_name (H t)) -> add_type f H r t pers src = (r', out) -> P r -> P r'.
Proof.
  intros Hg I Hp E Pr. unfold add_type in E. destruct (add_named H r (o_name (H t)) (Ent t pers src)) as [r1 o1] eqn:Ea.
  destruct (add_named_spec Hp Ea) as [(-> & -> & _)|[(-> & -> & Hq)|[(-> & -> & _)|(-> & Hb)]]]; cbn [seq_] in E; try (inversion E; subst; assumption).
  - destruct (existsb (fun d => negb _) _); [|inversion E; subst; assumption]. eapply chain_stable; eauto. eapply (proj1 (mda_alias_chain H f)); eauto.
  - destruct (bound_Inv I Hb) as (I1 & G1 & _); [left; reflexivity|]. assert (Gt : get r1 (o_name (H t)) = Some t) by (rewrite G1, seqb_refl by (apply plain_absolute; assumption); reflexivity).
    assert (Hc : chain H r1 r') by (destruct (existsb (fun d => negb _) _); [eapply (proj1 (mda_alias_chain H f)); eauto|inversion E; constructor]).
    eapply chain_stable; eauto.
Qed.

Definition sound_names (r : reg) : Prop :=
  forall n t, isAbsoluteName n = false -> get r n = Some t -> exists s, In s (enclosing (tokens (r_ns r))) /\ get r (s ++ n) = Some t.
Definition complete_names (r : reg) : Prop :=
  forall n s, isAbsoluteName n = false -> n <> [] -> In s (enclosing (tokens (r_ns r))) -> get r (s ++ n) <> None -> get r n <> None.
Lemma space_abs c s n : In s (enclosing c) -> absolute (s ++ n).
Proof. intros Hs. assert (X : Forall absolute (enclosing c)) by (apply enclosing_abs; exists []; reflexivity). rewrite Forall_forall in X. destruct (X _ Hs) as [q ->]. exists (q ++ n). reflexivity. Qed.
Lemma names_grow H : grow_stable H sound_names /\ grow_stable H complete_names.
Proof.
  assert (K : forall r n e r' k, Inv H r -> bound H r n e r' -> isAbsoluteName k = false ->
    r_ns r' = r_ns r /\ (get r' k = get r k \/ (get r' k = Some (e_type e) /\ exists x, In x (enclosing (tokens (r_ns r))) /\ n = x ++ k)) /\
    (get r k <> None -> get r' k <> None) /\ (forall x, In x (enclosing (tokens (r_ns r))) -> n = x ++ k -> k <> [] -> get r' k <> None)).
  { intros r n e r' k I (Hp & _ & _ & ->) Hk. cbn [r_ns]. split; [reflexivity|].
    destruct (@add_loop_names H n e (tokens (r_ns r)) [slash] (insert_ n e (r_current r)) [] eq_refl k) as (A & B & C). cbn zeta in *.
    assert (E : find_ k (insert_ n e (r_current r)) = find_ k (r_current r)).
    { rewrite find_insert. destruct (seqb n k) eqn:En; [|reflexivity]. apply seqb_eq in En. subst. apply plain_absolute, absolute_iff in Hp. congruence. }
    rewrite E in A, B. unfold get. cbn [r_current]. split; [|split].
    - destruct A as [-> |[-> A]]; [left; reflexivity|right; split; [reflexivity|exact A]].
    - intros Hn. assert (X : find_ k (r_current r) <> None) by (destruct (find_ k (r_current r)); [discriminate|contradiction]). apply B in X. destruct (find_ k (add_loop _ _ _ _ _ _)); [discriminate|contradiction].
    - intros x Hx En Hn. assert (X := C x Hx En Hn). destruct (find_ k (add_loop _ _ _ _ _ _)); [discriminate|contradiction]. }
  split; intros r n e r' I Hb Hreg IHr.
  - intros k t Hk Ht. destruct (K _ _ _ _ k I Hb Hk) as (En & A & _). rewrite En. destruct (bound_Inv I Hb Hreg) as (_ & G & _). destruct A as [A|[A (x & Hx & Ex)]].
    + rewrite A in Ht. destruct (IHr _ _ Hk Ht) as (s & Hs & Hg). exists s. split; [assumption|]. eapply bound_mono; eauto. eapply space_abs; eauto.
    + exists x. split; [assumption|]. rewrite <- Ex, G, seqb_refl by (apply plain_absolute, Hb). congruence.
  - intros k s Hk Hn Hs Hg. destruct (K _ _ _ _ k I Hb Hk) as (En & _ & B & C). rewrite En in Hs. destruct (bound_Inv I Hb Hreg) as (_ & G & _). rewrite G in Hg by (eapply space_abs; eauto).
    destruct (seqb n (s ++ k)) eqn:E; [apply seqb_eq in E; eapply C; eauto|]. apply B. eapply IHr; eauto.
Qed.
Lemma update_sound_complete H g c ns : gsorted g -> Forall (fun p => plain (fst p)) g ->
  (forall m e, In (m, e) g -> exists e', In (o_name (H (e_type e)), e') g /\ e_type e' = e_type e) ->
  sound_names (updateCurrentNameMap (Reg g c ns)) /\ complete_names (updateCurrentNameMap (Reg g c ns)).
Proof.
  intros A B C. split.
  - intros n t Hn Ht. rewrite (update_names c ns A B C Hn) in Ht. apply innermost_In in Ht. exact Ht.
  - intros n s Hn _ Hs Hg Hf. rewrite (update_names c ns A B C Hn) in Hf. rewrite innermost_None in Hf. apply Hg. apply Hf. exact Hs.
Qed.
Definition good_map (H : heap) (g : nmap) : Prop := gsorted g /\ Forall (fun p => plain (fst p)) g /\
  (forall m e, In (m, e) g -> exists e', In (o_name (H (e_type e)), e') g /\ e_type e' = e_type e).
(** These operations rebuild the relative names, or do nothing. *)
Lemma removeAlias_update H r n r' out : Inv H r -> removeAlias H r n = (r', out) -> r' = r \/ exists g c, good_map H g /\ r' = updateCurrentNameMap (Reg g c (r_ns r)).
Proof.
  intros I. unfold removeAlias. destruct (find_ n (r_global r)) as [e|] eqn:Ef; [|intros E; inversion E; subst; auto].
  destruct (seqb (o_name (H (e_type e))) n) eqn:En; [intros E; inversion E; subst; auto|]. apply seqb_neq in En. intros E. inversion E; subst r' out. right. eexists _, _. split; [|reflexivity]. repeat split.
  - apply gsorted_filter, (inv_sorted I).
  - rewrite Forall_forall. intros p Hi. apply In_erase in Hi. generalize (inv_plain I). rewrite Forall_forall. auto.
  - intros k x Hi. assert (Hi' := In_erase Hi). destruct (inv_primary I Hi') as (e2 & Hi2 & He2). exists e2. split; [|assumption]. apply filter_In. split; [assumption|].
    cbn [fst]. apply negb_true_iff, seqb_neq. intros X. assert (X2 := In_find (gsorted_NoDup (inv_sorted I)) Hi2). rewrite X in X2. rewrite X2 in Ef. inversion Ef; subst e2. rewrite He2 in En. contradiction.
Qed.
Lemma clearAliases_update H r : Inv H r -> exists g c, good_map H g /\ clearAliases H r = updateCurrentNameMap (Reg g c (r_ns r)).
Proof.
  intros I. eexists _, _. split; [|reflexivity]. repeat split.
  - apply gsorted_filter, (inv_sorted I).
  - rewrite Forall_forall. intros p Hi. apply filter_In in Hi. generalize (inv_plain I). rewrite Forall_forall. intros X; apply X; tauto.
  - intros k x Hi. apply filter_In in Hi. destruct Hi as [Hi Hf]. destruct (inv_primary I Hi) as (e2 & Hi2 & He2). exists e2. split; [|assumption]. apply filter_In. split; [assumption|].
    unfold isAlias. cbn [fst snd]. rewrite He2, seqb_refl. reflexivity.
Qed.
Lemma namespace_update H r s : Inv H r -> isValidNamespace s true = true -> exists g c, good_map H g /\ setDefaultNamespace r s = (updateCurrentNameMap (Reg g c (getNormalizedNamespace s)), true).
Proof.
  intros I Hv. unfold setDefaultNamespace. rewrite Hv. cbn [negb]. eexists _, _. split; [|reflexivity]. repeat split; [apply (inv_sorted I)|apply (inv_plain I)|apply (inv_primary I)].
Qed.
Lemma update_both H g c ns : good_map H g -> sound_names (updateCurrentNameMap (Reg g c ns)) /\ complete_names (updateCurrentNameMap (Reg g c ns)).
Proof. intros (A & B & C). eapply update_sound_complete; eauto. Qed.
Definition complete_root (r : reg) : Prop := tokens (r_ns r) = [] -> complete_names r.
Lemma remove_names H r t f r' ts : Inv H r -> remove f H r t = Ok (r', ts) -> sound_names r -> sound_names r' /\ (complete_root r -> complete_root r').
Proof.
  intros I E Hs. destruct (remove_Inv I E) as (_ & G & N). split.
  - intros n d Hn Hd. rewrite G in Hd. destruct (get r n) as [d'|] eqn:Eg; [|discriminate]. destruct (mem d' ts) eqn:Em; [discriminate|]. inversion Hd; subst d'.
    destruct (Hs _ _ Hn Eg) as (s & A & B). rewrite N. exists s. split; [assumption|]. rewrite G, B, Em. reflexivity.
  - intros Hc Ht n s Hn Hk Hi Hg. rewrite N in Ht, Hi. specialize (Hc Ht n s Hn Hk Hi). rewrite G in Hg |- *. destruct (get r (s ++ n)) as [d|] eqn:Ed; [|contradiction].
    destruct (get r n) as [d'|] eqn:En; [|exfalso; apply Hc; [discriminate|reflexivity]]. destruct (Hs _ _ Hn En) as (s' & A & B). rewrite Ht in Hi, A. destruct Hi as [<- |[]]. destruct A as [<- |[]]. rewrite Ed in B. inversion B; subst d'. assumption.
Qed.
Theorem reachable_names H r : reachable_by no_import H r -> sound_names r /\ complete_root r.
Proof.
  induction 1 as [|r o f r' out Hr IH Ha Hok E _]; [split; [intros n t _ X; discriminate|intros _ n s _ _ _ X; exfalso; apply X; reflexivity]|].
  assert (I := reachable_Inv Hr). destruct IH as [S C]. destruct (names_grow H) as [GS GC].
  assert (GR : grow_stable H complete_root).
  { intros r0 n e r1 I0 Hb Hg Hc Ht. assert (En : r_ns r1 = r_ns r0) by (destruct Hb as (_ & _ & _ & ->); reflexivity). rewrite En in Ht. eapply GC; eauto. }
  assert (U : forall g c ns, good_map H g -> sound_names (updateCurrentNameMap (Reg g c ns)) /\ complete_root (updateCurrentNameMap (Reg g c ns))).
  { intros g c ns Hg. destruct (@update_both H g c ns Hg). split; [assumption|intros _; assumption]. }
  destruct o; cbn [exec op_ok no_import] in *.
  - split; eapply add_stable; eauto.
  - split; eapply alias_stable; eauto.
  - destruct (remove f H r t) as [[r2 ts]| | |] eqn:Er; inversion E; subst; auto. destruct (remove_names I Er S). auto.
  - destruct (removeAlias_update I E) as [-> |(g & c & Hg & ->)]; auto.
  - inversion E. destruct (clearAliases_update I) as (g & c & Hg & ->). auto.
  - inversion E. split; [intros n t _ X; discriminate|intros _ n s _ _ _ X; exfalso; apply X; reflexivity].
  - inversion E. destruct (isValidNamespace s true) eqn:Ev; [|unfold setDefaultNamespace; rewrite Ev; auto]. destruct (namespace_update I Ev) as (g & c & Hg & ->). cbn [fst]. auto.
  - destruct Ha.
Qed.
Theorem reachable_complete H r : reachable_by no_removal H r -> complete_names r.
Proof.
  induction 1 as [|r o f r' out Hr IH Ha Hok E _]; [intros n s _ _ _ X; exfalso; apply X; reflexivity|].
  assert (I := reachable_Inv Hr). destruct (names_grow H) as [_ GC].
  destruct o; cbn [exec op_ok no_removal] in *; try contradiction.
  - eapply add_stable; eauto.
  - eapply alias_stable; eauto.
  - destruct (removeAlias_update I E) as [-> |(g & c & Hg & ->)]; [assumption|apply (@update_both H); assumption].
  - inversion E. destruct (clearAliases_update I) as (g & c & Hg & ->). apply (@update_both H); assumption.
  - inversion E. intros n s _ _ _ X. exfalso. apply X. reflexivity.
  - inversion E. destruct (isValidNamespace s true) eqn:Ev; [|unfold setDefaultNamespace; rewrite Ev; auto]. destruct (namespace_update I Ev) as (g & c & Hg & ->). cbn [fst]. apply (@update_both H); assumption.
Qed.
