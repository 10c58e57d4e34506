(** * RegistryProofs: maps, the invariant of registries. *)
From Coq Require Import Sorted.
From Verif Require Import Base Types NamesSpec Names NamesProofs NamesPath Graph GraphProofs Registry RegistrySpec.
Local Open Scope nat_scope.

(** ** Maps *)
Lemma seqb_neq a b : seqb a b = false <-> a <> b.
Proof. destruct (seqb a b) eqn:E; [apply seqb_eq in E; split; [discriminate|contradiction]|]. split; [intros _ X; apply seqb_eq in X; congruence|reflexivity]. Qed.
Lemma str_dec (a b : str) : {a = b} + {a <> b}.
Proof. apply list_eq_dec, ascii_dec. Qed.
Lemma find_app n a b : find_ n (a ++ b) = match find_ n a with Some e => Some e | None => find_ n b end.
Proof. induction a as [|[k e] a IH]; simpl; [reflexivity|]. destruct (seqb k n); auto. Qed.
Lemma find_In n m e : find_ n m = Some e -> In (n, e) m.
Proof. induction m as [|[k x] m IH]; simpl; [discriminate|]. destruct (seqb k n) eqn:E; [apply seqb_eq in E; intros X; inversion X; subst; auto|auto]. Qed.
Lemma find_None n m : find_ n m = None <-> ~ In n (map fst m).
Proof.
  induction m as [|[k x] m IH]; simpl; [tauto|]. destruct (seqb k n) eqn:E.
  - apply seqb_eq in E. split; [discriminate|]. tauto.
  - apply seqb_neq in E. rewrite IH. tauto.
Qed.
Lemma In_find n e m : NoDup (map fst m) -> In (n, e) m -> find_ n m = Some e.
Proof.
  induction m as [|[k x] m IH]; intros Hn Hi; [destruct Hi|]. simpl in *. inversion Hn as [|? ? Hk Hn']; subst. destruct Hi as [Hi|Hi].
  - inversion Hi; subst. rewrite seqb_refl. reflexivity.
  - destruct (seqb k n) eqn:E; [apply seqb_eq in E; subst; exfalso; apply Hk; apply (in_map fst) in Hi; exact Hi|auto].
Qed.
Lemma find_insert n k e m : find_ n (insert_ k e m) = if seqb k n then match find_ k m with Some x => Some x | None => Some e end else find_ n m.
Proof.
  unfold insert_. destruct (seqb k n) eqn:E.
  - apply seqb_eq in E. subst. destruct (find_ n m) eqn:F; [assumption|]. simpl. rewrite seqb_refl. reflexivity.
  - destruct (find_ k m); [reflexivity|]. simpl. rewrite E. reflexivity.
Qed.
Lemma find_filter n (f : str * entry -> bool) m : NoDup (map fst m) ->
  find_ n (filter f m) = match find_ n m with Some e => if f (n, e) then Some e else None | None => None end.
Proof.
  induction m as [|[k x] m IH]; intros Hn; [reflexivity|]. simpl. inversion Hn as [|? ? Hk Hn']; subst. destruct (f (k, x)) eqn:F; simpl.
  - destruct (seqb k n) eqn:E; [apply seqb_eq in E; subst; rewrite F; reflexivity|auto].
  - destruct (seqb k n) eqn:E; [|auto]. apply seqb_eq in E. subst. rewrite F. rewrite IH by assumption. rewrite (proj2 (find_None n m) Hk). reflexivity.
Qed.
Lemma find_erase n k m : find_ n (erase_ k m) = if seqb k n then None else find_ n m.
Proof.
  induction m as [|[x e] m IH]; simpl; [destruct (seqb k n); reflexivity|]. destruct (seqb x k) eqn:E; simpl.
  - rewrite IH. apply seqb_eq in E. subst. destruct (seqb k n); reflexivity.
  - destruct (seqb x n) eqn:F; [|assumption]. apply seqb_eq in F. subst. destruct (seqb k n) eqn:G; [|reflexivity]. apply seqb_eq in G. subst. rewrite seqb_refl in E. discriminate.
Qed.
Lemma NoDup_filter_ A B (g : A -> B) (f : A -> bool) m : NoDup (map g m) -> NoDup (map g (filter f m)).
Proof.
  induction m as [|x m IH]; simpl; intros Hn; [constructor|]. inversion Hn as [|? ? Hk Hn']; subst. destruct (f x); simpl; [|auto].
  constructor; [|auto]. intros Hi. apply Hk. apply in_map_iff in Hi. destruct Hi as (y & E & Hy). apply filter_In in Hy. rewrite <- E. apply in_map. tauto.
Qed.
Lemma NoDup_insert n e m : NoDup (map fst m) -> NoDup (map fst (insert_ n e m)).
Proof. intros Hn. unfold insert_. destruct (find_ n m) eqn:F; [assumption|]. simpl. constructor; [apply find_None; assumption|assumption]. Qed.
Lemma NoDup_erase n m : NoDup (map fst m) -> NoDup (map fst (erase_ n m)).
Proof. apply NoDup_filter_. Qed.
Lemma In_insert p n e m : In p (insert_ n e m) -> p = (n, e) \/ In p m.
Proof. unfold insert_. destruct (find_ n m); simpl; intuition. Qed.
Lemma In_erase p n m : In p (erase_ n m) -> In p m.
Proof. intros Hi. apply filter_In in Hi. tauto. Qed.

Definition gsorted (m : nmap) : Prop := sorted (map fst m).
Lemma gsorted_NoDup m : gsorted m -> NoDup (map fst m).
Proof.
  unfold gsorted, sorted. generalize (map fst m). induction l as [|k l IH]; intros Hs; [constructor|]. inversion Hs as [|? ? Hs' Hf]; subst.
  constructor; [|auto]. intros Hi. rewrite Forall_forall in Hf. specialize (Hf _ Hi). rewrite nameSort_irrefl in Hf. discriminate.
Qed.
Lemma gsorted_filter f m : gsorted m -> gsorted (filter f m).
Proof.
  unfold gsorted, sorted. induction m as [|[k e] m IH]; simpl; intros Hs; [constructor|]. inversion Hs as [|? ? Hs' Hf]; subst. destruct (f (k, e)); [|auto].
  simpl. constructor; [auto|]. rewrite Forall_forall in *. intros x Hx. apply Hf. apply in_map_iff in Hx. destruct Hx as (y & E & Hy). apply filter_In in Hy. rewrite <- E. apply in_map. tauto.
Qed.
Lemma ginsert_keys n e m x : In x (map fst (ginsert n e m)) -> x = n \/ In x (map fst m).
Proof.
  induction m as [|[k y] m IH]; simpl; [intuition|]. destruct (nameSort k n); simpl; [intuition|]. destruct (nameSort n k); simpl; intuition.
Qed.
Lemma gsorted_ginsert n e m : gsorted m -> gsorted (ginsert n e m).
Proof.
  unfold gsorted, sorted. induction m as [|[k x] m IH]; simpl; intros Hs; [repeat constructor|]. inversion Hs as [|? ? Hs' Hf]; subst.
  destruct (nameSort k n) eqn:E1; [|destruct (nameSort n k) eqn:E2]; simpl.
  - constructor; [auto|]. rewrite Forall_forall in *. intros y Hy. apply ginsert_keys in Hy. destruct Hy as [-> |Hy]; auto.
  - constructor; [assumption|]. constructor; [assumption|]. rewrite Forall_forall in *. intros y Hy. eapply nameSort_trans; [exact E2|auto].
  - assumption.
Qed.
Lemma find_ginsert n k e m : find_ k m = None -> find_ n (ginsert k e m) = if seqb k n then Some e else find_ n m.
Proof.
  induction m as [|[x y] m IH]; simpl; intros Hk; [reflexivity|]. destruct (seqb x k) eqn:Ex; [discriminate|]. apply seqb_neq in Ex.
  destruct (nameSort x k) eqn:E1; simpl.
  - rewrite IH by assumption. destruct (seqb x n) eqn:E; [|reflexivity]. apply seqb_eq in E. subst. destruct (seqb k n) eqn:F; [apply seqb_eq in F; congruence|reflexivity].
  - destruct (nameSort k x) eqn:E2; simpl; [reflexivity|]. destruct (nameSort_total Ex); congruence.
Qed.
Lemma In_ginsert p n e m : In p (ginsert n e m) -> p = (n, e) \/ In p m.
Proof.
  induction m as [|[k y] m IH]; simpl; [intuition|]. destruct (nameSort k n); simpl; [intuition|]. destruct (nameSort n k); simpl; intuition.
Qed.
Lemma ginsert_old p n e m : In p m -> In p (ginsert n e m).
Proof.
  induction m as [|[k y] m IH]; simpl; [tauto|]. intros Hi. destruct (nameSort k n); simpl; [intuition|]. destruct (nameSort n k); simpl; intuition.
Qed.

(** ** Names *)
Lemma plain_cut p (r : str) : plain (p ++ sep :: r) -> isAbsoluteName r = false.
Proof.
  intros [_ Hp]. destruct r as [|c r]; [reflexivity|]. simpl. apply ceqb_neq. intros ->. apply (Hp p r). reflexivity.
Qed.
Lemma absolute_iff n : absolute n <-> isAbsoluteName n = true.
Proof.
  split; [intros [r ->]; reflexivity|]. destruct n as [|c r]; [discriminate|]. simpl. intros E. apply ceqb_eq in E. subst. exists r. reflexivity.
Qed.
Lemma norm_ends s : exists p, getNormalizedNamespace s = p ++ [sep].
Proof.
  unfold getNormalizedNamespace. destruct s as [|c s]; [exists []; reflexivity|]. destruct (last_is_slash (c :: s)) eqn:E; [|exists (c :: s); reflexivity].
  destruct (snoc_cases (c :: s)) as [E0|(y & d & Ey)]; [discriminate|]. rewrite Ey in *. rewrite last_is_slash_snoc in E. apply ceqb_eq in E. subst. exists y. reflexivity.
Qed.
Lemma has_prefix_skip p s : has_prefix p s = true -> s = p ++ skipn (length p) s.
Proof. intros Hp. apply has_prefix_app in Hp. destruct Hp as [r ->]. rewrite skipn_app, skipn_all, Nat.sub_diag. reflexivity. Qed.
Lemma rel_not_absolute p n : plain n -> has_prefix (p ++ [sep]) n = true -> isAbsoluteName (skipn (length (p ++ [sep])) n) = false.
Proof. intros Hn Hp. apply has_prefix_skip in Hp. rewrite Hp in Hn at 1. rewrite <- app_assoc in Hn. apply plain_cut in Hn. exact Hn. Qed.
Lemma norm_twice s : getNormalizedNamespace (getNormalizedNamespace s) = getNormalizedNamespace s.
Proof.
  destruct (norm_ends s) as [p E]. rewrite E. unfold getNormalizedNamespace. destruct (p ++ [sep]) eqn:Ep; [destruct p; discriminate|]. rewrite <- Ep, last_is_slash_snoc. reflexivity.
Qed.
Lemma inNamespace_norm k s : isInNamespace k (getNormalizedNamespace s) true = has_prefix (getNormalizedNamespace s) k.
Proof. unfold isInNamespace. rewrite norm_twice. simpl. apply andb_true_r. Qed.

(** ** Import *)
(** [cur'] differs from [cur] by relative names of types of [global] only. *)
Definition rel_of (global : nmap) (n : str) (e : entry) : Prop := exists p, In (p ++ sep :: n, e) global.
Lemma import_loop_spec s erase it global : incl it global -> Forall (fun p => plain (fst p)) global -> forall cur,
  let cur' := import_loop (getNormalizedNamespace s) erase it cur in
  (forall n, absolute n -> find_ n cur' = find_ n cur) /\ (NoDup (map fst cur) -> NoDup (map fst cur')) /\
  (forall n e, In (n, e) cur' -> In (n, e) cur \/ rel_of global n e).
Proof.
  destruct (norm_ends s) as [p Ep]. intros Hi Hp. induction it as [|[k e] it IH]; intros cur; [simpl; auto|].
  cbn [import_loop]. rewrite inNamespace_norm. destruct (has_prefix (getNormalizedNamespace s) k) eqn:Ek; [|simpl; auto].
  assert (Hk : plain k) by (rewrite Forall_forall in Hp; apply (Hp (k, e)); apply Hi; left; reflexivity).
  set (rel := skipn (length (getNormalizedNamespace s)) k).
  assert (Hrel : isAbsoluteName rel = false) by (unfold rel; rewrite Ep in *; apply rel_not_absolute; assumption).
  assert (Hro : rel_of global rel e).
  { exists p. apply has_prefix_skip in Ek. fold rel in Ek. rewrite Ep, <- app_assoc in Ek. simpl in Ek. rewrite <- Ek. apply Hi. left. reflexivity. }
  destruct (IH ltac:(intros x Hx; apply Hi; right; assumption) (insert_ rel e (if erase then erase_ rel cur else cur))) as (A & B & C).
  cbn zeta in *. repeat split.
  - intros n Hn. rewrite A by assumption. rewrite find_insert. destruct (seqb rel n) eqn:E.
    + apply seqb_eq in E. subst n. apply absolute_iff in Hn. congruence.
    + destruct erase; [|reflexivity]. rewrite find_erase, E. reflexivity.
  - intros Hn. apply B. apply NoDup_insert. destruct erase; [apply NoDup_erase|]; assumption.
  - intros n x Hx. destruct (C _ _ Hx) as [Hc|Hc]; [|auto]. apply In_insert in Hc. destruct Hc as [Hc|Hc]; [inversion Hc; subst; auto|].
    left. destruct erase; [apply In_erase in Hc|]; assumption.
Qed.
Lemma glower_incl n m : incl (glower n m) m.
Proof. induction m as [|[k e] m IH]; simpl; [apply incl_refl|]. destruct (nameSort k n); [apply incl_tl; assumption|apply incl_refl]. Qed.
Lemma import_spec s erase global : Forall (fun p => plain (fst p)) global -> forall cur,
  let cur' := import_ s erase global cur in
  (forall n, absolute n -> find_ n cur' = find_ n cur) /\ (NoDup (map fst cur) -> NoDup (map fst cur')) /\
  (forall n e, In (n, e) cur' -> In (n, e) cur \/ rel_of global n e).
Proof. intros Hp cur. apply import_loop_spec; [apply glower_incl|assumption]. Qed.
Lemma import_spaces_spec toks global : Forall (fun p => plain (fst p)) global -> forall s cur,
  let cur' := import_spaces s toks global cur in
  (forall n, absolute n -> find_ n cur' = find_ n cur) /\ (NoDup (map fst cur) -> NoDup (map fst cur')) /\
  (forall n e, In (n, e) cur' -> In (n, e) cur \/ rel_of global n e).
Proof.
  intros Hp. induction toks as [|t toks IH]; intros s cur; cbn [import_spaces]; [auto|].
  destruct (@import_spec (s ++ t ++ [slash]) true global Hp cur) as (A & B & C).
  destruct (IH (s ++ t ++ [slash]) (import_ (s ++ t ++ [slash]) true global cur)) as (A' & B' & C'). cbn zeta in *. repeat split.
  - intros n Hn. rewrite A', A by assumption. reflexivity.
  - auto.
  - intros n e Hi. destruct (C' _ _ Hi) as [Hc|Hc]; auto.
Qed.
Lemma fold_insert_find global : forall c n, find_ n (fold_left (fun c p => insert_ (fst p) (snd p) c) global c) =
  match find_ n c with Some e => Some e | None => find_ n global end.
Proof.
  induction global as [|[k e] g IH]; intros c n; simpl; [destruct (find_ n c); reflexivity|]. rewrite IH, find_insert.
  destruct (seqb k n) eqn:E; [|reflexivity]. apply seqb_eq in E. subst. destruct (find_ n c); reflexivity.
Qed.
Lemma fold_insert_NoDup global : forall c, NoDup (map fst c) -> NoDup (map fst (fold_left (fun c p => insert_ (fst p) (snd p) c) global c)).
Proof. induction global as [|[k e] g IH]; intros c Hc; simpl; [assumption|]. apply IH, NoDup_insert. assumption. Qed.
Lemma fold_insert_In global : forall c p, In p (fold_left (fun c p => insert_ (fst p) (snd p) c) global c) -> In p c \/ In p global.
Proof.
  induction global as [|[k e] g IH]; intros c p Hi; simpl in *; [auto|]. apply IH in Hi. destruct Hi as [Hi|Hi]; [|auto]. apply In_insert in Hi. simpl in Hi. destruct Hi as [-> |Hi]; auto.
Qed.

(** ** Invariant *)
Record Inv (H : heap) (r : reg) : Prop := {
  inv_sorted : gsorted (r_global r);
  inv_plain : Forall (fun p => plain (fst p)) (r_global r);
  inv_agree : forall n, absolute n -> option_map e_type (find_ n (r_current r)) = option_map e_type (find_ n (r_global r));
  inv_primary : forall n e, In (n, e) (r_global r) -> exists e', In (o_name (H (e_type e)), e') (r_global r) /\ e_type e' = e_type e;
  inv_nodup : NoDup (map fst (r_current r));
  inv_current : forall n e, In (n, e) (r_current r) -> exists m e', In (m, e') (r_global r) /\ e_type e' = e_type e
}.
Lemma Inv0 H : Inv H reg0.
Proof. constructor; simpl; try constructor; try tauto. Qed.
Lemma update_Inv H g c ns : gsorted g -> Forall (fun p => plain (fst p)) g ->
  (forall n e, In (n, e) g -> exists e', In (o_name (H (e_type e)), e') g /\ e_type e' = e_type e) ->
  Inv H (updateCurrentNameMap (Reg g c ns)) /\ (forall n, absolute n -> get (updateCurrentNameMap (Reg g c ns)) n = option_map e_type (find_ n g)).
Proof.
  intros Hs Hp Hpr. unfold updateCurrentNameMap. cbn [r_global r_ns]. set (cur0 := fold_left (fun c p => insert_ (fst p) (snd p) c) g []) in *.
  destruct (@import_spec [slash] false g Hp cur0) as (A & B & C). set (cur1 := import_ [slash] false g cur0) in *.
  destruct (@import_spaces_spec (tokens ns) g Hp [slash] cur1) as (A' & B' & C'). cbn zeta in *.
  assert (Hf : forall n, absolute n -> find_ n (import_spaces [slash] (tokens ns) g cur1) = find_ n g).
  { intros n Hn. rewrite A', A by assumption. unfold cur0. rewrite fold_insert_find. reflexivity. }
  split; [|intros n Hn; unfold get; cbn [r_current]; rewrite Hf by assumption; reflexivity].
  constructor; cbn [r_global r_current r_ns]; auto.
  - intros n Hn. rewrite Hf by assumption. reflexivity.
  - apply B', B. apply fold_insert_NoDup. constructor.
  - intros n e Hi. assert (K : forall n e, rel_of g n e -> exists m e', In (m, e') g /\ e_type e' = e_type e) by (intros ? ? [p Hq]; eauto).
    destruct (C' _ _ Hi) as [Hc|Hc]; [|eauto]. destruct (C _ _ Hc) as [Hd|Hd]; [|eauto]. apply fold_insert_In in Hd. destruct Hd as [[]|Hd]. eauto.
Qed.

(** ** Adding a name *)
Lemma add_loop_spec H n e : plain n -> forall toks s cur, (exists q, s = q ++ [sep]) ->
  let cur' := add_loop H n e s toks cur in
  (forall k, absolute k -> find_ k cur' = find_ k cur) /\ (NoDup (map fst cur) -> NoDup (map fst cur')) /\
  (forall k x, In (k, x) cur' -> In (k, x) cur \/ x = e).
Proof.
  intros Hn. induction toks as [|t toks IH]; intros s cur [q Eq]; cbn [add_loop];
    (destruct ((length n <=? length s) || negb (has_prefix s n)) eqn:Ec; [cbn zeta; auto|]);
    apply orb_false_iff in Ec; destruct Ec as [El Ep]; apply negb_false_iff in Ep; apply Nat.leb_gt in El;
    set (rel := match getRelativeName n s with Ok x => x | _ => [] end);
    (assert (Hrel : isAbsoluteName rel = false);
     [unfold rel, getRelativeName; subst s; destruct (q ++ [sep]) as [|c0 s0] eqn:Eq'; [reflexivity|]; rewrite <- Eq' in *;
      rewrite last_is_slash_snoc; change (ceqb sep slash) with true; cbv iota; replace (length n <? length (q ++ [sep])) with false by (symmetry; apply Nat.ltb_ge; lia);
      apply rel_not_absolute; assumption|]);
    set (cur1 := match find_ rel cur with Some x => _ | None => _ end);
    (assert (K : (forall k, absolute k -> find_ k cur1 = find_ k cur) /\ (NoDup (map fst cur) -> NoDup (map fst cur1)) /\ (forall k x, In (k, x) cur1 -> In (k, x) cur \/ x = e));
     [assert (K0 : let c := insert_ rel e (erase_ rel cur) in (forall k, absolute k -> find_ k c = find_ k cur) /\ (NoDup (map fst cur) -> NoDup (map fst c)) /\ (forall k x, In (k, x) c -> In (k, x) cur \/ x = e));
      [cbn zeta; repeat split;
       [intros k Hk; rewrite find_insert; destruct (seqb rel k) eqn:E; [apply seqb_eq in E; subst k; apply absolute_iff in Hk; congruence|]; rewrite find_erase, E; reflexivity
       |intros Hd; apply NoDup_insert, NoDup_erase; assumption
       |intros k x Hi; apply In_insert in Hi; destruct Hi as [Hi|Hi]; [inversion Hi; auto|apply In_erase in Hi; auto]]|];
      unfold cur1; destruct (find_ rel cur); [destruct (nameSort _ n); [auto|exact K0]|exact K0]|]).
  - exact K.
  - destruct K as (A & B & C). destruct (IH (s ++ t ++ [slash]) cur1) as (A' & B' & C').
    { exists (s ++ t). rewrite <- app_assoc. reflexivity. }
    cbn zeta in *. repeat split.
    + intros k Hk. rewrite A', A by assumption. reflexivity.
    + auto.
    + intros k x Hi. destruct (C' _ _ Hi) as [Hc|Hc]; auto.
Qed.
Lemma get_global H r n : Inv H r -> absolute n -> get r n = option_map e_type (find_ n (r_global r)).
Proof. intros I Hn. apply (inv_agree I). assumption. Qed.
Lemma plain_absolute n : plain n -> absolute n.
Proof. intros [A _]. assumption. Qed.
(** The name [n] is free, and gets bound to [e]. *)
Definition bound (H : heap) (r : reg) (n : str) (e : entry) (r' : reg) : Prop :=
  plain n /\ get r n = None /\ isValidTypename n true = true /\
  r' = Reg (ginsert n e (r_global r)) (add_loop H n e [slash] (tokens (r_ns r)) (insert_ n e (r_current r))) (r_ns r).
Lemma bound_Inv H r n e r' : Inv H r -> bound H r n e r' ->
  (n = o_name (H (e_type e)) \/ exists m, get r m = Some (e_type e)) ->
  Inv H r' /\ (forall k, absolute k -> get r' k = if seqb n k then Some (e_type e) else get r k) /\ r_global r' = ginsert n e (r_global r).
Proof.
  intros I (Hp & Hg & _ & ->) Hreg.
  assert (Hc0 : find_ n (r_current r) = None) by (unfold get in Hg; destruct (find_ n (r_current r)); [discriminate|reflexivity]).
  assert (Hg0 : find_ n (r_global r) = None).
  { rewrite (get_global I (plain_absolute Hp)) in Hg. destruct (find_ n (r_global r)); [discriminate|reflexivity]. }
  destruct (@add_loop_spec H n e Hp (tokens (r_ns r)) [slash] (insert_ n e (r_current r))) as (A & B & C); [exists []; reflexivity|]. cbn zeta in *.
  set (cur := add_loop H n e [slash] (tokens (r_ns r)) (insert_ n e (r_current r))) in *.
  assert (Hfc : forall k, absolute k -> find_ k cur = if seqb n k then Some e else find_ k (r_current r)).
  { intros k Hk. rewrite A by assumption. rewrite find_insert, Hc0. reflexivity. }
  assert (Hfg : forall k, find_ k (ginsert n e (r_global r)) = if seqb n k then Some e else find_ k (r_global r)) by (intros k; apply find_ginsert; assumption).
  split; [|split; [intros k Hk; unfold get; cbn [r_current]; rewrite Hfc by assumption; destruct (seqb n k); reflexivity|reflexivity]].
  constructor; cbn [r_global r_current r_ns].
  - apply gsorted_ginsert. apply (inv_sorted I).
  - rewrite Forall_forall. intros p Hi. apply In_ginsert in Hi. destruct Hi as [-> |Hi]; [assumption|]. generalize (inv_plain I). rewrite Forall_forall. auto.
  - intros k Hk. rewrite Hfc, Hfg by assumption. destruct (seqb n k); [reflexivity|]. apply (inv_agree I). assumption.
  - intros k x Hi. apply In_ginsert in Hi. destruct Hi as [Hi|Hi].
    + assert (x = e) by congruence. subst x. clear Hi. destruct Hreg as [-> |[m Hm]].
      * exists e. split; [|reflexivity]. assert (F := Hfg (o_name (H (e_type e)))). rewrite seqb_refl in F. apply find_In. assumption.
      * unfold get in Hm. destruct (find_ m (r_current r)) as [x|] eqn:Ex; [|discriminate]. assert (Ht : e_type x = e_type e) by (simpl in Hm; congruence). apply find_In in Ex.
        destruct (inv_current I Ex) as (m' & e' & Hi' & Et). destruct (inv_primary I Hi') as (e2 & Hi2 & Et2). exists e2. split; [apply ginsert_old; rewrite <- Ht, <- Et; assumption|congruence].
    + destruct (inv_primary I Hi) as (e2 & Hi2 & Et2). exists e2. split; [apply ginsert_old; assumption|assumption].
  - apply B. apply NoDup_insert. apply (inv_nodup I).
  - intros k x Hi. assert (Hn : In (n, e) (ginsert n e (r_global r))) by (apply find_In; rewrite Hfg, seqb_refl; reflexivity).
    destruct (C _ _ Hi) as [Hc| ->]; [|eauto]. apply In_insert in Hc. destruct Hc as [Hc|Hc]; [inversion Hc; subst; eauto|].
    destruct (inv_current I Hc) as (m & e' & Hm & Et). exists m, e'. split; [apply ginsert_old; assumption|assumption].
Qed.
Lemma add_named_spec H r n e r' out : plain n -> add_named H r n e = (r', out) ->
  (r' = r /\ out = Throw EBadName /\ isValidTypename n true = false) \/
  (r' = r /\ out = Ok tt /\ get r n = Some (e_type e)) \/
  (r' = r /\ out = Throw EAlreadyDefined /\ exists t, get r n = Some t /\ t <> e_type e) \/
  (out = Ok tt /\ bound H r n e r').
Proof.
  intros Hp. unfold add_named. destruct (isValidTypename n true) eqn:Ev; cbn [negb]; [|intros E; inversion E; subst; auto].
  destruct (get r n) as [t|] eqn:Eg.
  - destruct (Nat.eqb_spec t (e_type e)); intros E; inversion E; subst; [auto|]. right. right. left. repeat split. eauto.
  - intros E. inversion E; subst. right. right. right. split; [reflexivity|]. repeat split; try assumption; apply Hp.
Qed.
