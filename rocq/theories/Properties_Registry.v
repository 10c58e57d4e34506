(** * Properties_Registry: the registry (C21, C22, C23, C24, C41, C45). *)
From Coq Require Import Sorted.
From Verif Require Import Base Types NamesSpec Names NamesProofs NamesPath Graph GraphSpec GraphProofs Registry RegistrySpec RegistryProofs RegistryOps RegistryMain RegistryNames RegistryAlias.
Local Open Scope nat_scope.

(** ** C21 *)
(** add: a new type gets its name; what was there does not move; the only other new names are the derived names of the
    types already there; a name taken by another type, or an invalid one, changes nothing. *)
Theorem C21_add f H r t pers src r' out : reachable H r -> plain (o_name (H t)) -> add_type f H r t pers src = (r', out) ->
  (forall k x, absolute k -> get r k = Some x -> get r' k = Some x) /\
  (forall k x, absolute k -> get r k = None -> get r' k = Some x -> (k = o_name (H t) /\ x = t) \/ derived H r' k x) /\
  (out = Ok tt -> get r' (o_name (H t)) = Some t) /\
  (forall x, isValidTypename (o_name (H t)) true = true -> get r (o_name (H t)) = Some x -> x <> t -> r' = r /\ out = Throw EAlreadyDefined) /\
  (isValidTypename (o_name (H t)) true = false -> r' = r /\ out = Throw EBadName).
Proof.
  intros Hr Hp E. assert (I := reachable_Inv Hr). destruct (add_effect I Hp E) as (_ & M & _ & Ef). split; [exact M|]. split.
  { intros k x Hk Hn Hx. destruct (Ef k Hk) as [Eq|(_ & y & Ey & [[-> Eb]|D])]; [congruence| |].
    - left. split; [reflexivity|]. congruence.
    - right. congruence. }
  split; [intros ->; apply (add_ok I Hp E)|]. unfold add_type in E. split.
  - intros x Hv Hx Hne. unfold add_named in E. rewrite Hv, Hx in E. cbn [negb e_type] in E. destruct (Nat.eqb_spec x t) as [|_]; [contradiction|]. cbn [seq_] in E. inversion E. auto.
  - intros Hv. unfold add_named in E. rewrite Hv in E. cbn [negb seq_] in E. inversion E. auto.
Qed.
(** alias: likewise. *)
Theorem C21_alias f H r base n pers src r' out : reachable H r -> plain n -> alias_ f H r base n pers src = (r', out) ->
  (forall k x, absolute k -> get r k = Some x -> get r' k = Some x) /\
  (forall k x, absolute k -> get r k = None -> get r' k = Some x -> (k = n /\ get r base = Some x) \/ derived H r' k x) /\
  (out = Ok tt -> exists b, get r base = Some b /\ get r' n = Some b) /\
  (forall x b, get r base = Some b -> get r n = Some x -> x <> b -> out <> Ok tt /\ r' = r) /\
  (get r base = None -> out <> Ok tt /\ r' = r) /\
  (isValidTypename n true = false -> out <> Ok tt /\ r' = r).
Proof.
  intros Hr Hp E. assert (I := reachable_Inv Hr). destruct (alias_effect I Hp E) as (_ & M & _ & Ef). split; [exact M|]. split.
  { intros k x Hk Hn Hx. destruct (Ef k Hk) as [Eq|(_ & y & Ey & [[-> Eb]|D])]; [congruence| |].
    - left. split; [reflexivity|]. congruence.
    - right. congruence. }
  split.
  { intros ->. destruct (get r base) as [b|] eqn:Eb.
    - exists b. split; [reflexivity|]. apply (proj2 (complete_ H f) _ _ _ _ _ _ _ I Hp Eb E).
    - destruct f; simpl in E; [discriminate|]. rewrite Eb in E. destruct (negb _); discriminate. }
  destruct f; simpl in E; [inversion E; repeat split; discriminate|]. split; [|split].
  - intros x b Hb Hx Hne. rewrite Hb in E. destruct (isValidTypename n true) eqn:Hv; cbn [negb] in E; [|inversion E; split; [discriminate|reflexivity]].
    unfold add_named in E. rewrite Hv, Hx in E. cbn [negb e_type] in E. destruct (Nat.eqb_spec x b) as [|_]; [contradiction|]. cbn [seq_] in E. inversion E. split; [discriminate|reflexivity].
  - intros Hb. rewrite Hb in E. destruct (negb _); inversion E; split; try discriminate; reflexivity.
  - intros Hv. rewrite Hv in E. inversion E. split; [discriminate|reflexivity].
Qed.
(** The other operations, on absolute names (remove: C23). *)
Theorem C21_other_operations H r : reachable H r ->
  (forall s k, absolute k -> get (fst (setDefaultNamespace r s)) k = get r k) /\
  (forall s b k, absolute k -> get (importNamespace r s b) k = get r k) /\
  (forall n r' out, absolute n -> removeAlias H r n = (r', out) ->
     (r' = r /\ out = Throw ERuntime /\ (get r n = None \/ exists t, get r n = Some t /\ o_name (H t) = n)) \/
     (out = Ok tt /\ (exists t, get r n = Some t /\ o_name (H t) <> n) /\ get r' n = None /\ forall k, absolute k -> k <> n -> get r' k = get r k)) /\
  (forall k t, absolute k -> (get (clearAliases H r) k = Some t <-> get r k = Some t /\ k = o_name (H t))) /\
  (forall k, get (fst (clear H r)) k = None).
Proof.
  intros Hr. assert (I := reachable_Inv Hr). split; [intros s; apply (namespace_spec s I)|]. split; [intros s b; apply (importNamespace_spec s b I)|]. split; [|split].
  - intros n r' out Ha E. destruct (removeAlias_spec I Ha E) as [_ [X|(-> & Ht & _ & G)]]; [left; exact X|]. right. split; [reflexivity|]. split; [assumption|]. split.
    + rewrite G, seqb_refl by assumption. reflexivity.
    + intros k Hk Hne. rewrite G by assumption. destruct (seqb n k) eqn:Es; [apply seqb_eq in Es; congruence|reflexivity].
  - intros k t Hk. destruct (clearAliases_spec I) as (_ & _ & G). rewrite G by assumption. destruct (get r k) as [x|]; [|split; [discriminate|intros [X _]; discriminate]].
    destruct (seqb k (o_name (H x))) eqn:Es.
    + apply seqb_eq in Es. split; [intros X; inversion X; subst; auto|intros [X _]; assumption].
    + split; [discriminate|]. intros [X Y]. inversion X; subst x. apply seqb_neq in Es. contradiction.
  - reflexivity.
Qed.
(** has() agrees with get(), and each type is found under its own name. *)
Theorem C21_has r n : has r n = true <-> exists t, get r n = Some t.
Proof. unfold has, get. destruct (find_ n (r_current r)); simpl; split; try discriminate; eauto; intros [t X]; discriminate. Qed.
Theorem C21_own_name H r n t : reachable H r -> get r n = Some t -> get r (o_name (H t)) = Some t.
Proof. intros Hr Hg. apply (get_primary (reachable_Inv Hr) Hg). Qed.
(** add and alias terminate. *)
Theorem C21_terminates H r : names_ok H -> reachable H r ->
  (forall t pers src, plain (o_name (H t)) -> exists k r' out, out <> Fuel /\ forall f, k <= f -> add_type f H r t pers src = (r', out)) /\
  (forall base n pers src, plain n -> exists k r' out, out <> Fuel /\ forall f, k <= f -> alias_ f H r base n pers src = (r', out)).
Proof. intros Hn Hr. assert (I := reachable_Inv Hr). split; intros; [apply add_terminates|apply alias_terminates]; assumption. Qed.
(** The names [plain] leaves out have an empty path component: no name without modifiers does. *)
Theorem C21_simple_names_plain n : simple n -> isValidTypename n true = true -> plain n.
Proof.
  intros Hs Hv. apply (isValidTypename_simple true Hs) in Hv. destruct Hv as (l & Hl & Hw & [-> |[X _]]); [|discriminate]. apply plain_iff. split; [reflexivity|].
  assert (W : forall w, word w -> ~ In sep w).
  { intros w [_ Hc] Hi. rewrite Forall_forall in Hc. specialize (Hc _ Hi). unfold word_char in Hc. simpl in Hc. repeat (destruct Hc as [Hc|Hc]; try discriminate Hc; try contradiction). }
  clear Hs. induction l as [|x l IH]; [contradiction|]. inversion Hw as [|? ? Hx Hw']; subst. destruct l as [|y l].
  - simpl. destruct x as [|c x]; [destruct Hx as [X _]; contradiction|]. assert (Hn := W _ Hx). change (dslash ([sep] ++ (c :: x)) = false). apply dslash_app; [reflexivity|assumption].
  - assert (IH' := IH ltac:(discriminate) Hw'). destruct x as [|c x]; [destruct Hx as [X _]; contradiction|]. assert (Hn := W _ Hx).
    apply dslash_spec. intros a b Eq. destruct (dslash_spec (sep :: join (y :: l))) as [D _]. specialize (D IH').
    change (join ((c :: x) :: y :: l)) with ((c :: x) ++ sep :: join (y :: l)) in Eq. destruct a as [|a0 a]; simpl in Eq; [inversion Eq; subst; apply Hn; left; reflexivity|].
    inversion Eq as [[E0 E1]]. clear Eq E0. change ((c :: x) ++ sep :: join (y :: l) = a ++ sep :: sep :: b) in E1.
    revert a E1 Hn. generalize (c :: x) as z. induction z as [|z0 z IHz]; intros a E1 Hn.
    + simpl in E1. apply (D a b). assumption.
    + destruct a as [|a0' a]; [simpl in E1; inversion E1; subst; apply Hn; left; reflexivity|]. simpl in E1. inversion E1. apply (IHz a); [assumption|]. intros X. apply Hn. right. assumption.
Qed.

(** With an empty component (accepted by isValidTypename), adding a type hides an absolute name. *)
Definition hslash : heap := fun t =>
  match t with
  | 0 => Obj (s_ "/B") 4 (ONum SInt)
  | 1 => Obj (s_ "/A>//B") 8 (ONum Float)
  | _ => Obj [] 0 ONull
  end.
Theorem C21_empty_component_refuted : exists H r t r',
  reachable H r /\ isValidTypename (o_name (H t)) true = true /\ add_type 5 H r t true [] = (r', Ok tt) /\
  get r (s_ "/B") = Some 0 /\ get r' (s_ "/B") = Some 1.
Proof.
  exists hslash, (fst (setDefaultNamespace (fst (add_type 5 hslash reg0 0 true [])) (s_ "/A>"))), 1.
  eexists. split; [|split; [|split; [|split]]].
  - eapply (reach_step (o := OpNamespace (s_ "/A>")) (f := 0) (out := Ok tt)); [|exact I|exact I|reflexivity|discriminate].
    eapply (reach_step (o := OpAdd 0 true []) (f := 5) (r := reg0) (out := Ok tt)); [constructor|exact I| |reflexivity|discriminate].
    apply plain_iff. split; reflexivity.
  - vm_compute. reflexivity.
  - vm_compute. reflexivity.
  - vm_compute. reflexivity.
  - vm_compute. reflexivity.
Qed.
(** add can throw after it has registered the type: here the derived name /v[3]* of the pointer is rejected. *)
Definition hptr : heap := fun t =>
  match t with
  | 0 => Obj (s_ "/A") 4 (ONum SInt)
  | 1 => Obj (s_ "/A*") 8 (OPtr 0)
  | 2 => Obj (s_ "/A**") 8 (OPtr 1)
  | 3 => Obj (s_ "/A[2]") 8 (OArr 2 0)
  | 4 => Obj (s_ "/std/vector</A>") 24 (OCont KVec 0)
  | 5 => Obj (s_ "/B/A") 8 (OComp [Fld (s_ "p") 0 1])
  | 6 => Obj (s_ "/B/C") 8 (OComp [Fld (s_ "b") 0 5])
  | _ => Obj [] 0 ONull
  end.
Lemma hptr_names : names_ok hptr.
Proof. intros t x mk. do 7 (destruct t as [|t]; [intros E; inversion E; reflexivity|]). discriminate. Qed.
Fixpoint run (H : heap) (r : reg) (l : list op) : reg :=
  match l with [] => r | o :: l' => run H (fst (exec 30 H r o)) l' end.
Fixpoint run_ok (H : heap) (r : reg) (l : list op) : Prop :=
  match l with [] => True | o :: l' => op_ok H o /\ (match snd (exec 30 H r o) with Fuel => False | _ => True end) /\ run_ok H (fst (exec 30 H r o)) l' end.
Lemma run_reachable (allowed : op -> Prop) H l : forall r, reachable_by allowed H r -> run_ok H r l -> Forall allowed l -> reachable_by allowed H (run H r l).
Proof.
  induction l as [|o l IH]; intros r Hr Hl Ha; [assumption|]. inversion Ha as [|? ? Ha1 Ha2]; subst. destruct Hl as (A & B & C). cbn [run]. apply IH; [|assumption|assumption].
  destruct (exec 30 H r o) as [r' out] eqn:E. eapply (@reach_step allowed H r o 30 r' out); [exact Hr|exact Ha1|exact A|exact E|]. cbn [snd] in B. destruct out; try contradiction; discriminate.
Qed.
Ltac pl := apply plain_iff; split; vm_compute; reflexivity.
Ltac reach l := let l' := eval vm_compute in l in change l with l'; apply (@run_reachable _ _ l'); [constructor|repeat (cbn [run_ok]; split; [cbn [op_ok]; first [pl|exact I]|split; [vm_compute; exact I|]]); exact I|repeat constructor].
Theorem C21_failed_add_refuted : exists H r t r',
  reachable H r /\ add_type 30 H r t true [] = (r', Throw EBadName) /\ get r (o_name (H t)) = None /\ get r' (o_name (H t)) = Some t.
Proof.
  exists hptr, (run hptr reg0 [OpAdd 0 true []; OpAlias (s_ "/A") (s_ "/v[3]") true []]), 1. eexists. split; [|split; [|split]].
  - reach [OpAdd 0 true []; OpAlias (s_ "/A") (s_ "/v[3]") true []].
  - vm_compute. reflexivity.
  - vm_compute. reflexivity.
  - vm_compute. reflexivity.
Qed.
(** A history: /A, /A*, /A[2], /std/vector</A> and the alias /D/E of /A. *)
Definition history : list op :=
  [OpAdd 0 true []; OpAdd 1 true []; OpAdd 2 true []; OpAdd 3 true []; OpNamespace (s_ "/D"); OpAlias (s_ "/A") (s_ "/D/E") true []; OpAdd 4 true []; OpAdd 5 true []; OpAdd 6 true []].
Example C21_example :
  reachable_by no_import hptr (run hptr reg0 history) /\ names_ok hptr /\
  map fst (r_global (run hptr reg0 history)) =
    map s_ ["/A"; "/A*"; "/A**"; "/A[2]"; "/B/A"; "/B/C"; "/D/E"; "/D/E*"; "/D/E**"; "/D/E[2]"; "/std/vector</A>"; "/std/vector</D/E>"]%string /\
  get (run hptr reg0 history) (s_ "/D/E**") = Some 2 /\ get (run hptr reg0 history) (s_ "E**") = Some 2.
Proof. split; [reach history|]. split; [apply hptr_names|]. repeat split; vm_compute; reflexivity. Qed.

(** ** C22 *)
(** The path components of a namespace. *)
Definition component (c : str) : Prop := c <> [] /\ ~ In sep c.
(** [s] is /c1/c2/.../cn or /c1/c2/.../cn/. *)
Definition namespace_is (s : str) (comps : list str) : Prop :=
  Forall component comps /\ (s = sep :: terms comps \/ s ++ [sep] = sep :: terms comps).
Lemma tok_loop_comp (c r : str) : ~ In sep c -> forall cur, tok_loop cur (c ++ sep :: r) = match cur ++ c with [] => tok_loop [] r | x => x :: tok_loop [] r end.
Proof.
  induction c as [|x c IH]; intros Hn cur.
  - simpl. rewrite app_nil_r. destruct cur; reflexivity.
  - simpl. destruct (ceqb x slash) eqn:Ec; [exfalso; apply Hn; left; apply Ascii.eqb_eq in Ec; exact Ec|]. rewrite IH by (intros X; apply Hn; right; assumption). rewrite <- app_assoc. reflexivity.
Qed.
Lemma tokens_terms comps : Forall component comps -> tokens (sep :: terms comps) = comps.
Proof.
  intros Hc. unfold tokens. change (tok_loop [] (sep :: terms comps)) with (tok_loop [] (terms comps)). induction Hc as [|c l [Hn Hs] _ IH]; [reflexivity|].
  unfold terms in *. simpl. rewrite <- app_assoc. simpl. rewrite tok_loop_comp by assumption. destruct c; [contradiction|]. cbn [app]. rewrite IH. reflexivity.
Qed.
Lemma norm_terms s comps : s <> [] -> namespace_is s comps -> tokens (getNormalizedNamespace s) = comps.
Proof.
  intros Hs [Hc E]. rewrite <- (tokens_terms Hc) at 1. f_equal. destruct E as [-> |E].
  - destruct (@exists_last _ (sep :: terms comps)) as (q & x & Eq); [discriminate|]. assert (x = sep).
    { destruct comps as [|c l] using rev_ind; [unfold terms in Eq; simpl in Eq; destruct q as [|? [|]]; inversion Eq; reflexivity|].
      unfold terms in Eq. rewrite map_app, concat_app in Eq. simpl in Eq. rewrite app_nil_r in Eq. rewrite app_assoc in Eq. rewrite app_comm_cons in Eq. apply app_inj_tail in Eq. symmetry. apply Eq. }
    subst x. rewrite Eq. apply norm_snoc.
  - rewrite <- E. destruct s as [|c s]; [contradiction|]. unfold getNormalizedNamespace. destruct (last_is_slash (c :: s)) eqn:El; [|reflexivity].
    exfalso. (* the last component would be empty *)
    destruct (@exists_last _ (c :: s)) as (q & x & Eq); [discriminate|]. rewrite Eq in El, E. unfold last_is_slash in El. rewrite rev_unit in El. apply Ascii.eqb_eq in El. subst x.
    destruct comps as [|y l] using rev_ind; [apply (f_equal (@length ascii)) in E; rewrite !app_length in E; simpl in E; lia|]. apply Forall_app in Hc. destruct Hc as [_ Hy]. inversion Hy as [|? ? [Hy1 Hy2] _]; subst.
    unfold terms in E. rewrite map_app, concat_app in E. simpl in E. rewrite app_nil_r in E. rewrite app_assoc in E. rewrite app_comm_cons in E. apply app_inj_tail in E. destruct E as [E _].
    destruct (exists_last Hy1) as (y' & z & ->). rewrite app_assoc, app_comm_cons in E. apply app_inj_tail in E. destruct E as [_ <-]. apply Hy2. apply in_or_app. right. left. reflexivity.
Qed.
(** Just after the namespace is set, a relative name means the type of this name in the innermost enclosing namespace:
    this depends on the registered names only. *)
Theorem C22_after_setDefaultNamespace H r ns comps r' n : reachable H r -> namespace_is ns comps -> setDefaultNamespace r ns = (r', true) ->
  ~ absolute n -> get r' n = innermost (get r) n (enclosing comps).
Proof.
  intros Hr Hns E Hn. assert (I := reachable_Inv Hr). assert (Ha : isAbsoluteName n = false) by (rewrite absolute_iff in Hn; destruct (isAbsoluteName n); [contradiction Hn; reflexivity|reflexivity]).
  unfold setDefaultNamespace in E. destruct (isValidNamespace ns true) eqn:Ev; cbn [negb] in E; [|discriminate]. inversion E; subst r'. clear E. cbn [r_global r_current].
  assert (Hs : ns <> []) by (intros ->; discriminate).
  destruct (@update_Inv H (r_global r) (r_current r) (getNormalizedNamespace ns)) as [_ G]; [apply (inv_sorted I)|apply (inv_plain I)|apply (inv_primary I)|].
  rewrite (@update_names H); [|apply (inv_sorted I)|apply (inv_plain I)|apply (inv_primary I)|assumption]. rewrite (norm_terms Hs Hns).
  assert (L : forall spaces, Forall absolute spaces -> innermost (get (updateCurrentNameMap (Reg (r_global r) (r_current r) (getNormalizedNamespace ns)))) n spaces = innermost (get r) n spaces).
  { induction 1 as [|s l Hs' _ IH]; [reflexivity|]. simpl. rewrite IH. destruct (innermost (get r) n l); [reflexivity|].
    assert (Hab : absolute (s ++ n)) by (destruct Hs' as [q ->]; exists (q ++ n); reflexivity). rewrite G, (get_global I Hab) by assumption. reflexivity. }
  apply L. apply enclosing_abs. exists []. reflexivity.
Qed.
(** In every history without explicit importNamespace: a relative name means a type of this name in an enclosing
    namespace (which one depends on the history); *)
Theorem C22_relative_name_visible_partial H r comps n t : reachable_by no_import H r -> tokens (r_ns r) = comps ->
  ~ absolute n -> get r n = Some t -> exists s, In s (enclosing comps) /\ get r (s ++ n) = Some t.
Proof.
  intros Hr <- Hn Hg. destruct (reachable_names Hr) as [S _]. apply S; [|assumption]. rewrite absolute_iff in Hn. destruct (isAbsoluteName n); [contradiction Hn; reflexivity|reflexivity].
Qed.
(** without remove() either, every type visible from the namespace has a relative name; *)
Theorem C22_visible_has_relative_name_partial H r comps n s : reachable_by no_removal H r -> tokens (r_ns r) = comps ->
  ~ absolute n -> n <> [] -> In s (enclosing comps) -> get r (s ++ n) <> None -> get r n <> None.
Proof.
  intros Hr <- Hn Hne Hi Hg. eapply (reachable_complete Hr); eauto. rewrite absolute_iff in Hn. destruct (isAbsoluteName n); [contradiction Hn; reflexivity|reflexivity].
Qed.
(** and as long as the namespace is the root, a relative name is exactly the absolute one. *)
Theorem C22_root_namespace H r n : reachable_by no_import H r -> tokens (r_ns r) = [] -> ~ absolute n -> n <> [] -> get r n = get r (sep :: n).
Proof.
  intros Hr Ht Hn Hne. destruct (reachable_names Hr) as [S C]. assert (Ha : isAbsoluteName n = false) by (rewrite absolute_iff in Hn; destruct (isAbsoluteName n); [contradiction Hn; reflexivity|reflexivity]).
  destruct (get r n) as [t|] eqn:E.
  - destruct (S _ _ Ha E) as (s & Hs & Hg). rewrite Ht in Hs. destruct Hs as [<- |[]]. symmetry. exact Hg.
  - destruct (get r (sep :: n)) as [t|] eqn:E2; [|reflexivity]. exfalso. apply (C Ht n [sep] Ha Hne); [rewrite Ht; left; reflexivity| |assumption]. change ([sep] ++ n) with (sep :: n). rewrite E2. discriminate.
Qed.
(** The order matters: /A/X and /A/b/X in the namespace /A/b, set after or before. *)
Definition hord : heap := fun t =>
  match t with
  | 0 => Obj (s_ "/A/X") 4 (ONum SInt)
  | 1 => Obj (s_ "/A/b/X") 8 (ONum Float)
  | 2 => Obj (s_ "/X") 8 (ONum SInt)
  | _ => Obj [] 0 ONull
  end.
Definition late := [OpAdd 0 true []; OpAdd 1 true []; OpNamespace (s_ "/A/b")].
Definition early := [OpNamespace (s_ "/A/b"); OpAdd 0 true []; OpAdd 1 true []].
Theorem C22_order_refuted : exists H r r' n,
  reachable_by no_removal H r /\ reachable_by no_removal H r' /\ r_ns r = r_ns r' /\ r_global r = r_global r' /\ get r n <> None /\ get r' n <> None /\ get r n <> get r' n.
Proof.
  exists hord, (run hord reg0 late), (run hord reg0 early), (s_ "X"). split; [reach late|]. split; [reach early|]. repeat split; vm_compute; discriminate.
Qed.
(** remove() does not bring the hidden name back. *)
Definition hiding := [OpAdd 2 true []; OpAdd 0 true []; OpNamespace (s_ "/A"); OpRemove 0].
Theorem C22_remove_refuted : exists H r s n,
  reachable_by no_import H r /\ In s (enclosing (tokens (r_ns r))) /\ get r (s ++ n) <> None /\ get r n = None.
Proof.
  exists hord, (run hord reg0 hiding), [sep], (s_ "X"). split; [reach hiding|]. split; [vm_compute; auto|]. split; vm_compute; [discriminate|reflexivity].
Qed.
Example C22_example : namespace_is (s_ "/A/b") [s_ "A"; s_ "b"] /\
  (forall r', setDefaultNamespace (run hord reg0 [OpAdd 0 true []; OpAdd 1 true []; OpAdd 2 true []]) (s_ "/A/b") = (r', true) -> get r' (s_ "X") = Some 1) /\
  snd (setDefaultNamespace (run hord reg0 [OpAdd 0 true []; OpAdd 1 true []; OpAdd 2 true []]) (s_ "/A/b")) = true.
Proof.
  split; [|split].
  - split; [repeat constructor; try discriminate; simpl; intuition discriminate|right; reflexivity].
  - intros r' E. vm_compute in E. inversion E. vm_compute. reflexivity.
  - vm_compute. reflexivity.
Qed.

(** ** C23 *)
Theorem C23_remove H r t : reachable H r -> exists r' ts,
  conv (fun f => remove f H r t) (Ok (r', ts)) /\
  (forall d, In d ts <-> dependent H r t d) /\
  (forall n d, get r' n = Some d <-> get r n = Some d /\ ~ dependent H r t d) /\
  (deps_closed H r -> deps_closed H r').
Proof.
  intros Hr. assert (I := reachable_Inv Hr). destruct (reverseDepends_spec t I) as (ts & [k Hc] & Hts).
  exists (Reg (filter (fun p => negb (mem (e_type (snd p)) ts)) (r_global r)) (filter (fun p => negb (mem (e_type (snd p)) ts)) (r_current r)) (r_ns r)), ts.
  assert (Er : forall f, k <= f -> remove f H r t = Ok (Reg (filter (fun p => negb (mem (e_type (snd p)) ts)) (r_global r)) (filter (fun p => negb (mem (e_type (snd p)) ts)) (r_current r)) (r_ns r), ts)).
  { intros f Hf. unfold remove. rewrite Hc by assumption. reflexivity. }
  assert (Hg : forall n d, get (Reg (filter (fun p => negb (mem (e_type (snd p)) ts)) (r_global r)) (filter (fun p => negb (mem (e_type (snd p)) ts)) (r_current r)) (r_ns r)) n = Some d <-> get r n = Some d /\ ~ dependent H r t d).
  { intros n d. destruct (remove_Inv I (Er k (le_n k))) as (_ & G & _). rewrite G. rewrite <- Hts, <- mem_In. destruct (get r n) as [x|]; [|split; [discriminate|intros [X _]; discriminate]].
    destruct (mem x ts) eqn:Em; split; try discriminate.
    - intros [X Y]. inversion X; subst. congruence.
    - intros X. inversion X; subst. split; [reflexivity|congruence].
    - intros [X _]. assumption. }
  split; [exists k; exact Er|]. split; [assumption|]. split; [exact Hg|].
  intros Hcl d x (n & Ha & Hd) Hx. apply Hg in Hd. destruct Hd as [Hd Hnd]. assert (Hreg : registered r d) by (exists n; auto). destruct (Hcl d x Hreg Hx) as (m & Hm & Hgm).
  exists m. split; [assumption|]. apply Hg. split; [assumption|]. intros X. apply Hnd. eapply dep_step; eauto.
Qed.
(** The dependencies are present if each type is added after the types it depends on; aliases do not matter. *)
Theorem C23_dependencies_present H r : reachable H r -> deps_closed H r ->
  (forall f t pers src r', plain (o_name (H t)) -> (forall x, In x (dependsOn H t) -> x = t \/ registered r x) -> add_type f H r t pers src = (r', Ok tt) -> deps_closed H r') /\
  (forall f base n pers src r' out, plain n -> alias_ f H r base n pers src = (r', out) -> deps_closed H r').
Proof.
  intros Hr Hc. assert (I := reachable_Inv Hr). split.
  - intros f t pers src r' Hp Hd E. destruct (add_ok I Hp E) as (_ & _ & R & _). intros d x HX Hx. apply R in HX. apply R. destruct HX as [HX| ->]; [left; eauto|]. destruct (Hd x Hx); auto.
  - intros f base n pers src r' out Hp E d x HX Hx. apply (alias_registered I Hp E) in HX. apply (alias_registered I Hp E). eauto.
Qed.
Example C23_example :
  reachable hptr (run hptr reg0 history) /\ deps_closed hptr (run hptr reg0 history) /\ dependent hptr (run hptr reg0 history) 0 6 /\
  ~ dependent hptr (run hptr reg0 history) 5 0.
Proof.
  assert (Hr : reachable hptr (run hptr reg0 history)) by reach history. assert (I := reachable_Inv Hr).
  assert (R : forall t, t <= 6 -> registered (run hptr reg0 history) t).
  { intros t Ht. exists (o_name (hptr t)). do 7 (destruct t as [|t]; [split; [eexists; reflexivity|vm_compute; reflexivity]|]). lia. }
  split; [assumption|]. split; [|split].
  - intros d x _ Hx. apply R. do 7 (destruct d as [|d]; [simpl in Hx; intuition lia|]). destruct Hx.
  - apply (@dep_step _ _ _ 6 5); [apply R; lia|left; reflexivity|]. apply (@dep_step _ _ _ 5 1); [apply R; lia|left; reflexivity|]. apply (@dep_step _ _ _ 1 0); [apply R; lia|left; reflexivity|]. constructor.
  - intros X. inversion X. match goal with Hx : In _ (dependsOn hptr 0) |- _ => destruct Hx end.
Qed.

(** ** C24 *)
(** isSame never says that two registries are the same, unless they are empty: it is false, or the behaviour is
    undefined. *)
Theorem C24_never_true_refuted H a b : reachable H a -> (exists t, registered a t) -> forall f, reg_isSame f H a b <> Ok true.
Proof.
  intros Hr (t & n & Ha & Hg) f E. destruct (get_In (reachable_Inv Hr) Ha Hg) as (e & Hi & _). unfold reg_isSame in E. destruct (negb _); [discriminate|].
  destruct (r_global a) as [|[k x] ga]; [destruct Hi|]. destruct (r_global b) as [|[k' y] gb]; [discriminate|]. destruct (isSame f H (e_type x) (e_type y)) as [[]| | |]; discriminate.
Qed.
Theorem C24_self_undefined_refuted H r : reachable H r -> (exists t, registered r t) -> exists k, forall f, k <= f -> reg_isSame f H r r = UB UOther.
Proof.
  intros Hr (t & n & Ha & Hg). destruct (get_In (reachable_Inv Hr) Ha Hg) as (e & Hi & _). exists 1. intros f Hf. unfold reg_isSame. rewrite Nat.eqb_refl. cbn [negb].
  destruct (r_global r) as [|[k' x] ga]; [destruct Hi|]. unfold isSame, compare_types. rewrite Nat.eqb_refl. reflexivity.
Qed.
(** What remains: true is right, and false is given only when the numbers of names differ or when the types of the least
    names are different. *)
Theorem C24_answers_partial H a b f v : reachable H a -> reachable H b -> reg_isSame f H a b = Ok v ->
  (v = true -> (forall k, absolute k -> get a k = None) /\ (forall k, absolute k -> get b k = None)) /\
  (v = false -> length (r_global a) <> length (r_global b) \/
     exists n x ga m y gb, r_global a = (n, x) :: ga /\ r_global b = (m, y) :: gb /\ isSame f H (e_type x) (e_type y) = Ok false).
Proof.
  intros Ha Hb E. assert (Ia := reachable_Inv Ha). assert (Ib := reachable_Inv Hb). unfold reg_isSame in E. destruct (Nat.eqb_spec (length (r_global a)) (length (r_global b))) as [El|El]; cbn [negb] in E.
  - destruct (r_global a) as [|[n x] ga] eqn:Ega.
    + inversion E; subst v. split; [|discriminate]. intros _. destruct (r_global b) as [|? ?] eqn:Egb; [|discriminate]. split; intros k Hk.
      * rewrite (get_global Ia Hk), Ega. reflexivity.
      * rewrite (get_global Ib Hk), Egb. reflexivity.
    + destruct (r_global b) as [|[m y] gb] eqn:Egb; [discriminate|]. destruct (isSame f H (e_type x) (e_type y)) as [[]| | |] eqn:Es; try discriminate. inversion E; subst v. split; [discriminate|]. intros _. right. exists n, x, ga, m, y, gb. auto.
  - inversion E; subst v. split; [discriminate|]. intros _. left. assumption.
Qed.
Example C24_example : (exists t, registered (run hptr reg0 history) t) /\ reg_isSame 9 hptr (run hptr reg0 history) (run hptr reg0 late) = Ok false /\
  reg_isSame 9 hptr reg0 reg0 = Ok true.
Proof. split; [|split; vm_compute; reflexivity]. exists 0, (s_ "/A"). split; [eexists; reflexivity|vm_compute; reflexivity]. Qed.

(** ** C41 *)
(** After a successful alias(base, n), the pointer, array or vector type [D] on base can be found under its name spelled
    with [n], unless this name was already taken. *)
Theorem C41_derived_names f H r base n pers src r' b D mk : names_ok H -> reachable H r -> plain n ->
  get r base = Some b -> alias_ f H r base n pers src = (r', Ok tt) -> registered r D -> indirect_name H D = Some (b, mk) ->
  (get r (mk n) = None -> get r' (mk n) = Some D) /\ (forall x, get r (mk n) = Some x -> get r' (mk n) = Some x).
Proof.
  intros Hn Hr Hp Hb E HD Hi. assert (I := reachable_Inv Hr). destruct (alias_derived Hn I Hp Hb E HD Hi) as [X|(x & X & Y)].
  - split; [auto|]. intros x Hx. destruct (alias_effect I Hp E) as (_ & M & _). apply M; [|assumption]. eapply indirect_abs; [exact Hi|]. apply plain_absolute. assumption.
  - split; [congruence|]. intros y Hy. congruence.
Qed.
(** Indirections of indirections included: in a registry in which every indirection to a type has a name built on each of
    the names of this type, successful additions and aliases keep it so. *)
Theorem C41_all_derived_names H r : names_ok H -> reachable H r ->
  (forall D x mk a, registered r D -> indirect_name H D = Some (x, mk) -> absolute a -> get r a = Some x -> get r (mk a) <> None) ->
  forall o f r', (exists t p s, o = OpAdd t p s) \/ (exists b n p s, o = OpAlias b n p s) -> op_ok H o -> exec f H r o = (r', Ok tt) ->
  (forall D x mk a, registered r' D -> indirect_name H D = Some (x, mk) -> absolute a -> get r' a = Some x -> get r' (mk a) <> None).
Proof.
  intros Hn Hr Hc o f r' Ho Hok E. assert (I := reachable_Inv Hr). destruct Ho as [(t & p & s & ->)|(b & n & p & s & ->)]; cbn [exec op_ok] in *.
  - apply (add_closed Hn I Hok Hc E).
  - apply (alias_closed Hn I Hok Hc E).
Qed.
(** When a derived name is not a valid one, alias throws and leaves its effects: with /A and /A*, alias /v[3]. *)
Theorem C41_failed_alias_refuted : exists H r base n r' t,
  reachable H r /\ names_ok H /\ alias_ 30 H r base n true [] = (r', Throw EBadName) /\ get r n = None /\ get r' n = Some t.
Proof.
  exists hptr, (run hptr reg0 [OpAdd 0 true []; OpAdd 1 true []]), (s_ "/A"), (s_ "/v[3]"). eexists. exists 0. split; [|split; [|split; [|split]]].
  - reach [OpAdd 0 true []; OpAdd 1 true []].
  - apply hptr_names.
  - vm_compute. reflexivity.
  - vm_compute. reflexivity.
  - vm_compute. reflexivity.
Qed.
Example C41_example : let r := run hptr reg0 (firstn 4 history) in let r' := fst (alias_ 30 hptr r (s_ "/A") (s_ "/D/E") true []) in
  reachable hptr r /\ plain (s_ "/D/E") /\ get r (s_ "/A") = Some 0 /\ registered r 3 /\ indirect_name hptr 3 = Some (0, fun n => getArrayName n 2) /\
  snd (alias_ 30 hptr r (s_ "/A") (s_ "/D/E") true []) = Ok tt /\ get r' (s_ "/D/E[2]") = Some 3 /\ get r' (s_ "/D/E**") = Some 2.
Proof.
  cbn zeta. split; [reach (firstn 4 history)|]. split; [pl|]. split; [vm_compute; reflexivity|]. split; [|repeat split; vm_compute; reflexivity].
  exists (s_ "/A[2]"). split; [eexists; reflexivity|vm_compute; reflexivity].
Qed.

(** ** C45 *)
(** clear() (and the destructor) deletes each type of the registry exactly once, however many names it has. *)
Theorem C45_clear H r : reachable H r ->
  NoDup (snd (clear H r)) /\ (forall t, In t (snd (clear H r)) <-> registered r t) /\ (forall n, get (fst (clear H r)) n = None).
Proof.
  intros Hr. assert (I := reachable_Inv Hr). split; [|split; [|reflexivity]].
  - cbn [clear snd]. assert (Hn := gsorted_NoDup (inv_sorted I)). clear I Hr. induction (r_global r) as [|[k e] g IH]; [constructor|]. inversion Hn as [|? ? Hk Hn']; subst. cbn [filter].
    destruct (negb (isAlias H (k, e))) eqn:Ea; [|auto]. cbn [map]. constructor; [|auto]. unfold isAlias in Ea. rewrite negb_involutive in Ea. apply seqb_eq in Ea. cbn [fst snd] in Ea.
    intros Hi. apply in_map_iff in Hi. destruct Hi as ([k2 e2] & Et & Hi). cbn [snd] in Et. apply filter_In in Hi. destruct Hi as [Hi Ha2]. unfold isAlias in Ha2. rewrite negb_involutive in Ha2. apply seqb_eq in Ha2. cbn [fst snd] in Ha2.
    apply Hk. apply in_map_iff. exists (k2, e2). split; [|assumption]. cbn [fst]. congruence.
  - intros t. cbn [clear snd]. rewrite in_map_iff. split.
    + intros ([k e] & Et & Hi). cbn [snd] in Et. apply filter_In in Hi. destruct Hi as [Hi _]. destruct (global_get I Hi) as (A & _ & B). exists k. split; [assumption|congruence].
    + intros Hreg. apply (prim_registered t I) in Hreg. destruct Hreg as (e & Hi & He). exists (o_name (H t), e). split; [assumption|]. apply filter_In. split; [assumption|].
      unfold isAlias. cbn [fst snd]. rewrite He, seqb_refl. reflexivity.
Qed.
Example C45_example : snd (clear hptr (run hptr reg0 history)) = [0; 1; 2; 3; 5; 6; 4].
Proof. vm_compute. reflexivity. Qed.

Print Assumptions C21_add.
Print Assumptions C22_after_setDefaultNamespace.
Print Assumptions C23_remove.
Print Assumptions C41_all_derived_names.
Print Assumptions C45_clear.
