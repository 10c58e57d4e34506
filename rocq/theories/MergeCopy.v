(** * MergeCopy: a merge into an empty registry succeeds. *)
From Verif Require Import Base Types NamesSpec Names NamesProofs Registry RegistrySpec RegistryProofs RegistryOps RegistryMain RegistryAlias World TypeBuilderSpec TypeBuilder TypeBuilderProofs TlbCore TlbBuild Merge MergeSpec MergeProofs MergeRel MergeMain MergeReg.
From Verif Require Import Graph GraphSpec GraphProofs.
Local Open Scope nat_scope.

Lemma bind_ok {X Y} (m : MM X) (k : X -> MM Y) st st' x : m st = (st', Ok x) -> mbind m k st = k x st'.
Proof. unfold mbind. intros ->. reflexivity. Qed.
Lemma bind_eq {X Y} (m m' : MM X) (k : X -> MM Y) st : m st = m' st -> mbind m k st = mbind m' k st.
Proof. unfold mbind. intros ->. reflexivity. Qed.
Lemma bind_assoc {X Y Z} (m : MM X) (k : X -> MM Y) (l : Y -> MM Z) st : mbind (mbind m k) l st = mbind m (fun x => mbind (k x) l) st.
Proof. unfold mbind. destruct (m st) as [st' [x|e|u|]]; reflexivity. Qed.
Lemma get_reg0 n : get reg0 n = None.
Proof. reflexivity. Qed.
Lemma no_reg0 t : ~ registered reg0 t.
Proof. intros (n & _ & E). discriminate. Qed.

(** No aliases. *)
Definition unaliased (H : heap) (r : reg) : Prop := forall k t, absolute k -> get r k = Some t -> k = o_name (H t).
Lemma no_aliases H r t : Inv H r -> unaliased H r -> getAliasesOf H r t = [].
Proof.
  intros I U. destruct (getAliasesOf H r t) as [|a l] eqn:E; [reflexivity|]. exfalso. destruct (proj1 (aliases_get t a I)) as (Ha & G & N); [rewrite E; left; reflexivity|]. apply N. apply U; assumption.
Qed.
Lemma no_trigger H r t : Inv H r -> unaliased H r -> existsb (fun d => negb (match getAliasesOf H r d with [] => true | _ => false end)) (dependsOn H t) = false.
Proof. intros I U. apply not_true_is_false. intros E. apply existsb_exists in E. destruct E as (d & _ & E). rewrite (no_aliases d I U) in E. discriminate. Qed.
(** add() of a new type. *)
Lemma add_new H r b : Inv H r -> unaliased H r -> plain (o_name (H b)) -> isValidTypename (o_name (H b)) true = true -> get r (o_name (H b)) = None ->
  exists r', (forall f, add f H r b [] = (r', Ok tt)) /\ Inv H r' /\ unaliased H r' /\ (forall k, absolute k -> get r' k = if seqb (o_name (H b)) k then Some b else get r k).
Proof.
  intros I U P V G. set (e := Ent b (isPersistent H (o_name (H b)) b) []). destruct (add_named H r (o_name (H b)) e) as [r' out] eqn:Ea.
  destruct (add_named_spec P Ea) as [(_ & _ & X)|[(_ & _ & X)|[(_ & _ & t & X & _)|(-> & Hb)]]]; try congruence.
  destruct (bound_Inv I Hb) as (I' & G' & _); [left; reflexivity|]. cbn [e e_type] in G'.
  assert (U' : unaliased H r').
  { intros k t Hk Gk. rewrite G' in Gk by assumption. destruct (seqb (o_name (H b)) k) eqn:Es; [apply seqb_eq in Es; congruence|apply U; assumption]. }
  exists r'. split; [|auto]. intros f. unfold add, add_type. fold e. rewrite Ea. cbn [seq_]. rewrite (no_trigger b I' U'). reflexivity.
Qed.
(** add() of a type that is there. *)
Lemma add_same f H r b : Inv H r -> unaliased H r -> isValidTypename (o_name (H b)) true = true -> get r (o_name (H b)) = Some b -> add f H r b [] = (r, Ok tt).
Proof.
  intros I U V G. unfold add, add_type, add_named. rewrite V. cbn [negb]. rewrite G. cbn [e_type]. rewrite Nat.eqb_refl. cbn [seq_]. rewrite (no_trigger b I U). reflexivity.
Qed.

Section Copy.
Variables (H0 : heap) (N0 : tid) (A : reg).
Hypothesis PA : proper H0 N0 A.
Hypothesis Cons : forall t, constructed_as H0 t.
Hypothesis Arr : forall t, registered A t -> no_array_cycle H0 t.
Let IA : Inv H0 A := reachable_Inv (pr_reachable PA).
Let VA : valid_names A := reachable_valid (pr_reachable PA).
Let Disj : forall t, registered A t -> registered reg0 t -> False := fun t _ X => no_reg0 X.
Notation Rel := (Rel H0 N0 A reg0).
Notation RelS Q W st := (Rel Q W (m_store st) (m_reg st) (m_stack st)).

Lemma A_valid a : registered A a -> isValidTypename (o_name (H0 a)) true = true.
Proof. intros Ha. destruct (A_name PA Ha) as [Hn G]. exact (valid_get IA VA Hn G). Qed.
Record Fresh (H : heap) (r : reg) (sk : stack) : Prop := {
  fr_names : unaliased H r;
  fr_stack : forall x y, In (x, y) sk -> registered A x /\ o_name (H y) = o_name (H0 x)
}.
Notation FreshS st := (Fresh (m_heap st) (m_reg st) (m_stack st)).
(** A type that is not on the stack is not in the registry. *)
Lemma fresh_get W st a : RelS [] W st -> FreshS st -> registered A a -> lookup a (m_stack st) = None -> get (m_reg st) (o_name (H0 a)) = None.
Proof.
  intros R F Ha Hl. destruct (get (m_reg st) (o_name (H0 a))) as [t|] eqn:G; [|reflexivity]. exfalso. destruct (A_name PA Ha) as [Hn _]. assert (E := fr_names F Hn G).
  assert (Rt : registered (m_reg st) t) by (exists (o_name (H0 a)); auto). destruct (rl_types R Rt) as [X|(a' & Ha' & Hl')]; [exact (no_reg0 X)|].
  destruct (fr_stack F (lookup_In Hl')) as [_ E']. assert (a' = a) by (apply (A_unique PA); congruence). congruence.
Qed.
Lemma fresh_try W st a f : RelS [] W st -> FreshS st -> registered A a -> lookup a (m_stack st) = None -> try_merge f a st = (st, Ok None).
Proof. intros R F Ha Hl. unfold try_merge. rewrite Hl. assert (Hh : m_heap st a = H0 a) by exact (A_heap PA R Ha). rewrite Hh, (fresh_get R F Ha Hl). reflexivity. Qed.

(** The types that are not on the stack. *)
Definition left_ (sk : stack) : list tid := filter (fun a => match lookup a sk with Some _ => false | None => true end) (map (fun p => e_type (snd p)) (r_global A)).
Lemma left_mono sk sk' : (forall x y, lookup x sk = Some y -> lookup x sk' = Some y) -> length (left_ sk') <= length (left_ sk).
Proof.
  intros Hs. unfold left_. induction (map _ _) as [|x l IH]; [apply le_n|]. cbn [filter]. destruct (lookup x sk) as [y|] eqn:E; [rewrite (Hs _ _ E); exact IH|]. destruct (lookup x sk'); cbn [length]; lia.
Qed.
Lemma left_less sk sk' a : (forall x y, lookup x sk = Some y -> lookup x sk' = Some y) -> registered A a -> lookup a sk = None -> lookup a sk' <> None -> length (left_ sk') < length (left_ sk).
Proof.
  intros Hs Ha Hl Hl'. assert (Hi : In a (map (fun p => e_type (snd p)) (r_global A))).
  { destruct (A_name PA Ha) as [Hn G]. destruct (get_In IA Hn G) as (e & Hi & <-). apply (in_map (fun p => e_type (snd p))) in Hi. exact Hi. }
  unfold left_. induction (map _ _) as [|x l IH]; [destruct Hi|]. cbn [filter].
  assert (M : length (filter (fun a => match lookup a sk' with Some _ => false | None => true end) l) <= length (filter (fun a => match lookup a sk with Some _ => false | None => true end) l)).
  { clear - Hs. induction l as [|x l IH]; [apply le_n|]. cbn [filter]. destruct (lookup x sk) as [y|] eqn:E; [rewrite (Hs _ _ E); exact IH|]. destruct (lookup x sk'); cbn [length]; lia. }
  destruct Hi as [-> |Hi].
  - rewrite Hl. destruct (lookup a sk'); [cbn [length]; lia|congruence].
  - specialize (IH Hi). destruct (lookup x sk) as [y|] eqn:E; [rewrite (Hs _ _ E); exact IH|]. destruct (lookup x sk'); cbn [length]; lia.
Qed.

(** For all large bounds, the call returns [x] in the state [st']. *)
Definition done {X} (m : nat -> nat -> MM X) (st : mstate) (x : X) (st' : mstate) : Prop := exists N, forall d f, N <= d -> N <= f -> m d f st = (st', Ok x).
Definition new_from (P : tid -> Prop) (st st' : mstate) : Prop := forall t, registered (m_reg st') t -> registered (m_reg st) t \/ exists a', P a' /\ lookup a' (m_stack st') = Some t.
Definition goal (st : mstate) (a : tid) : Prop := exists b st', done (fun d f => merge_ d f a) st b st' /\ FreshS st' /\ new_from (reaches H0 a) st st'.
Lemma goal_merged W st a b st' : RelS [] W st -> registered A a -> above H0 W (m_stack st) a -> done (fun d f => merge_ d f a) st b st' -> merged H0 N0 A reg0 W st a b st'.
Proof.
  intros R Ha U (N & E). assert (X := merge_ok PA Disj Cons Arr N N R Ha U). unfold wp in X. rewrite (E N N) in X by lia. exact X.
Qed.
(** The end of a merge, when the new object [b] is ready. *)
Lemma finish st a b : Inv (m_heap st) (m_reg st) -> unaliased (m_heap st) (m_reg st) -> registered A a -> o_name (m_heap st b) = o_name (H0 a) -> get (m_reg st) (o_name (H0 a)) = None ->
  exists r', (forall f, m_add f b st = (MS (m_store st) r' (m_stack st) (m_freed st), Ok tt)) /\ Inv (m_heap st) r' /\ unaliased (m_heap st) r' /\
    (forall k, absolute k -> get r' k = if seqb (o_name (H0 a)) k then Some b else get (m_reg st) k).
Proof.
  intros I U Ha En G. destruct (@add_new (m_heap st) (m_reg st) b I U) as (r' & E & I' & U' & G'); try (rewrite En); [apply (A_plain PA Ha)|apply (A_valid Ha)|exact G|].
  exists r'. split; [intros f; unfold m_add; rewrite E; reflexivity|]. rewrite En in G'. auto.
Qed.
Lemma keeps_names W st s' : RelS [] W st -> (forall t, t < s_next (m_store st) -> s_heap s' t = m_heap st t) -> unaliased (m_heap st) (m_reg st) -> Inv (s_heap s') (m_reg st) /\ unaliased (s_heap s') (m_reg st).
Proof.
  intros R Hh U. assert (E : forall t, registered (m_reg st) t -> s_heap s' t = m_heap st t) by (intros t Ht; apply Hh, (rl_reg R Ht)). split; [eapply Inv_agree; [exact E|apply (rl_inv R)]|].
  intros k t Hk G. rewrite E by (exists k; auto). apply U; assumption.
Qed.
Lemma stack_names W st s' x y : RelS [] W st -> (forall t, t < s_next (m_store st) -> s_heap s' t = m_heap st t) -> FreshS st -> In (x, y) (m_stack st) -> registered A x /\ o_name (s_heap s' y) = o_name (H0 x).
Proof.
  intros R Hh F Hi. destruct (fr_stack F Hi) as [Hx E]. split; [assumption|]. rewrite Hh; [exact E|].
  destruct (rl_stack R Hi) as [[_ [Y|[Y _]]]|[X _]]; [apply (rl_work R Y)|apply (rl_reg R Y)|]. destruct (rl_reg R X) as (_ & _ & Z). contradiction.
Qed.
(** A new object [c], given to the registry at once. *)
Lemma fresh_new W st a o (P : tid -> Prop) : RelS [] W st -> FreshS st -> registered A a -> lookup a (m_stack st) = None -> o_name o = o_name (H0 a) -> P a ->
  let s1 := alloc (m_store st) o in let c := s_next (m_store st) in
  exists r', (forall f sk, m_add f c (MS s1 (m_reg st) sk (m_freed st)) = (MS s1 r' sk (m_freed st), Ok tt)) /\ Inv (s_heap s1) r' /\ get r' (o_name (H0 a)) = Some c /\
    Fresh (s_heap s1) r' ((a, c) :: m_stack st) /\ new_from P st (MS s1 r' ((a, c) :: m_stack st) (m_freed st)).
Proof.
  intros R F Ha Hl En Pa s1 c. assert (Hh : forall t, t < s_next (m_store st) -> s_heap s1 t = m_heap st t) by (intros t Ht; apply alloc_below; assumption).
  assert (Hc : s_heap s1 c = o) by apply upd_same. destruct (keeps_names R Hh (fr_names F)) as [I1 U1]. assert (G := fresh_get R F Ha Hl).
  destruct (@add_new (s_heap s1) (m_reg st) c I1 U1) as (r' & E & I' & U' & G'); try (rewrite Hc, En); [apply (A_plain PA Ha)|apply (A_valid Ha)|exact G|].
  rewrite Hc, En in G'. exists r'. split; [intros f sk; unfold m_add, m_heap; cbn [m_store m_reg]; rewrite E; reflexivity|]. split; [exact I'|].
  destruct (A_name PA Ha) as [Hn _]. split; [rewrite G', seqb_refl by assumption; reflexivity|]. split.
  - constructor; [exact U'|]. intros x y [X|X]; [injection X as <- <-; rewrite Hc; auto|]. exact (stack_names R Hh F X).
  - intros t (k & Hk & Gk). cbn [m_reg m_stack] in *. rewrite G' in Gk by assumption. destruct (seqb _ k); [|left; exists k; auto]. injection Gk as <-. right. exists a. split; [exact Pa|]. apply lookup_same.
Qed.

Lemma type_merge_fresh W st a rec f : RelS [] W st -> FreshS st -> registered A a -> lookup a (m_stack st) = None ->
  type_merge rec f a st = (b <~~ do_merge rec f a ; _ <~~ m_push a b ; _ <~~ m_add f b ; mret (Ok b)) st.
Proof. intros R F Ha Hl. unfold type_merge. rewrite (bind_ok _ (fresh_try f R F Ha Hl)). reflexivity. Qed.
Definition direct (k : okind) : Prop := match k with OPtr _ | OArr _ _ | OCont _ _ => False | _ => True end.
Lemma merge_direct d f a st : direct (o_kind (m_heap st a)) -> merge_ (S d) f a st = type_merge (merge_ d f) f a st.
Proof. intros K. cbn [merge_]. unfold mbind at 1, m_obj, asks. destruct (o_kind (m_heap st a)); try destruct K; reflexivity. Qed.
Lemma push_new st a b sk : lookup a sk = None -> m_push a b (MS (m_store st) (m_reg st) sk (m_freed st)) = (MS (m_store st) (m_reg st) ((a, b) :: sk) (m_freed st), Ok tt).
Proof. intros Hl. unfold m_push. cbn [m_store m_reg m_stack m_freed]. rewrite insert_none by assumption. reflexivity. Qed.

(** *** Types without dependencies *)
Lemma leaf_total W st a : RelS [] W st -> FreshS st -> registered A a -> lookup a (m_stack st) = None -> leaf (o_kind (H0 a)) -> goal st a.
Proof.
  intros R F Ha Hl Hk. assert (Hh : m_heap st a = H0 a) by exact (A_heap PA R Ha).
  destruct (@fresh_new W st a (H0 a) (reaches H0 a) R F Ha Hl eq_refl (reaches_refl _ _)) as (r' & E & I' & G & F' & Nw). cbv zeta in *.
  set (s1 := alloc (m_store st) (H0 a)) in *. set (c := s_next (m_store st)) in *. exists c, (MS s1 r' ((a, c) :: m_stack st) (m_freed st)). split; [|split; [exact F'|exact Nw]].
  exists 1. intros d f Hd _. destruct d as [|d]; [lia|]. rewrite merge_direct by (rewrite Hh; destruct (o_kind (H0 a)); try destruct Hk; exact Logic.I).
  rewrite (type_merge_fresh _ _ R F Ha Hl).
  assert (Ed : do_merge (merge_ d f) f a st = (MS s1 (m_reg st) (m_stack st) (m_freed st), Ok c)).
  { unfold do_merge, mbind at 1, m_obj, asks. rewrite Hh. destruct (o_kind (H0 a)); try destruct Hk; reflexivity. }
  rewrite (bind_ok _ Ed). unfold mbind at 1, m_push. cbn [m_store m_reg m_stack m_freed]. rewrite insert_none by assumption. rewrite (bind_ok _ (E f _)). reflexivity.
Qed.
(** *** Pointers, arrays, containers *)
Lemma has_no n st : absolute n -> base_name n -> get (m_reg st) n = None -> m_has n st = (st, Ok false).
Proof. intros Ha Hb G. unfold m_has. rewrite has_get, G. rewrite full_abs by assumption. unfold getBaseType, parse. rewrite parse_base by assumption. cbn [bind fst]. rewrite G. reflexivity. Qed.
Lemma has_yes n st t : get (m_reg st) n = Some t -> m_has n st = (st, Ok true).
Proof. intros G. unfold m_has. rewrite has_get, G. reflexivity. Qed.
Lemma unaliased_alike H H' r : alike H H' -> unaliased H r -> unaliased H' r.
Proof. intros Al U k t Hk G. destruct (Al t) as [-> _]. apply U; assumption. Qed.
Lemma container_total W st a o (P : tid -> Prop) sz : RelS [] W st -> FreshS st -> registered A a -> lookup a (m_stack st) = None -> o_name o = o_name (H0 a) -> P a ->
  exists st', (forall f, (t <~~ (t <~~ m_new o ; _ <~~ m_add f t ; mret (Ok t)) ; b <~~ (_ <~~ m_setSize t sz ; mret (Ok t)) ; _ <~~ m_push a b ; _ <~~ m_add f b ; mret (Ok b)) st = (st', Ok (s_next (m_store st)))) /\
    FreshS st' /\ new_from P st st'.
Proof.
  intros R F Ha Hl En Pa. destruct (@fresh_new W st a o P R F Ha Hl En Pa) as (r' & E & I' & G & F' & Nw). cbv zeta in *.
  set (s1 := alloc (m_store st) o) in *. set (c := s_next (m_store st)) in *. assert (Hc : s_heap s1 c = o) by apply upd_same.
  set (o2 := Obj (o_name o) sz (o_kind o)). set (s2 := Store (upd (s_heap s1) c o2) (s_next s1)).
  assert (Al : alike (s_heap s1) (s_heap s2)) by (assert (X := @alike_size (s_heap s1) c sz); rewrite Hc in X; exact X).
  assert (U2 : unaliased (s_heap s2) r') by (eapply unaliased_alike; [exact Al|apply F']).
  assert (I2 : Inv (s_heap s2) r') by (eapply Inv_names; [|exact I']; intros t _; apply Al).
  assert (N2 : o_name (s_heap s2 c) = o_name (H0 a)) by (destruct (Al c) as [-> _]; rewrite Hc; exact En).
  exists (MS s2 r' ((a, c) :: m_stack st) (m_freed st)). split; [|split].
  - intros f. assert (E1 : (t <~~ m_new o ; _ <~~ m_add f t ; mret (Ok t)) st = (MS s1 r' (m_stack st) (m_freed st), Ok c)).
    { unfold mbind at 1, m_new. fold s1 c. rewrite (bind_ok _ (E f _)). reflexivity. }
    rewrite (bind_ok _ E1). assert (E2 : (_ <~~ m_setSize c sz ; mret (Ok c)) (MS s1 r' (m_stack st) (m_freed st)) = (MS s2 r' (m_stack st) (m_freed st), Ok c)).
    { unfold m_setSize, m_obj, asks, m_set, mbind, mret. cbn [m_store m_reg m_stack m_freed]. unfold m_heap. cbn [m_store]. rewrite Hc. reflexivity. }
    rewrite (bind_ok _ E2). unfold mbind at 1, m_push. cbn [m_store m_reg m_stack m_freed]. rewrite insert_none by assumption.
    assert (E3 : m_add f c (MS s2 r' ((a, c) :: m_stack st) (m_freed st)) = (MS s2 r' ((a, c) :: m_stack st) (m_freed st), Ok tt)).
    { unfold m_add, m_heap. cbn [m_store m_reg m_stack m_freed]. rewrite (@add_same f (s_heap s2) r' c I2 U2); [reflexivity| |]; rewrite N2; [apply (A_valid Ha)|exact G]. }
    rewrite (bind_ok _ E3). reflexivity.
  - constructor; [exact U2|]. intros x y X. destruct (fr_stack F' X) as [Hx Ex]. split; [assumption|]. unfold m_heap. cbn [m_store]. destruct (Al y) as [-> _]. exact Ex.
  - exact Nw.
Qed.
Lemma indirect_total W st a x d : RelS [] W st -> FreshS st -> registered A a -> lookup a (m_stack st) = None ->
  (match o_kind (H0 a) with OPtr y | OArr _ y | OCont _ y => y = x | _ => False end) -> (exists t, lookup x (m_stack st) = Some t) -> d <> 0 ->
  exists b st', (forall f, type_merge (merge_ d f) f a st = (st', Ok b)) /\ FreshS st' /\ new_from (reaches H0 a) st st' /\ (forall d', d' <> 0 -> forall f, type_merge (merge_ d' f) f a st = (st', Ok b)).
Proof.
  intros R F Ha Hl K Hx Hd. cut (exists b st', FreshS st' /\ new_from (reaches H0 a) st st' /\ (forall d', d' <> 0 -> forall f, type_merge (merge_ d' f) f a st = (st', Ok b))).
  { intros (b & st' & F' & N' & E). exists b, st'. split; [intros f; apply E; assumption|auto]. }
  clear d Hd. destruct Hx as (t & Hlx). assert (Dx : In x (dependsOn H0 a)) by (unfold dependsOn; destruct (o_kind (H0 a)); try contradiction; left; assumption). assert (Hx := A_dep PA Ha Dx).
  assert (Hh : m_heap st a = H0 a) by exact (A_heap PA R Ha). assert (Ca := Cons a). unfold constructed_as in Ca. destruct (fr_stack F (lookup_In Hlx)) as [_ Nt]. assert (G := fresh_get R F Ha Hl).
  assert (Simple : forall o, o_name o = o_name (H0 a) -> (forall d f, do_merge (merge_ (S d) f) f a st = m_new o st) ->
    exists b st', FreshS st' /\ new_from (reaches H0 a) st st' /\ (forall d', d' <> 0 -> forall f, type_merge (merge_ d' f) f a st = (st', Ok b))).
  { intros o En Ed. destruct (@fresh_new W st a o (reaches H0 a) R F Ha Hl En (reaches_refl _ _)) as (r' & E & I' & Gc & F' & Nw). cbv zeta in *.
    exists (s_next (m_store st)), (MS (alloc (m_store st) o) r' ((a, s_next (m_store st)) :: m_stack st) (m_freed st)). split; [exact F'|]. split; [exact Nw|].
    intros d Hd f. destruct d as [|d]; [congruence|]. rewrite (type_merge_fresh _ _ R F Ha Hl). unfold mbind at 1. rewrite Ed. unfold m_new at 1. unfold mbind at 1, m_push. cbn [m_store m_reg m_stack m_freed]. rewrite insert_none by assumption. rewrite (bind_ok _ (E f _)). reflexivity. }
  destruct (o_kind (H0 a)) as [| | | |y|dm y|k y|] eqn:Ka; try contradiction; subst y.
  - apply (Simple (pointer_obj (m_heap st) t)); [cbn [pointer_obj o_name]; destruct Ca as [-> _]; congruence|]. intros d f. unfold do_merge, mbind at 1, m_obj, asks. rewrite Hh, Ka. rewrite (bind_ok _ (merge_hit d f Hlx)). reflexivity.
  - apply (Simple (array_obj (m_heap st) t dm)); [cbn [array_obj o_name]; destruct Ca as [-> _]; congruence|]. intros d f. unfold do_merge, mbind at 1, m_obj, asks. rewrite Hh, Ka. rewrite (bind_ok _ (merge_hit d f Hlx)). reflexivity.
  - assert (Cont : forall o, o_name o = o_name (H0 a) -> (forall f, (match k with KVec => vector_factory f t | KStr => string_factory f t end) st = (t <~~ m_new o ; _ <~~ m_add f t ; mret (Ok t)) st) ->
      exists b st', FreshS st' /\ new_from (reaches H0 a) st st' /\ (forall d', d' <> 0 -> forall f, type_merge (merge_ d' f) f a st = (st', Ok b))).
    { intros o En Ef. destruct (@container_total W st a o (reaches H0 a) (o_size (H0 a)) R F Ha Hl En (reaches_refl _ _)) as (st' & E & F' & Nw). exists (s_next (m_store st)), st'. split; [exact F'|]. split; [exact Nw|].
      intros d Hd f. destruct d as [|d]; [congruence|]. rewrite (type_merge_fresh _ _ R F Ha Hl). rewrite <- (E f).
      assert (Ed : do_merge (merge_ (S d) f) f a st = (b <~~ (t <~~ m_new o ; _ <~~ m_add f t ; mret (Ok t)) ; _ <~~ m_setSize b (o_size (H0 a)) ; mret (Ok b)) st).
      { unfold do_merge. unfold mbind at 1, m_obj at 1, asks at 1. rewrite Hh, Ka. rewrite (bind_ok _ (merge_hit d f Hlx)). apply bind_eq. apply Ef. }
      rewrite (bind_eq _ Ed). rewrite bind_assoc. reflexivity. }
    destruct k.
    + apply (Cont (Obj (vector_fullName (o_name (m_heap st t))) 24 (OCont KVec t))); [cbn [o_name]; congruence|]. intros f. unfold vector_factory. unfold mbind at 1, m_obj, asks.
      destruct (vector_base (o_name (m_heap st t))) as [X Y]. rewrite (bind_ok _ (has_no (st := st) X Y ltac:(rewrite Nt, <- Ca; exact G))). reflexivity.
    + destruct Ca as (En & Ex & c & Kc). apply (Cont (Obj (s_ "/std/string") 32 (OCont KStr t))); [cbn [o_name]; congruence|]. intros f. unfold string_factory.
      assert (Hs : absolute (s_ "/std/string") /\ base_name (s_ "/std/string")) by (split; [eexists; reflexivity|exists "/"%char, (s_ "std/strin"), "g"%char; repeat split; discriminate]). destruct Hs as [X Y].
      rewrite (bind_ok _ (has_no (st := st) X Y ltac:(rewrite <- En; exact G))).
      assert (G8 : get (m_reg st) (s_ "/int8_t") = Some t). { rewrite <- Ex. destruct (image R Hx Hlx) as [Z|[_ Z]]; [|exact Z]. destruct (image_name R Hx Hlx Z) as (_ & _ & fs & Z'). congruence. }
      rewrite (bind_ok _ (has_yes (st := st) G8)). unfold mbind at 1. unfold mbind at 1, asks. rewrite G8. reflexivity.
Qed.

(** *** Compounds *)
Definition keeps (st st' : mstate) : Prop := forall x y, lookup x (m_stack st) = Some y -> lookup x (m_stack st') = Some y.
Lemma new_trans (P : tid -> Prop) a b c : new_from P a b -> new_from P b c -> keeps b c -> new_from P a c.
Proof. intros N1 N2 K t Ht. destruct (N2 t Ht) as [X|X]; [|right; exact X]. destruct (N1 t X) as [Y|(a' & Pa & L)]; [left; exact Y|right; exists a'; auto]. Qed.
Definition all_below (n : nat) : Prop := forall W st x, RelS [] W st -> FreshS st -> registered A x -> above H0 W (m_stack st) x -> length (left_ (m_stack st)) <= n -> goal st x.
Lemma fields_total n W a c nm : all_below n -> registered A a -> forall xs fs st z, (forall x, In x xs -> In (f_type x) (dependsOn H0 a)) ->
  RelS [] (c :: W) st -> FreshS st -> lookup a (m_stack st) = Some c -> above H0 (c :: W) (m_stack st) a -> m_heap st c = Obj nm z (OComp fs) -> length (left_ (m_stack st)) <= n ->
  exists st' z' gs, done (fun d f => merge_fields (merge_ d f) c xs) st tt st' /\ RelS [] (c :: W) st' /\ FreshS st' /\ keeps st st' /\ new_from (reaches H0 a) st st' /\ m_heap st' c = Obj nm z' (OComp gs).
Proof.
  intros IH Ha. induction xs as [|x xs IHx]; intros fs st z Hxs R F Hl U Hc Hn.
  - exists st, z, fs. split; [exists 0; reflexivity|]. split; [assumption|]. split; [assumption|]. split; [intros u v X; exact X|]. split; [intros t X; left; exact X|assumption].
  - assert (Dx : In (f_type x) (dependsOn H0 a)) by (apply Hxs; left; reflexivity). assert (Ax := A_dep PA Ha Dx). assert (Ux := above_step U Dx).
    destruct (IH (c :: W) st (f_type x) R F Ax Ux Hn) as (t & st1 & D1 & F1 & N1). destruct (goal_merged R Ax Ux D1) as (R1 & L1 & E1).
    assert (Hcn : c < s_next (m_store st)) by (apply (rl_work R); left; reflexivity).
    assert (Hc1 : m_heap st1 c = Obj nm z (OComp fs)) by (destruct E1 as (_ & X & _); rewrite X by assumption; exact Hc).
    set (z1 := if (z <? (f_off x + o_size (m_heap st1 t)) mod 2 ^ 64)%N then ((f_off x + o_size (m_heap st1 t)) mod 2 ^ 64)%N else z).
    set (o := Obj nm z1 (OComp (fs ++ [Fld (f_name x) (f_off x) t]))). set (st2 := MS (Store (upd (m_heap st1) c o) (s_next (m_store st1))) (m_reg st1) (m_stack st1) (m_freed st1)).
    assert (R2 : RelS [] (c :: W) st2).
    { unfold st2. cbn [m_store m_reg m_stack]. unfold m_heap. apply (Rel_set PA Disj R1); [left; reflexivity| | |].
      - unfold m_heap in Hc1. rewrite Hc1. reflexivity.
      - intros y mk X. unfold indirect_name in X. rewrite upd_same in X. discriminate.
      - cbn [o o_kind]. rewrite map_app. intros y Hy. apply in_app_or in Hy. destruct Hy as [Hy|[<- |[]]].
        + apply (rl_wdeps R1 (t := c) (or_introl eq_refl)). unfold dependsOn. unfold m_heap in Hc1. rewrite Hc1. exact Hy.
        + cbn [f_type]. destruct (image R1 Ax L1) as [X|[X _]]; [right|left]; assumption. }
    assert (Nm : forall y, o_name (m_heap st2 y) = o_name (m_heap st1 y)).
    { intros y. unfold m_heap at 1. cbn [st2 m_store s_heap]. destruct (Nat.eq_dec y c) as [-> |Hy]; [rewrite upd_same, Hc1; reflexivity|rewrite upd_other by assumption; reflexivity]. }
    assert (F2 : FreshS st2).
    { constructor; cbn [st2 m_reg m_stack]; [intros k y Hk G; rewrite Nm; apply (fr_names F1 Hk G)|]. intros u v X. rewrite Nm. apply (fr_stack F1 X). }
    destruct (IHx (fs ++ [Fld (f_name x) (f_off x) t]) st2 z1) as (st3 & z' & gs & D3 & R3 & F3 & K3 & N3 & Hc3); try assumption.
    + intros y Hy. apply Hxs. right. assumption.
    + cbn [st2 m_stack]. apply E1. assumption.
    + cbn [st2 m_stack]. eapply (@above_ext H0 N0 A reg0 [] (c :: W) st st1); eassumption.
    + unfold m_heap. cbn [st2 m_store s_heap]. apply upd_same.
    + cbn [st2 m_stack]. etransitivity; [|exact Hn]. apply left_mono. apply E1.
    + exists st3, z', gs. split.
      * destruct D1 as (M1 & D1), D3 as (M3 & D3). exists (M1 + M3). intros d f Hd Hf. cbn [merge_fields]. rewrite (bind_ok _ (D1 d f ltac:(lia) ltac:(lia))).
        assert (Ea : add_field c (f_name x) t (f_off x) st1 = (st2, Ok tt)).
        { unfold add_field, m_obj, asks, m_set, mbind. rewrite Hc1. cbn [o_size o_kind o_name]. reflexivity. }
        rewrite (bind_ok _ Ea). apply D3; lia.
      * split; [exact R3|]. split; [exact F3|]. split; [intros u v X; apply K3; cbn [st2 m_stack]; apply E1; exact X|]. split; [|exact Hc3].
        eapply new_trans; [|exact N3|exact K3]. intros y Hy. cbn [st2 m_reg m_stack] in *. destruct (N1 y Hy) as [X|(a' & Pa & X)]; [left; exact X|right; exists a'; split; [|exact X]]. eapply reaches_deps; eassumption.
Qed.
Lemma compound_total n W st a fs : all_below n -> RelS [] W st -> FreshS st -> registered A a -> above H0 W (m_stack st) a -> lookup a (m_stack st) = None -> o_kind (H0 a) = OComp fs -> length (left_ (m_stack st)) <= S n -> goal st a.
Proof.
  intros IH R F Ha U Hl K Hn. assert (Hh : m_heap st a = H0 a) by exact (A_heap PA R Ha). set (c := s_next (m_store st)). set (o := Obj (o_name (H0 a)) 0 (OComp [])).
  set (st1 := MS (alloc (m_store st) o) (m_reg st) ((a, c) :: m_stack st) (m_freed st)). assert (G := fresh_get R F Ha Hl).
  assert (R1 : RelS [] (c :: W) st1).
  { unfold st1. cbn [m_store m_reg m_stack]. apply (Rel_new PA Disj); try assumption; [right; split; [reflexivity|split; [eauto|exact G]]|intros x []|]. intros x mk E. unfold indirect_name in E. rewrite upd_same in E. discriminate. }
  assert (Hb : forall t, t < s_next (m_store st) -> s_heap (alloc (m_store st) o) t = m_heap st t) by (intros t Ht; apply alloc_below; assumption).
  assert (F1 : FreshS st1).
  { destruct (keeps_names R Hb (fr_names F)) as [_ U1]. constructor; [exact U1|]. unfold m_heap. cbn [st1 m_store m_stack]. intros x y [X|X]; [injection X as <- <-; split; [assumption|unfold c; cbn [alloc s_heap]; rewrite upd_same; reflexivity]|]. exact (stack_names R Hb F X). }
  assert (Lk : forall x y, lookup x (m_stack st) = Some y -> lookup x (m_stack st1) = Some y) by (intros x y X; cbn [st1 m_stack]; apply lookup_cons; assumption).
  destruct (@fields_total n W a c (o_name (H0 a)) IH Ha fs [] st1 0%N) as (st2 & z & gs & D2 & R2 & F2 & K2 & N2 & Hc2); try assumption.
  - intros x Hx. unfold dependsOn. rewrite K. apply in_map. assumption.
  - apply lookup_same.
  - intros t a' Ht L. destruct Ht as [<- |Ht].
    + assert (a' = a) by (apply (rl_inj R1 (y := c) (or_introl eq_refl)); apply lookup_In; [exact L|apply lookup_same]). subst a'. constructor.
    + apply (U t a' Ht). unfold st1 in L. cbn [m_stack lookup] in L. destruct (Nat.eqb_spec a a') as [-> |]; [|exact L]. injection L as <-. destruct (rl_work R Ht) as [[_ X] _]; unfold c in X; lia.
  - apply upd_same.
  - assert (X := @left_less (m_stack st) (m_stack st1) a Lk Ha Hl). cbn [st1 m_stack] in X. rewrite lookup_same in X. assert (Y := X ltac:(discriminate)). cbn [st1 m_stack]. lia.
  - assert (L2 : lookup a (m_stack st2) = Some c) by (apply K2, lookup_same).
    set (o2 := Obj (o_name (H0 a)) (o_size (H0 a)) (OComp gs)). set (st3 := MS (Store (upd (m_heap st2) c o2) (s_next (m_store st2))) (m_reg st2) (m_stack st2) (m_freed st2)).
    assert (Nm : forall y, o_name (m_heap st3 y) = o_name (m_heap st2 y)).
    { intros y. unfold m_heap at 1. cbn [st3 m_store s_heap]. destruct (Nat.eq_dec y c) as [-> |Hy]; [rewrite upd_same, Hc2; reflexivity|rewrite upd_other by assumption; reflexivity]. }
    assert (F3 : FreshS st3).
    { constructor; cbn [st3 m_reg m_stack]; [intros k y Hk Gk; rewrite Nm; apply (fr_names F2 Hk Gk)|]. intros u v X. rewrite Nm. apply (fr_stack F2 X). }
    assert (I3 : Inv (m_heap st3) (m_reg st3)) by (eapply Inv_names; [intros t _; apply Nm|apply (rl_inv R2)]).
    assert (G3 : get (m_reg st3) (o_name (H0 a)) = None).
    { destruct (rl_work R2 (t := c) (or_introl eq_refl)) as (_ & a' & _ & _ & [[]|(_ & _ & X)]). unfold m_heap in Hc2. rewrite Hc2 in X. exact X. }
    assert (Nc : o_name (m_heap st3 c) = o_name (H0 a)) by (rewrite Nm, Hc2; reflexivity).
    destruct (finish I3 (fr_names F3) Ha Nc G3) as (r' & E & I' & U' & G').
    exists c, (MS (m_store st3) r' (m_stack st3) (m_freed st3)). split; [|split].
    + destruct D2 as (N & D2). exists (S N). intros d f Hd Hf. destruct d as [|d]; [lia|]. rewrite merge_direct by (rewrite Hh, K; exact Logic.I). rewrite (type_merge_fresh _ _ R F Ha Hl).
      assert (Ed : do_merge (merge_ d f) f a st = (st3, Ok c)).
      { unfold do_merge. unfold mbind at 1, m_obj at 1, asks at 1. rewrite Hh, K. unfold mbind at 1, m_new. fold c. unfold mbind at 1, m_push. cbn [m_store m_reg m_stack m_freed]. rewrite insert_none by assumption.
        assert (Et : on_throw a c (merge_fields (merge_ d f) c fs) st1 = (st2, Ok tt)) by (unfold on_throw; rewrite (D2 d f) by lia; reflexivity). rewrite (bind_ok _ Et).
        unfold m_setSize, m_obj, asks, m_set, mbind, mret. rewrite Hc2. reflexivity. }
      rewrite (bind_ok _ Ed). unfold mbind at 1, m_push. unfold stack_insert. cbn [st3 m_stack]. rewrite L2. assert (E3 := E f). unfold st3 in E3. cbn [m_store m_reg m_stack m_freed] in *. rewrite (bind_ok _ E3). reflexivity.
    + constructor; [exact U'|]. intros u v X. exact (fr_stack F3 X).
    + intros t (k & Hk & Gk). cbn [m_reg] in Gk. rewrite G' in Gk by assumption. destruct (seqb _ k).
      * injection Gk as <-. right. exists a. split; [constructor|exact L2].
      * destruct (N2 t) as [X|X]; [exists k; auto|left; exact X|right; exact X].
Qed.
Lemma total_all : forall n, all_below n.
Proof.
  assert (Z : forall n, (match n with 0 => True | S m => all_below m end) -> forall l W st a, RelS [] W st -> FreshS st -> registered A a -> above H0 W (m_stack st) a -> length (left_ (m_stack st)) <= n -> length (o_name (H0 a)) < l -> goal st a).
  { intros n IHn. induction l as [|l IHl]; intros W st a R F Ha U Hn Hlen; [lia|]. assert (Hh : m_heap st a = H0 a) by exact (A_heap PA R Ha).
    destruct (lookup a (m_stack st)) as [b|] eqn:El.
    { exists b, st. split; [exists 1; intros d f Hd _; destruct d as [|d]; [lia|apply merge_hit; assumption]|]. split; [assumption|]. intros t X. left. exact X. }
    assert (Ind : forall x, In x (dependsOn H0 a) -> (match o_kind (H0 a) with OPtr y | OArr _ y | OCont _ y => y = x | _ => False end) -> length (o_name (H0 x)) < length (o_name (H0 a)) -> goal st a).
    { intros x Dx Kx Hlx. assert (Hx := A_dep PA Ha Dx). assert (Ux := above_step U Dx). destruct (IHl W st x R F Hx Ux Hn ltac:(lia)) as (t & st1 & D1 & F1 & N1). destruct (goal_merged R Hx Ux D1) as (R1 & L1 & E1).
      assert (K1 : keeps st st1) by (intros u v X; apply E1; exact X).
      assert (N1' : new_from (reaches H0 a) st st1) by (intros y Hy; destruct (N1 y Hy) as [X|(a' & Pa & X)]; [left; exact X|right; exists a'; split; [eapply reaches_deps; eassumption|exact X]]).
      assert (Eq : forall d f rest, (forall d, merge_ (S d) f a st = (old <~~ try_merge f a ; match old with Some b => mret (Ok b) | None => _ <~~ merge_ d f x ; type_merge (merge_ d f) f a end) st) -> (merge_ d f x st = (st1, Ok t)) -> type_merge (merge_ d f) f a st1 = rest -> merge_ (S d) f a st = rest).
      { intros d f rest X Y Zr. rewrite X. rewrite (bind_ok _ (fresh_try f R F Ha El)). rewrite (bind_ok _ Y). exact Zr. }
      assert (X0 : forall f d, merge_ (S d) f a st = (old <~~ try_merge f a ; match old with Some b => mret (Ok b) | None => _ <~~ merge_ d f x ; type_merge (merge_ d f) f a end) st).
      { intros f d. cbn [merge_]. unfold mbind at 1, m_obj, asks. rewrite Hh. destruct (o_kind (H0 a)); try contradiction; subst x; reflexivity. }
      destruct (lookup a (m_stack st1)) as [b|] eqn:El1.
      - exists b, st1. split; [|split; [exact F1|exact N1']]. destruct D1 as (M & D1). exists (S M). intros d f Hd Hf. destruct d as [|d]; [lia|]. apply (Eq d f _ (X0 f)); [apply D1; lia|].
        unfold type_merge. assert (T : try_merge f a st1 = (st1, Ok (Some b))) by (unfold try_merge; rewrite El1; reflexivity). rewrite (bind_ok _ T). reflexivity.
      - destruct (@indirect_total W st1 a x 1 R1 F1 Ha El1 Kx (ex_intro _ t L1) ltac:(discriminate)) as (b & st2 & _ & F2 & N2 & E2).
        exists b, st2. split; [|split; [exact F2|]].
        + destruct D1 as (M & D1). exists (S (S M)). intros d f Hd Hf. destruct d as [|d]; [lia|]. apply (Eq d f _ (X0 f)); [apply D1; lia|]. apply E2. lia.
        + assert (U1 : above H0 W (m_stack st1) a) by (eapply (@above_ext H0 N0 A reg0 [] W st st1); eassumption).
          assert (TM := @type_merge_ok H0 N0 A reg0 PA Disj Cons Arr 1 0 W st1 a (merge_ok PA Disj Cons Arr 0 1) R1 Ha U1). unfold wp in TM. rewrite (E2 1 ltac:(discriminate) 0) in TM.
          assert (K2 : keeps st1 st2). { destruct TM as (_ & _ & E3); [destruct (o_kind (H0 a)); try contradiction; subst x; split; eauto; discriminate|]. intros u v X. apply E3. exact X. }
          eapply new_trans; eassumption. }
    assert (Ca := Cons a). unfold constructed_as in Ca. unfold dependsOn in Ind. destruct (o_kind (H0 a)) as [| | | |y|dm y|k y|fs] eqn:K.
    - eapply leaf_total; try eassumption. rewrite K. exact Logic.I.
    - eapply leaf_total; try eassumption. rewrite K. exact Logic.I.
    - eapply leaf_total; try eassumption. rewrite K. exact Logic.I.
    - eapply leaf_total; try eassumption. rewrite K. exact Logic.I.
    - apply (Ind y); [left; reflexivity|reflexivity|]. destruct Ca as [-> _]. apply (shape_longer SPtr).
    - apply (Ind y); [left; reflexivity|reflexivity|]. destruct Ca as [-> _]. apply (shape_longer (SArr dm)).
    - apply (Ind y); [left; reflexivity|reflexivity|]. destruct k; [rewrite Ca; apply (shape_longer SVec)|]. destruct Ca as (-> & -> & _). cbn. lia.
    - destruct n as [|n].
      + exfalso. assert (X := @left_less (m_stack st) ((a, 0) :: m_stack st) a). rewrite lookup_same in X. assert (Y := X (fun x y => @lookup_cons a 0 (m_stack st) x y El) Ha El ltac:(discriminate)). lia.
      + eapply compound_total; eassumption. }
  induction n as [|n IH]; intros W st a R F Ha U Hn.
  - eapply (Z 0 Logic.I (S (length (o_name (H0 a))))); try eassumption. lia.
  - eapply (Z (S n) IH (S (length (o_name (H0 a))))); try eassumption. lia.
Qed.
Lemma total W st a : RelS [] W st -> FreshS st -> registered A a -> above H0 W (m_stack st) a -> goal st a.
Proof. intros R F Ha U. exact (total_all R F Ha U (le_n _)). Qed.

(** *** Loops *)
Lemma mall_total {X} (op : nat -> nat -> X -> MM unit) (P : mstate -> Prop) (Q : X -> mstate -> Prop) (E : mstate -> mstate -> Prop) (l : list X) :
  (forall st, E st st) -> (forall a b c, E a b -> E b c -> E a c) -> (forall x st st', In x l -> Q x st -> E st st' -> Q x st') ->
  (forall x st, In x l -> P st -> exists st', done (fun d f => op d f x) st tt st' /\ P st' /\ E st st' /\ Q x st') ->
  forall st, P st -> exists st', done (fun d f => mall (op d f) l) st tt st' /\ P st' /\ E st st' /\ (forall x, In x l -> Q x st').
Proof.
  clear. intros Er Et Qe Hop. induction l as [|x l IH]; intros st HP; [exists st; split; [exists 0; reflexivity|split; [assumption|split; [apply Er|intros x []]]]|].
  destruct (Hop x st (or_introl eq_refl) HP) as (st1 & (N1 & D1) & P1 & E1 & Q1). destruct (IH (fun y z z' Hy => Qe y z z' (or_intror Hy)) (fun y z Hy => Hop y z (or_intror Hy)) st1 P1) as (st2 & (N2 & D2) & P2 & E2 & Q2).
  exists st2. split; [|split; [assumption|split; [eapply Et; eassumption|]]].
  - exists (N1 + N2). intros d f Hd Hf. cbn [mall]. rewrite (bind_ok _ (D1 d f ltac:(lia) ltac:(lia))). apply D2; lia.
  - intros y [<- |Hy]; [eapply Qe; [left; reflexivity|eassumption|eassumption]|apply Q2; assumption].
Qed.
Lemma phase1_total st : RelS [] [] st -> FreshS st -> exists st', done (fun d f => mall (merge_entry d f) (r_global A)) st tt st' /\ (RelS [] [] st' /\ FreshS st') /\ forall a, registered A a -> exists b, lookup a (m_stack st') = Some b.
Proof.
  intros R F. destruct (@mall_total _ (fun d f => merge_entry d f) (fun st => RelS [] [] st /\ FreshS st) (fun p st => isAlias H0 p = false -> exists b, lookup (e_type (snd p)) (m_stack st) = Some b) keeps (r_global A)) with (st := st) as (st' & D & P' & _ & Q').
  - intros s x y X. exact X.
  - intros a b c X Y x y Z. apply Y, X, Z.
  - intros x s s' _ X K Hx. destruct (X Hx) as (b & Hb). exists b. apply K. exact Hb.
  - intros p s Hp [Rs Fs]. assert (Rp := entry_reg PA Hp). assert (Ei : isAlias (m_heap s) p = isAlias H0 p) by (unfold isAlias, m_heap; rewrite (A_heap PA Rs Rp); reflexivity).
    unfold merge_entry, m_isAlias. destruct (isAlias H0 p) eqn:Ea.
    + exists s. split; [exists 0; intros d f _ _; unfold mbind, asks; rewrite Ei; reflexivity|]. split; [auto|]. split; [intros x y X; exact X|discriminate].
    + assert (Us : above H0 [] (m_stack s) (e_type (snd p))) by (intros t a' []). destruct (total Rs Fs Rp Us) as (b & s' & D & F' & _). destruct (goal_merged Rs Rp Us D) as (R' & L' & E').
      exists s'. split; [|split; [auto|split; [intros x y X; apply E', X|eauto]]]. destruct D as (N & D). exists N. intros d f Hd Hf. unfold mbind at 1, asks. rewrite Ei. rewrite (bind_ok _ (D d f Hd Hf)). reflexivity.
  - auto.
  - exists st'. split; [exact D|]. split; [exact P'|]. intros a Ha. destruct (A_name PA Ha) as [Hn Hg]. destruct (get_In IA Hn Hg) as (e & Hi & <-). apply (Q' _ Hi). unfold isAlias. cbn [fst snd]. rewrite seqb_refl. reflexivity.
Qed.

(** *** Aliases *)
Hypothesis Der : derived_names H0 A.
Lemma A_derived t x mk a : registered A t -> indirect_name H0 t = Some (x, mk) -> absolute a -> get A a = Some x -> get A (mk a) = Some t.
Proof.
  intros Rt Hi Ha Hx. destruct (indirect_shape Hi) as (sh & K & ->). destruct (get A (shape_name sh a)) as [u|] eqn:Eu; [|destruct (Der Rt K Ha Hx Eu)]. f_equal.
  destruct (pr_meant PA Ha Eu) as (y & Hy & Ky). rewrite Hx in Hy. injection Hy as <-. assert (Ru : registered A u) by (exists (shape_name sh a); split; [destruct sh; apply (indirect_abs Hi Ha) || idtac|exact Eu]).
  - apply (A_unique PA Ru Rt). assert (Ct := Cons t). assert (Cu := Cons u). unfold constructed_as in *. rewrite K in Ct. rewrite Ky in Cu. destruct sh; cbn [shape_kind] in *; intuition congruence.
Qed.
Notation Sub := (Sub H0 A).
Lemma node_like st a t : RelS [] [] st -> FreshS st -> registered A a -> lookup a (m_stack st) = Some t -> like0 H0 (m_heap st) a t.
Proof.
  intros R F Ha Hl. destruct (fr_stack F (lookup_In Hl)) as [_ En]. split; [exact En|]. destruct (rl_node R (lookup_In Hl)) as [[]|Nd].
  assert (Hh : m_heap st a = H0 a) by exact (A_heap PA R Ha). assert (Nm : forall x x', In x (dependsOn H0 a) -> Rst (m_stack st) x x' -> o_name (m_heap st x') = o_name (H0 x)).
  { intros x x' Dx X. assert (Ax := A_dep PA Ha Dx). assert (Hx : m_heap st x = H0 x) by exact (A_heap PA R Ax). destruct X as [<- |[X|X]]; [congruence|apply (fr_stack F X)|]. destruct (fr_stack F X) as [Ax' E]. assert (Hx' : m_heap st x' = H0 x') by exact (A_heap PA R Ax'). congruence. }
  destruct Nd as [_ Nd]. fold (m_heap st) in Nd. rewrite Hh in Nd. unfold dependsOn in Nm. destruct (o_kind (H0 a)) as [| |c|v|x|d x|k x|fs], (o_kind (m_heap st t)) as [| |c'|v'|x'|d' x'|k' x'|fs']; try contradiction; try (subst; constructor; fail).
  - constructor. apply Nm; [left; reflexivity|exact Nd].
  - destruct Nd as [-> Nd]. constructor. apply Nm; [left; reflexivity|exact Nd].
  - destruct Nd as [-> Nd]. constructor. apply Nm; [left; reflexivity|exact Nd].
  - constructor. clear - Nd Nm. induction Nd as [|f f' fs fs' (X & Y & Z) Nd IH]; [constructor|]. constructor; [|apply IH; intros x x' Hx; apply Nm; right; exact Hx].
    split; [auto|]. split; [auto|]. apply Nm; [left; reflexivity|exact Z].
Qed.
Lemma fresh_sub st : RelS [] [] st -> FreshS st -> Sub (m_heap st) (m_reg st).
Proof.
  intros R F n t Hn G. assert (E := fr_names F Hn G). assert (Rt : registered (m_reg st) t) by (exists n; auto). destruct (rl_types R Rt) as [X|(a & Ha & Hl)]; [destruct (no_reg0 X)|].
  exists a. split; [|apply (node_like R F Ha Hl)]. destruct (fr_stack F (lookup_In Hl)) as [_ En]. rewrite E. rewrite En. apply (A_name PA Ha).
Qed.
(** The state while aliases are added; [st0]: the state after the types were merged. *)
Record Al (st0 st : mstate) : Prop := {
  al_store : m_store st = m_store st0;
  al_inv : Inv (m_heap st0) (m_reg st);
  al_sub : Sub (m_heap st0) (m_reg st);
  al_mono : mono (m_reg st0) (m_reg st);
  al_reg : forall t, registered (m_reg st) t <-> registered (m_reg st0) t
}.
Lemma Al_start st0 : RelS [] [] st0 -> FreshS st0 -> Al st0 st0.
Proof. intros R F. constructor; [reflexivity|apply (rl_inv R)|apply (fresh_sub R F)|intros k t _ X; exact X|intros t; reflexivity]. Qed.
Lemma isSame_image st0 a b : RelS [] [] st0 -> FreshS st0 -> registered A a -> lookup a (m_stack st0) = Some b -> conv (fun f => isSame f (m_heap st0) b a) (Ok true).
Proof.
  intros R F Ha Hl. apply (@isSame_complete_functional (m_heap st0) (seq 0 (s_next (m_store st0))) b a (fun l r => registered A r /\ lookup r (m_stack st0) = Some l)).
  - intros x Hx. apply in_seq. split; [lia|]. cbn [plus]. destruct Hx as [|x d _ Hd].
    + destruct (image R Ha Hl) as [[]|[X _]]. apply (rl_reg R X).
    + apply (rl_refs R Hd).
  - auto.
  - intros l r r' [A1 L1] [A2 L2]. apply (A_unique PA); try assumption. destruct (fr_stack F (lookup_In L1)) as [_ E1]. destruct (fr_stack F (lookup_In L2)) as [_ E2]. congruence.
  - intros l r [Ar Lr]. destruct (rl_node R (lookup_In Lr)) as [[]|Nd]. apply Rst_sym_node in Nd. apply node_deps in Nd. eapply node_mono; [|exact Nd]. cbv beta. intros x y (X & Dx & Dy).
    assert (Hr : m_heap st0 r = H0 r) by exact (A_heap PA R Ar). assert (Ay : registered A y) by (apply (A_dep PA Ar); unfold dependsOn in *; fold (m_heap st0) in Dy; rewrite Hr in Dy; exact Dy).
    destruct X as [-> |[X|X]]; [left; reflexivity| |].
    + destruct (fr_stack F X) as [Ax _]. destruct (image R Ar Lr) as [[]|[Rl _]]. destruct (rl_deps R Rl Dx) as [Rx|[]]. destruct (rl_reg R Rx) as (_ & _ & Z). destruct (Z Ax).
    + right. split; [exact Ay|]. exact (nodup_lookup (rl_keys R) X).
Qed.

Lemma A_valid_get n e : In (n, e) (r_global A) -> absolute n /\ get A n = Some (e_type e).
Proof. intros Hi. destruct (global_get IA Hi) as (Hn & _ & G). auto. Qed.
Lemma al_image st0 st a b : RelS [] [] st0 -> FreshS st0 -> Al st0 st -> registered A a -> lookup a (m_stack st0) = Some b -> get (m_reg st) (o_name (H0 a)) = Some b.
Proof. intros R F Aa Ha Hl. destruct (image_same R Ha Hl) as [G _]. apply (al_mono Aa); [apply (A_name PA Ha)|exact G]. Qed.
Lemma al_alias st0 st n e b pers src : RelS [] [] st0 -> FreshS st0 -> Al st0 st -> In (n, e) (r_global A) -> lookup (e_type e) (m_stack st0) = Some b ->
  exists r', (exists N, forall f, N <= f -> alias_ f (m_heap st) (m_reg st) (o_name (H0 (e_type e))) n pers src = (r', Ok tt)) /\ Al st0 (MS (m_store st) r' (m_stack st) (m_freed st)) /\ mono (m_reg st) r' /\ get r' n = Some b.
Proof.
  intros R F Aa Hi Hl. destruct (A_valid_get Hi) as [Hn G]. assert (Ha : registered A (e_type e)) by (exists n; auto). assert (Hh : m_heap st = m_heap st0) by (unfold m_heap; rewrite (al_store Aa); reflexivity).
  destruct (core_alias (r := m_reg st) IA VA (pr_deps PA) A_derived (n := n) pers src (rl_names R) (al_inv Aa) (al_sub Aa) Hn (al_image R F Aa Ha Hl) G (node_like R F Ha Hl)) as (k & r' & E & I' & S' & M & Rg & Gn).
  exists r'. split; [exists k; rewrite Hh; exact E|]. split; [|auto]. constructor; cbn [m_store m_reg]; [apply (al_store Aa)|exact I'|exact S'|intros x y Hx X; apply M, (al_mono Aa); assumption|intros t; rewrite Rg; apply (al_reg Aa)].
Qed.
Lemma merge_alias_total st0 st p b : RelS [] [] st0 -> FreshS st0 -> Al st0 st -> In p (r_global A) -> lookup (e_type (snd p)) (m_stack st0) = Some b ->
  exists st', done (fun _ f => merge_alias f p) st tt st' /\ Al st0 st' /\ mono (m_reg st) (m_reg st') /\ get (m_reg st') (fst p) = Some b.
Proof.
  intros R F Aa Hi Hl. destruct p as [n e]. cbn [fst snd] in *. destruct (A_valid_get Hi) as [Hn G]. assert (Ha : registered A (e_type e)) by (exists n; auto).
  assert (Hh : m_heap st = m_heap st0) by (unfold m_heap; rewrite (al_store Aa); reflexivity). assert (Ht : m_heap st (e_type e) = H0 (e_type e)) by (rewrite Hh; exact (A_heap PA R Ha)).
  assert (Gb := al_image R F Aa Ha Hl). unfold merge_alias, m_isAlias, isAlias. cbn [fst snd]. destruct (seqb n (o_name (H0 (e_type e)))) eqn:Es.
  - apply seqb_eq in Es. exists st. split; [exists 0; intros d f _ _; unfold mbind, asks; rewrite Ht, <- Es, seqb_refl; reflexivity|]. split; [exact Aa|]. split; [intros x y _ X; exact X|]. congruence.
  - destruct (get (m_reg st) n) as [u|] eqn:Gu.
    + assert (u = b). { apply (unique_named (al_inv Aa)); [exists n; auto|exists (o_name (H0 (e_type e))); split; [apply (A_name PA Ha)|exact Gb]|]. destruct (fr_stack F (lookup_In Hl)) as [_ E1]. rewrite E1. apply (sub_unique (al_inv Aa) (al_sub Aa) Hn Gu G). }
      subst u. destruct (isSame_image R F Ha Hl) as (N & D). exists st. split; [|split; [exact Aa|split; [intros x y _ X; exact X|exact Gu]]]. exists N. intros d f _ Hf.
      unfold mbind at 1, asks. rewrite Ht, Es. cbn [negb]. unfold mbind at 1. rewrite Gu. unfold mbind. rewrite Hh, (D f Hf). reflexivity.
    + destruct (al_alias (e_pers e) (e_src e) R F Aa Hi Hl) as (r' & (N & D) & Aa' & M & Gn). exists (MS (m_store st) r' (m_stack st) (m_freed st)). split; [|auto]. exists N. intros d f _ Hf.
      unfold mbind at 1, asks. rewrite Ht, Es. cbn [negb]. unfold mbind at 1. rewrite Gu. unfold mbind at 1, m_obj, asks. rewrite Ht. unfold m_alias. rewrite (D f Hf). reflexivity.
Qed.
Lemma done_bind {X Y} (m : nat -> nat -> MM X) (k : nat -> nat -> X -> MM Y) st st' st'' x y : done m st x st' -> done (fun d f => k d f x) st' y st'' -> done (fun d f => mbind (m d f) (k d f)) st y st''.
Proof. clear. intros (N & D) (N' & D'). exists (N + N'). intros d f Hd Hf. rewrite (bind_ok _ (D d f ltac:(lia) ltac:(lia))). apply D'; lia. Qed.
(** What the two registries have in common: [D] are the types of the first one that the second one has. *)
Definition copied (D : tid -> Prop) (H : heap) (r : reg) : Prop := forall n, absolute n ->
  match get A n with
  | Some t => (D t -> exists t', get r n = Some t' /\ get r (o_name (H0 t)) = Some t' /\ o_name (H t') = o_name (H0 t) /\ struct_same H t t') /\ (~ D t -> get r n = None)
  | None => get r n = None
  end.
Lemma al_copied st0 st (D : tid -> Prop) : RelS [] [] st0 -> FreshS st0 -> Al st0 st -> (forall t, registered A t -> (D t <-> exists b, lookup t (m_stack st0) = Some b)) ->
  (forall p, In p (r_global A) -> D (e_type (snd p)) -> exists b, lookup (e_type (snd p)) (m_stack st0) = Some b /\ get (m_reg st) (fst p) = Some b) -> copied D (m_heap st0) (m_reg st).
Proof.
  intros R F Aa HD Hp n Hn. destruct (get A n) as [t|] eqn:G.
  - split.
    + intros Dt. destruct (get_In IA Hn G) as (e & Hi & <-). destruct (Hp _ Hi Dt) as (b & Hl & Gb). cbn [fst snd] in *. exists b. split; [exact Gb|]. assert (Ha : registered A (e_type e)) by (exists n; auto).
      split; [apply (al_image R F Aa Ha Hl)|]. split; [apply (fr_stack F (lookup_In Hl))|]. apply (image_same R Ha Hl).
    + intros Nt. destruct (get (m_reg st) n) as [u|] eqn:Gu; [exfalso|reflexivity]. apply Nt. assert (Ha : registered A t) by (exists n; auto). apply (HD _ Ha).
      assert (Ru : registered (m_reg st0) u) by (apply (al_reg Aa); exists n; auto). destruct (rl_types R Ru) as [X|(a & Aa' & Hl)]; [destruct (no_reg0 X)|]. exists u. destruct (fr_stack F (lookup_In Hl)) as [_ E].
      assert (a = t); [|congruence]. apply (A_unique PA Aa' Ha). rewrite <- E. exact (sub_unique (al_inv Aa) (al_sub Aa) Hn Gu G).
  - destruct (get (m_reg st) n) as [u|] eqn:Gu; [|reflexivity]. destruct (al_sub Aa Hn Gu) as (t & X & _). congruence.
Qed.
Lemma copied_source D H H' r o : copied D H r -> copied D H (copySourceIDs H' r o).
Proof. intros C n Hn. assert (E : forall n, get (copySourceIDs H' r o) n = get r n) by (intros m; apply get_current, copy_current). specialize (C n Hn). rewrite E. destruct (get A n) as [t|]; [|exact C]. destruct C as [C1 C2]. split; [|exact C2]. intros X. destruct (C1 X) as (t' & Y). exists t'. rewrite E. exact Y. Qed.
(** The merge into an empty registry. *)
Lemma copy_total st : RelS [] [] st -> FreshS st -> exists st', done (fun d f => merge_body d f A) st tt st' /\ (forall t, t < N0 -> m_heap st' t = H0 t) /\ copied (fun _ => True) (m_heap st') (m_reg st').
Proof.
  intros R F. destruct (phase1_total R F) as (st1 & D1 & (R1 & F1) & L1).
  destruct (@mall_total _ (fun _ f => merge_alias f) (Al st1) (fun p s => exists b, lookup (e_type (snd p)) (m_stack st1) = Some b /\ get (m_reg s) (fst p) = Some b) (fun s s' => mono (m_reg s) (m_reg s')) (r_global A)) with (st := st1) as (st2 & D2 & A2 & _ & G2).
  - intros s x y _ X. exact X.
  - intros a b c X Y k t Hk Z. apply Y, X; assumption.
  - intros [n e] s s' Hi (b & Hb & G) M. exists b. split; [exact Hb|]. apply M; [apply (A_valid_get Hi)|exact G].
  - intros p s Hi As. destruct (L1 _ (entry_reg PA Hi)) as (b & Hb). destruct (merge_alias_total R1 F1 As Hi Hb) as (s' & X & Y & Z & W). exists s'. eauto 10.
  - apply (Al_start R1 F1).
  - exists (MS (m_store st2) (copySourceIDs (m_heap st2) (m_reg st2) A) (m_stack st2) (m_freed st2)). split; [|].
    + apply (done_bind D1). apply (done_bind D2). exists 0. reflexivity.
    + assert (Hh : m_heap st2 = m_heap st1) by (unfold m_heap; rewrite (al_store A2); reflexivity). unfold m_heap. cbn [m_store m_reg]. fold (m_heap st2). rewrite Hh. split; [intros t Ht; apply (rl_old R1 Ht)|].
      apply copied_source. apply (al_copied R1 F1 A2); [intros t Ht; split; [intros _; exact (L1 t Ht)|tauto]|]. intros p Hi _. apply (G2 p Hi).
Qed.

(** *** minimal(name) *)
Lemma reached_image st a b x : RelS [] [] st -> FreshS st -> registered A a -> lookup a (m_stack st) = Some b -> reaches H0 a x -> exists y, lookup x (m_stack st) = Some y.
Proof.
  intros R F Ha Hl Hr. induction Hr as [|x d Hr (y & Hy) Hd]; [eauto|]. assert (Ax := A_reaches PA Ha Hr). assert (Hx : m_heap st x = H0 x) by exact (A_heap PA R Ax). assert (Ad := A_dep PA Ax Hd).
  destruct (image R Ax Hy) as [[]|[Ry _]]. destruct (rl_node R (lookup_In Hy)) as [[]|Nd]. assert (Dep : exists z, In z (dependsOn (m_heap st) y) /\ Rst (m_stack st) d z).
  { destruct Nd as [_ Nd]. fold (m_heap st) in Nd. rewrite Hx in Nd. unfold dependsOn in *. destruct (o_kind (H0 x)) as [| |c|v|u|n u|k u|fs], (o_kind (m_heap st y)) as [| |c'|v'|u'|n' u'|k' u'|fs']; try contradiction; try (destruct Hd as [<- |[]]; exists u'; split; [left; reflexivity|tauto]).
    clear - Nd Hd. induction Nd as [|f f' fs fs' (_ & _ & Z) Nd IH]; [destruct Hd|]. destruct Hd as [<- |Hd]; [exists (f_type f'); split; [left; reflexivity|exact Z]|]. destruct (IH Hd) as (z & Hz & X). exists z. split; [right; exact Hz|exact X]. }
  destruct Dep as (z & Dz & X). destruct (rl_deps R Ry Dz) as [Rz|[]]. destruct (rl_reg R Rz) as (_ & _ & Nz). destruct X as [-> |[X|X]]; [destruct (Nz Ad)|exists z; exact (nodup_lookup (rl_keys R) X)|]. destruct (fr_stack F X) as [Az _]. destruct (Nz Az).
Qed.
Lemma minimal_alias_total st0 st p : RelS [] [] st0 -> FreshS st0 -> Al st0 st -> In p (r_global A) ->
  exists st', done (fun _ f => minimal_alias f p) st tt st' /\ Al st0 st' /\ mono (m_reg st) (m_reg st') /\ (forall b, lookup (e_type (snd p)) (m_stack st0) = Some b -> get (m_reg st') (fst p) = Some b).
Proof.
  intros R F Aa Hi. destruct p as [n e]. cbn [fst snd] in *. destruct (A_valid_get Hi) as [Hn G]. assert (Ha : registered A (e_type e)) by (exists n; auto).
  assert (Hh : m_heap st = m_heap st0) by (unfold m_heap; rewrite (al_store Aa); reflexivity). assert (Ht : m_heap st (e_type e) = H0 (e_type e)) by (rewrite Hh; exact (A_heap PA R Ha)).
  unfold minimal_alias, m_isAlias, isAlias. cbn [fst snd]. destruct (seqb n (o_name (H0 (e_type e)))) eqn:Es.
  - apply seqb_eq in Es. exists st. split; [exists 0; intros d f _ _; unfold mbind, asks; rewrite Ht, <- Es, seqb_refl; reflexivity|]. split; [exact Aa|]. split; [intros x y _ X; exact X|]. intros b Hl. rewrite Es. apply (al_image R F Aa Ha Hl).
  - destruct (get (m_reg st) (o_name (H0 (e_type e)))) as [u|] eqn:Gu.
    + assert (Lk : exists b, lookup (e_type e) (m_stack st0) = Some b).
      { assert (Ru : registered (m_reg st0) u) by (apply (al_reg Aa); exists (o_name (H0 (e_type e))); split; [apply (A_name PA Ha)|exact Gu]). destruct (rl_types R Ru) as [X|(a & Aa' & Hl)]; [destruct (no_reg0 X)|]. exists u. destruct (fr_stack F (lookup_In Hl)) as [_ E].
        assert (a = e_type e); [|congruence]. apply (A_unique PA Aa' Ha). rewrite <- E. exact (sub_unique (al_inv Aa) (al_sub Aa) (proj1 (A_name PA Ha)) Gu (proj2 (A_name PA Ha))). }
      destruct Lk as (b & Hl). destruct (al_alias (isPersistent (m_heap st) n u) [] R F Aa Hi Hl) as (r' & (N & D) & Aa' & M & Gn). exists (MS (m_store st) r' (m_stack st) (m_freed st)). split; [|split; [exact Aa'|split; [exact M|intros b' Hb'; cbn [m_reg]; congruence]]]. exists N. intros d f _ Hf.
      unfold mbind at 1, asks. rewrite Ht, Es. cbn [negb]. unfold mbind at 1, m_obj, asks. rewrite Ht. unfold mbind at 1. unfold has. assert (Eh : exists z, find_ (o_name (H0 (e_type e))) (r_current (m_reg st)) = Some z) by (unfold get in Gu; destruct (find_ (o_name (H0 (e_type e))) (r_current (m_reg st))); [eauto|discriminate]). destruct Eh as (z & ->). unfold alias. rewrite Gu, (D f Hf). reflexivity.
    + exists st. split; [|split; [exact Aa|split; [intros x y _ X; exact X|intros b Hl; rewrite (al_image R F Aa Ha Hl) in Gu; discriminate]]]. exists 0. intros d f _ Hf.
      unfold mbind at 1, asks. rewrite Ht, Es. cbn [negb]. unfold mbind at 1, m_obj, asks. rewrite Ht. unfold mbind at 1. unfold has. assert (Eh : find_ (o_name (H0 (e_type e))) (r_current (m_reg st)) = None) by (unfold get in Gu; destruct (find_ (o_name (H0 (e_type e))) (r_current (m_reg st))); [discriminate|reflexivity]). rewrite Eh. reflexivity.
Qed.
(** The names without aliases. *)
Definition copied_types (D : tid -> Prop) (H : heap) (r : reg) : Prop := forall n, absolute n ->
  match get A n with
  | Some t => (D t /\ n = o_name (H0 t) -> exists t', get r n = Some t' /\ get r (o_name (H0 t)) = Some t' /\ o_name (H t') = o_name (H0 t) /\ struct_same H t t') /\ (~ (D t /\ n = o_name (H0 t)) -> get r n = None)
  | None => get r n = None
  end.
Definition minimal_body (d f : nat) (t : tid) (al : bool) : MM unit := _ <~~ merge_ d f t ; _ <~~ (if al then mall (minimal_alias f) (r_global A) else mret (Ok tt)) ; m_copySourceIDs A.
Lemma minimal_total st t (al : bool) : RelS [] [] st -> FreshS st -> m_reg st = reg0 -> registered A t -> exists st', done (fun d f => minimal_body d f t al) st tt st' /\ (forall x, x < N0 -> m_heap st' x = H0 x) /\
  (if al then copied (reaches H0 t) (m_heap st') (m_reg st') else copied_types (reaches H0 t) (m_heap st') (m_reg st')).
Proof.
  intros R F Er Ht. assert (Us : above H0 [] (m_stack st) t) by (intros x a' []). destruct (total R F Ht Us) as (b & st1 & D1 & F1 & N1). destruct (goal_merged R Ht Us D1) as (R1 & L1 & E1).
  assert (HD : forall x, registered A x -> (reaches H0 t x <-> exists y, lookup x (m_stack st1) = Some y)).
  { intros x Hx. split; [apply (reached_image R1 F1 Ht L1)|]. intros (y & Hy). destruct (image R1 Hx Hy) as [[]|[Ry _]]. destruct (N1 y Ry) as [X|(a' & Pa & La)]; [rewrite Er in X; destruct (no_reg0 X)|].
    destruct (fr_stack F1 (lookup_In La)) as [Aa E2]. destruct (fr_stack F1 (lookup_In Hy)) as [_ E3]. rewrite (A_unique PA Hx Aa) by congruence. exact Pa. }
  destruct al.
  - destruct (@mall_total _ (fun _ f => minimal_alias f) (Al st1) (fun p s => forall b, lookup (e_type (snd p)) (m_stack st1) = Some b -> get (m_reg s) (fst p) = Some b) (fun s s' => mono (m_reg s) (m_reg s')) (r_global A)) with (st := st1) as (st2 & D2 & A2 & _ & G2).
    + intros s x y _ X. exact X.
    + intros u v w X Y k z Hk Z. apply Y, X; assumption.
    + intros [n e] s s' Hi X M u Hu. apply M; [apply (A_valid_get Hi)|apply X; exact Hu].
    + intros p s Hi As. destruct (minimal_alias_total R1 F1 As Hi) as (s' & X & Y & Z & W). exists s'. auto.
    + apply (Al_start R1 F1).
    + exists (MS (m_store st2) (copySourceIDs (m_heap st2) (m_reg st2) A) (m_stack st2) (m_freed st2)). split; [|].
      * apply (done_bind D1). apply (done_bind D2). exists 0. reflexivity.
      * assert (Hh : m_heap st2 = m_heap st1) by (unfold m_heap; rewrite (al_store A2); reflexivity). unfold m_heap. cbn [m_store m_reg]. fold (m_heap st2). rewrite Hh. split; [intros x Hx; apply (rl_old R1 Hx)|].
        apply copied_source. apply (al_copied R1 F1 A2 HD). intros p Hi Dp. apply (HD _ (entry_reg PA Hi)) in Dp. destruct Dp as (y & Hy). exists y. split; [exact Hy|apply (G2 p Hi y Hy)].
  - exists (MS (m_store st1) (copySourceIDs (m_heap st1) (m_reg st1) A) (m_stack st1) (m_freed st1)). split; [|].
    + apply (done_bind D1). exists 0. reflexivity.
    + unfold m_heap. cbn [m_store m_reg]. fold (m_heap st1). split; [intros x Hx; apply (rl_old R1 Hx)|]. intros n Hn. rewrite (get_current n (copy_current (m_heap st1) A (m_reg st1))). destruct (get A n) as [a|] eqn:G.
      * assert (Ha : registered A a) by (exists n; auto). split.
        -- intros [Da ->]. destruct (proj1 (HD a Ha) Da) as (y & Hy). exists y. destruct (image_same R1 Ha Hy) as [X Y]. rewrite (get_current (o_name (H0 a)) (copy_current (m_heap st1) A (m_reg st1))). split; [exact X|]. split; [exact X|]. split; [apply (fr_stack F1 (lookup_In Hy))|exact Y].
        -- intros Nd. destruct (get (m_reg st1) n) as [u|] eqn:Gu; [exfalso|reflexivity]. apply Nd. destruct (fresh_sub R1 F1 Hn Gu) as (a2 & Ga & L). rewrite G in Ga. injection Ga as <-.
           assert (Ru : registered (m_reg st1) u) by (exists n; auto). destruct (rl_types R1 Ru) as [X|(a2 & Aa & La)]; [destruct (no_reg0 X)|]. destruct (fr_stack F1 (lookup_In La)) as [_ E2]. assert (E3 := fr_names F1 Hn Gu). destruct L as [L _].
           assert (a2 = a) by (apply (A_unique PA Aa Ha); congruence). subst a2. split; [apply (HD a Ha); eauto|congruence].
      * destruct (get (m_reg st1) n) as [u|] eqn:Gu; [|reflexivity]. destruct (fresh_sub R1 F1 Hn Gu) as (a2 & Ga & _). congruence.
Qed.
End Copy.
