(** * MergeTerm: merges end. *)
From Verif Require Import Base Types NamesSpec Names NamesProofs Registry RegistrySpec RegistryProofs RegistryOps RegistryMain RegistryAlias World TypeBuilderSpec TypeBuilder TypeBuilderProofs TlbCore TlbBuild Merge MergeSpec MergeProofs MergeRel MergeMain MergeReg MergeCopy.
From Verif Require Import Graph GraphSpec GraphProofs.
Local Open Scope nat_scope.

(** For all large bounds the outcome is the same, and the bounds are not reached. *)
Definition cv {X} (m : nat -> nat -> MM X) (st : mstate) : Prop := exists N st' x, x <> Fuel /\ forall d f, N <= d -> N <= f -> m d f st = (st', x).
Lemma cv_eq {X} (m m' : nat -> nat -> MM X) st st0 : (forall d f, m' d f st0 = m d f st) -> cv m st -> cv m' st0.
Proof. intros E (N & st' & x & Hx & D). exists N, st', x. split; [assumption|]. intros d f Hd Hf. rewrite E. apply D; assumption. Qed.
Lemma cv_S {X} (m m' : nat -> nat -> MM X) st : (forall d f, m' (S d) f st = m d f st) -> cv m st -> cv m' st.
Proof. intros E (N & st' & x & Hx & D). exists (S N), st', x. split; [assumption|]. intros [|d] f Hd Hf; [lia|]. rewrite E. apply D; lia. Qed.
Lemma bind_ext {X Y} (m : MM X) (k k' : X -> MM Y) st : (forall x s, k x s = k' x s) -> mbind m k st = mbind m k' st.
Proof. intros E. unfold mbind. destruct (m st) as [s [x|e|u|]]; auto. Qed.
Lemma cv_ret {X} (x : res X) st : x <> Fuel -> cv (fun _ _ => mret x) st.
Proof. intros Hx. exists 0, st, x. split; [assumption|]. reflexivity. Qed.
Lemma cv_bind {X Y} (m : nat -> nat -> MM X) (k : nat -> nat -> X -> MM Y) st : cv m st -> (forall x st', done m st x st' -> cv (fun d f => k d f x) st') -> cv (fun d f => mbind (m d f) (k d f)) st.
Proof.
  intros (N & st' & x & Hx & D) Hk. destruct x as [x|e|u|]; [| | |congruence].
  - destruct (Hk x st' (ex_intro _ N D)) as (N' & st'' & y & Hy & D'). exists (N + N'), st'', y. split; [assumption|]. intros d f Hd Hf. rewrite (bind_ok _ (D d f ltac:(lia) ltac:(lia))). apply D'; lia.
  - exists N, st', (Throw e). split; [discriminate|]. intros d f Hd Hf. unfold mbind. rewrite (D d f Hd Hf). reflexivity.
  - exists N, st', (UB u). split; [discriminate|]. intros d f Hd Hf. unfold mbind. rewrite (D d f Hd Hf). reflexivity.
Qed.
(** A step that ends for any bounds. *)
Lemma cv_step {X Y} (m : MM X) (k : nat -> nat -> X -> MM Y) st st' x : m st = (st', Ok x) -> cv (fun d f => k d f x) st' -> cv (fun d f => mbind m (k d f)) st.
Proof. intros E. apply cv_eq. intros d f. apply (bind_ok _ E). Qed.
Lemma done_step {X} (m : MM X) st st' x y z : m st = (st', x) -> done (fun _ _ => m) st y z -> x = Ok y /\ st' = z.
Proof. intros E (N & D). rewrite (D N N (le_n N) (le_n N)) in E. injection E as <- <-. auto. Qed.
Lemma cv_assoc {X Y Z} (m : nat -> nat -> MM X) (k : nat -> nat -> X -> MM Y) (l : nat -> nat -> Y -> MM Z) st :
  cv (fun d f => mbind (m d f) (fun x => mbind (k d f x) (l d f))) st -> cv (fun d f => mbind (mbind (m d f) (k d f)) (l d f)) st.
Proof. apply cv_eq. intros d f. apply bind_assoc. Qed.
Lemma cv_throw a c (m : nat -> nat -> MM unit) st : cv m st -> cv (fun d f => on_throw a c (m d f)) st.
Proof.
  intros (N & st' & x & Hx & D). unfold on_throw. destruct x as [x|e|u|]; [| | |congruence]; (eexists N, _, _; split; [|intros d f Hd Hf; rewrite (D d f Hd Hf); reflexivity]; discriminate).
Qed.
Lemma done_throw a c (m : nat -> nat -> MM unit) st x st' : done (fun d f => on_throw a c (m d f)) st x st' -> done m st x st'.
Proof. intros (N & D). exists N. intros d f Hd Hf. assert (X := D d f Hd Hf). unfold on_throw in X. destruct (m d f st) as [s [y|e|u|]]; try discriminate. exact X. Qed.

Definition Wk (st : mstate) : Prop := names_ok (m_heap st) /\ Inv (m_heap st) (m_reg st).
Lemma add_cv st b : Wk st -> plain (o_name (m_heap st b)) -> cv (fun _ f => m_add f b) st.
Proof.
  intros [Nm I] P. destruct (@add_terminates (m_heap st) (m_reg st) b (isPersistent (m_heap st) (o_name (m_heap st b)) b) [] Nm I P) as (k & r' & x & Hx & E). exists k, (MS (m_store st) r' (m_stack st) (m_freed st)), x. split; [exact Hx|].
  intros d f _ Hf. unfold m_add, add. rewrite (E f Hf). reflexivity.
Qed.
Lemma add_post st b x st' : Wk st -> plain (o_name (m_heap st b)) -> done (fun _ f => m_add f b) st x st' -> Wk st' /\ m_store st' = m_store st /\ m_stack st' = m_stack st.
Proof.
  intros [Nm I] P (N & D). assert (X := D N N (le_n N) (le_n N)). unfold m_add in X. destruct (add N (m_heap st) (m_reg st) b []) as [r' y] eqn:E. injection X as <- ->. split; [|split; reflexivity].
  split; [exact Nm|]. unfold m_heap. cbn [m_store m_reg]. unfold add in E. apply (add_effect I P E).
Qed.
Lemma push_add st a b : Wk st -> plain (o_name (m_heap st b)) -> cv (fun d f => _ <~~ m_push a b ; _ <~~ m_add f b ; mret (Ok b)) st.
Proof.
  intros W P. eapply cv_step; [reflexivity|]. apply (cv_bind (m := fun _ f => m_add f b)).
  - apply add_cv; assumption.
  - intros x st' _. apply cv_ret. discriminate.
Qed.
Lemma alloc_names s o : names_ok (s_heap s) -> (forall t d, In d (dependsOn (s_heap s) t) -> d < s_next s) ->
  (forall x mk, indirect_name (fun _ => o) 0 = Some (x, mk) -> x < s_next s /\ o_name o = mk (o_name (s_heap s x))) -> names_ok (s_heap (alloc s o)).
Proof.
  intros Nm Rf Ho t x mk E. cbn [alloc s_heap] in *. destruct (Nat.eq_dec t (s_next s)) as [-> |Ht].
  - unfold indirect_name in E. rewrite upd_same in E. destruct (Ho x mk E) as [Hx En]. rewrite upd_same, upd_other by lia. exact En.
  - unfold indirect_name in E. rewrite upd_other in E by assumption. assert (E' : indirect_name (s_heap s) t = Some (x, mk)) by exact E.
    assert (Hx : x < s_next s). { apply (Rf t). unfold dependsOn, indirect_name in *. destruct (o_kind (s_heap s t)) as [| | | |y|dm y|k y|]; try discriminate; [| |destruct k; try discriminate]; injection E' as -> _; left; reflexivity. }
    rewrite upd_other by assumption. rewrite upd_other by lia. exact (Nm _ _ _ E').
Qed.

Section Term.
Variables (H0 : heap) (N0 : tid) (A B0 : reg).
Hypothesis PA : proper H0 N0 A.
Hypothesis Disj : forall t, registered A t -> registered B0 t -> False.
Hypothesis Cons : forall t, constructed_as H0 t.
Hypothesis Arr : forall t, registered A t -> no_array_cycle H0 t.
Let IA : Inv H0 A := reachable_Inv (pr_reachable PA).
Notation Rel := (Rel H0 N0 A B0).
Notation RelS Q W st := (Rel Q W (m_store st) (m_reg st) (m_stack st)).

Lemma done_wp {X} (m : nat -> nat -> MM X) st x st' Q : done m st x st' -> (forall d f, wp H0 N0 B0 (m d f) st Q) -> Q x st'.
Proof. intros (N & D) W. assert (X0 := W N N). unfold wp in X0. rewrite (D N N (le_n N) (le_n N)) in X0. exact X0. Qed.
Lemma try_cv W st a : RelS [] W st -> registered A a -> cv (fun _ f => try_merge f a) st.
Proof.
  intros R Ha. assert (Hh : m_heap st a = H0 a) by exact (A_heap PA R Ha).
  destruct (lookup a (m_stack st)) as [b|] eqn:El; [exists 0, st, (Ok (Some b)); split; [discriminate|intros d f _ _; unfold try_merge; rewrite El; reflexivity]|].
  destruct (get (m_reg st) (o_name (H0 a))) as [old|] eqn:Eg; [|exists 0, st, (Ok None); split; [discriminate|intros d f _ _; unfold try_merge; rewrite El, Hh, Eg; reflexivity]].
  assert (Ro : registered (m_reg st) old) by (exists (o_name (H0 a)); split; [apply (A_name PA Ha)|exact Eg]).
  assert (Fg : finite_graph (m_heap st) (seq 0 (s_next (m_store st))) old). { intros x Hx. apply in_seq. split; [lia|]. cbn [plus]. destruct Hx as [|x d _ Hd]; [apply (rl_reg R Ro)|apply (rl_refs R Hd)]. }
  destruct (terminates Fg (f := S (todo (seq 0 (s_next (m_store st))) (m_stack st))) a true (st := m_stack st) (reaches_refl _ _) (Nat.lt_succ_diag_r _)) as (v & sk & E & _).
  exists (S (todo (seq 0 (s_next (m_store st))) (m_stack st))). destruct v; eexists _, _; (split; [|intros d f _ Hf; unfold try_merge; rewrite El, Hh, Eg, (compare_mono_le Hf E); reflexivity]); discriminate.
Qed.
Lemma try_none W st a x st' : RelS [] W st -> registered A a -> done (fun _ f => try_merge f a) st x st' ->
  match x with Some b => merged H0 N0 A B0 W st a b st' | None => st' = st /\ lookup a (m_stack st) = None /\ get (m_reg st) (o_name (H0 a)) = None end.
Proof. intros R Ha D. assert (X := done_wp D (fun _ f => try_ok PA Disj f R Ha)). exact X. Qed.
Lemma merge_post W st a b st' : RelS [] W st -> registered A a -> above H0 W (m_stack st) a -> done (fun d f => merge_ d f a) st b st' -> merged H0 N0 A B0 W st a b st'.
Proof. intros R Ha U D. exact (done_wp D (fun d f => merge_ok PA Disj Cons Arr f d R Ha U)). Qed.
Lemma Wk_new W st o sk : RelS [] W st -> (forall x mk, indirect_name (fun _ => o) 0 = Some (x, mk) -> x < s_next (m_store st) /\ o_name o = mk (o_name (m_heap st x))) -> Wk (MS (alloc (m_store st) o) (m_reg st) sk (m_freed st)).
Proof.
  intros R Ho. split; [apply alloc_names; [apply (rl_names R)|apply (rl_refs R)|exact Ho]|]. unfold m_heap. cbn [m_store m_reg]. eapply Inv_agree; [|apply (rl_inv R)]. intros t Ht. apply alloc_below, (rl_reg R Ht).
Qed.
Lemma image_below W st x t : RelS [] W st -> registered A x -> lookup x (m_stack st) = Some t -> t < s_next (m_store st).
Proof. intros R Hx Hl. destruct (image R Hx Hl) as [X|[X _]]; [apply (rl_work R X)|apply (rl_reg R X)]. Qed.

Definition all_end (n : nat) : Prop := forall W st x, RelS [] W st -> registered A x -> above H0 W (m_stack st) x -> length (left_ A (m_stack st)) <= n -> cv (fun d f => merge_ d f x) st.
Lemma new_push_add W st a o : RelS [] W st -> plain (o_name o) -> (forall x mk, indirect_name (fun _ => o) 0 = Some (x, mk) -> x < s_next (m_store st) /\ o_name o = mk (o_name (m_heap st x))) ->
  cv (fun d f => b <~~ m_new o ; _ <~~ m_push a b ; _ <~~ m_add f b ; mret (Ok b)) st.
Proof.
  intros R P Ho. eapply cv_step; [reflexivity|]. cbv beta. apply push_add; [apply (Wk_new _ R Ho)|]. unfold m_heap. cbn [m_store alloc s_heap]. rewrite upd_same. exact P.
Qed.
(** A new container. *)
Lemma container_cv W st a o z : RelS [] W st -> plain (o_name o) -> (forall x mk, indirect_name (fun _ => o) 0 = Some (x, mk) -> x < s_next (m_store st) /\ o_name o = mk (o_name (m_heap st x))) ->
  cv (fun d f => b <~~ m_new o ; _ <~~ m_add f b ; _ <~~ m_setSize b z ; _ <~~ m_push a b ; _ <~~ m_add f b ; mret (Ok b)) st.
Proof.
  intros R P Ho. eapply cv_step; [reflexivity|]. cbv beta. set (c := s_next (m_store st)). set (st1 := MS (alloc (m_store st) o) (m_reg st) (m_stack st) (m_freed st)).
  assert (Hc : m_heap st1 c = o) by apply upd_same. assert (P1 : plain (o_name (m_heap st1 c))) by (rewrite Hc; exact P). assert (W1 : Wk st1) by apply (Wk_new _ R Ho).
  apply (cv_bind (m := fun _ f => m_add f c)); [apply add_cv; assumption|]. intros [] st2 D2. destruct (add_post W1 P1 D2) as ([Nm I] & Es & _). assert (Hh : m_heap st2 = m_heap st1) by (unfold m_heap; congruence).
  eapply cv_step; [unfold m_setSize, m_obj, asks, m_set, mbind; reflexivity|]. cbv beta. rewrite Hh, Hc.
  assert (Nms : forall y, o_name (upd (m_heap st1) c (Obj (o_name o) z (o_kind o)) y) = o_name (m_heap st1 y)) by (intros y; destruct (Nat.eq_dec y c) as [-> |]; [rewrite upd_same, Hc; reflexivity|rewrite upd_other by assumption; reflexivity]).
  assert (Kds : forall y, o_kind (upd (m_heap st1) c (Obj (o_name o) z (o_kind o)) y) = o_kind (m_heap st1 y)) by (intros y; destruct (Nat.eq_dec y c) as [-> |]; [rewrite upd_same, Hc; reflexivity|rewrite upd_other by assumption; reflexivity]).
  apply push_add.
  - split.
    + intros t x mk E. unfold m_heap in *. cbn [m_store s_heap] in *. unfold m_heap in Nms, Kds. rewrite !Nms. rewrite Hh in Nm. apply Nm. unfold indirect_name in *. unfold m_heap. rewrite <- Kds. exact E.
    + eapply Inv_names; [|exact I]. intros t _. unfold m_heap. cbn [m_store s_heap]. fold (m_heap st2). rewrite Hh. apply Nms.
  - unfold m_heap. cbn [m_store s_heap]. rewrite upd_same. exact P.
Qed.
Lemma indirect_cv W st a x t : RelS [] W st -> registered A a -> above H0 W (m_stack st) a -> lookup a (m_stack st) = None -> get (m_reg st) (o_name (H0 a)) = None ->
  (match o_kind (H0 a) with OPtr y | OArr _ y | OCont _ y => y = x | _ => False end) -> lookup x (m_stack st) = Some t ->
  cv (fun d f => b <~~ do_merge (merge_ d f) f a ; _ <~~ m_push a b ; _ <~~ m_add f b ; mret (Ok b)) st.
Proof.
  intros R Ha U Hl Hg Kx Hlx. assert (Dx : In x (dependsOn H0 a)) by (unfold dependsOn; destruct (o_kind (H0 a)); try contradiction; left; assumption). assert (Hx := A_dep PA Ha Dx).
  assert (Ca := Cons a). unfold constructed_as in Ca. assert (Hh : m_heap st a = H0 a) by exact (A_heap PA R Ha). assert (Tb := image_below R Hx Hlx). assert (Pt : plain (o_name (m_heap st t))) by exact (image_plain PA R Hx Hlx).
  apply (cv_S (m := fun d f => b <~~ do_merge (merge_ (S d) f) f a ; _ <~~ m_push a b ; _ <~~ m_add f b ; mret (Ok b))); [reflexivity|].
  assert (Eq : forall d f (k : tid -> MM tid), mbind (merge_ (S d) f x) k st = k t st) by (intros d f k; apply bind_ok, merge_hit, Hlx).
  destruct (o_kind (H0 a)) as [| | | |y|dm y|k y|] eqn:K; try contradiction; subst y.
  - apply (cv_eq (m := fun d f => b <~~ m_new (pointer_obj (m_heap st) t) ; _ <~~ m_push a b ; _ <~~ m_add f b ; mret (Ok b)) (st := st)).
    + intros d f. apply bind_eq. unfold do_merge. unfold mbind at 1, m_obj, asks. rewrite Hh, K. rewrite Eq. reflexivity.
    + apply (new_push_add a R); [apply (@shape_plain SPtr); exact Pt|]. intros y mk E. injection E as <- <-. split; [exact Tb|reflexivity].
  - apply (cv_eq (m := fun d f => b <~~ m_new (array_obj (m_heap st) t dm) ; _ <~~ m_push a b ; _ <~~ m_add f b ; mret (Ok b)) (st := st)).
    + intros d f. apply bind_eq. unfold do_merge. unfold mbind at 1, m_obj, asks. rewrite Hh, K. rewrite Eq. reflexivity.
    + apply (new_push_add a R); [apply (@shape_plain (SArr dm)); exact Pt|]. intros y mk E. injection E as <- <-. split; [exact Tb|reflexivity].
  - assert (V : forall o, plain (o_name o) -> (forall x mk, indirect_name (fun _ => o) 0 = Some (x, mk) -> x < s_next (m_store st) /\ o_name o = mk (o_name (m_heap st x))) ->
      (forall f, (match k with KVec => vector_factory f t | KStr => string_factory f t end) st = (b <~~ m_new o ; _ <~~ m_add f b ; mret (Ok b)) st) ->
      cv (fun d f => b <~~ do_merge (merge_ (S d) f) f a ; _ <~~ m_push a b ; _ <~~ m_add f b ; mret (Ok b)) st).
    { intros o Po Ho Ef. eapply cv_eq; [|exact (container_cv a (o_size (H0 a)) R Po Ho)]. intros d f. unfold do_merge. rewrite bind_assoc. unfold mbind at 1, m_obj at 1, asks at 1. rewrite Hh, K. rewrite bind_assoc, Eq. rewrite bind_assoc. rewrite (bind_eq _ (Ef f)).
      unfold mbind, m_new, mret. destruct (m_add f (s_next (m_store st)) _) as [s2 [y|e|u|]]; reflexivity. }
    destruct k.
    + apply (V (Obj (vector_fullName (o_name (m_heap st t))) 24 (OCont KVec t))); [apply (@shape_plain SVec); exact Pt|intros y mk E; injection E as <- <-; split; [exact Tb|reflexivity]|].
      intros f. unfold vector_factory. unfold mbind at 1, m_obj, asks. destruct (vector_base (o_name (m_heap st t))) as [X Y]. rewrite (bind_ok _ (has_no (st := st) X Y (no_vector PA Cons R Ha Hg K Hx Hlx))). reflexivity.
    + destruct Ca as (En & Ex & c & Kc). apply (V (Obj (s_ "/std/string") 32 (OCont KStr t))); [cbn [o_name]; rewrite <- En; apply (A_plain PA Ha)|intros y mk E; discriminate|].
      intros f. unfold string_factory.
      assert (Hs : absolute (s_ "/std/string") /\ base_name (s_ "/std/string")) by (split; [eexists; reflexivity|exists "/"%char, (s_ "std/strin"), "g"%char; repeat split; discriminate]). destruct Hs as [X Y].
      rewrite (bind_ok _ (has_no (st := st) X Y ltac:(rewrite <- En; exact Hg))).
      assert (G8 : get (m_reg st) (s_ "/int8_t") = Some t). { rewrite <- Ex. destruct (image R Hx Hlx) as [Z|[_ Z]]; [|exact Z]. destruct (image_name R Hx Hlx Z) as (_ & _ & fs & Z'). congruence. }
      rewrite (bind_ok _ (has_yes (st := st) G8)). unfold mbind at 1. unfold mbind at 1, asks. rewrite G8. reflexivity.
Qed.
Lemma fields_cv n W a c nm : all_end n -> registered A a -> forall xs fs st z, (forall x, In x xs -> In (f_type x) (dependsOn H0 a)) ->
  RelS [] (c :: W) st -> lookup a (m_stack st) = Some c -> above H0 (c :: W) (m_stack st) a -> m_heap st c = Obj nm z (OComp fs) -> length (left_ A (m_stack st)) <= n ->
  cv (fun d f => merge_fields (merge_ d f) c xs) st /\ (forall x st', done (fun d f => merge_fields (merge_ d f) c xs) st x st' -> RelS [] (c :: W) st' /\ exists z' gs, m_heap st' c = Obj nm z' (OComp gs)).
Proof.
  intros IH Ha. induction xs as [|x xs IHx]; intros fs st z Hxs R Hl U Hc Hn.
  - split; [apply cv_ret; discriminate|]. intros y st' D. destruct (done_step (m := mret (Ok tt)) (st := st) eq_refl D) as [_ <-]. eauto.
  - assert (Dx : In (f_type x) (dependsOn H0 a)) by (apply Hxs; left; reflexivity). assert (Ax := A_dep PA Ha Dx). assert (Ux := above_step U Dx).
    assert (Cx := IH (c :: W) st (f_type x) R Ax Ux Hn).
    assert (Step : forall t st1, done (fun d f => merge_ d f (f_type x)) st t st1 -> exists z1 st2, (forall d f : nat, add_field c (f_name x) t (f_off x) st1 = (st2, Ok tt)) /\
      RelS [] (c :: W) st2 /\ lookup a (m_stack st2) = Some c /\ above H0 (c :: W) (m_stack st2) a /\ m_heap st2 c = Obj nm z1 (OComp (fs ++ [Fld (f_name x) (f_off x) t])) /\ length (left_ A (m_stack st2)) <= n).
    { intros t st1 D1. destruct (merge_post R Ax Ux D1) as (R1 & L1 & E1). assert (Hcn : c < s_next (m_store st)) by (apply (rl_work R); left; reflexivity).
      assert (Hc1 : m_heap st1 c = Obj nm z (OComp fs)) by (destruct E1 as (_ & X & _); rewrite X by assumption; exact Hc).
      set (z1 := if (z <? (f_off x + o_size (m_heap st1 t)) mod 2 ^ 64)%N then ((f_off x + o_size (m_heap st1 t)) mod 2 ^ 64)%N else z).
      set (o := Obj nm z1 (OComp (fs ++ [Fld (f_name x) (f_off x) t]))). set (st2 := MS (Store (upd (m_heap st1) c o) (s_next (m_store st1))) (m_reg st1) (m_stack st1) (m_freed st1)).
      exists z1, st2. split; [intros _ _; unfold add_field, m_obj, asks, m_set, mbind; rewrite Hc1; cbn [o_size o_kind o_name]; reflexivity|]. split.
      - unfold st2. cbn [m_store m_reg m_stack]. unfold m_heap. apply (Rel_set PA Disj R1); [left; reflexivity| | |].
        + unfold m_heap in Hc1. rewrite Hc1. reflexivity.
        + intros y mk X. unfold indirect_name in X. rewrite upd_same in X. discriminate.
        + cbn [o o_kind]. rewrite map_app. intros y Hy. apply in_app_or in Hy. destruct Hy as [Hy|[<- |[]]].
          * apply (rl_wdeps R1 (t := c) (or_introl eq_refl)). unfold dependsOn. unfold m_heap in Hc1. rewrite Hc1. exact Hy.
          * cbn [f_type]. destruct (image R1 Ax L1) as [X|[X _]]; [right|left]; assumption.
      - split; [cbn [st2 m_stack]; apply E1; assumption|]. split; [cbn [st2 m_stack]; eapply (@above_ext H0 N0 A B0 [] (c :: W) st st1); eassumption|]. split; [apply upd_same|].
        cbn [st2 m_stack]. etransitivity; [|exact Hn]. apply (MergeCopy.left_mono Cons Arr). apply E1. }
    assert (Hxs' : forall y, In y xs -> In (f_type y) (dependsOn H0 a)) by (intros y Hy; apply Hxs; right; exact Hy).
    split.
    + cbn [merge_fields]. apply (cv_bind (m := fun d f => merge_ d f (f_type x))); [exact Cx|]. intros t st1 D1. destruct (Step t st1 D1) as (z1 & st2 & Ea & R2 & L2 & U2 & Hc2 & Hn2).
      eapply cv_step; [exact (Ea 0 0)|]. apply (IHx _ _ _ Hxs' R2 L2 U2 Hc2 Hn2).
    + intros y st' D. destruct Cx as (N & st1 & [t|e|u|] & Hx & D1).
      * destruct (Step t st1 (ex_intro _ N D1)) as (z1 & st2 & Ea & R2 & L2 & U2 & Hc2 & Hn2). apply (proj2 (IHx _ _ _ Hxs' R2 L2 U2 Hc2 Hn2) y st'). destruct D as (M & D). exists (N + M). intros d f Hd Hf.
        assert (X := D d f ltac:(lia) ltac:(lia)). cbn [merge_fields] in X. rewrite (bind_ok _ (D1 d f ltac:(lia) ltac:(lia))) in X. rewrite (bind_ok _ (Ea d f)) in X. exact X.
      * destruct D as (M & D). assert (X := D (N + M) (N + M) ltac:(lia) ltac:(lia)). cbn [merge_fields] in X. unfold mbind at 1 in X. rewrite (D1 (N + M) (N + M)) in X by lia. discriminate.
      * destruct D as (M & D). assert (X := D (N + M) (N + M) ltac:(lia) ltac:(lia)). cbn [merge_fields] in X. unfold mbind at 1 in X. rewrite (D1 (N + M) (N + M)) in X by lia. discriminate.
      * congruence.
Qed.
Lemma compound_cv n W st a fs : all_end n -> RelS [] W st -> registered A a -> above H0 W (m_stack st) a -> lookup a (m_stack st) = None -> get (m_reg st) (o_name (H0 a)) = None -> o_kind (H0 a) = OComp fs -> length (left_ A (m_stack st)) <= S n ->
  cv (fun d f => b <~~ do_merge (merge_ d f) f a ; _ <~~ m_push a b ; _ <~~ m_add f b ; mret (Ok b)) st.
Proof.
  intros IH R Ha U Hl G K Hn. assert (Hh : m_heap st a = H0 a) by exact (A_heap PA R Ha). set (c := s_next (m_store st)). set (o := Obj (o_name (H0 a)) 0 (OComp [])).
  set (st1 := MS (alloc (m_store st) o) (m_reg st) ((a, c) :: m_stack st) (m_freed st)).
  assert (R1 : RelS [] (c :: W) st1).
  { unfold st1. cbn [m_store m_reg m_stack]. apply (Rel_new PA Disj); try assumption; [right; split; [reflexivity|split; [eauto|exact G]]|intros x []|]. intros x mk E. unfold indirect_name in E. rewrite upd_same in E. discriminate. }
  assert (Lk : forall x y, lookup x (m_stack st) = Some y -> lookup x (m_stack st1) = Some y) by (intros x y X; cbn [st1 m_stack]; apply lookup_cons; assumption).
  destruct (@fields_cv n W a c (o_name (H0 a)) IH Ha fs [] st1 0%N) as (C2 & P2); try assumption.
  - intros x Hx. unfold dependsOn. rewrite K. apply in_map. assumption.
  - apply lookup_same.
  - intros t a' Ht L. destruct Ht as [<- |Ht].
    + assert (a' = a) by (apply (rl_inj R1 (y := c) (or_introl eq_refl)); apply lookup_In; [exact L|apply lookup_same]). subst a'. constructor.
    + apply (U t a' Ht). unfold st1 in L. cbn [m_stack lookup] in L. destruct (Nat.eqb_spec a a') as [-> |]; [|exact L]. injection L as <-. destruct (rl_work R Ht) as [[_ X] _]; unfold c in X; lia.
  - apply upd_same.
  - assert (X := @left_less H0 N0 A PA Cons Arr (m_stack st) (m_stack st1) a Lk Ha Hl). cbn [st1 m_stack] in X. rewrite lookup_same in X. assert (Y := X ltac:(discriminate)). cbn [st1 m_stack]. lia.
  - apply (cv_eq (m := fun d f => _ <~~ on_throw a c (merge_fields (merge_ d f) c fs) ; _ <~~ m_setSize c (o_size (H0 a)) ; _ <~~ m_push a c ; _ <~~ m_add f c ; mret (Ok c)) (st := st1)).
    + intros d f. unfold do_merge. rewrite bind_assoc. unfold mbind at 1, m_obj at 1, asks at 1. rewrite Hh, K. rewrite bind_assoc. unfold mbind at 1, m_new. fold c. rewrite bind_assoc. unfold mbind at 1, m_push at 1. cbn [m_store m_reg m_stack m_freed]. rewrite insert_none by assumption. fold o st1.
      rewrite bind_assoc. apply bind_ext. intros y s2. rewrite bind_assoc. reflexivity.
    + apply (cv_bind (m := fun d f => on_throw a c (merge_fields (merge_ d f) c fs))); [apply cv_throw; exact C2|]. intros x st2 D2. destruct (P2 x st2 (done_throw D2)) as (R2 & z & gs & Hc2).
      eapply cv_step; [unfold m_setSize, m_obj, asks, m_set, mbind; reflexivity|]. cbv beta. rewrite Hc2. cbn [o_name o_kind]. set (o2 := Obj (o_name (H0 a)) (o_size (H0 a)) (OComp gs)).
      assert (R3 : RelS [] (c :: W) (MS (Store (upd (m_heap st2) c o2) (s_next (m_store st2))) (m_reg st2) (m_stack st2) (m_freed st2))).
      { cbn [m_store m_reg m_stack]. unfold m_heap. apply (Rel_set PA Disj R2); [left; reflexivity| | |].
        - unfold m_heap in Hc2. rewrite Hc2. reflexivity.
        - intros y mk X. unfold indirect_name in X. rewrite upd_same in X. discriminate.
        - intros y Hy. apply (rl_wdeps R2 (t := c) (or_introl eq_refl)). unfold dependsOn. unfold m_heap in Hc2. rewrite Hc2. exact Hy. }
      apply push_add; [split; [apply (rl_names R3)|apply (rl_inv R3)]|]. unfold m_heap. cbn [m_store s_heap]. rewrite upd_same. apply (A_plain PA Ha).
Qed.
Lemma type_merge_cv W st a : RelS [] W st -> registered A a -> (lookup a (m_stack st) = None -> get (m_reg st) (o_name (H0 a)) = None ->
  cv (fun d f => b <~~ do_merge (merge_ d f) f a ; _ <~~ m_push a b ; _ <~~ m_add f b ; mret (Ok b)) st) -> cv (fun d f => type_merge (merge_ d f) f a) st.
Proof.
  intros R Ha C. unfold type_merge. apply (cv_bind (m := fun _ f => try_merge f a)); [apply (try_cv R Ha)|]. intros x st' D. assert (P := try_none R Ha D). destruct x as [b|]; [apply cv_ret; discriminate|]. destruct P as (-> & L & G). exact (C L G).
Qed.
Lemma end_all : forall n, all_end n.
Proof.
  assert (Z : forall n, (match n with 0 => True | S m => all_end m end) -> forall l W st a, RelS [] W st -> registered A a -> above H0 W (m_stack st) a -> length (left_ A (m_stack st)) <= n -> length (o_name (H0 a)) < l -> cv (fun d f => merge_ d f a) st).
  { intros n IHn. induction l as [|l IHl]; intros W st a R Ha U Hn Hlen; [lia|]. assert (Hh : m_heap st a = H0 a) by exact (A_heap PA R Ha).
    assert (Lf : leaf (o_kind (H0 a)) -> cv (fun d f => merge_ d f a) st).
    { intros Hk. apply (cv_S (m := fun d f => type_merge (merge_ d f) f a)); [intros d f; apply merge_direct; rewrite Hh; destruct (o_kind (H0 a)); try destruct Hk; exact Logic.I|].
      apply (type_merge_cv R Ha). intros _ _. apply (cv_eq (m := fun d f => b <~~ m_new (H0 a) ; _ <~~ m_push a b ; _ <~~ m_add f b ; mret (Ok b)) (st := st)).
      - intros d f. apply bind_eq. unfold do_merge, mbind at 1, m_obj, asks. rewrite Hh. destruct (o_kind (H0 a)); try destruct Hk; reflexivity.
      - apply (new_push_add a R); [apply (A_plain PA Ha)|]. intros x mk E. unfold indirect_name in E. destruct (o_kind (H0 a)); try destruct Hk; discriminate. }
    assert (Ind : forall x, In x (dependsOn H0 a) -> (match o_kind (H0 a) with OPtr y | OArr _ y | OCont _ y => y = x | _ => False end) -> length (o_name (H0 x)) < length (o_name (H0 a)) -> cv (fun d f => merge_ d f a) st).
    { intros x Dx Kx Hlx. assert (Hx := A_dep PA Ha Dx).
      apply (cv_S (m := fun d f => old <~~ try_merge f a ; match old with Some b => mret (Ok b) | None => _ <~~ merge_ d f x ; type_merge (merge_ d f) f a end)).
      { intros d f. cbn [merge_]. unfold mbind at 1, m_obj, asks. rewrite Hh. destruct (o_kind (H0 a)); try contradiction; subst x; reflexivity. }
      apply (cv_bind (m := fun _ f => try_merge f a)); [apply (try_cv R Ha)|]. intros old st' D. assert (P := try_none R Ha D). destruct old as [b|]; [apply cv_ret; discriminate|]. destruct P as (-> & L & G).
      assert (Ux := above_step U Dx). apply (cv_bind (m := fun d f => merge_ d f x)); [apply (IHl W st x R Hx Ux Hn); lia|]. intros t st1 D1. destruct (merge_post R Hx Ux D1) as (R1 & L1 & E1).
      apply (type_merge_cv R1 Ha). intros La Ga. refine (@indirect_cv W st1 a x t R1 Ha _ La Ga Kx L1). eapply (@above_ext H0 N0 A B0 [] W st st1); eassumption. }
    assert (Ca := Cons a). unfold constructed_as in Ca. unfold dependsOn in Ind. destruct (o_kind (H0 a)) as [| | | |y|dm y|k y|fs] eqn:K; try (apply Lf; exact Logic.I).
    - apply (Ind y); [left; reflexivity|reflexivity|]. destruct Ca as [-> _]. apply (shape_longer SPtr).
    - apply (Ind y); [left; reflexivity|reflexivity|]. destruct Ca as [-> _]. apply (shape_longer (SArr dm)).
    - apply (Ind y); [left; reflexivity|reflexivity|]. destruct k; [rewrite Ca; apply (shape_longer SVec)|]. destruct Ca as (-> & -> & _). cbn. lia.
    - apply (cv_S (m := fun d f => type_merge (merge_ d f) f a)); [intros d f; apply merge_direct; rewrite Hh, K; exact Logic.I|]. apply (type_merge_cv R Ha). intros La Ga. destruct n as [|n].
      + exfalso. assert (X := @left_less H0 N0 A PA Cons Arr (m_stack st) ((a, 0) :: m_stack st) a). rewrite lookup_same in X. assert (Y := X (fun x y => @lookup_cons a 0 (m_stack st) x y La) Ha La ltac:(discriminate)). lia.
      + eapply compound_cv; eassumption. }
  induction n as [|n IH]; intros W st a R Ha U Hn.
  - eapply (Z 0 Logic.I (S (length (o_name (H0 a))))); try eassumption. lia.
  - eapply (Z (S n) IH (S (length (o_name (H0 a))))); try eassumption. lia.
Qed.
Lemma merge_cv W st a : RelS [] W st -> registered A a -> above H0 W (m_stack st) a -> cv (fun d f => merge_ d f a) st.
Proof. intros R Ha U. exact (end_all R Ha U (le_n _)). Qed.
Lemma mall_cv {X} (op : nat -> nat -> X -> MM unit) (P : mstate -> Prop) (l : list X) : (forall x st, In x l -> P st -> cv (fun d f => op d f x) st /\ forall st', done (fun d f => op d f x) st tt st' -> P st') ->
  forall st, P st -> cv (fun d f => mall (op d f) l) st.
Proof.
  clear. intros Hop. induction l as [|x l IH]; intros st HP; [apply cv_ret; discriminate|]. cbn [mall]. destruct (Hop x st (or_introl eq_refl) HP) as [C N]. apply (cv_bind (m := fun d f => op d f x)); [exact C|]. intros [] st' D. apply IH; [intros y s Hy; apply Hop; right; exact Hy|exact (N st' D)].
Qed.
Lemma reg_merge_cv st : RelS [] [] st -> cv (fun d f => merge_body d f A) st.
Proof.
  intros R. unfold merge_body. apply (cv_bind (m := fun d f => mall (merge_entry d f) (r_global A))).
  - apply (mall_cv (op := fun d f => merge_entry d f) (P := fun s => RelS [] [] s)); [|exact R]. intros p s Hp Rs. assert (Rp := entry_reg PA Hp). assert (Us : above H0 [] (m_stack s) (e_type (snd p))) by (intros t a' []). unfold merge_entry, m_isAlias. destruct (isAlias (m_heap s) p) eqn:Ea.
    + split; [apply (cv_eq (m := fun _ _ => mret (Ok tt)) (st := s)); [intros d f; unfold mbind, asks; rewrite Ea; reflexivity|apply cv_ret; discriminate]|]. intros s' (N & D). assert (X := D N N (le_n N) (le_n N)). unfold mbind, asks in X. rewrite Ea in X. injection X as <-. exact Rs.
    + split.
      * apply (cv_eq (m := fun d f => _ <~~ merge_ d f (e_type (snd p)) ; mret (Ok tt)) (st := s)); [intros d f; unfold mbind at 1, asks; rewrite Ea; reflexivity|]. apply (cv_bind (m := fun d f => merge_ d f (e_type (snd p)))); [apply (merge_cv Rs Rp Us)|]. intros x s' _. apply cv_ret. discriminate.
      * intros s' D. assert (X := @done_wp _ (fun d f => (al <~~ asks (fun st0 : mstate => isAlias (m_heap st0) p); (if al then mret (Ok tt) else _ <~~ merge_ d f (e_type (snd p)); mret (Ok tt)))) s tt s' (fun _ s' => RelS [] [] s') D). apply X. intros d f. apply wp_asks. rewrite Ea. apply wp_bind. eapply wp_mono; [|apply (merge_ok PA Disj Cons Arr f d Rs Rp Us)]. intros b s2 (R2 & _). apply wp_ret. exact R2.
  - intros [] st1 D1. destruct (done_wp D1 (fun d f => phase1 PA Disj Cons Arr d f R)) as (R1 & L1).
    apply (cv_bind (m := fun _ f => mall (merge_alias f) (r_global A))).
    + apply (mall_cv (op := fun _ f => merge_alias f) (P := fun s => m_store s = m_store st1 /\ Inv (m_heap s) (m_reg s))); [|split; [reflexivity|apply (rl_inv R1)]]. intros [n e] s Hp [Es I]. assert (Rp := entry_reg PA Hp). cbn [fst snd] in Rp.
      assert (Hh : m_heap s = m_heap st1) by (unfold m_heap; congruence). destruct (global_get IA Hp) as (Hn & Pn & Gn). assert (Pl := plain_get IA Hn Gn). unfold merge_alias, m_isAlias. destruct (isAlias (m_heap s) (n, e)) eqn:Ea; cycle 1.
      * split; [apply (cv_eq (m := fun _ _ => mret (Ok tt)) (st := s)); [intros d f; unfold mbind, asks; rewrite Ea; reflexivity|apply cv_ret; discriminate]|]. intros s' (N & D). assert (X := D N N (le_n N) (le_n N)). unfold mbind, asks in X. rewrite Ea in X. injection X as <-. auto.
      * cbn [fst snd] in *. assert (Nm : names_ok (m_heap s)) by (rewrite Hh; apply (rl_names R1)). destruct (get (m_reg s) n) as [u|] eqn:Gu.
        -- assert (Fg : finite_graph (m_heap s) (u :: seq 0 (s_next (m_store st1))) u). { intros x Hx. destruct Hx as [|x y _ Hd]; [left; reflexivity|right]. apply in_seq. split; [lia|]. cbn [plus]. rewrite Hh in Hd. apply (rl_refs R1 Hd). }
           destruct (@compare_conv (m_heap s) _ u (e_type e) true Fg) as (v & N & D). split.
           ++ exists N, s, (if v then Ok tt else Throw EDefinitionMismatch). split; [destruct v; discriminate|]. intros d f _ Hf. unfold mbind at 1, asks. rewrite Ea. cbn [negb]. unfold mbind at 1. rewrite Gu. unfold mbind. unfold isSame. rewrite (D f Hf). destruct v; reflexivity.
           ++ intros s' (M & E). assert (X := E (N + M) (N + M) ltac:(lia) ltac:(lia)). unfold mbind at 1, asks in X. rewrite Ea in X. cbn [negb] in X. unfold mbind at 1 in X. rewrite Gu in X. unfold mbind, isSame in X. rewrite (D (N + M)) in X by lia. destruct v; [|discriminate]. injection X as <-. auto.
        -- destruct (alias_terminates (o_name (m_heap s (e_type e))) (e_pers e) (e_src e) Nm I Pl) as (k & r' & x & Hx & E).
           assert (Eq : forall (d : nat) f, k <= f -> (al <~~ asks (fun st : mstate => isAlias (m_heap st) (n, e)); (if negb al then mret (Ok tt) else old <~~ asks (fun st : mstate => get (m_reg st) n); match old with Some t => same <~~ (fun st : mstate => (st, isSame f (m_heap st) t (e_type e))); (if same then mret (Ok tt) else mret (Throw EDefinitionMismatch)) | None => o <~~ m_obj (e_type e); m_alias f (o_name o) n (e_pers e) (e_src e) end)) s = (MS (m_store s) r' (m_stack s) (m_freed s), x) /\ d = d).
           { intros d f Hf. split; [|reflexivity]. unfold mbind at 1, asks. rewrite Ea. cbn [negb]. unfold mbind at 1. rewrite Gu. unfold mbind at 1, m_obj, asks. unfold m_alias. rewrite (E f Hf). reflexivity. }
           split; [exists k, (MS (m_store s) r' (m_stack s) (m_freed s)), x; split; [exact Hx|]; intros d f _ Hf; apply (Eq d f Hf)|].
           intros s' (M & D). assert (X := D (k + M) (k + M) ltac:(lia) ltac:(lia)). destruct (Eq 0 (k + M) ltac:(lia)) as [Y _]. rewrite Y in X. injection X as <- ->. split; [exact Es|]. unfold m_heap. cbn [m_store m_reg]. apply (alias_effect I Pl (E k (le_n k))).
    + intros [] st2 _. eexists 0, _, _. split; [|intros d f _ _; unfold m_copySourceIDs; reflexivity]. discriminate.
Qed.
End Term.
