(** * MergeMain: Type::merge keeps the invariant. *)
From Verif Require Import Base Types NamesSpec Names NamesProofs Registry RegistrySpec RegistryProofs RegistryOps RegistryMain RegistryAlias World TypeBuilderSpec TypeBuilder TypeBuilderProofs TlbCore TlbBuild Merge MergeSpec MergeProofs MergeRel.
From Verif Require Import Graph GraphSpec GraphProofs.
Local Open Scope nat_scope.

(** ** No undefined behaviour in the functions that merge() calls *)
Lemma base_kind a b : base_compare a b = true -> match o_kind a, o_kind b with
  | ONull, ONull | OOpaque, OOpaque | ONum _, ONum _ | OEnum _, OEnum _ | OPtr _, OPtr _ | OArr _ _, OArr _ _ | OCont _ _, OCont _ _ | OComp _, OComp _ => True | _, _ => False end.
Proof. unfold base_compare. intros E. apply andb_true_iff in E. destruct E as [_ E]. unfold category in *. destruct (o_kind a), (o_kind b); try exact Logic.I; discriminate. Qed.
Lemma compare_noub H : forall f l r eq st u, do_compare f H l r eq st <> UB u.
Proof.
  induction f as [|f IH]; intros l r eq st u E; [discriminate|].
  assert (Hrec : forall x y e st0, rec_compare (do_compare f H) x y e st0 <> UB u).
  { intros x y e st0 E0. unfold rec_compare in E0. destruct (x =? y); [discriminate|]. destruct (lookup x st0); [discriminate|]. exact (IH _ _ _ _ _ E0). }
  cbn [do_compare] in E. destruct (base_compare (H l) (H r)) eqn:Eb; [assert (K := base_kind Eb)|clear Hrec]; destruct (o_kind (H l)) as [| | | | | | |fs] eqn:El; cbn [negb] in E; try discriminate.
  - destruct (o_kind (H r)); try discriminate; destruct K.
  - destruct (o_kind (H r)); try contradiction. exact (Hrec _ _ _ _ E).
  - destruct (o_kind (H r)); try contradiction. destruct (_ =? _)%N; [|discriminate]. exact (Hrec _ _ _ _ E).
  - destruct (o_kind (H r)); try contradiction. destruct (ckind_eqb _ _); [|discriminate]. exact (Hrec _ _ _ _ E).
  - destruct (o_kind (H r)) as [| | | | | | |gs]; try contradiction. destruct (eq && false); [discriminate|]. destruct (Nat.eqb_spec (length fs) (length gs)) as [El'|]; [|discriminate]. cbn [negb] in E.
    clear - E Hrec El'. revert gs st El' E. induction fs as [|x fs IHf]; intros gs st El' E; [discriminate|]. destruct gs as [|y gs]; [discriminate El'|]. cbn [fields_compare] in E.
    destruct (_ || _); [discriminate|]. destruct (rec_compare (do_compare f H) (f_type x) (f_type y) eq st) as [[ok st1]| | |] eqn:Er; try discriminate; [|cbn [bind] in E; injection E as ->; exact (Hrec _ _ _ _ Er)].
    cbn [bind] in E. destruct ok; [|discriminate]. eapply IHf; [|exact E]. injection El' as ->. reflexivity.
  - destruct (o_kind (H r)) as [| | | | | | |gs]; try discriminate. destruct (eq && true); [discriminate|]. destruct (Nat.eqb_spec (length fs) (length gs)) as [El'|]; [|discriminate]. cbn [negb] in E.
    assert (Hrec : forall x y e st0, rec_compare (do_compare f H) x y e st0 <> UB u).
    { intros x y e st0 E0. unfold rec_compare in E0. destruct (x =? y); [discriminate|]. destruct (lookup x st0); [discriminate|]. exact (IH _ _ _ _ _ E0). }
    clear - E Hrec El'. revert gs st El' E. induction fs as [|x fs IHf]; intros gs st El' E; [discriminate|]. destruct gs as [|y gs]; [discriminate El'|]. cbn [fields_compare] in E.
    destruct (_ || _); [discriminate|]. destruct (rec_compare (do_compare f H) (f_type x) (f_type y) eq st) as [[ok st1]| | |] eqn:Er; try discriminate; [|cbn [bind] in E; injection E as ->; exact (Hrec _ _ _ _ Er)].
    cbn [bind] in E. destruct ok; [|discriminate]. eapply IHf; [|exact E]. injection El' as ->. reflexivity.
Qed.
Lemma named_noub H r n e r' u : add_named H r n e <> (r', UB u).
Proof. unfold add_named. destruct (negb _); [discriminate|]. destruct (get r n); [destruct (_ =? _); discriminate|discriminate]. Qed.
Lemma each_noub {X} (g : reg -> X -> reg * res unit) u : (forall r x r', g r x <> (r', UB u)) -> forall l r r', each g l r <> (r', UB u).
Proof.
  intros Hg. induction l as [|x l IH]; intros r r' E; [discriminate|]. cbn [each] in E. unfold seq_ in E. destruct (g r x) as [r1 [| | |]] eqn:Eg; try discriminate; [exact (IH _ _ E)|].
  injection E as -> ->. exact (Hg _ _ _ Eg).
Qed.
Lemma alias_noub H u : forall f, (forall r b n p s r', alias_ f H r b n p s <> (r', UB u)) /\ (forall r t r', mda f H r t <> (r', UB u)).
Proof.
  induction f as [|f [IH1 IH2]]; [split; intros; discriminate|]. split.
  - intros r b n p s r' E. cbn [alias_] in E. destruct (negb _); [discriminate|]. destruct (get r b); [|discriminate]. unfold seq_ in E.
    destruct (add_named H r n _) as [r1 [| | |]] eqn:Ea; try discriminate; [|injection E as -> ->; exact (@named_noub _ _ _ _ _ _ Ea)]. eapply (@each_noub _ (mda f H) u); [exact IH2|exact E].
  - intros r t r' E. cbn [mda] in E. destruct (indirect_name H t) as [[x mk]|]; [|discriminate]. eapply each_noub; [|exact E]. intros r0 a r1 E1. cbv beta in E1. destruct (has r0 (mk a)); [discriminate|]. exact (IH1 _ _ _ _ _ _ E1).
Qed.
Lemma add_noub f H r t src r' u : add f H r t src <> (r', UB u).
Proof.
  unfold add, add_type, seq_. destruct (add_named H r _ _) as [r1 [| | |]] eqn:Ea; try discriminate; [|intros E; injection E as -> ->; exact (@named_noub _ _ _ _ _ _ Ea)].
  destruct (existsb _ _); [apply (proj2 (alias_noub H u f))|discriminate].
Qed.

Section Main.
Variables (H0 : heap) (N0 : tid) (A B0 : reg).
Hypothesis PA : proper H0 N0 A.
Hypothesis Disj : forall t, registered A t -> registered B0 t -> False.
Hypothesis Cons : forall t, constructed_as H0 t.
Hypothesis Arr : forall t, registered A t -> no_array_cycle H0 t.
Notation Rel := (Rel H0 N0 A B0).
Notation RelS Q W st := (Rel Q W (m_store st) (m_reg st) (m_stack st)).

(** What is kept whatever happens. *)
Definition Safe (st : mstate) : Prop := N0 <= s_next (m_store st) /\ (forall t, t < N0 -> m_heap st t = H0 t) /\ mono B0 (m_reg st).
Lemma Rel_safe Q W st : RelS Q W st -> Safe st.
Proof. intros R. split; [apply (rl_next R)|]. split; [intros t Ht; apply (rl_old R Ht)|apply (rl_mono R)]. Qed.
(** [Q] after a call that returns; [Safe] after a call that throws. *)
Definition wp {X} (m : MM X) (st : mstate) (Q : X -> mstate -> Prop) : Prop :=
  match m st with (st', Ok x) => Q x st' | (_, UB _) => False | (st', _) => Safe st' end.
Lemma wp_bind {X Y} (m : MM X) (k : X -> MM Y) st Q : wp m st (fun x st' => wp (k x) st' Q) -> wp (mbind m k) st Q.
Proof. unfold wp, mbind. destruct (m st) as [st' [x|e|u|]]; auto. Qed.
Lemma wp_mono {X} (m : MM X) st (Q Q' : X -> mstate -> Prop) : (forall x st', Q x st' -> Q' x st') -> wp m st Q -> wp m st Q'.
Proof. unfold wp. intros I. destruct (m st) as [st' [x|e|u|]]; auto. Qed.
Lemma wp_ret {X} (x : X) st (Q : X -> mstate -> Prop) : Q x st -> wp (mret (Ok x)) st Q.
Proof. exact (fun H => H). Qed.

(** What a merge keeps when it succeeds. *)
Definition ext (st st' : mstate) : Prop :=
  s_next (m_store st) <= s_next (m_store st') /\ (forall t, t < s_next (m_store st) -> m_heap st' t = m_heap st t) /\ mono (m_reg st) (m_reg st') /\
  (forall x y, lookup x (m_stack st) = Some y -> lookup x (m_stack st') = Some y).
Lemma ext_refl st : ext st st.
Proof. split; [apply le_n|]. split; [auto|]. split; [intros k t _ G; exact G|auto]. Qed.
Lemma ext_trans a b c : ext a b -> ext b c -> ext a c.
Proof.
  intros (N1 & H1 & M1 & L1) (N2 & H2 & M2 & L2). split; [lia|]. split; [intros t Ht; rewrite H2 by lia; apply H1; assumption|]. split; [intros k t Hk G; apply M2, M1; assumption|].
  intros x y Hx. apply L2, L1, Hx.
Qed.
(** All the compounds that are being merged need [a]. *)
Definition above (W : list tid) (sk : stack) (a : tid) : Prop := forall t a', In t W -> lookup a' sk = Some t -> reaches H0 a' a.
Lemma above_ext Q W st st' a : RelS Q W st -> RelS Q W st' -> ext st st' -> above W (m_stack st) a -> above W (m_stack st') a.
Proof.
  intros R R' (_ & _ & _ & L) U t a' Ht Hl. destruct (rl_work R Ht) as (_ & a1 & Hl1 & _). assert (Hl2 := L _ _ Hl1).
  assert (a' = a1) by (eapply (rl_inj R' Ht); apply lookup_In; eassumption). subst a'. exact (U _ _ Ht Hl1).
Qed.

(** ** try_merge *)
Lemma try_ok W st f a : RelS [] W st -> registered A a ->
  wp (try_merge f a) st (fun x st' => match x with
    | Some b => RelS [] W st' /\ lookup a (m_stack st') = Some b /\ ext st st'
    | None => st' = st /\ lookup a (m_stack st) = None /\ get (m_reg st) (o_name (H0 a)) = None end).
Proof.
  intros R Ha. unfold wp, try_merge. destruct (lookup a (m_stack st)) as [b|] eqn:El; [split; [assumption|split; [assumption|apply ext_refl]]|].
  unfold m_heap. rewrite (A_heap PA R Ha). destruct (get (m_reg st) (o_name (H0 a))) as [old|] eqn:Eg; [|auto].
  destruct (do_compare f (s_heap (m_store st)) old a true (m_stack st)) as [[ok sk]|e|u|] eqn:Ec.
  - destruct ok.
    + destruct (Rel_compare PA Disj R Ha El Eg Ec) as (R' & Es & L). rewrite Es. split; [exact R'|]. cbn [m_stack]. split; [cbn [lookup]; rewrite Nat.eqb_refl; reflexivity|].
      split; [apply le_n|]. split; [auto|]. split; [intros k t _ G; exact G|exact L].
    + exact (Rel_safe R).
  - exact (Rel_safe R).
  - exact (@compare_noub _ _ _ _ _ _ _ Ec).
  - exact (Rel_safe R).
Qed.

(** ** add *)
Lemma add_wp st f b (Q : unit -> mstate -> Prop) : names_ok (m_heap st) -> Inv (m_heap st) (m_reg st) -> plain (o_name (m_heap st b)) -> closed_ (m_heap st) (m_reg st) -> Safe st ->
  (forall r', added (m_heap st) (m_reg st) b r' -> Q tt (MS (m_store st) r' (m_stack st) (m_freed st))) -> wp (m_add f b) st Q.
Proof.
  intros N I P C S HQ. unfold wp, m_add. destruct (add f (m_heap st) (m_reg st) b []) as [r' x] eqn:E.
  assert (S' : Safe (MS (m_store st) r' (m_stack st) (m_freed st))).
  { destruct S as (S1 & S2 & S3). split; [exact S1|]. split; [exact S2|]. cbn [m_reg]. unfold add in E. destruct (add_effect I P E) as (_ & M & _). intros k t Hk G. apply M; [assumption|]. apply S3; assumption. }
  destruct x as [[]|e|u|]; [|exact S'|exact (@add_noub _ _ _ _ _ _ _ E)|exact S'].
  apply HQ. exact (add_added N I P C E).
Qed.

(** ** The image of a type *)
Lemma image Q W s r st x t : Rel Q W s r st -> registered A x -> lookup x st = Some t -> In t W \/ (registered r t /\ get r (o_name (H0 x)) = Some t).
Proof.
  intros R Hx Hl. destruct (rl_stack R (lookup_In Hl)) as [[_ X]|[X _]]; [exact X|]. destruct (rl_reg R X) as (_ & _ & Y). contradiction.
Qed.
Lemma image_name W s r st x t : Rel [] W s r st -> registered A x -> lookup x st = Some t -> In t W -> o_name (s_heap s t) = o_name (H0 x) /\ get r (o_name (s_heap s t)) = None /\ exists fs, o_kind (H0 x) = OComp fs.
Proof.
  intros R Hx Hl Hw. destruct (rl_work R Hw) as (_ & a & Hl' & _ & [[]|(E & K & G)]). assert (a = x) by (eapply (rl_inj R Hw); apply lookup_In; eassumption). subst a. auto.
Qed.
Lemma image_plain W s r st x t : Rel [] W s r st -> registered A x -> lookup x st = Some t -> plain (o_name (s_heap s t)).
Proof.
  intros R Hx Hl. destruct (image R Hx Hl) as [X|[(n & Hn & G) _]].
  - destruct (image_name R Hx Hl X) as [-> _]. apply (A_plain PA Hx).
  - destruct (get_primary (rl_inv R) G) as [Ha G']. exact (plain_get (rl_inv R) Ha G').
Qed.
(** The size of the image, for arrays. *)
Lemma image_size W s r st x t : Rel [] W s r st -> registered A x -> lookup x st = Some t -> ~ In t W -> o_size (s_heap s t) = o_size (H0 x).
Proof.
  intros R Hx Hl Hw. destruct (rl_node R (lookup_In Hl)) as [X|[X _]]; [contradiction|]. rewrite (A_heap PA R Hx) in X. congruence.
Qed.
(** A new pointer, array or vector. *)
Lemma shape_new W s r st a x t sh z : Rel [] W s r st -> registered A a -> lookup a st = None -> o_kind (H0 a) = shape_kind sh x -> registered A x -> lookup x st = Some t ->
  Rel [s_next s] (s_next s :: W) (alloc s (Obj (shape_name sh (o_name (s_heap s t))) z (shape_kind sh t))) r ((a, s_next s) :: st).
Proof.
  intros R Ha Hl K Hx Hlx. apply (Rel_new PA Disj); try assumption; [left; left; reflexivity| |].
  - cbn [o_kind]. intros y Hy. assert (y = t) by (destruct sh; destruct Hy as [<- |[]]; reflexivity). subst y. destruct (image R Hx Hlx) as [X|[X _]]; [right|left]; assumption.
  - intros y mk E. assert (Kt : o_kind (upd (s_heap s) (s_next s) (Obj (shape_name sh (o_name (s_heap s t))) z (shape_kind sh t)) (s_next s)) = shape_kind sh t) by (rewrite upd_same; reflexivity).
    rewrite (shape_indirect Kt) in E. injection E as <- <-. reflexivity.
Qed.
Lemma Rst_in st x y : lookup x st = Some y -> Rst st x y.
Proof. intros L. right. left. apply lookup_In, L. Qed.
Lemma shape_done W s r st a x t sh s2 r' : Rel [] W s r st -> registered A a -> o_kind (H0 a) = shape_kind sh x -> registered A x -> lookup x st = Some t ->
  let c := s_next s in Rel [c] (c :: W) s2 r ((a, c) :: st) -> s_heap s2 c = Obj (shape_name sh (o_name (s_heap s t))) (o_size (H0 a)) (shape_kind sh t) ->
  (forall y, y < c -> s_heap s2 y = s_heap s y) -> lookup a st = None -> added (s_heap s2) r c r' -> Rel [] W s2 r' ((a, c) :: st) /\ get r' (o_name (H0 a)) = Some c.
Proof.
  intros R Ha K Hx Hlx c R2 Hc Hlt Hla Had. assert (Na : o_name (H0 a) = shape_name sh (o_name (H0 x))).
  { assert (X := Cons a). unfold constructed_as in X. rewrite K in X. destruct sh; apply X. }
  assert (Ht : t < c). { destruct (image R Hx Hlx) as [X|[X _]]; [apply (rl_work R X)|apply (rl_reg R X)]. }
  assert (Lx : lookup x ((a, c) :: st) = Some t) by (cbn [lookup]; destruct (Nat.eqb_spec a x) as [-> |]; [congruence|assumption]).
  eapply (@Rel_done H0 N0 A B0 PA Disj [c] W s2 r ((a, c) :: st) a c r' R2); try assumption.
  - intros q [<- |[]]. reflexivity.
  - intros X. destruct (rl_work R X) as [[_ Y] _]. unfold c in Y. lia.
  - cbn [lookup]. rewrite Nat.eqb_refl. reflexivity.
  - unfold node. rewrite Hc, (A_heap PA R2 Ha), K. cbn [o_size o_kind]. split; [reflexivity|]. destruct sh; cbn [shape_kind]; [|split; [reflexivity|]..]; apply Rst_in, Lx.
  - rewrite Hc. cbn [o_name o_kind]. destruct (str_dec (o_name (s_heap s t)) (o_name (H0 x))) as [E|E]; [left; congruence|right]. exists sh, t, (o_name (H0 x)).
    destruct (image R Hx Hlx) as [X|[X1 X2]]; [destruct (image_name R Hx Hlx X); contradiction|]. destruct (A_name PA Hx) as [Hab _].
    split; [reflexivity|]. split; [assumption|]. split; [|auto].
    assert (Cl : clean (s_heap s) W t) by (apply (rl_clean R Hab X2); congruence).
    eapply (@clean_keep H0 N0 A B0 [] W W s r st (s_heap s2) t R); try eassumption; [|intros y Hy; apply (rl_reg R Hy)]. intros y Hy. apply Hlt, (rl_reg R Hy).
  - intros sh' n Hn E. rewrite Hc in *. cbn [o_name o_kind] in *. apply shape_name_inj in E. destruct E as [<- <-]. exists t. split; [reflexivity|].
    destruct (image R Hx Hlx) as [X|[(m & Hm & G) X2]]; [right; split; [assumption|rewrite Hlt by assumption; reflexivity]|left]. apply (get_primary (rl_inv R) G).
Qed.

(** ** Steps *)
Lemma wp_new {Y} o (k : tid -> MM Y) st Q : wp (k (s_next (m_store st))) (MS (alloc (m_store st) o) (m_reg st) (m_stack st) (m_freed st)) Q -> wp (mbind (m_new o) k) st Q.
Proof. exact (fun H => H). Qed.
Lemma wp_asks {X Y} (g : mstate -> X) (k : X -> MM Y) st Q : wp (k (g st)) st Q -> wp (mbind (asks g) k) st Q.
Proof. exact (fun H => H). Qed.
Lemma wp_push {Y} a b (k : unit -> MM Y) st Q : wp (k tt) (MS (m_store st) (m_reg st) (stack_insert a b (m_stack st)) (m_freed st)) Q -> wp (mbind (m_push a b) k) st Q.
Proof. exact (fun H => H). Qed.
Lemma wp_set {Y} t o (k : unit -> MM Y) st Q : wp (k tt) (MS (Store (upd (m_heap st) t o) (s_next (m_store st))) (m_reg st) (m_stack st) (m_freed st)) Q -> wp (mbind (m_set t o) k) st Q.
Proof. exact (fun H => H). Qed.
Lemma wp_assoc {X Y Z} (m : MM X) (k : X -> MM Y) (l : Y -> MM Z) st Q : wp (mbind m (fun x => mbind (k x) l)) st Q -> wp (mbind (mbind m k) l) st Q.
Proof. unfold wp, mbind. destruct (m st) as [st' [x|e|u|]]; auto. Qed.
Lemma wp_retk {X Y} (x : X) (k : X -> MM Y) st Q : wp (k x) st Q -> wp (mbind (mret (Ok x)) k) st Q.
Proof. exact (fun H => H). Qed.
Lemma wp_throw {X} a c (m : MM unit) (k : unit -> MM X) st Q : wp (mbind m k) st Q -> wp (mbind (on_throw a c m) k) st Q.
Proof. unfold wp, mbind, on_throw. destruct (m st) as [st' [x|e|u|]]; auto. Qed.

(** The result of the merge of [a] in the state [st]. *)
Definition merged (W : list tid) (st : mstate) (a b : tid) (st' : mstate) : Prop := RelS [] W st' /\ lookup a (m_stack st') = Some b /\ ext st st'.

(** A new type that bears the name of its source. *)
Lemma plain_done Q0 W s r st a b r' : Rel Q0 (b :: W) s r st -> (forall q, In q Q0 -> q = b) -> ~ In b W -> registered A a -> lookup a st = Some b ->
  node (s_heap s) (Rst st) a b -> o_name (s_heap s b) = o_name (H0 a) -> (forall sh x, o_kind (H0 a) <> shape_kind sh x) -> added (s_heap s) r b r' -> Rel [] W s r' st.
Proof.
  intros R Hq Hb Ha Hl Hn En Hs Had. apply (@Rel_done H0 N0 A B0 PA Disj Q0 W s r st a b r' R Hq Hb Ha Hl Hn (or_introl En)); [|exact Had].
  intros sh n Hab E. rewrite En in E. destruct (A_shape PA Ha Hab E) as (x & K & _). destruct (Hs _ _ K).
Qed.
Lemma Rel_add_wp Q0 W st b f (Q : unit -> mstate -> Prop) : RelS Q0 (b :: W) st -> plain (o_name (m_heap st b)) ->
  (forall r', added (m_heap st) (m_reg st) b r' -> Q tt (MS (m_store st) r' (m_stack st) (m_freed st))) -> wp (m_add f b) st Q.
Proof. intros R P HQ. apply add_wp; [apply (rl_names R)|apply (rl_inv R)|exact P|apply (rl_closed R)|exact (Rel_safe R)|exact HQ]. Qed.
Lemma fresh_W Q W s r st : Rel Q W s r st -> ~ In (s_next s) W.
Proof. intros R X. destruct (rl_work R X) as [[_ Y] _]. lia. Qed.
Lemma insert_none a b st : lookup a st = None -> stack_insert a b st = (a, b) :: st.
Proof. unfold stack_insert. intros ->. reflexivity. Qed.
Lemma lookup_cons a b st x y : lookup a st = None -> lookup x st = Some y -> lookup x ((a, b) :: st) = Some y.
Proof. intros Ha Hx. cbn [lookup]. destruct (Nat.eqb_spec a x) as [-> |]; [congruence|assumption]. Qed.
Lemma lookup_same a (b : tid) st : lookup a ((a, b) :: st) = Some b.
Proof. cbn [lookup]. rewrite Nat.eqb_refl. reflexivity. Qed.
Lemma ext_new st s' r' a b fr : lookup a (m_stack st) = None -> s_next (m_store st) <= s_next s' -> (forall t, t < s_next (m_store st) -> s_heap s' t = m_heap st t) -> mono (m_reg st) r' ->
  ext st (MS s' r' ((a, b) :: m_stack st) fr).
Proof. intros Hl Hn Hh M. split; [exact Hn|]. split; [exact Hh|]. split; [exact M|]. intros x y Hx. apply lookup_cons; assumption. Qed.
Lemma alloc_below s o t : t < s_next s -> s_heap (alloc s o) t = s_heap s t.
Proof. clear. intros Ht. apply upd_other. lia. Qed.

(** *** Types without dependencies *)
Definition leaf (k : okind) : Prop := match k with ONull | OOpaque | ONum _ | OEnum _ => True | _ => False end.
Lemma leaf_ok W st a f : RelS [] W st -> registered A a -> lookup a (m_stack st) = None -> leaf (o_kind (H0 a)) ->
  wp (b <~~ m_new (H0 a) ; _ <~~ m_push a b ; _ <~~ m_add f b ; mret (Ok b)) st (merged W st a).
Proof.
  intros R Ha Hl Hk. apply wp_new, wp_push. cbn [m_store m_reg m_stack m_freed]. rewrite insert_none by assumption. set (c := s_next (m_store st)). apply wp_bind.
  assert (R1 : Rel [c] (c :: W) (alloc (m_store st) (H0 a)) (m_reg st) ((a, c) :: m_stack st)).
  { apply (Rel_new PA Disj); try assumption; [left; left; reflexivity| |].
    - intros x Hx. destruct (o_kind (H0 a)); destruct Hk; destruct Hx.
    - intros x mk E. unfold indirect_name in E. rewrite upd_same in E. destruct (o_kind (H0 a)); destruct Hk; discriminate. }
  assert (Hc : s_heap (alloc (m_store st) (H0 a)) c = H0 a) by apply upd_same.
  eapply Rel_add_wp; [exact R1|unfold m_heap; cbn [m_store]; rewrite Hc; apply (A_plain PA Ha)|].
  intros r' Had. apply wp_ret. cbn [m_store m_reg m_stack m_freed]. unfold m_heap in Had. cbn [m_store m_reg] in Had. split; [|split].
  - cbn [m_store m_reg m_stack]. eapply plain_done; [exact R1|intros q [<- |[]]; reflexivity|exact (fresh_W R)|exact Ha|apply lookup_same| | | |exact Had].
    + unfold node. rewrite Hc, (A_heap PA R1 Ha). split; [reflexivity|]. destruct (o_kind (H0 a)); try exact Logic.I; try reflexivity; destruct Hk.
    + rewrite Hc. reflexivity.
    + intros sh x E. rewrite E in Hk. destruct sh; exact Hk.
  - apply lookup_same.
  - apply ext_new; [assumption|cbn; lia|intros t Ht; apply alloc_below; assumption|]. apply Had.
Qed.

(** *** Compounds *)
Definition rec_ok (d f : nat) : Prop := forall W st a, RelS [] W st -> registered A a -> above W (m_stack st) a -> wp (merge_ d f a) st (merged W st a).
Definition same_field (sk : stack) (x y : fld) : Prop := f_name x = f_name y /\ f_off x = f_off y /\ Rst sk (f_type x) (f_type y).
Lemma same_field_mono sk sk' l l' : (forall x y, lookup x sk = Some y -> lookup x sk' = Some y) -> Forall2 (fun x y => f_name x = f_name y /\ f_off x = f_off y /\ lookup (f_type x) sk = Some (f_type y)) l l' ->
  Forall2 (fun x y => f_name x = f_name y /\ f_off x = f_off y /\ lookup (f_type x) sk' = Some (f_type y)) l l'.
Proof. intros Hs. induction 1 as [|x y l l' (E1 & E2 & E3)]; constructor; auto. Qed.
Lemma above_step W sk a x : above W sk a -> In x (dependsOn H0 a) -> above W sk x.
Proof. intros U Hx t a' Ht Hl. econstructor; [exact (U _ _ Ht Hl)|exact Hx]. Qed.
Lemma fields_ok d f W st0 a c fs nm : rec_ok d f -> registered A a -> s_next (m_store st0) <= c -> forall xs done dsrc st z, (forall x, In x xs -> In (f_type x) (dependsOn H0 a)) ->
  RelS [] (c :: W) st -> lookup a (m_stack st) = Some c -> above (c :: W) (m_stack st) a -> ext st0 st -> m_heap st c = Obj nm z (OComp done) ->
  Forall2 (fun x y => f_name x = f_name y /\ f_off x = f_off y /\ lookup (f_type x) (m_stack st) = Some (f_type y)) dsrc done -> dsrc ++ xs = fs ->
  wp (merge_fields (merge_ d f) c xs) st (fun _ st' => RelS [] (c :: W) st' /\ lookup a (m_stack st') = Some c /\ ext st0 st' /\
    exists z' gs, m_heap st' c = Obj nm z' (OComp gs) /\ Forall2 (fun x y => f_name x = f_name y /\ f_off x = f_off y /\ lookup (f_type x) (m_stack st') = Some (f_type y)) fs gs).
Proof.
  intros Hrec Ha Hc0. induction xs as [|x xs IH]; intros done dsrc st z Hxs R Hl U Ex Hc F E; cbn [merge_fields].
  - apply wp_ret. rewrite app_nil_r in E. subst dsrc. repeat (split; [assumption|]). eauto.
  - assert (Dx : In (f_type x) (dependsOn H0 a)) by (apply Hxs; left; reflexivity). assert (Ax := A_dep PA Ha Dx).
    apply wp_bind. eapply wp_mono; [|apply (Hrec (c :: W) st (f_type x) R Ax (above_step U Dx))]. intros t st1 (R1 & L1 & E1). cbv beta.
    assert (Hcn : c < s_next (m_store st)) by (apply (rl_work R); left; reflexivity).
    assert (Hc1 : m_heap st1 c = Obj nm z (OComp done)) by (destruct E1 as (_ & X & _); rewrite X by assumption; exact Hc).
    unfold add_field. apply wp_assoc, wp_asks. cbv beta. rewrite Hc1. apply wp_assoc, wp_asks. cbn [o_name o_kind o_size]. cbv zeta. apply wp_set. cbn [m_store m_reg m_stack m_freed].
    set (o := Obj nm _ (OComp (done ++ [Fld (f_name x) (f_off x) t]))). set (st2 := MS (Store (upd (m_heap st1) c o) (s_next (m_store st1))) (m_reg st1) (m_stack st1) (m_freed st1)).
    eapply IH with (done := done ++ [Fld (f_name x) (f_off x) t]) (dsrc := dsrc ++ [x]) (st := st2).
    + intros y Hy. apply Hxs. right. assumption.
    + unfold st2. cbn [m_store m_reg m_stack]. unfold m_heap. apply (Rel_set PA Disj R1); [left; reflexivity| | |].
      * unfold m_heap in Hc1. rewrite Hc1. reflexivity.
      * intros y mk X. unfold indirect_name in X. rewrite upd_same in X. discriminate.
      * cbn [o o_kind]. rewrite map_app. intros y Hy. apply in_app_or in Hy. destruct Hy as [Hy|[<- |[]]].
        -- apply (rl_wdeps R1 (t := c) (or_introl eq_refl)). unfold dependsOn. unfold m_heap in Hc1. rewrite Hc1. exact Hy.
        -- cbn [f_type]. destruct (image R1 Ax L1) as [X|[X _]]; [right|left]; assumption.
    + cbn [st2 m_stack]. apply E1. assumption.
    + cbn [st2 m_stack]. eapply (@above_ext [] (c :: W) st st1); eassumption.
    + assert (Ex1 := ext_trans Ex E1). destruct Ex1 as (X1 & X2 & X3 & X4). split; [exact X1|]. split; [|split; [exact X3|exact X4]].
      intros y Hy. unfold m_heap at 1. cbn [st2 m_store s_heap]. rewrite upd_other by lia. apply X2. assumption.
    + unfold m_heap. cbn [st2 m_store s_heap]. apply upd_same.
    + cbn [st2 m_stack]. apply Forall2_app; [|constructor; [auto|constructor]]. eapply same_field_mono; [apply E1|exact F].
    + rewrite <- app_assoc. exact E.
Qed.
Lemma compound_ok d f W st a fs : rec_ok d f -> RelS [] W st -> registered A a -> above W (m_stack st) a -> lookup a (m_stack st) = None -> get (m_reg st) (o_name (H0 a)) = None -> o_kind (H0 a) = OComp fs ->
  wp (b <~~ (c <~~ m_new (Obj (o_name (H0 a)) 0 (OComp [])) ; _ <~~ m_push a c ; _ <~~ on_throw a c (merge_fields (merge_ d f) c fs) ; _ <~~ m_setSize c (o_size (H0 a)) ; mret (Ok c)) ;
      _ <~~ m_push a b ; _ <~~ m_add f b ; mret (Ok b)) st (merged W st a).
Proof.
  intros Hrec R Ha U Hl Hg K. apply wp_assoc, wp_new, wp_assoc, wp_push. cbn [m_store m_reg m_stack m_freed]. rewrite insert_none by assumption. set (c := s_next (m_store st)).
  set (o := Obj (o_name (H0 a)) 0 (OComp [])). set (st1 := MS (alloc (m_store st) o) (m_reg st) ((a, c) :: m_stack st) (m_freed st)).
  assert (R1 : RelS [] (c :: W) st1).
  { unfold st1. cbn [m_store m_reg m_stack]. apply (Rel_new PA Disj); try assumption; [right; split; [reflexivity|split; [eauto|exact Hg]]|intros x []|]. intros x mk E. unfold indirect_name in E. rewrite upd_same in E. discriminate. }
  apply wp_assoc, wp_throw, wp_bind. eapply wp_mono; [|eapply fields_ok with (st0 := st) (W := W) (a := a) (fs := fs) (done := []) (dsrc := []) (nm := o_name (H0 a)) (z := 0%N); try eassumption].
  - intros _ st2 (R2 & L2 & E2 & z & gs & Hc2 & F). cbv beta. unfold m_setSize. apply wp_assoc. apply wp_assoc, wp_asks. cbv beta. rewrite Hc2. cbn [o_name o_kind]. apply wp_set, wp_retk, wp_push. cbn [m_store m_reg m_stack m_freed].
    unfold stack_insert. rewrite L2. apply wp_bind. set (o2 := Obj (o_name (H0 a)) (o_size (H0 a)) (OComp gs)). set (s3 := Store (upd (m_heap st2) c o2) (s_next (m_store st2))).
    assert (R3 : Rel [] (c :: W) s3 (m_reg st2) (m_stack st2)).
    { unfold s3, m_heap. apply (Rel_set PA Disj R2); [left; reflexivity| | |].
      - unfold m_heap in Hc2. rewrite Hc2. reflexivity.
      - intros y mk X. unfold indirect_name in X. rewrite upd_same in X. discriminate.
      - cbn [o2 o_kind]. intros y Hy. apply (rl_wdeps R2 (t := c) (or_introl eq_refl)). unfold dependsOn. unfold m_heap in Hc2. rewrite Hc2. exact Hy. }
    assert (Hc3 : s_heap s3 c = o2) by apply upd_same.
    eapply Rel_add_wp; [exact R3|unfold m_heap; cbn [m_store]; rewrite Hc3; apply (A_plain PA Ha)|]. intros r' Had. apply wp_ret. cbn [m_store m_reg m_stack m_freed]. unfold m_heap in Had. cbn [m_store m_reg] in Had.
    split; [|split; [exact L2|]].
    + cbn [m_store m_reg m_stack]. eapply plain_done; [exact R3|intros q []|exact (fresh_W R)|exact Ha|exact L2| | | |exact Had].
      * unfold node. rewrite Hc3, (A_heap PA R3 Ha), K. split; [reflexivity|]. cbn [o2 o_kind]. clear - F. induction F as [|x y l l' (E1 & E2 & E3) F IH]; constructor; [|exact IH]. split; [assumption|]. split; [assumption|]. apply Rst_in. assumption.
      * rewrite Hc3. reflexivity.
      * intros sh x E. rewrite K in E. destruct sh; discriminate.
    + destruct E2 as (X1 & X2 & X3 & X4). split; [exact X1|]. split; [|split; [|exact X4]].
      * intros t Ht. unfold m_heap at 1. cbn [m_store s3 s_heap]. rewrite upd_other by (unfold c; lia). apply X2. assumption.
      * cbn [m_reg]. intros k t Hk G. apply Had; [assumption|]. apply X3; assumption.
  - apply le_n.
  - intros x Hx. unfold dependsOn. rewrite K. apply in_map. assumption.
  - apply lookup_same.
  - intros t a' Ht L. destruct Ht as [<- |Ht].
    + assert (a' = a) by (apply (rl_inj R1 (y := c) (or_introl eq_refl)); apply lookup_In; [exact L|apply lookup_same]). subst a'. constructor.
    + apply (U t a' Ht). unfold st1 in L; cbn [m_stack lookup] in L. destruct (Nat.eqb_spec a a') as [-> |]; [|exact L]. injection L as <-. destruct (fresh_W R Ht).
  - apply ext_new; [assumption|cbn; lia|intros t Ht; apply alloc_below; assumption|intros k t _ X; exact X].
  - apply upd_same.
  - constructor.
  - reflexivity.
Qed.

(** *** Pointers and arrays *)
Lemma merge_hit d f x st t : lookup x (m_stack st) = Some t -> merge_ (S d) f x st = (st, Ok t).
Proof.
  intros L. assert (T : try_merge f x st = (st, Ok (Some t))) by (unfold try_merge; rewrite L; reflexivity).
  cbn [merge_]. unfold mbind at 1. unfold m_obj, asks. destruct (o_kind (m_heap st x)); unfold type_merge, mbind at 1; rewrite T; reflexivity.
Qed.
Lemma wp_hit {Y} d f x st t (k : tid -> MM Y) Q : lookup x (m_stack st) = Some t -> wp (k t) st Q -> wp (mbind (merge_ (S d) f x) k) st Q.
Proof. intros L. unfold wp, mbind. rewrite (merge_hit d f L). auto. Qed.
Lemma shape_ok W st a x t sh f : RelS [] W st -> registered A a -> lookup a (m_stack st) = None -> o_kind (H0 a) = shape_kind sh x -> registered A x -> lookup x (m_stack st) = Some t ->
  wp (b <~~ m_new (Obj (shape_name sh (o_name (m_heap st t))) (o_size (H0 a)) (shape_kind sh t)) ; _ <~~ m_push a b ; _ <~~ m_add f b ; mret (Ok b)) st (merged W st a).
Proof.
  intros R Ha Hl K Hx Hlx. apply wp_new, wp_push. cbn [m_store m_reg m_stack m_freed]. rewrite insert_none by assumption. set (c := s_next (m_store st)). apply wp_bind.
  assert (R1 := shape_new (o_size (H0 a)) R Ha Hl K Hx Hlx). fold c in R1. unfold m_heap at 1. set (o := Obj _ _ _) in *.
  assert (Hc : s_heap (alloc (m_store st) o) c = o) by apply upd_same.
  eapply Rel_add_wp; [exact R1|unfold m_heap; cbn [m_store]; rewrite Hc; apply shape_plain; exact (image_plain R Hx Hlx)|].
  intros r' Had. apply wp_ret. cbn [m_store m_reg m_stack m_freed]. unfold m_heap in Had. cbn [m_store m_reg] in Had. split; [|split].
  - cbn [m_store m_reg m_stack]. apply (@shape_done W (m_store st) (m_reg st) (m_stack st) a x t sh (alloc (m_store st) o) r' R Ha K Hx Hlx R1 Hc); [|exact Hl|exact Had]. intros y Hy. apply alloc_below. assumption.
  - apply lookup_same.
  - apply ext_new; [assumption|cbn; lia|intros y Hy; apply alloc_below; assumption|]. apply Had.
Qed.
Lemma array_size W st a x t d : RelS [] W st -> registered A a -> above W (m_stack st) a -> o_kind (H0 a) = OArr d x -> registered A x -> lookup x (m_stack st) = Some t ->
  o_size (m_heap st t) = o_size (H0 x).
Proof.
  intros R Ha U K Hx Hlx. apply (image_size R Hx Hlx). intros Hw. assert (X := Arr Ha). unfold no_array_cycle in X. rewrite K in X. apply X. exact (U _ _ Hw Hlx).
Qed.

(** *** Containers *)
Lemma wp_has {Y} n (k : bool -> MM Y) st Q : absolute n -> base_name n -> wp (k (match get (m_reg st) n with Some _ => true | None => false end)) st Q -> wp (mbind (m_has n) k) st Q.
Proof.
  intros Ha Hb. unfold wp, mbind, m_has. rewrite has_get. destruct (get (m_reg st) n) as [t|] eqn:Eg; [auto|]. rewrite full_abs by assumption. unfold getBaseType, parse. rewrite parse_base by assumption. cbn [bind fst]. rewrite Eg. auto.
Qed.
Lemma vector_base n : absolute (vector_fullName n) /\ base_name (vector_fullName n).
Proof.
  split; [eexists; reflexivity|]. exists "/"%char, (s_ "std/vector<" ++ n), ">"%char. split; [unfold vector_fullName; rewrite <- app_assoc; reflexivity|]. repeat split; discriminate.
Qed.
(** There is no vector of the image of [x] yet. *)
Lemma no_vector W st a x t : RelS [] W st -> registered A a -> get (m_reg st) (o_name (H0 a)) = None -> o_kind (H0 a) = OCont KVec x -> registered A x -> lookup x (m_stack st) = Some t ->
  get (m_reg st) (vector_fullName (o_name (m_heap st t))) = None.
Proof.
  intros R Ha Hg K Hx Hlx. destruct (get (m_reg st) (vector_fullName (o_name (m_heap st t)))) as [z|] eqn:Ez; [|reflexivity]. exfalso.
  assert (Na : o_name (H0 a) = vector_fullName (o_name (H0 x))) by (assert (X := Cons a); unfold constructed_as in X; rewrite K in X; exact X).
  destruct (image R Hx Hlx) as [X|[(n & Hn & Gn) X]].
  - destruct (image_name R Hx Hlx X) as (E & _). unfold m_heap in Ez. rewrite E, <- Na in Ez. congruence.
  - destruct (get_primary (rl_inv R) Gn) as [Hab Gt]. destruct (rl_meant R (sh := SVec) Hab Ez) as (y & Ky & Y).
    assert (y = t).
    { destruct Y as [Y|[Y1 Y2]]; [unfold m_heap in *; congruence|]. destruct (rl_work R Y1) as (_ & a' & _ & _ & [[]|(_ & _ & G)]). unfold m_heap in *. rewrite Y2 in G. congruence. }
    subst y. destruct (A_name PA Hx) as [Hax _].
    apply (@rl_closed _ _ _ _ _ _ _ _ _ R z t vector_fullName (o_name (H0 x))); [eapply registered_get; [apply (rl_inv R)|exact Ez]|apply (shape_indirect (sh := SVec)); exact Ky|exact Hax|exact X|]. rewrite <- Na. exact Hg.
Qed.
Lemma alike_size H t z : alike H (upd H t (Obj (o_name (H t)) z (o_kind (H t)))).
Proof. intros u. destruct (Nat.eq_dec u t) as [-> |]; [rewrite upd_same; auto|rewrite upd_other by assumption; auto]. Qed.
(** A container that is created, added, given its size, and added again. *)
Lemma container_ok W st a x t k n z f : RelS [] W st -> registered A a -> lookup a (m_stack st) = None -> o_kind (H0 a) = OCont k x -> registered A x -> lookup x (m_stack st) = Some t ->
  match k with KVec => n = vector_fullName (o_name (m_heap st t)) | KStr => n = o_name (H0 a) end ->
  wp (b <~~ m_new (Obj n z (OCont k t)) ; _ <~~ m_add f b ; _ <~~ m_setSize b (o_size (H0 a)) ; _ <~~ m_push a b ; _ <~~ m_add f b ; mret (Ok b)) st (merged W st a).
Proof.
  intros R Ha Hl K Hx Hlx En. apply wp_new. set (c := s_next (m_store st)). set (o := Obj n z (OCont k t)). set (s1 := alloc (m_store st) o).
  assert (Hc : s_heap s1 c = o) by apply upd_same.
  assert (R1 : Rel [c] (c :: W) s1 (m_reg st) ((a, c) :: m_stack st)).
  { destruct k.
    - subst n. exact (@shape_new W (m_store st) (m_reg st) (m_stack st) a x t SVec z R Ha Hl K Hx Hlx).
    - apply (Rel_new PA Disj); try assumption; [left; left; reflexivity| |].
      + cbn [o o_kind]. intros y [<- |[]]. destruct (image R Hx Hlx) as [X|[X _]]; [right|left]; assumption.
      + intros y mk E. unfold indirect_name in E. rewrite upd_same in E. discriminate. }
  assert (Pn : plain n) by (destruct k; subst n; [apply (@shape_plain SVec); exact (image_plain R Hx Hlx)|apply (A_plain PA Ha)]).
  apply wp_bind, add_wp; cbn [m_store m_reg m_stack m_freed]; [apply (rl_names R1)|apply (rl_inv R1)|unfold m_heap; cbn [m_store]; rewrite Hc; exact Pn|apply (rl_closed R1)| |].
  { destruct (Rel_safe R) as (S1 & S2 & S3). split; [unfold s1; cbn [m_store alloc s_next]; lia|]. split; [|exact S3]. intros y Hy. unfold m_heap. cbn [m_store]. unfold s1. rewrite alloc_below by lia. apply S2. assumption. }
  intros r1 Had. unfold m_heap in Had. cbn [m_store m_reg] in Had. unfold m_setSize. apply wp_assoc, wp_asks. unfold m_heap. cbn [m_store]. rewrite Hc. cbn [o o_name o_kind]. apply wp_set, wp_push. unfold m_heap. cbn [m_store m_reg m_stack m_freed].
  rewrite insert_none by assumption. set (o2 := Obj n (o_size (H0 a)) (OCont k t)). set (s2 := Store (upd (s_heap s1) c o2) (s_next s1)).
  assert (Hc2 : s_heap s2 c = o2) by apply upd_same.
  assert (R2 : Rel [c] (c :: W) s2 (m_reg st) ((a, c) :: m_stack st)).
  { apply (Rel_set PA Disj R1); [left; reflexivity|rewrite Hc; reflexivity| |].
    - intros y mk E. assert (Ht : t <> c) by (destruct (image R Hx Hlx) as [X|[X _]]; [intros ->; exact (fresh_W R X)|intros ->; destruct (rl_reg R X) as [X' _]; unfold c in X'; lia]).
      unfold indirect_name in E. rewrite upd_same in E. cbn [o2 o_kind] in E. destruct k; [|discriminate]. injection E as <- <-. cbn [o2 o_name]. rewrite upd_other by assumption. unfold s1. rewrite En. unfold m_heap. f_equal. rewrite alloc_below; [reflexivity|].
      destruct (image R Hx Hlx) as [X|[X _]]; [apply (rl_work R X)|apply (rl_reg R X)].
    - cbn [o2 o_kind]. intros y [<- |[]]. apply (rl_wdeps R1 (t := c) (or_introl eq_refl)). unfold dependsOn. rewrite Hc. left. reflexivity. }
  assert (Al : alike (s_heap s1) (s_heap s2)).
  { assert (X := @alike_size (s_heap s1) c (o_size (H0 a))). rewrite Hc in X. exact X. }
  assert (Had1 := added_alike Al Had).
  apply wp_bind. unfold wp, m_add. cbn [m_store m_reg m_stack m_freed]. unfold m_heap. cbn [m_store]. destruct (add f (s_heap s2) r1 c []) as [r2 y] eqn:E2.
  assert (I1 : Inv (s_heap s2) r1) by apply Had1. assert (P2 : plain (o_name (s_heap s2 c))) by (rewrite Hc2; exact Pn).
  assert (S2 : Safe (MS s2 r2 ((a, c) :: m_stack st) (m_freed st))).
  { split; [apply (rl_next R2)|]. split; [intros u Hu; apply (rl_old R2 Hu)|]. cbn [m_reg]. unfold add in E2. destruct (add_effect I1 P2 E2) as (_ & M & _). intros q u Hq G. apply M; [assumption|]. apply Had1; [assumption|]. apply (rl_mono R2 Hq G). }
  destruct y as [[]|e|u|]; [|exact S2|exact (@add_noub _ _ _ _ _ _ _ E2)|exact S2].
  assert (Had2 := added_again (rl_names R2) P2 Had1 E2). cbn. split; [|split].
  - cbn [m_store m_reg m_stack]. destruct k.
    + subst n. apply (@shape_done W (m_store st) (m_reg st) (m_stack st) a x t SVec s2 r2 R Ha K Hx Hlx R2 Hc2); [|exact Hl|exact Had2]. intros v Hv. unfold s2. cbn [s_heap]. rewrite upd_other by (unfold c; lia). apply alloc_below. assumption.
    + eapply plain_done; [exact R2|intros q [<- |[]]; reflexivity|exact (fresh_W R)|exact Ha|apply lookup_same| | | |exact Had2].
      * unfold node. rewrite Hc2, (A_heap PA R2 Ha), K. split; [reflexivity|]. cbn [o2 o_kind]. split; [reflexivity|]. apply Rst_in, lookup_cons; assumption.
      * rewrite Hc2. exact En.
      * intros sh v X. rewrite K in X. destruct sh; discriminate.
  - apply lookup_same.
  - apply ext_new; [assumption|cbn; lia| |apply Had2]. intros v Hv. unfold s2. cbn [s_heap]. rewrite upd_other by (unfold c; lia). apply alloc_below. assumption.
Qed.

(** ** The merge *)
Lemma wp_unnew {Y} o (k : tid -> MM Y) st Q : wp (mbind (m_new o) k) st Q -> wp (k (s_next (m_store st))) (MS (alloc (m_store st) o) (m_reg st) (m_stack st) (m_freed st)) Q.
Proof. exact (fun H => H). Qed.
Lemma wp_unbind {X Y} (m : MM X) (k : X -> MM Y) st Q : wp (mbind m k) st Q -> wp m st (fun x st' => wp (k x) st' Q).
Proof. unfold wp, mbind. destruct (m st) as [st' [x|e|u|]]; auto. Qed.
Lemma indirect_ok d f W st a x : RelS [] W st -> registered A a -> above W (m_stack st) a -> lookup a (m_stack st) = None -> get (m_reg st) (o_name (H0 a)) = None ->
  (match o_kind (H0 a) with OPtr y | OArr _ y | OCont _ y => y = x | _ => False end) -> (exists t, lookup x (m_stack st) = Some t) ->
  wp (b <~~ do_merge (merge_ (S d) f) f a ; _ <~~ m_push a b ; _ <~~ m_add f b ; mret (Ok b)) st (merged W st a).
Proof.
  intros R Ha U Hl Hg Kx (t & Hlx). assert (Dx : In x (dependsOn H0 a)) by (unfold dependsOn; destruct (o_kind (H0 a)); try contradiction; left; assumption). assert (Hx := A_dep PA Ha Dx).
  assert (Ca := Cons a). unfold constructed_as in Ca. assert (Hh : m_heap st a = H0 a) by exact (A_heap PA R Ha). unfold do_merge. apply wp_assoc, wp_asks. cbv beta. rewrite Hh.
  destruct (o_kind (H0 a)) as [| | | |y|dm y|k y|] eqn:K; try contradiction; subst y; apply wp_assoc; eapply wp_hit; try exact Hlx.
  - apply wp_assoc, wp_asks. unfold pointer_obj. destruct Ca as [_ Ca]. rewrite <- Ca. exact (@shape_ok W st a x t SPtr f R Ha Hl K Hx Hlx).
  - apply wp_assoc, wp_asks. unfold array_obj. rewrite (array_size R Ha U K Hx Hlx). destruct Ca as [_ Ca]. rewrite <- Ca. exact (@shape_ok W st a x t (SArr dm) f R Ha Hl K Hx Hlx).
  - apply wp_assoc. destruct k.
    + unfold vector_factory. apply wp_assoc, wp_asks, wp_assoc, wp_has; try apply vector_base. rewrite (no_vector R Ha Hg K Hx Hlx). apply wp_assoc, wp_new, wp_assoc. apply wp_bind.
      assert (C := @container_ok W st a x t KVec (vector_fullName (o_name (m_heap st t))) 24 f R Ha Hl K Hx Hlx eq_refl).
      eapply wp_mono; [|exact (wp_unbind (wp_unnew C))]. intros [] st' C'. apply wp_retk, wp_assoc. exact C'.
    + destruct Ca as (En & Ex & c & Kc). unfold string_factory. assert (Hs : absolute (s_ "/std/string") /\ base_name (s_ "/std/string")) by (split; [eexists; reflexivity|exists "/"%char, (s_ "std/strin"), "g"%char; repeat split; discriminate]).
      assert (H8 : absolute (s_ "/int8_t") /\ base_name (s_ "/int8_t")) by (split; [eexists; reflexivity|exists "/"%char, (s_ "int8_"), "t"%char; repeat split; discriminate]).
      apply wp_assoc, wp_has; try apply Hs. rewrite <- En, Hg. apply wp_assoc, wp_has; try apply H8. rewrite <- Ex.
      assert (G8 : get (m_reg st) (o_name (H0 x)) = Some t). { destruct (image R Hx Hlx) as [X|[_ X]]; [|exact X]. destruct (image_name R Hx Hlx X) as (_ & _ & fs & X'). congruence. }
      rewrite G8. apply wp_assoc, wp_assoc, wp_asks. rewrite G8. apply wp_retk.
      assert (C := @container_ok W st a x t KStr (o_name (H0 a)) 32 f R Ha Hl K Hx Hlx eq_refl).
      apply wp_assoc, wp_new, wp_assoc. apply wp_bind. eapply wp_mono; [|exact (wp_unbind (wp_unnew C))]. intros [] st' C'. apply wp_retk, wp_assoc. exact C'.
Qed.
Lemma type_merge_ok d f W st a : rec_ok d f -> RelS [] W st -> registered A a -> above W (m_stack st) a ->
  (match o_kind (H0 a) with OPtr y | OArr _ y | OCont _ y => d <> 0 /\ exists t, lookup y (m_stack st) = Some t | _ => True end) ->
  wp (type_merge (merge_ d f) f a) st (merged W st a).
Proof.
  intros Hrec R Ha U Hk. unfold type_merge. apply wp_bind. eapply wp_mono; [|apply (try_ok f R Ha)]. intros [b|] st'; [intros (R' & L & E); apply wp_ret; split; [assumption|split; assumption]|].
  intros (-> & Hl & Hg). assert (Hh : m_heap st a = H0 a) by exact (A_heap PA R Ha).
  assert (LF : leaf (o_kind (H0 a)) -> wp (b <~~ do_merge (merge_ d f) f a ; _ <~~ m_push a b ; _ <~~ m_add f b ; mret (Ok b)) st (merged W st a)).
  { intros Hf. assert (X := leaf_ok f R Ha Hl Hf). unfold do_merge. apply wp_assoc, wp_asks. cbv beta. rewrite Hh. destruct (o_kind (H0 a)); try destruct Hf; exact X. }
  destruct (o_kind (H0 a)) as [| | | |y|dm y|k y|fs] eqn:K; try (apply LF; exact Logic.I).
  - destruct Hk as [Hd Ht]. destruct d as [|d]; [congruence|]. apply (@indirect_ok d f W st a y); try assumption. rewrite K. reflexivity.
  - destruct Hk as [Hd Ht]. destruct d as [|d]; [congruence|]. apply (@indirect_ok d f W st a y); try assumption. rewrite K. reflexivity.
  - destruct Hk as [Hd Ht]. destruct d as [|d]; [congruence|]. apply (@indirect_ok d f W st a y); try assumption. rewrite K. reflexivity.
  - assert (X := compound_ok Hrec R Ha U Hl Hg K). unfold do_merge. apply wp_assoc, wp_asks. cbv beta. rewrite Hh, K. exact X.
Qed.
Lemma merge_ok f : forall d, rec_ok d f.
Proof.
  induction d as [|d IH]; intros W st a R Ha U; [exact (Rel_safe R)|]. cbn [merge_]. apply wp_asks. unfold m_heap. rewrite (A_heap PA R Ha).
  assert (Ind : forall x, In x (dependsOn H0 a) -> (match o_kind (H0 a) with OPtr y | OArr _ y | OCont _ y => y = x | _ => False end) ->
    wp (old <~~ try_merge f a ; match old with Some b => mret (Ok b) | None => _ <~~ merge_ d f x ; type_merge (merge_ d f) f a end) st (merged W st a)).
  { intros x Dx Kx. assert (Hx := A_dep PA Ha Dx). apply wp_bind. eapply wp_mono; [|apply (try_ok f R Ha)]. intros [b|] st'; [intros (R' & L & E); apply wp_ret; split; [assumption|split; assumption]|].
    intros (-> & Hl & Hg). apply wp_bind. destruct d as [|d]; [exact (Rel_safe R)|]. eapply wp_mono; [|apply (IH W st x R Hx (above_step U Dx))]. intros t st1 (R1 & L1 & E1). cbv beta.
    eapply wp_mono; [|apply (@type_merge_ok (S d) f W st1 a IH R1 Ha)].
    - intros b st2 (R2 & L2 & E2). split; [exact R2|]. split; [exact L2|]. eapply ext_trans; eassumption.
    - eapply (@above_ext [] W st st1); eassumption.
    - destruct (o_kind (H0 a)); try contradiction; subst x; split; eauto; discriminate. }
  destruct (o_kind (H0 a)) as [| | | |y|dm y|k y|fs] eqn:K; try (apply type_merge_ok; try assumption; rewrite K; exact Logic.I); apply Ind; try reflexivity; unfold dependsOn; rewrite K; left; reflexivity.
Qed.
End Main.
