(** * Properties_Merge: C50 to C54, Registry::merge and Registry::minimal. *)
From Verif Require Import Base Types NamesSpec Names Registry RegistrySpec RegistryProofs RegistryOps RegistryMain World TypeBuilder Merge MergeSpec MergeRel MergeMain MergeReg MergeCopy MergeTerm MergeSource MergeCheck Properties_Registry.
From Verif Require Import Graph GraphSpec.
Local Open Scope nat_scope.

(** Two registries of one program: no type object is in both, names with modifiers mean what they say, arrays do not
    contain themselves. *)
Record two_registries (H : heap) (next : tid) (A B : reg) : Prop := {
  tw_heap : proper_heap H next;
  tw_source : proper H next A;
  tw_target : proper H next B;
  tw_derived : derived_names H B;
  tw_apart : forall t, registered A t -> registered B t -> False;
  tw_arrays : forall t, registered A t -> no_array_cycle H t
}.
(** B.merge(A), for all large bounds on the depth of calls. *)
Definition merge_result (H : heap) (next : tid) (B A : reg) (st : mstate) (x : res unit) : Prop :=
  exists N, forall d f, N <= d -> N <= f -> reg_merge d f (Store H next) B A = (st, x).
Lemma start H next A B : two_registries H next A B -> Rel H next A B [] [] (Store H next) B [].
Proof. intros T. apply (Rel_start (tw_target T) (tw_apart T)); [reflexivity|reflexivity|exact (tw_heap T)|exact (tw_derived T)]. Qed.

(** ** C51 *)
(** A merge ends, with or without an exception; the types of the target keep their names and their definitions, those of
    the source their definitions. *)
Theorem C51_ends H next A B : two_registries H next A B -> exists st x, merge_result H next B A st x /\ (x = Ok tt \/ exists e, x = Throw e) /\
  (forall t, t < next -> m_heap st t = H t) /\ (forall n t, absolute n -> get B n = Some t -> get (m_reg st) n = Some t).
Proof.
  intros T. assert (R := start T). destruct (reg_merge_cv (tw_source T) (tw_apart T) (proj1 (tw_heap T)) (tw_arrays T) (st := MS (Store H next) B [] []) R) as (N & st & x & Hx & D).
  exists st, x. split; [exists N; exact D|]. assert (W := reg_merge_ok (tw_source T) (tw_apart T) (proj1 (tw_heap T)) (tw_arrays T) N N (st := MS (Store H next) B [] []) R). unfold wp in W. rewrite (D N N (le_n N) (le_n N)) in W.
  destruct x as [[]|e|u|]; [|destruct W as (_ & W1 & W2)|destruct W|congruence].
  - split; [left; reflexivity|]. destruct W as (W1 & W2 & _). split; [exact W1|exact W2].
  - split; [right; eauto|]. split; [exact W1|exact W2].
Qed.
(** ** C50 *)
(** After a successful merge, every name of the source denotes a type with the same definition. *)
Theorem C50_names H next A B st : two_registries H next A B -> merge_result H next B A st (Ok tt) ->
  forall n t, absolute n -> get A n = Some t -> exists t', get (m_reg st) n = Some t' /\ struct_same (m_heap st) t t'.
Proof.
  intros T (N & D). assert (W := reg_merge_ok (tw_source T) (tw_apart T) (proj1 (tw_heap T)) (tw_arrays T) N N (st := MS (Store H next) B [] []) (start T)). unfold wp in W. fold (reg_merge N N (Store H next) B A) in W. rewrite (D N N (le_n N) (le_n N)) in W. apply W.
Qed.
(** Nothing else is added: a type of the target was there before, or is the counterpart of a type of the source; a name
    was there before, or is a name of the source, or names the pointer, array or vector on another name. *)
Theorem C50_nothing_else H next A B st : two_registries H next A B -> merge_result H next B A st (Ok tt) ->
  (forall t, registered (m_reg st) t -> registered B t \/ exists a, registered A a /\ get (m_reg st) (o_name (H a)) = Some t /\ struct_same (m_heap st) a t) /\
  (forall n t, absolute n -> get (m_reg st) n = Some t -> get B n = None -> get A n <> None \/ exists sh m, absolute m /\ n = shape_name sh m).
Proof.
  intros T (N & D). assert (W := reg_merge_ok (tw_source T) (tw_apart T) (proj1 (tw_heap T)) (tw_arrays T) N N (st := MS (Store H next) B [] []) (start T)). unfold wp in W. fold (reg_merge N N (Store H next) B A) in W. rewrite (D N N (le_n N) (le_n N)) in W.
  split; [intros t Ht; apply W; exact Ht|]. apply W.
Qed.
(** The target does not depend on the source: it holds all the types its types are made of, and none is of the source. *)
Theorem C50_independent H next A B st : two_registries H next A B -> merge_result H next B A st (Ok tt) ->
  deps_closed (m_heap st) (m_reg st) /\ (forall t, registered (m_reg st) t -> ~ registered A t).
Proof.
  intros T (N & D). assert (W := reg_merge_ok (tw_source T) (tw_apart T) (proj1 (tw_heap T)) (tw_arrays T) N N (st := MS (Store H next) B [] []) (start T)). unfold wp in W. fold (reg_merge N N (Store H next) B A) in W. rewrite (D N N (le_n N) (le_n N)) in W.
  split; apply W.
Qed.
(** ** C52 *)
(** If a name has different definitions in the two registries, the merge throws. *)
Theorem C52_conflict H next A B n a b : two_registries H next A B -> absolute n -> get A n = Some a -> get B n = Some b -> ~ struct_same H a b ->
  exists st e, merge_result H next B A st (Throw e).
Proof.
  intros T Hn Ga Gb Ns. destruct (C51_ends T) as (st & x & D & [-> |[e ->]] & Hh & Hk); [|eauto]. exfalso. destruct (C50_names T D Hn Ga) as (t' & G & S). rewrite (Hk _ _ Hn Gb) in G. injection G as <-. apply Ns.
  apply (@same_agree H (m_heap st) a b (fun t => t < next)); [|apply (pr_exists (tw_target T)); exists n; auto|intros t d _ Hd; apply (proj2 (proj2 (tw_heap T)) t d Hd)|exact Hh|exact S].
  apply (pr_exists (tw_source T)). exists n. auto.
Qed.
(** ** C53 *)
(** Two registries with the same names for the same definitions, and the same aliases. *)
Definition same_names (H : heap) (A B : reg) : Prop := forall n, absolute n ->
  match get A n with
  | Some t => exists t', get B n = Some t' /\ get B (o_name (H t)) = Some t' /\ o_name (H t') = o_name (H t) /\ struct_same H t t'
  | None => get B n = None
  end.
Record one_registry (H : heap) (next : tid) (A : reg) : Prop := {
  on_heap : proper_heap H next;
  on_source : proper H next A;
  on_derived : derived_names H A;
  on_arrays : forall t, registered A t -> no_array_cycle H t
}.
Lemma proper_reg0 H next : proper H next reg0.
Proof.
  constructor; [apply reach_init|intros t (n & _ & X); discriminate|intros t d (n & _ & X); discriminate|intros n sh t _ X; discriminate].
Qed.
Lemma with_empty H next A : one_registry H next A -> two_registries H next A reg0.
Proof.
  intros O. constructor; [exact (on_heap O)|exact (on_source O)|apply proper_reg0|intros t sh x a (n & _ & X); discriminate|intros t _ (n & _ & X); discriminate|exact (on_arrays O)].
Qed.
Lemma start_fresh H A : Fresh H A H reg0 [].
Proof. constructor; [intros k t _ X; discriminate|intros x y []]. Qed.
(** The merge into an empty registry succeeds and copies the registry. *)
Theorem C53_copy H next A : one_registry H next A -> exists st, merge_result H next reg0 A st (Ok tt) /\ (forall t, t < next -> m_heap st t = H t) /\ same_names (m_heap st) A (m_reg st).
Proof.
  intros O. assert (T := with_empty O).
  destruct (@copy_total H next A (on_source O) (proj1 (on_heap O)) (on_arrays O) (on_derived O) (MS (Store H next) reg0 [] [])) as (st & D & Hh & C); [exact (start T)|apply start_fresh|].
  exists st. split; [exact D|]. split; [exact Hh|]. intros n Hn. assert (X := C n Hn). destruct (get A n) as [t|] eqn:G; [|exact X]. destruct X as [X _]. destruct (X Logic.I) as (t' & G' & Gp & En & S). exists t'. assert (It : m_heap st t = H t) by (apply Hh, (pr_exists (on_source O)); exists n; auto). rewrite It. auto.
Qed.
(** Names that share a type in the one registry share a type in the copy. *)
Theorem C53_sharing H next A st : one_registry H next A -> merge_result H next reg0 A st (Ok tt) ->
  forall n m t u, absolute n -> absolute m -> get A n = Some t -> get A m = Some u -> (t = u <-> get (m_reg st) n = get (m_reg st) m).
Proof.
  intros O (N & D) n m t u Hn Hm Gt Gu. destruct (C53_copy O) as (st' & (N' & D') & Hh & C). assert (st' = st) by (assert (X := D (N + N') (N + N') ltac:(lia) ltac:(lia)); rewrite (D' (N + N') (N + N')) in X by lia; congruence). subst st'.
  assert (Rt : registered A t) by (exists n; auto). assert (Ru : registered A u) by (exists m; auto).
  assert (It : m_heap st t = H t) by (apply Hh, (pr_exists (on_source O)), Rt). assert (Iu : m_heap st u = H u) by (apply Hh, (pr_exists (on_source O)), Ru).
  assert (Cn := C n Hn). assert (Cm := C m Hm). rewrite Gt in Cn. rewrite Gu in Cm. destruct Cn as (t' & Gt' & Pt & Et & _). destruct Cm as (u' & Gu' & Pu & Eu & _). rewrite Gt', Gu'. split; [intros <-; congruence|].
  intros E. injection E as <-. apply (A_unique (on_source O) Rt Ru). congruence.
Qed.
(** ** C54 *)
(** B holds exactly the names of A that [keep] chooses, for the same definitions. *)
Definition part_of (keep : str -> tid -> Prop) (H : heap) (A B : reg) : Prop := forall n, absolute n ->
  match get A n with
  | Some t => (keep n t -> exists t', get B n = Some t' /\ get B (o_name (H t)) = Some t' /\ o_name (H t') = o_name (H t) /\ struct_same H t t') /\ (~ keep n t -> get B n = None)
  | None => get B n = None
  end.
(** A.minimal(name, with_aliases), for all large bounds on the depth of calls; [A] itself is not changed, as the model has
    no way to change it. *)
Definition minimal_result (H : heap) (next : tid) (A : reg) (name : str) (al : bool) (st : mstate) (x : res unit) : Prop :=
  exists N, forall d f, N <= d -> N <= f -> minimal d f (Store H next) reg0 A name al = (st, x).
(** The minimal registry of a type has that type and the types it is made of, with all their names or with their own names
    only, and nothing else. *)
Theorem C54_minimal H next A name t (al : bool) : one_registry H next A -> absolute name -> get A name = Some t ->
  exists st, minimal_result H next A name al st (Ok tt) /\ (forall x, x < next -> m_heap st x = H x) /\
    part_of (fun n x => reaches H t x /\ (al = true \/ n = o_name (H x))) (m_heap st) A (m_reg st).
Proof.
  intros O Hn G. assert (T := with_empty O). assert (Rt : registered A t) by (exists name; auto).
  destruct (@minimal_total H next A (on_source O) (proj1 (on_heap O)) (on_arrays O) (on_derived O) (MS (Store H next) reg0 [] []) t al) as (st & (N & D) & Hh & C); [exact (start T)|apply start_fresh|reflexivity|exact Rt|].
  exists st. split; [|split; [exact Hh|]].
  - exists N. intros d f Hd Hf. unfold minimal. rewrite G. exact (D d f Hd Hf).
  - intros n Ha. destruct al; assert (X := C n Ha); destruct (get A n) as [x|] eqn:Gx; try exact X.
    + assert (Ix : m_heap st x = H x) by (apply Hh, (pr_exists (on_source O)); exists n; auto). rewrite Ix. destruct X as [X Y]. split; [intros [Z _]; auto|]. intros Z. apply Y. intros W. apply Z. auto.
    + assert (Ix : m_heap st x = H x) by (apply Hh, (pr_exists (on_source O)); exists n; auto). rewrite Ix. destruct X as [X Y]. split; [intros [Z [W|W]]; [discriminate|auto]|]. intros Z. apply Y. intros [W V]. apply Z. auto.
Qed.
(** For a name that is not registered, minimal throws. *)
Theorem C54_unknown H next A name (al : bool) : get A name = None -> minimal_result H next A name al (MS (Store H next) reg0 [] []) (Throw ERuntime).
Proof. intros G. exists 0. intros d f _ _. unfold minimal. rewrite G. reflexivity. Qed.
(** ** C55 *)
(** What RegistryIterator::getSource() tells for each name: [source]. Every source id after a merge was there before, or is
    the one the source registry has for the name, or the one it has for another name of the same type. *)
Theorem C55_explained H next A B st : two_registries H next A B -> merge_result H next B A st (Ok tt) -> forall n s, absolute n -> source (m_reg st) n = Some s ->
  source B n = Some s \/ s = [] \/ exists m, absolute m /\ source A m = Some s /\ get (m_reg st) m = get (m_reg st) n /\ get (m_reg st) n <> None.
Proof.
  intros T (N & D) n s Hn Hs. destruct (before_copy (tw_source T) (tw_apart T) (proj1 (tw_heap T)) (tw_arrays T) (d := N) (f := N) (st := MS (Store H next) B [] []) (start T) (D N N (le_n N) (le_n N))) as (r1 & I1 & G & E).
  assert (IA := reachable_Inv (pr_reachable (tw_source T))). assert (IB := reachable_Inv (pr_reachable (tw_target T))). assert (NA := gsorted_NoDup (inv_sorted IA)).
  assert (C := copy_spec (m_heap st) r1 NA). rewrite <- E in C. assert (Gr : forall k, get (m_reg st) k = get r1 k) by (intros k; rewrite E; apply get_current, copy_current). cbn [m_reg] in G.
  assert (Tn : exists t, get r1 n = Some t).
  { unfold source in Hs. destruct (find_ n (r_global (m_reg st))) as [e|] eqn:F; [|discriminate]. exists (e_type e). apply (typed_get _ I1 Hn), (ci_type C). exists e. auto. }
  destruct Tn as (t & Tn). destruct (ci_src C Hs) as [X|(Nz & m & L)].
  - destruct (grow_back (inv_sorted IB) G X) as [Y|[Y|Y]]; [left; exact Y|right; left; exact Y|]. right. right. exists n. split; [exact Hn|]. split; [exact Y|]. split; [reflexivity|]. rewrite Gr, Tn. discriminate.
  - right. right. destruct L as (Sa & _ & _ & u & Tm & En). exists m. assert (Hm : absolute m). { unfold source in Sa. destruct (find_ m (r_global A)) as [ea|] eqn:F; [|discriminate]. apply find_In in F. apply (global_get IA F). }
    split; [exact Hm|]. split; [exact Sa|]. rewrite !Gr. apply (typed_get _ I1 Hm) in Tm. destruct (get_primary I1 Tm) as [_ P]. rewrite <- En in P. rewrite Tm, P. split; [reflexivity|discriminate].
Qed.
(** No source id of the source registry is ignored: the name, or the type it denotes, has one. *)
Theorem C55_filled H next A B st : two_registries H next A B -> merge_result H next B A st (Ok tt) -> forall m s, source A m = Some s -> s <> [] ->
  exists t n s', get (m_reg st) m = Some t /\ (n = m \/ n = o_name (m_heap st t)) /\ source (m_reg st) n = Some s' /\ s' <> [].
Proof.
  intros T R m s Sa Nz. assert (R0 := R). destruct R0 as (N & D). destruct (before_copy (tw_source T) (tw_apart T) (proj1 (tw_heap T)) (tw_arrays T) (d := N) (f := N) (st := MS (Store H next) B [] []) (start T) (D N N (le_n N) (le_n N))) as (r1 & I1 & G & E).
  assert (IA := reachable_Inv (pr_reachable (tw_source T))). assert (Gr : forall k, get (m_reg st) k = get r1 k) by (intros k; rewrite E; apply get_current, copy_current).
  unfold source in Sa. destruct (find_ m (r_global A)) as [ea|] eqn:F; [|discriminate]. cbn in Sa. injection Sa as <-. apply find_In in F. destruct (global_get IA F) as (Hm & _ & Gm).
  destruct (C50_names T R Hm Gm) as (t & Gt & _). exists t. destruct (e_src ea) as [|c s] eqn:Es; [congruence|]. assert (Tm := proj2 (typed_get t I1 Hm) (eq_trans (eq_sym (Gr m)) Gt)).
  destruct (@copy_fills (m_heap st) r1 (r_global A) r1 (fun n x => iff_refl _) (inv_primary I1) (gsorted_NoDup (inv_sorted I1)) m ea c s t F Es Tm) as (n & c' & s' & Hn & Hs).
  exists n, (c' :: s'). split; [exact Gt|]. split; [exact Hn|]. split; [rewrite E; exact Hs|discriminate].
Qed.
(** The source ids of the target are kept. Missing from the English property: the type has no other name without source id
    (see the refutation below). *)
Theorem C55_kept_partial H next A B st : two_registries H next A B -> merge_result H next B A st (Ok tt) -> forall n s, absolute n -> source B n = Some s -> s <> [] ->
  (forall m, absolute m -> m <> n -> get (m_reg st) m = get (m_reg st) n -> source (m_reg st) m <> Some []) -> source (m_reg st) n = Some s.
Proof.
  intros T (N & D) n s Hn Hs Nz Ho. destruct (before_copy (tw_source T) (tw_apart T) (proj1 (tw_heap T)) (tw_arrays T) (d := N) (f := N) (st := MS (Store H next) B [] []) (start T) (D N N (le_n N) (le_n N))) as (r1 & I1 & G & E).
  assert (IA := reachable_Inv (pr_reachable (tw_source T))). assert (NA := gsorted_NoDup (inv_sorted IA)). assert (C := copy_spec (m_heap st) r1 NA). rewrite <- E in C. assert (Gr : forall k, get (m_reg st) k = get r1 k) by (intros k; rewrite E; apply get_current, copy_current). cbn [m_reg] in G.
  assert (S1 := grow_source (inv_sorted I1) G Hs). destruct (ci_keep C S1) as [X|(m & s' & X & L)]; [exact X|exfalso]. destruct L as (Sa & Nz' & Sm & t & Tm & En).
  assert (Hm : absolute m). { unfold source in Sa. destruct (find_ m (r_global A)) as [ea|] eqn:F; [|discriminate]. apply find_In in F. apply (global_get IA F). }
  assert (Gm := proj1 (typed_get t I1 Hm) Tm). assert (Ne : m <> n) by (intros ->; congruence). destruct (get_primary I1 Gm) as [_ P]. rewrite <- En in P. apply (Ho m Hm Ne); [rewrite !Gr; congruence|].
  destruct (ci_keep C Sm) as [Y|(m' & s2 & Y & L')]; [exact Y|]. destruct L' as (_ & _ & _ & u & Tu & Eu).
  assert (Hm' : absolute m') by (assert (K := Tu); destruct K as (y & Fy & _); apply find_In in Fy; apply (global_get I1 Fy)).
  assert (Gu := proj1 (typed_get u I1 Hm') Tu). destruct (get_primary I1 Gu) as [_ P']. rewrite <- Eu in P'. congruence.
Qed.
(** ** Cases *)
Definition one_b (l : list tobj) (next : nat) (A : reg) : bool := heap_b l next && proper_b (heap_of l) next A && derived_b (heap_of l) A && arrays_b (heap_of l) A.
Lemma one_ok l next A : reachable (heap_of l) A -> one_b l next A = true -> one_registry (heap_of l) next A.
Proof.
  intros Hr. unfold one_b. rewrite !andb_true_iff. intros [[[X Y] Z] W]. assert (I := reachable_Inv Hr). constructor; [apply heap_b_ok, X|apply proper_ok; assumption|apply derived_ok; assumption|apply arrays_ok; assumption].
Qed.
Definition two_b (l : list tobj) (next : nat) (A B : reg) : bool := one_b l next A && proper_b (heap_of l) next B && derived_b (heap_of l) B && apart_b A B.
Lemma two_ok l next A B : reachable (heap_of l) A -> reachable (heap_of l) B -> two_b l next A B = true -> two_registries (heap_of l) next A B.
Proof.
  intros Ha Hb. unfold two_b. rewrite !andb_true_iff. intros [[[X Y] Z] W]. assert (O := one_ok Ha X). assert (IA := reachable_Inv Ha). assert (IB := reachable_Inv Hb).
  constructor; [apply (on_heap O)|apply (on_source O)|apply proper_ok; assumption|apply derived_ok; assumption|apply (apart_ok IA IB W)|apply (on_arrays O)].
Qed.
Lemma result_at H next B A st x n : (forall d f, reg_merge (n + d) (n + f) (Store H next) B A = (st, x)) -> merge_result H next B A st x.
Proof. intros D. exists n. intros d f Hd Hf. replace d with (n + (d - n)) by lia. replace f with (n + (f - n)) by lia. apply D. Qed.

(** A list of points, and a few other types: struct Node { Point* p; Node* next; std::vector<int> v; char name[4]; }. The
    target has int and its vector already. *)
Definition lA : list tobj :=
  [ Obj (s_ "/int") 4 (ONum SInt);
    Obj (s_ "/Point") 8 (OComp [Fld (s_ "x") 0 0; Fld (s_ "y") 4 0]);
    Obj (s_ "/Point*") 8 (OPtr 1);
    Obj (s_ "/Node") 48 (OComp [Fld (s_ "p") 0 2; Fld (s_ "next") 8 4; Fld (s_ "v") 16 5; Fld (s_ "name") 40 7]);
    Obj (s_ "/Node*") 8 (OPtr 3);
    Obj (s_ "/std/vector</int>") 24 (OCont KVec 0);
    Obj (s_ "/char") 1 (ONum SInt);
    Obj (s_ "/char[4]") 4 (OArr 4 6);
    Obj (s_ "/int") 4 (ONum SInt);
    Obj (s_ "/std/vector</int>") 24 (OCont KVec 8);
    Obj (s_ "/Color") 4 (OEnum [(s_ "RED", 0%Z); (s_ "BLUE", 4%Z)]);
    Obj (s_ "/Point") 12 (OComp [Fld (s_ "x") 0 8; Fld (s_ "y") 4 8; Fld (s_ "z") 8 8]) ].
Definition hA : heap := heap_of lA.
Definition opsA := [OpAdd 0 true []; OpAdd 1 true []; OpAdd 2 true []; OpAdd 3 true []; OpAdd 4 true []; OpAdd 5 true []; OpAdd 6 true []; OpAdd 7 true []; OpAlias (s_ "/int") (s_ "/int32_t") true []; OpAlias (s_ "/Node") (s_ "/List") true []; OpAdd 10 true []].
Definition rA := run hA reg0 opsA.
Definition opsB := [OpAdd 8 true []; OpAdd 9 true []; OpAlias (s_ "/int") (s_ "/number") true []].
Definition rB := run hA reg0 opsB.
Definition opsC := [OpAdd 8 true []; OpAdd 11 true []].
Definition rC := run hA reg0 opsC.
Lemma rA_reachable : reachable hA rA. Proof. reach opsA. Qed.
Lemma rB_reachable : reachable hA rB. Proof. reach opsB. Qed.
Lemma rC_reachable : reachable hA rC. Proof. reach opsC. Qed.
Lemma AB_case : two_registries hA 12 rA rB. Proof. apply (two_ok rA_reachable rB_reachable). vm_compute. reflexivity. Qed.
Lemma AC_case : two_registries hA 12 rA rC. Proof. apply (two_ok rA_reachable rC_reachable). vm_compute. reflexivity. Qed.
Lemma A_case : one_registry hA 12 rA. Proof. apply (one_ok rA_reachable). vm_compute. reflexivity. Qed.
Lemma AB_merges : merge_result hA 12 rB rA (fst (reg_merge 40 40 (Store hA 12) rB rA)) (Ok tt).
Proof. apply (@result_at _ _ _ _ _ _ 40). intros d f. vm_compute. reflexivity. Qed.

Definition names_of (r : reg) : list string := map (fun p => string_of_list_ascii (fst p)) (r_global r).
Example C50_case : two_registries hA 12 rA rB /\ exists st, merge_result hA 12 rB rA st (Ok tt) /\
  names_of (m_reg st) = ["/Color"; "/List"; "/List*"; "/Node"; "/Node*"; "/Point"; "/Point*"; "/char"; "/char[4]"; "/int"; "/int32_t"; "/number"; "/std/vector</int32_t>"; "/std/vector</int>"; "/std/vector</number>"]%string.
Proof. split; [exact AB_case|]. eexists. split; [exact AB_merges|]. vm_compute. reflexivity. Qed.
Example C52_case : two_registries hA 12 rA rC /\ exists a b, absolute (s_ "/Point") /\ get rA (s_ "/Point") = Some a /\ get rC (s_ "/Point") = Some b /\ ~ struct_same hA a b.
Proof.
  split; [exact AC_case|]. exists 1, 11. split; [eexists; reflexivity|]. split; [vm_compute; reflexivity|]. split; [vm_compute; reflexivity|]. intros (R & HR & Hn). destruct (Hn _ _ HR) as [X _]. discriminate X.
Qed.
Example C51_case : two_registries hA 12 rA rC /\ exists st, merge_result hA 12 rC rA st (Throw EDefinitionMismatch).
Proof. split; [exact AC_case|]. exists (fst (reg_merge 40 40 (Store hA 12) rC rA)). apply (@result_at _ _ _ _ _ _ 40). intros d f. vm_compute. reflexivity. Qed.
Example C53_case : one_registry hA 12 rA. Proof. exact A_case. Qed.
Example C54_case : one_registry hA 12 rA /\ get rA (s_ "/List") = Some 3 /\ exists st st', minimal_result hA 12 rA (s_ "/List") true st (Ok tt) /\ minimal_result hA 12 rA (s_ "/List") false st' (Ok tt) /\
  names_of (m_reg st) = ["/List"; "/List*"; "/Node"; "/Node*"; "/Point"; "/Point*"; "/char"; "/char[4]"; "/int"; "/int32_t"; "/std/vector</int32_t>"; "/std/vector</int>"]%string /\
  names_of (m_reg st') = ["/Node"; "/Node*"; "/Point"; "/Point*"; "/char"; "/char[4]"; "/int"; "/std/vector</int>"]%string.
Proof.
  assert (Ha : absolute (s_ "/List")) by (eexists; reflexivity). assert (G : get rA (s_ "/List") = Some 3) by (vm_compute; reflexivity). split; [exact A_case|]. split; [exact G|].
  exists (fst (minimal 40 40 (Store hA 12) reg0 rA (s_ "/List") true)), (fst (minimal 40 40 (Store hA 12) reg0 rA (s_ "/List") false)).
  split; [|split; [|split; vm_compute; reflexivity]]; exists 40; intros d f Hd Hf; replace d with (40 + (d - 40)) by lia; replace f with (40 + (f - 40)) by lia; vm_compute; reflexivity.
Qed.

(** ** What does not hold *)
(** Without the hypothesis on arrays: struct D { std::vector<D[3]> p; }, merged in an empty registry: the array is copied
    while the compound is not complete, its size becomes 0. *)
Definition lD : list tobj := [ Obj (s_ "/D") 24 (OComp [Fld (s_ "p") 0 1]); Obj (s_ "/std/vector</D[3]>") 24 (OCont KVec 2); Obj (s_ "/D[3]") 72 (OArr 3 0) ].
Definition opsD := [OpAdd 0 true []; OpAdd 2 true []; OpAdd 1 true []].
Definition rD := run (heap_of lD) reg0 opsD.
Lemma rD_reachable : reachable (heap_of lD) rD. Proof. reach opsD. Qed.
Theorem C50_arrays_refuted : exists H next A st n t t', proper_heap H next /\ proper H next A /\ derived_names H A /\ merge_result H next reg0 A st (Ok tt) /\
  get A n = Some t /\ get (m_reg st) n = Some t' /\ o_size (m_heap st t) = 72%N /\ o_size (m_heap st t') = 0%N.
Proof.
  exists (heap_of lD), 3, rD, (fst (reg_merge 40 40 (Store (heap_of lD) 3) reg0 rD)), (s_ "/D[3]"), 2, 4. assert (I := reachable_Inv rD_reachable).
  split; [apply heap_b_ok; vm_compute; reflexivity|]. split; [apply (proper_ok rD_reachable); vm_compute; reflexivity|]. split; [apply (derived_ok I); vm_compute; reflexivity|].
  split; [apply (@result_at _ _ _ _ _ _ 40); intros d f; vm_compute; reflexivity|]. repeat split; vm_compute; reflexivity.
Qed.
(** A merge that throws can leave a type in the target that is made of a deleted one: struct C { C* n; int v; }, when int
    has another definition in the target. *)
Definition lF : list tobj := [ Obj (s_ "/int") 4 (ONum SInt); Obj (s_ "/C") 16 (OComp [Fld (s_ "n") 0 2; Fld (s_ "v") 8 0]); Obj (s_ "/C*") 8 (OPtr 1); Obj (s_ "/int") 4 (ONum UInt) ].
Definition opsF := [OpAdd 0 true []; OpAdd 1 true []; OpAdd 2 true []].
Definition opsG := [OpAdd 3 true []].
Definition rF := run (heap_of lF) reg0 opsF.
Definition rG := run (heap_of lF) reg0 opsG.
Lemma rF_reachable : reachable (heap_of lF) rF. Proof. reach opsF. Qed.
Lemma rG_reachable : reachable (heap_of lF) rG. Proof. reach opsG. Qed.
Theorem C51_failed_refuted : exists H next A B st e t d, two_registries H next A B /\ merge_result H next B A st (Throw e) /\
  get (m_reg st) (s_ "/C*") = Some t /\ In d (dependsOn (m_heap st) t) /\ In d (m_freed st).
Proof.
  exists (heap_of lF), 4, rF, rG, (fst (reg_merge 40 40 (Store (heap_of lF) 4) rG rF)), EDefinitionMismatch, 5, 4. split; [apply (two_ok rF_reachable rG_reachable); vm_compute; reflexivity|].
  split; [apply (@result_at _ _ _ _ _ _ 40); intros d f; vm_compute; reflexivity|]. split; [vm_compute; reflexivity|]. split; vm_compute; left; reflexivity.
Qed.
(** A merge can throw although all the common names have the same definitions: struct S { int a; int32_t b; } where int32_t
    is an alias of int in the target, another type in the source. The merge in the other direction succeeds. *)
Definition lM : list tobj := [ Obj (s_ "/int") 4 (ONum SInt); Obj (s_ "/int32_t") 4 (ONum SInt); Obj (s_ "/S") 8 (OComp [Fld (s_ "a") 0 0; Fld (s_ "b") 4 1]);
  Obj (s_ "/int") 4 (ONum SInt); Obj (s_ "/S") 8 (OComp [Fld (s_ "a") 0 3; Fld (s_ "b") 4 3]) ].
Definition opsM := [OpAdd 0 true []; OpAdd 1 true []; OpAdd 2 true []].
Definition opsN := [OpAdd 3 true []; OpAlias (s_ "/int") (s_ "/int32_t") true []; OpAdd 4 true []].
Definition rM := run (heap_of lM) reg0 opsM.
Definition rN := run (heap_of lM) reg0 opsN.
Lemma rM_reachable : reachable (heap_of lM) rM. Proof. reach opsM. Qed.
Lemma rN_reachable : reachable (heap_of lM) rN. Proof. reach opsN. Qed.
Theorem C52_compatible_refuted : exists H next A B, two_registries H next A B /\ two_registries H next B A /\
  (forall n a b, absolute n -> get A n = Some a -> get B n = Some b -> struct_same H a b) /\
  (exists st, merge_result H next B A st (Throw EDefinitionMismatch)) /\ (exists st, merge_result H next A B st (Ok tt)).
Proof.
  exists (heap_of lM), 5, rM, rN. split; [apply (two_ok rM_reachable rN_reachable); vm_compute; reflexivity|]. split; [apply (two_ok rN_reachable rM_reachable); vm_compute; reflexivity|].
  split; [apply (agree_ok (reachable_Inv rM_reachable)); vm_compute; reflexivity|]. split.
  - exists (fst (reg_merge 40 40 (Store (heap_of lM) 5) rN rM)). apply (@result_at _ _ _ _ _ _ 40). intros d f. vm_compute. reflexivity.
  - exists (fst (reg_merge 40 40 (Store (heap_of lM) 5) rM rN)). apply (@result_at _ _ _ _ _ _ 40). intros d f. vm_compute. reflexivity.
Qed.
(** A source id can be lost: the target has int, from x.h, and its alias al without source id; in the source, al is a type
    from b.h. After the merge, int is said to come from b.h. *)
Definition lS : list tobj := [ Obj (s_ "/int") 4 (ONum SInt); Obj (s_ "/al") 4 (ONum SInt) ].
Definition opsS := [OpAdd 0 true (s_ "x.h"); OpAlias (s_ "/int") (s_ "/al") true []].
Definition opsT := [OpAdd 1 true (s_ "b.h")].
Definition rS := run (heap_of lS) reg0 opsS.
Definition rT := run (heap_of lS) reg0 opsT.
Lemma rS_reachable : reachable (heap_of lS) rS. Proof. reach opsS. Qed.
Lemma rT_reachable : reachable (heap_of lS) rT. Proof. reach opsT. Qed.
Theorem C55_kept_refuted : exists H next A B st, two_registries H next A B /\ merge_result H next B A st (Ok tt) /\
  source A (s_ "/int") = None /\ source B (s_ "/int") = Some (s_ "x.h") /\ source (m_reg st) (s_ "/int") = Some (s_ "b.h").
Proof.
  exists (heap_of lS), 2, rT, rS, (fst (reg_merge 40 40 (Store (heap_of lS) 2) rS rT)). split; [apply (two_ok rT_reachable rS_reachable); vm_compute; reflexivity|].
  split; [apply (@result_at _ _ _ _ _ _ 40); intros d f; vm_compute; reflexivity|]. repeat split; vm_compute; reflexivity.
Qed.
(** The source ids of a merge in a registry that has some. *)
Definition opsU := [OpAdd 0 true (s_ "x.h")].
Definition opsV := [OpAdd 1 true (s_ "b.h"); OpAlias (s_ "/al") (s_ "/bl") true (s_ "c.h")].
Definition rU := run (heap_of lS) reg0 opsU.
Definition rV := run (heap_of lS) reg0 opsV.
Lemma rU_reachable : reachable (heap_of lS) rU. Proof. reach opsU. Qed.
Lemma rV_reachable : reachable (heap_of lS) rV. Proof. reach opsV. Qed.
Example C55_case : exists st, two_registries (heap_of lS) 2 rV rU /\ merge_result (heap_of lS) 2 rU rV st (Ok tt) /\
  source (m_reg st) (s_ "/int") = Some (s_ "x.h") /\ source (m_reg st) (s_ "/al") = Some (s_ "b.h") /\ source (m_reg st) (s_ "/bl") = Some (s_ "c.h").
Proof.
  exists (fst (reg_merge 40 40 (Store (heap_of lS) 2) rU rV)). split; [apply (two_ok rV_reachable rU_reachable); vm_compute; reflexivity|].
  split; [apply (@result_at _ _ _ _ _ _ 40); intros d f; vm_compute; reflexivity|]. repeat split; vm_compute; reflexivity.
Qed.
