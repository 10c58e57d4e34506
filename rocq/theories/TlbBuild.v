(** * TlbBuild: the importer builds the types of an exported document. *)
From Coq Require Import Sorted.
From Verif Require Import Base Types NamesSpec Names NamesProofs Graph GraphProofs Registry RegistrySpec RegistryProofs RegistryOps RegistryAlias World TypeBuilderSpec TypeBuilder TypeBuilderProofs Exporter ExporterSpec ExporterProofs Smap SmapProofs TypeObj TypeObjSpec TypeObjProofs Csv Xml Tlb TlbSpec XmlProofs TlbText TlbDoc TlbLoad TlbCore.
From Verif Require Import Graph.
Local Open Scope nat_scope.

(** ** Runs *)
Definition runs {A} (m : nat -> nat -> M A) (st st' : istate) (v : A) : Prop := exists k, forall d f, k <= d -> k <= f -> m d f st = (st', Ok v).
Lemma runs_ret A (v : A) st : runs (fun _ _ => ret_ (Ok v)) st st v.
Proof. exists 0. reflexivity. Qed.
Lemma runs_bind A B (m : nat -> nat -> M A) (c : A -> nat -> nat -> M B) st st1 st2 v w : runs m st st1 v -> runs (c v) st1 st2 w -> runs (fun d f => bindM (m d f) (fun x => c x d f)) st st2 w.
Proof. intros [k1 E1] [k2 E2]. exists (k1 + k2). intros d f Hd Hf. unfold bindM. rewrite E1 by lia. apply E2; lia. Qed.
Lemma runs_ok A B (x : res A) v (c : A -> nat -> nat -> M B) st st2 w : x = Ok v -> runs (c v) st st2 w -> runs (fun d f => bindM (ret_ x) (fun x => c x d f)) st st2 w.
Proof. intros ->. apply (runs_bind (m := fun _ _ => ret_ (Ok v))). apply runs_ret. Qed.
Lemma runs_get A B (g : istate -> A) (c : A -> nat -> nat -> M B) st st2 w : runs (c (g st)) st st2 w -> runs (fun d f => bindM (get_reg g) (fun x => c x d f)) st st2 w.
Proof. apply (runs_bind (m := fun _ _ => get_reg g)). exists 0. reflexivity. Qed.
Lemma runs_erase B n (c : unit -> nat -> nat -> M B) st st2 w : runs (c tt) (IS (i_store st) (i_reg st) (i_md st) (m_erase n (i_map st))) st2 w -> runs (fun d f => bindM (m_erase_ n) (fun x => c x d f)) st st2 w.
Proof. apply (runs_bind (m := fun _ _ => m_erase_ n)). exists 0. reflexivity. Qed.

Section Build.
Variables (H0 : heap) (md0 : metas) (r0 : reg).
Hypothesis I0 : Inv H0 r0.
Hypothesis V0 : valid_names r0.
Hypothesis D0 : deps_closed H0 r0.
Hypothesis N0 : forall t, registered r0 t -> ~ needs H0 t t.
Hypothesis P0 : portable H0 md0 r0.
Hypothesis W0 : forall P : tid -> Prop, (forall t, registered r0 t -> (forall d, needs H0 t d -> P d) -> P t) -> forall t, registered r0 t -> P t.
Notation own x := (o_name (H0 x)).
Definition A0 := po_aliases P0.

Lemma needs_reg x y : registered r0 x -> needs H0 x y -> registered r0 y.
Proof. intros Hx N. induction N as [t d Hd|t z d Hd N IH]; [apply (D0 Hx Hd)|apply IH, (D0 Hx Hd)]. Qed.
Lemma needs_trans x y z : needs H0 x y -> needs H0 y z -> needs H0 x z.
Proof. induction 1 as [t d Hd|t w d Hd N IH]; intros Hz; [eapply needs_more; eassumption|eapply needs_more; [eassumption|auto]]. Qed.
Lemma own_get x : registered r0 x -> absolute (own x) /\ get r0 (own x) = Some x.
Proof. intros (n & _ & Hg). apply (get_primary I0 Hg). Qed.
Lemma own_inj x y : registered r0 x -> registered r0 y -> own x = own y -> x = y.
Proof. apply (unique_named I0). Qed.

(** ** States *)
Definition node_src (p : ent) : str := if isAlias H0 p then [] else e_src (snd p).
Record Rel (W : list str) (st : istate) : Prop := {
  rel_core : Core H0 r0 (i_store st) (i_reg st);
  rel_size : forall t' t, registered (i_reg st) t' -> get r0 (o_name (s_heap (i_store st) t')) = Some t -> o_size (s_heap (i_store st) t') = o_size (H0 t);
  rel_meta : forall t' t, registered (i_reg st) t' -> get r0 (o_name (s_heap (i_store st) t')) = Some t -> indirection (o_kind (H0 t)) = false ->
    m_type (i_md st) t' = m_type md0 t /\ forall fs i, o_kind (H0 t) = OComp fs -> i < length fs -> m_field (i_md st) t' i = m_field md0 t i;
  rel_sorted : sorted (i_map st);
  rel_nodes : forall n v, m_find n (i_map st) = Some v -> exists e, In (n, e) (persistent r0) /\ v = (entry_node H0 md0 (n, e), node_src (n, e));
  rel_cover : forall p, In p (persistent r0) -> m_find (fst p) (i_map st) <> None \/ get (i_reg st) (fst p) <> None \/ In (fst p) W
}.
(** [A]: the types that may have been built. *)
Definition step (A : tid -> Prop) (st st' : istate) : Prop :=
  extends (i_store st) (i_store st') /\ mono (i_reg st) (i_reg st') /\
  (forall n v, m_find n (i_map st') = Some v -> m_find n (i_map st) = Some v) /\
  forall t', registered (i_reg st') t' -> registered (i_reg st) t' \/ exists y, A y /\ o_name (s_heap (i_store st') t') = own y.
Lemma step_refl A st : step A st st.
Proof. split; [apply extends_refl|]. split; [intros k t _ X; exact X|]. auto. Qed.
Lemma step_weaken (A B : tid -> Prop) st st' : (forall y, A y -> B y) -> step A st st' -> step B st st'.
Proof. intros Hi (E & M & F & R). split; [exact E|]. split; [exact M|]. split; [exact F|]. intros t' Ht. destruct (R t' Ht) as [X|(y & Hy & Ey)]; [auto|right; eauto]. Qed.
Lemma step_trans A W a b c : Rel W b -> step A a b -> step A b c -> step A a c.
Proof.
  intros Rb (E & M & F & R) (E' & M' & F' & R'). split; [eapply extends_trans; eassumption|]. split; [intros k t Hk Hg; apply M'; [exact Hk|apply M; assumption]|]. split; [auto|].
  intros t' Ht. destruct (R' t' Ht) as [X|X]; [|auto]. destruct (R t' X) as [Y|(y & Hy & Ey)]; [auto|]. right. exists y. split; [exact Hy|]. rewrite <- Ey. f_equal. apply E'. apply (wo_reg (co_world (rel_core Rb)) X).
Qed.
Lemma rel_name W st x t' : Rel W st -> registered r0 x -> get (i_reg st) (own x) = Some t' -> like0 H0 (s_heap (i_store st)) x t'.
Proof.
  intros R Hx Hg. destruct (own_get Hx) as [Ha Hx0]. destruct (co_sub (rel_core R) Ha Hg) as (y & Hy & L). rewrite Hx0 in Hy. injection Hy as <-. exact L.
Qed.
Lemma rel_registered W st n t' : Rel W st -> get (i_reg st) n = Some t' -> registered (i_reg st) t'.
Proof. intros R. apply (registered_get (wo_inv (co_world (rel_core R)))). Qed.
Lemma rel_drop W n st : Rel (n :: W) st -> get (i_reg st) n <> None -> Rel W st.
Proof. intros [A B C D E F] Hn. constructor; try assumption. intros p Hp. destruct (F p Hp) as [X|[X|[<- |X]]]; auto. Qed.
Definition erased (n : str) (st : istate) : istate := IS (i_store st) (i_reg st) (i_md st) (m_erase n (i_map st)).
Lemma rel_erase W n st : Rel W st -> Rel (n :: W) (erased n st).
Proof.
  intros [A B C D E F]. constructor; cbn [erased i_store i_reg i_md i_map]; try assumption.
  - apply m_erase_sorted. assumption.
  - intros m v. rewrite m_find_erase. destruct (seqb n m); [discriminate|apply E].
  - intros p Hp. rewrite m_find_erase. destruct (seqb n (fst p)) eqn:Es; [apply seqb_eq in Es; subst; right; right; left; reflexivity|]. destruct (F p Hp) as [X|[X|X]]; auto. right. right. right. assumption.
Qed.
Lemma step_erase A n st : step A st (erased n st).
Proof. split; [apply extends_refl|]. split; [intros k t _ X; exact X|]. split; [|auto]. intros m v. cbn [erased i_map]. rewrite m_find_erase. destruct (seqb n m); [discriminate|auto]. Qed.
Lemma rel_add W st s' r' md' x t' : Rel W st -> Core H0 r0 s' r' -> extends (i_store st) s' -> mono (i_reg st) r' -> (forall d, registered r' d <-> registered (i_reg st) d \/ d = t') ->
  registered r0 x -> get r' (own x) = Some t' -> o_size (s_heap s' t') = o_size (H0 x) ->
  (forall t, t < s_next (i_store st) -> m_type md' t = m_type (i_md st) t /\ forall i, m_field md' t i = m_field (i_md st) t i) ->
  (indirection (o_kind (H0 x)) = false -> m_type md' t' = m_type md0 x /\ forall fs i, o_kind (H0 x) = OComp fs -> i < length fs -> m_field md' t' i = m_field md0 x i) ->
  Rel W (IS s' r' md' (i_map st)).
Proof.
  intros R C' E M Rg Hx Hg Hsz Hmd Hm. destruct R as [C B Cm D En F]. constructor; cbn [i_store i_reg i_md i_map]; try assumption.
  - intros u t Hu Ht. apply Rg in Hu. destruct Hu as [Hu| ->].
    + rewrite (proj2 E) in * by (apply (wo_reg (co_world C) Hu)). apply B; assumption.
    + destruct (own_get Hx) as [Ha Hx0]. destruct (co_sub C' Ha Hg) as (y & Hy & L). rewrite Hx0 in Hy. injection Hy as <-. rewrite (proj1 L), Hx0 in Ht. injection Ht as <-. exact Hsz.
  - intros u t Hu Ht Hk. apply Rg in Hu. destruct Hu as [Hu| ->].
    + assert (Hlt := wo_reg (co_world C) Hu). rewrite (proj2 E) in Ht by exact Hlt. destruct (Hmd u Hlt) as [M1 M2]. rewrite M1. destruct (Cm u t Hu Ht Hk) as [X1 X2]. split; [exact X1|]. intros fs i Hf Hi. rewrite M2. eapply X2; eassumption.
    + destruct (own_get Hx) as [Ha Hx0]. destruct (co_sub C' Ha Hg) as (y & Hy & L). rewrite Hx0 in Hy. injection Hy as <-. rewrite (proj1 L), Hx0 in Ht. injection Ht as <-. apply Hm. exact Hk.
  - intros p Hp. destruct (F p Hp) as [X|[X|X]]; auto. right. left. destruct (get (i_reg st) (fst p)) as [u|] eqn:Eu; [|contradiction]. rewrite (M (fst p) u); [discriminate| |exact Eu].
    unfold persistent in Hp. apply filter_In in Hp. destruct p as [n e]. apply (global_get I0 (proj1 Hp)).
Qed.
(** A type that is created and added. *)
Lemma new_runs W st o m fm src x : Rel W st -> registered r0 x -> constructed (i_store st) o -> o_name o = own x ->
  kind_like (fun y y' => registered (i_reg st) y' /\ o_name (s_heap (i_store st) y') = own y) (o_kind (H0 x)) (o_kind o) -> get (i_reg st) (own x) = None ->
  exists r', let t' := s_next (i_store st) in let md' := Metas (updn (m_type (i_md st)) t' m) (updn (m_field (i_md st)) t' (fun i => nth i fm [])) in
    runs (fun _ f => new_type f o m fm src) st (IS (alloc (i_store st) o) r' md' (i_map st)) t' /\ Core H0 r0 (alloc (i_store st) o) r' /\ mono (i_reg st) r' /\
    (forall d, registered r' d <-> registered (i_reg st) d \/ d = t') /\ get r' (own x) = Some t'.
Proof.
  intros R Hx Hc Hn K Hg. destruct (own_get Hx) as [Ha Hx0]. cbv zeta.
  destruct (@core_new H0 r0 I0 V0 D0 A0 (i_store st) (i_reg st) o x src (rel_core R) Hc) as (k & r' & E & C' & M & Rg & G); try (rewrite Hn; assumption); try assumption.
  exists r'. split; [|rewrite Hn in G; auto]. exists k. intros d f _ Hf. unfold new_type. rewrite (E f Hf). reflexivity.
Qed.
Lemma md_new (md : metas) (n : tid) m (g : nat -> meta) t : t < n -> m_type (Metas (updn (m_type md) n m) (updn (m_field md) n g)) t = m_type md t /\ forall i, m_field (Metas (updn (m_type md) n m) (updn (m_field md) n g)) t i = m_field md t i.
Proof. intros Ht. cbn [m_type m_field]. unfold updn. destruct (Nat.eqb_spec t n); [lia|auto]. Qed.
Lemma new_rel W st o m fm src x : Rel W st -> registered r0 x -> constructed (i_store st) o -> o_name o = own x -> o_size o = o_size (H0 x) ->
  kind_like (fun y y' => registered (i_reg st) y' /\ o_name (s_heap (i_store st) y') = own y) (o_kind (H0 x)) (o_kind o) -> get (i_reg st) (own x) = None ->
  (indirection (o_kind (H0 x)) = false -> m = m_type md0 x /\ forall fs i, o_kind (H0 x) = OComp fs -> i < length fs -> nth i fm [] = m_field md0 x i) ->
  exists st', runs (fun _ f => new_type f o m fm src) st st' (s_next (i_store st)) /\ Rel W st' /\ step (fun y => y = x) st st' /\ get (i_reg st') (own x) = Some (s_next (i_store st)).
Proof.
  intros R Hx Hc Hn Hs K Hg Hm. destruct (new_runs m fm src R Hx Hc Hn K Hg) as (r' & E & C' & M & Rg & G). cbv zeta in *. eexists. split; [exact E|].
  assert (Ho : s_heap (alloc (i_store st) o) (s_next (i_store st)) = o) by apply upd_same. split; [|split; [|exact G]].
  - eapply rel_add; [exact R|exact C'|apply extends_alloc|exact M|exact Rg|exact Hx|exact G| | |]; [rewrite Ho; exact Hs|intros t Ht; apply md_new; exact Ht|].
    intros Hk. cbn [m_type m_field]. unfold updn. rewrite Nat.eqb_refl. apply Hm. exact Hk.
  - split; [apply extends_alloc|]. split; [exact M|]. split; [auto|]. intros t' Ht. apply Rg in Ht. destruct Ht as [Ht| ->]; [auto|]. right. exists x. split; [reflexivity|]. cbn [i_store]. rewrite Ho. exact Hn.
Qed.
(** ** Nodes *)
Lemma node_meta t src : inside (s_ "metadata") (type_node H0 md0 t src) = map line_node (meta_lines (m_type md0 t)).
Proof.
  rewrite <- meta_filter. unfold type_node. destruct (o_kind (H0 t)); rewrite inside_body; cbn [filter app]; try reflexivity.
  - rewrite value_filter by discriminate. reflexivity.
  - rewrite filter_fields by discriminate. reflexivity.
Qed.
Lemma node_load x src : registered r0 x -> loadMetaData (type_node H0 md0 x src) [] = Ok (m_type md0 x).
Proof. intros Hx. apply load_back; [apply (po_meta P0 Hx)|apply node_meta]. Qed.
(** ** What is proved of a type *)
Definition built_ok (x : tid) : Prop := forall W st, Rel W st -> (forall y, y = x \/ needs H0 x y -> ~ In (own y) W) ->
  exists st' t', runs (fun d f => fbuild d f (own x)) st st' t' /\ Rel W st' /\ step (fun y => y = x \/ needs H0 x y) st st' /\ get (i_reg st') (own x) = Some t' /\ m_find (own x) (i_map st') = None.
(** A type that is not needed by x is not x's. *)
Lemma still_missing W st st' x : Rel W st' -> registered r0 x -> get (i_reg st) (own x) = None -> Rel W st -> step (needs H0 x) st st' -> get (i_reg st') (own x) = None.
Proof.
  intros R' Hx Hg R (E & M & F & Rg). destruct (get (i_reg st') (own x)) as [t'|] eqn:Et; [exfalso|reflexivity]. assert (L := rel_name R' Hx Et). assert (Rt := rel_registered R' Et).
  destruct (Rg t' Rt) as [X|(y & Hy & Ey)].
  - assert (Hlt := wo_reg (co_world (rel_core R)) X). destruct X as (n & Ha & Hn). destruct (get_primary (wo_inv (co_world (rel_core R))) Hn) as [_ G]. rewrite <- (proj2 E t' Hlt), (proj1 L) in G. congruence.
  - rewrite (proj1 L) in Ey. apply own_inj in Ey; [|assumption|eapply needs_reg; eassumption]. subst y. apply (N0 Hx Hy).
Qed.
(** ** The loaders *)
Lemma of_step (A B : tid -> Prop) st st' : step A st st' -> (forall y, A y -> B y) -> step B st st'.
Proof. intros S Hi. eapply step_weaken; eassumption. Qed.
Definition loaded (W : list str) (st : istate) (x : tid) (m : nat -> nat -> M tid) : Prop :=
  exists st' t', runs m st st' t' /\ Rel W st' /\ step (fun y => y = x \/ needs H0 x y) st st' /\ get (i_reg st') (own x) = Some t'.
Lemma leaf_ok W st x o src : Rel W st -> registered r0 x -> get (i_reg st) (own x) = None -> o_name o = own x -> o_size o = o_size (H0 x) ->
  kind_like (fun _ _ => False) (o_kind (H0 x)) (o_kind o) -> dependsOn H0 x = [] -> (forall fs, o_kind (H0 x) <> OComp fs) ->
  loaded W st x (fun _ f => insert_type f (type_node H0 md0 x src) src o []).
Proof.
  intros R Hx Hg Hn Hs K Hd Hf. assert (Ko : o_kind o = o_kind (H0 x)).
  { unfold dependsOn in Hd. destruct K; try reflexivity; try discriminate. exfalso. eapply Hf. reflexivity. }
  destruct (@new_rel W st o (m_type md0 x) [] src x R Hx) as (st' & E & R' & S & G); try assumption.
  - split.
    + rewrite Ko. unfold dependsOn in Hd. rewrite Hd. intros d [].
    + rewrite Ko. unfold dependsOn in Hd. destruct (o_kind (H0 x)); try exact Logic.I; discriminate.
  - eapply kind_like_impl; [|exact K]. intros y y' [].
  - intros _. split; [reflexivity|]. intros fs i Hk. exfalso. eapply Hf; eassumption.
  - exists st', (s_next (i_store st)). split; [|split; [exact R'|split; [|exact G]]].
    + unfold insert_type. eapply runs_ok; [apply node_load; exact Hx|]. exact E.
    + eapply of_step; [exact S|auto].
Qed.
Lemma load_fields_ok x : registered r0 x -> (forall y, needs H0 x y -> built_ok y) -> forall fs m W st, Rel W st -> (forall y, needs H0 x y -> ~ In (own y) W) ->
  Forall (fun f => In (f_type f) (dependsOn H0 x) /\ (f_off f < 2 ^ 64)%N) fs -> (forall i, meta_sorted (m i)) ->
  exists st' l, runs (fun d f => load_fields (fbuild d f) (field_list H0 fs m)) st st' l /\ Rel W st' /\ step (needs H0 x) st st' /\
    Forall2 (fun f p => f_name (fst p) = f_name f /\ f_off (fst p) = f_off f /\ get (i_reg st') (own (f_type f)) = Some (f_type (fst p))) fs l /\ forall i, i < length fs -> nth i (map snd l) [] = m i.
Proof.
  intros Hx IH. induction fs as [|f fs IHf]; intros m W st R Hw Hf Hm; cbn [field_list load_fields].
  - exists st, []. split; [apply runs_ret|]. split; [exact R|]. split; [apply step_refl|]. split; [constructor|]. cbn. lia.
  - inversion Hf as [|? ? [Hd Ho] Hf']; subst. assert (Ny : needs H0 x (f_type f)) by (constructor; exact Hd). assert (Ry := needs_reg Hx Ny). destruct (own_get Ry) as [Ay _].
    destruct (IH _ Ny W st R) as (st1 & t1 & E1 & R1 & S1 & G1 & _).
    { intros y [-> |Hy]; [apply Hw; exact Ny|apply Hw; eapply needs_trans; eassumption]. }
    destruct (IHf (fun i => m (S i)) W st1 R1 Hw Hf') as (st2 & l & E2 & R2 & S2 & F2 & M2); [intros i; apply Hm|]. exists st2, ((Fld (f_name f) (f_off f) t1, m 0) :: l).
    split; [|split; [exact R2|split; [|split]]].
    + apply runs_ok with (f_name f); [reflexivity|]. apply runs_ok with (own (f_type f)); [reflexivity|]. apply runs_ok with (f_off f).
      { unfold get_size. change (get_string (field_node H0 f (m 0)) (s_ "offset")) with (Ok (dec (f_off f))). cbn [bind]. apply cast_size_dec. exact Ho. }
      eapply runs_bind; [exact E1|]. cbv beta. apply runs_ok with (m 0).
      { apply load_back; [apply Hm|]. unfold inside, field_node. rewrite !filter_app_, !tagged_ws, !app_nil_r. cbn [app]. apply meta_filter. }
      eapply runs_bind; [exact E2|]. cbv beta. apply runs_ret.
    + eapply step_trans; [exact R1| |exact S2]. eapply of_step; [exact S1|]. intros y [-> |Hy]; [exact Ny|eapply needs_trans; eassumption].
    + constructor; [|exact F2]. cbn [fst f_name f_off f_type]. split; [reflexivity|]. split; [reflexivity|]. apply S2; assumption.
    + intros i Hi. destruct i as [|i]; [reflexivity|]. cbn [map nth snd]. apply (M2 i). cbn in Hi. lia.
Qed.
Lemma compound_ok x fs : registered r0 x -> o_kind (H0 x) = OComp fs -> (forall y, needs H0 x y -> built_ok y) -> forall W st src, Rel W st -> (forall y, needs H0 x y -> ~ In (own y) W) ->
  get (i_reg st) (own x) = None -> loaded W st x (fun d f => load_compound (fbuild d f) f (own x) (type_node H0 md0 x src) src).
Proof.
  intros Hx Hk IH W st src R Hw Hg. assert (Nat_ := po_natural P0 Hx). unfold natural in Nat_. rewrite Hk in Nat_. destruct Nat_ as (Hs & Ho & Hso).
  assert (El : elements (s_ "field") (type_node H0 md0 x src) = field_list H0 fs (m_field md0 x)).
  { rewrite elements_inside. unfold type_node. rewrite Hk, inside_body, tagged_meta, app_nil_r by discriminate. apply filter_fields_eq. }
  destruct (@load_fields_ok x Hx IH fs (m_field md0 x) W st R Hw) as (st1 & l & E1 & R1 & S1 & F & Mm).
  { rewrite Forall_forall in *. intros f Hf. split; [|apply Ho; exact Hf]. unfold dependsOn. rewrite Hk. apply in_map. exact Hf. }
  { apply (po_meta P0 Hx). }
  assert (Hg1 := still_missing R1 Hx Hg R S1). assert (Rf : forall f, In f fs -> registered r0 (f_type f)).
  { intros f Hf. apply (D0 Hx). unfold dependsOn. rewrite Hk. apply in_map. exact Hf. }
  assert (F2 : Forall2 (fun f f' => f_name f' = f_name f /\ f_off f' = f_off f /\ (registered (i_reg st1) (f_type f') /\ o_name (s_heap (i_store st1) (f_type f')) = own (f_type f))) fs (map fst l)).
  { clear - F Rf R1 I0. induction F as [|f p fs l (A & B & C) F IH]; [constructor|]. cbn [map]. constructor; [|apply IH; intros g Hf; apply Rf; right; exact Hf].
    split; [exact A|]. split; [exact B|]. split; [eapply rel_registered; eassumption|]. apply (rel_name R1); [apply Rf; left; reflexivity|exact C]. }
  assert (Srt : Tlb.fld_sort l = l).
  { apply sort_sorted. clear - F2 Hso. induction F2 as [|f f' fs fs' (A & B & _) F IH]; [constructor|]. inversion Hso as [|? ? S Fo]; subst. constructor; [apply IH; exact S|]. clear - A B F Fo.
    induction F as [|g g' fs fs' (A' & B' & _) F IH]; [constructor|]. inversion Fo as [|? ? X Fo']; subst. constructor; [|apply IH; exact Fo']. unfold fld_le in *. rewrite A, B, A', B'. exact X. }
  destruct (@new_rel W st1 (Obj (own x) (o_size (H0 x)) (OComp (map fst l))) (m_type md0 x) (map snd l) src x R1 Hx) as (st2 & E2 & R2 & S2 & G2); try reflexivity; try assumption.
  - split; cbn [o_kind]; [|exact Logic.I]. intros d Hd. apply in_map_iff in Hd. destruct Hd as (f' & <- & Hf'). clear - F2 Hf' R1. induction F2 as [|f g fs fs' (_ & _ & Rg & _) F IH]; [destruct Hf'|]. destruct Hf' as [<- |Hf']; [apply (wo_reg (co_world (rel_core R1)) Rg)|auto].
  - cbn [o_kind]. rewrite Hk. constructor. exact F2.
  - intros _. split; [reflexivity|]. intros fs' i Hk' Hi. rewrite Hk in Hk'. injection Hk' as <-. apply Mm. exact Hi.
  - exists st2, (s_next (i_store st1)). split; [|split; [exact R2|split; [|exact G2]]].
    + unfold load_compound. apply runs_ok with (o_size (H0 x)).
      { unfold get_size. replace (get_string (type_node H0 md0 x src) (s_ "size")) with (Ok (dec (o_size (H0 x)))) by (unfold type_node; rewrite Hk; reflexivity). cbn [bind]. apply cast_size_dec. exact Hs. }
      rewrite El. eapply runs_bind; [exact E1|]. cbv beta zeta. rewrite Srt. unfold insert_type. apply runs_ok with (m_type md0 x); [apply node_load; exact Hx|]. exact E2.
    + eapply step_trans; [exact R1|eapply of_step; [exact S1|auto]|eapply of_step; [exact S2|auto]].
Qed.
(** Containers. *)
Lemma own_entry x : registered r0 x -> exists e, In (own x, e) (r_global r0) /\ e_type e = x /\ e_pers e = negb (indirection (o_kind (H0 x))).
Proof.
  intros Hx. destruct (own_get Hx) as [Ha Hg]. destruct (get_In I0 Ha Hg) as (e & Hi & <-). exists e. split; [exact Hi|]. split; [reflexivity|]. apply (po_saved P0 Hi). reflexivity.
Qed.
Lemma own_persistent x : registered r0 x -> indirection (o_kind (H0 x)) = false -> exists e, In (own x, e) (persistent r0) /\ e_type e = x.
Proof. intros Hx Hk. destruct (own_entry Hx) as (e & Hi & Ht & Hp). exists e. split; [|exact Ht]. apply filter_In. split; [exact Hi|]. cbn [snd]. rewrite Hp, Hk. reflexivity. Qed.
Lemma own_base x : registered r0 x -> indirection (o_kind (H0 x)) = false -> base_name (own x).
Proof. intros Hx Hk. destruct (own_persistent Hx Hk) as (e & Hi & _). apply (po_base P0 Hi). Qed.
Lemma name_with_nil b : name_with b [] = b.
Proof. unfold name_with. cbn. apply app_nil_r. Qed.
Lemma parse_base n : base_name n -> parseTypename n = Ok (n, []).
Proof. intros Hb. assert (X := @parse_ok n [] Hb (Forall_nil _)). rewrite name_with_nil in X. exact X. Qed.
Lemma full_abs r n : absolute n -> getFullName r n = n.
Proof. intros Ha. unfold getFullName. apply absolute_iff in Ha. rewrite Ha. reflexivity. Qed.
Lemma has_get r n : has r n = match get r n with Some _ => true | None => false end.
Proof. unfold has, get. destruct (find_ n (r_current r)); reflexivity. Qed.
Lemma no_has_build st n : absolute n -> base_name n -> get (i_reg st) n = None -> runs (fun _ _ => m_has_build n) st st false.
Proof.
  intros Ha Hb Hg. exists 0. intros _ _ _ _. unfold m_has_build. rewrite has_get, Hg. rewrite full_abs by assumption. unfold getBaseType, parse. rewrite parse_base by assumption. cbn [bind fst]. rewrite Hg. reflexivity.
Qed.
Lemma create_ok W st x k y t1 : Rel W st -> registered r0 x -> o_kind (H0 x) = OCont k y -> get (i_reg st) (own y) = Some t1 -> get (i_reg st) (own x) = None ->
  exists r' z, let t' := s_next (i_store st) in let o := Obj (own x) z (OCont k t1) in let md' := Metas (updn (m_type (i_md st)) t' []) (updn (m_field (i_md st)) t' (fun i => nth i [] [])) in
    runs (fun _ f => createContainer f (kind_text k) t1) st (IS (alloc (i_store st) o) r' md' (i_map st)) t' /\ Core H0 r0 (alloc (i_store st) o) r' /\ mono (i_reg st) r' /\
    (forall d, registered r' d <-> registered (i_reg st) d \/ d = t') /\ get r' (own x) = Some t'.
Proof.
  intros R Hx Hk Hy Hg. assert (Ry : registered r0 y) by (apply (D0 Hx); unfold dependsOn; rewrite Hk; left; reflexivity). assert (Ly := rel_name R Ry Hy). assert (R1 := rel_registered R Hy). assert (T1 := wo_reg (co_world (rel_core R)) R1).
  assert (Hi : indirection (o_kind (H0 x)) = false) by (rewrite Hk; reflexivity). destruct (own_get Hx) as [Ha _]. assert (Nt := po_natural P0 Hx). unfold natural in Nt. rewrite Hk in Nt. destruct k.
  - assert (En : own x = vector_fullName (own y)) by (apply (po_names P0 Hx); unfold indirect_name; rewrite Hk; reflexivity).
    destruct (@new_runs W st (Obj (own x) 24 (OCont KVec t1)) [] [] [] x R Hx) as (r' & E & X); try assumption; try reflexivity.
    + split; cbn [o_kind o_name]; [intros d [<- |[]]; exact T1|]. rewrite (proj1 Ly). exact En.
    + rewrite Hk. constructor. split; [exact R1|apply Ly].
    + exists r', 24%N. split; [|exact X]. change (createContainer) with (fun f kind on => if seqb kind (s_ "/std/vector") then vector_factory f on else if seqb kind (s_ "/std/string") then string_factory f on else ret_ (Throw ENotFound)). cbv beta.
      change (seqb (kind_text KVec) (s_ "/std/vector")) with true. cbv iota. unfold vector_factory, m_name. apply runs_get. rewrite (proj1 Ly), <- En. eapply runs_bind; [apply no_has_build; [exact Ha|apply own_base; assumption|exact Hg]|]. cbv beta iota. exact E.
  - destruct Nt as [_ Nt]. destruct (Nt eq_refl) as [En Ey].
    destruct (@new_runs W st (Obj (own x) 32 (OCont KStr t1)) [] [] [] x R Hx) as (r' & E & X); try assumption; try reflexivity.
    + split; cbn [o_kind o_name]; [intros d [<- |[]]; exact T1|exact Logic.I].
    + rewrite Hk. constructor. split; [exact R1|apply Ly].
    + exists r', 32%N. split; [|exact X]. change (createContainer) with (fun f kind on => if seqb kind (s_ "/std/vector") then vector_factory f on else if seqb kind (s_ "/std/string") then string_factory f on else ret_ (Throw ENotFound)). cbv beta.
      change (seqb (kind_text KStr) (s_ "/std/vector")) with false. change (seqb (kind_text KStr) (s_ "/std/string")) with true. cbv iota. unfold string_factory. rewrite <- En, <- Ey.
      eapply runs_bind; [apply no_has_build; [exact Ha|apply own_base; assumption|exact Hg]|]. cbv beta iota.
      apply (@runs_bind _ _ (fun _ _ => m_has_build (own y)) (fun h8 _ f => bindM (if h8 then bindM (m_get (own y)) (fun e => ret_ (match e with Some e => Ok e | None => UB UOther end)) else new_type f (Obj (own y) 1 (ONum SInt)) [] [] []) (fun e => new_type f (Obj (own x) 32 (OCont KStr e)) [] [] [])) st st _ true);
        [exists 0; intros _ _ _ _; unfold m_has_build; rewrite has_get, Hy; reflexivity|]. cbv beta iota.
      apply (@runs_bind _ _ (fun _ _ => bindM (m_get (own y)) (fun e => ret_ (match e with Some e => Ok e | None => UB UOther end))) (fun e _ f => new_type f (Obj (own x) 32 (OCont KStr e)) [] [] []) st st _ t1);
        [exists 0; intros _ _ _ _; unfold bindM, m_get, get_reg, ret_; rewrite Hy; reflexivity|]. exact E.
Qed.
Lemma container_ok x k y : registered r0 x -> o_kind (H0 x) = OCont k y -> (forall y, needs H0 x y -> built_ok y) -> forall W st src, Rel W st -> (forall y, needs H0 x y -> ~ In (own y) W) ->
  get (i_reg st) (own x) = None -> loaded W st x (fun d f => load_container (fbuild d f) f (own x) (type_node H0 md0 x src) src).
Proof.
  intros Hx Hk IH W st src R Hw Hg. assert (Ny : needs H0 x y) by (constructor; unfold dependsOn; rewrite Hk; left; reflexivity). assert (Ry := needs_reg Hx Ny).
  assert (Nt := po_natural P0 Hx). unfold natural in Nt. rewrite Hk in Nt. destruct Nt as [Hs _].
  destruct (IH _ Ny W st R) as (st1 & t1 & E1 & R1 & S1 & G1 & _).
  { intros z [-> |Hz]; [apply Hw; exact Ny|apply Hw; eapply needs_trans; eassumption]. }
  assert (S1' : step (needs H0 x) st st1) by (eapply of_step; [exact S1|intros z [-> |Hz]; [exact Ny|eapply needs_trans; eassumption]]).
  assert (Hg1 := still_missing R1 Hx Hg R S1'). destruct (create_ok R1 Hx Hk G1 Hg1) as (r2 & z & E2 & C2 & M2 & Rg2 & G2). cbv zeta in *.
  set (t' := s_next (i_store st1)) in *. set (o := Obj (own x) z (OCont k t1)) in *. set (s2 := alloc (i_store st1) o) in *.
  set (md2 := Metas (updn (m_type (i_md st1)) t' []) (updn (m_field (i_md st1)) t' (fun i => nth i [] []))) in *.
  assert (Ho : s_heap s2 t' = o) by apply upd_same. set (s3 := Store (upd (s_heap s2) t' (Obj (own x) (o_size (H0 x)) (OCont k t1))) (s_next s2)).
  set (md3 := Metas (updn (m_type md2) t' (m_type md0 x)) (m_field md2)).
  assert (Ho3 : s_heap s3 t' = Obj (own x) (o_size (H0 x)) (OCont k t1)) by apply upd_same.
  assert (Ex : extends (i_store st1) s3).
  { split; cbn [s3 s_next s_heap]; [cbn; lia|]. intros t Ht. rewrite upd_other by (unfold t'; lia). apply upd_other. unfold t'. lia. }
  assert (C3 : Core H0 r0 s3 r2).
  { destruct (@core_size H0 r0 A0 s2 r2 t' (o_size (H0 x)) C2) as [X|X]; [rewrite Ho in X; exact X|cbn in X; unfold t' in X; lia]. }
  assert (R3 : Rel W (IS s3 r2 md3 (i_map st1))).
  { eapply rel_add; [exact R1|exact C3|exact Ex|exact M2|exact Rg2|exact Hx|exact G2|rewrite Ho3; reflexivity| |].
    - intros t Ht. cbn [md3 md2 m_type m_field]. unfold updn. destruct (Nat.eqb_spec t t'); [unfold t' in *; lia|auto].
    - intros _. cbn [md3 m_type m_field]. unfold updn at 1. rewrite Nat.eqb_refl. split; [reflexivity|]. intros fs i Hf. rewrite Hk in Hf. discriminate. }
  exists (IS s3 r2 md3 (i_map st1)), t'. split; [|split; [exact R3|split; [|exact G2]]].
  - unfold load_container. apply runs_ok with (own y); [unfold type_node; rewrite Hk; reflexivity|]. eapply runs_bind; [exact E1|]. cbv beta.
    apply runs_ok with (kind_text k); [unfold type_node; rewrite Hk; reflexivity|].
    assert (Es : get_string (type_node H0 md0 x src) (s_ "size") = Ok (dec (o_size (H0 x)))) by (unfold type_node; rewrite Hk; reflexivity).
    apply runs_ok with (Z.of_N (o_size (H0 x))).
    { unfold get_int. rewrite Es. cbn [bind]. apply cast_int_dec. apply Hs. }
    eapply runs_bind; [exact E2|]. cbv beta. rewrite (proj2 (Z.eqb_neq (Z.of_N (o_size (H0 x))) 0)) by lia.
    apply (@runs_bind _ _ (fun _ _ => m_setSize t' (Z.of_N (o_size (H0 x)))) (fun _ _ _ => bindM (m_loadMeta t' (type_node H0 md0 x src)) (fun _ => ret_ (Ok t'))) _ (IS s3 r2 md2 (i_map st1)) _ tt).
    + exists 0. intros _ _ _ _. unfold m_setSize. cbn [i_reg i_store i_md i_map]. rewrite Ho. cbn [o o_name o_kind]. rewrite G2. rewrite Ho. cbn [o o_name o_kind]. rewrite to_size_of; [reflexivity|].
      change (2 ^ 31)%N with 2147483648%N in Hs. change (2 ^ 64)%N with 18446744073709551616%N. lia.
    + exists 0. intros _ _ _ _. unfold bindM, m_loadMeta. cbn [i_reg i_store i_md i_map]. replace (m_type md2 t') with (@nil (str * list str)) by (cbn [md2 m_type]; unfold updn; rewrite Nat.eqb_refl; reflexivity).
      rewrite node_load by exact Hx. reflexivity.
  - eapply step_trans; [exact R1|eapply of_step; [exact S1'|auto]|]. split; [exact Ex|]. split; [exact M2|]. split; [auto|]. cbn [i_reg i_store]. intros u Hu. apply Rg2 in Hu. destruct Hu as [Hu| ->]; [auto|]. right. exists x. split; [auto|]. rewrite Ho3. reflexivity.
Qed.
(** The loader of a node. *)
Lemma loader_ok x : registered r0 x -> indirection (o_kind (H0 x)) = false -> (forall y, needs H0 x y -> built_ok y) -> forall W st src, Rel W st -> (forall y, needs H0 x y -> ~ In (own y) W) ->
  get (i_reg st) (own x) = None -> loaded W st x (fun d f => loader (fbuild d f) f (own x) (type_node H0 md0 x src) src).
Proof.
  intros Hx Hi IH W st src R Hw Hg. assert (Nt := po_natural P0 Hx). unfold natural in Nt.
  assert (T : tag_of (type_node H0 md0 x src) = match o_kind (H0 x) with ONull => s_ "null" | OOpaque => s_ "opaque" | ONum _ => s_ "numeric" | OEnum _ => s_ "enum" | OPtr _ => s_ "pointer" | OArr _ _ => s_ "array" | OCont _ _ => s_ "container" | OComp _ => s_ "compound" end).
  { unfold type_node. destruct (o_kind (H0 x)); reflexivity. }
  unfold loader. rewrite T. destruct (o_kind (H0 x)) as [| |c|vs|y|dm y|k y|fs] eqn:Hk; try discriminate; cbv zeta.
  - change (seqb (s_ "null") (s_ "alias")) with false. change (seqb (s_ "null") (s_ "numeric")) with false. change (seqb (s_ "null") (s_ "null")) with true. cbv iota. unfold load_null.
    apply leaf_ok; try assumption; try reflexivity; cbn [o_size o_kind]; [symmetry; exact Nt|rewrite Hk; constructor|unfold dependsOn; rewrite Hk; reflexivity|rewrite Hk; discriminate].
  - change (seqb (s_ "opaque") (s_ "alias")) with false. change (seqb (s_ "opaque") (s_ "numeric")) with false. change (seqb (s_ "opaque") (s_ "null")) with false. change (seqb (s_ "opaque") (s_ "opaque")) with true. cbv iota. unfold load_opaque.
    destruct (@leaf_ok W st x (Obj (own x) (o_size (H0 x)) OOpaque) src R Hx Hg) as (st' & t' & E & X); try reflexivity; cbn [o_kind]; [rewrite Hk; constructor|unfold dependsOn; rewrite Hk; reflexivity|rewrite Hk; discriminate|].
    exists st', t'. split; [|exact X]. apply runs_ok with (o_size (H0 x)); [|exact E]. unfold get_size. replace (get_string (type_node H0 md0 x src) (s_ "size")) with (Ok (dec (o_size (H0 x)))) by (unfold type_node; rewrite Hk; reflexivity). cbn [bind]. apply cast_size_dec. exact Nt.
  - change (seqb (s_ "numeric") (s_ "alias")) with false. change (seqb (s_ "numeric") (s_ "numeric")) with true. cbv iota. unfold load_numeric.
    destruct (@leaf_ok W st x (Obj (own x) (o_size (H0 x)) (ONum c)) src R Hx Hg) as (st' & t' & E & X); try reflexivity; cbn [o_kind]; [rewrite Hk; constructor|unfold dependsOn; rewrite Hk; reflexivity|rewrite Hk; discriminate|].
    exists st', t'. split; [|exact X]. apply runs_ok with (category_text c); [unfold type_node; rewrite Hk; reflexivity|]. apply runs_ok with c; [destruct c; reflexivity|]. apply runs_ok with (o_size (H0 x)); [|exact E].
    unfold get_size. replace (get_string (type_node H0 md0 x src) (s_ "size")) with (Ok (dec (o_size (H0 x)))) by (unfold type_node; rewrite Hk; reflexivity). cbn [bind]. apply cast_size_dec. exact Nt.
  - change (seqb (s_ "enum") (s_ "alias")) with false. change (seqb (s_ "enum") (s_ "numeric")) with false. change (seqb (s_ "enum") (s_ "null")) with false. change (seqb (s_ "enum") (s_ "opaque")) with false. change (seqb (s_ "enum") (s_ "enum")) with true. cbv iota. unfold load_enum.
    destruct Nt as (Hs & Ho & Hv). destruct (@leaf_ok W st x (Obj (own x) 4 (OEnum vs)) src R Hx Hg) as (st' & t' & E & X); try reflexivity; cbn [o_kind o_size]; [symmetry; exact Hs|rewrite Hk; constructor|unfold dependsOn; rewrite Hk; reflexivity|rewrite Hk; discriminate|].
    exists st', t'. split; [|exact X]. destruct (@load_values_ok vs (En (0 - 1) []) Hv) as (e' & L1 & L2); [cbn [en_values app]; apply alpha_sorted; exact Ho|]. apply runs_ok with e'.
    + change (enum_new 0) with (Ok (En (0 - 1) [])). cbn [bind]. rewrite elements_inside. unfold type_node. rewrite Hk, inside_body, tagged_meta, app_nil_r by discriminate. rewrite value_filter_eq. exact L1.
    + cbn [en_values app] in L2. rewrite L2. exact E.
  - change (seqb (s_ "container") (s_ "alias")) with false. change (seqb (s_ "container") (s_ "numeric")) with false. change (seqb (s_ "container") (s_ "null")) with false. change (seqb (s_ "container") (s_ "opaque")) with false. change (seqb (s_ "container") (s_ "enum")) with false. change (seqb (s_ "container") (s_ "compound")) with false. change (seqb (s_ "container") (s_ "container")) with true. cbv iota.
    eapply container_ok; eassumption.
  - change (seqb (s_ "compound") (s_ "alias")) with false. change (seqb (s_ "compound") (s_ "numeric")) with false. change (seqb (s_ "compound") (s_ "null")) with false. change (seqb (s_ "compound") (s_ "opaque")) with false. change (seqb (s_ "compound") (s_ "enum")) with false. change (seqb (s_ "compound") (s_ "compound")) with true. cbv iota.
    eapply compound_ok; eassumption.
Qed.
(** ** Factory::build *)
Definition based_ok (x : tid) : Prop := forall W st, Rel W st -> (forall y, y = x \/ needs H0 x y -> ~ In (own y) W) ->
  exists st' t', runs (fun d f => fbase (fbuild d f) f (own x)) st st' t' /\ Rel W st' /\ step (fun y => y = x \/ needs H0 x y) st st' /\ get (i_reg st') (own x) = Some t' /\ m_find (own x) (i_map st') = None.
Lemma erase_none n (m : smap (xnode * str)) : m_find n (m_erase n m) = None.
Proof. rewrite m_find_erase, seqb_refl. reflexivity. Qed.
Lemma step_find A st st' n : step A st st' -> m_find n (i_map st) = None -> m_find n (i_map st') = None.
Proof. intros (_ & _ & F & _) E. destruct (m_find n (i_map st')) as [v|] eqn:Ev; [|reflexivity]. rewrite (F _ _ Ev) in E. discriminate. Qed.
Lemma base_ok x : registered r0 x -> indirection (o_kind (H0 x)) = false -> (forall y, needs H0 x y -> built_ok y) -> based_ok x.
Proof.
  intros Hx Hi IH W st R Hw. destruct (own_get Hx) as [Ha _]. destruct (get (i_reg st) (own x)) as [t'|] eqn:Hg.
  - destruct (m_find (own x) (i_map st)) as [v|] eqn:Hm.
    + exists (erased (own x) st), t'. split; [|split; [|split; [apply step_erase|split; [exact Hg|apply erase_none]]]].
      * unfold fbase, m_get. apply runs_get. apply runs_get. rewrite Hg, Hm. apply runs_erase. apply runs_ret.
      * apply (@rel_drop W (own x)); [apply rel_erase; exact R|]. cbn [erased i_reg]. rewrite Hg. discriminate.
    + exists st, t'. split; [|split; [exact R|split; [apply step_refl|split; [exact Hg|exact Hm]]]]. unfold fbase, m_get. apply runs_get. apply runs_get. rewrite Hg, Hm. apply runs_ret.
  - destruct (own_persistent Hx Hi) as (e & He & Et). destruct (m_find (own x) (i_map st)) as [v|] eqn:Hm.
    2:{ exfalso. destruct (rel_cover R He) as [X|[X|X]]; cbn [fst] in X; [congruence|congruence|]. apply (Hw x); [left; reflexivity|exact X]. }
    destruct (rel_nodes R Hm) as (e1 & He1 & ->). assert (e1 = e).
    { unfold persistent in He, He1. apply filter_In in He, He1. assert (X := key_unique (p := (own x, e1)) (q := (own x, e)) (gsorted_NoDup (inv_sorted I0)) (proj1 He1) (proj1 He) eq_refl). injection X as ->. reflexivity. }
    subst e1. assert (Al : isAlias H0 (own x, e) = false) by (unfold isAlias; cbn [fst snd]; rewrite Et, seqb_refl; reflexivity).
    assert (R1 := rel_erase (own x) R). destruct (@loader_ok x Hx Hi IH (own x :: W) (erased (own x) st) (e_src e) R1) as (st2 & t' & E2 & R2 & S2 & G2).
    { intros y Hy [X|X]; [|apply (Hw y); auto]. apply own_inj in X; [|assumption|eapply needs_reg; eassumption]. subst y. apply (N0 Hx Hy). }
    { exact Hg. }
    exists st2, t'. split; [|split; [|split; [|split; [exact G2|]]]].
    + unfold fbase, m_get. apply runs_get. apply runs_get. rewrite Hg, Hm. unfold entry_node, node_src. rewrite Al. cbn [snd]. rewrite Et. apply runs_erase. eapply runs_bind; [exact E2|]. cbv beta. unfold m_name, m_has. apply runs_get. apply runs_get.
      rewrite (proj1 (rel_name R2 Hx G2)), seqb_refl. cbn [negb andb]. apply runs_ok with tt; [reflexivity|]. apply runs_ret.
    + apply (@rel_drop W (own x)); [exact R2|]. rewrite G2. discriminate.
    + eapply step_trans; [exact R1|apply step_erase|exact S2].
    + eapply step_find; [exact S2|]. apply erase_none.
Qed.
(** Pointers and arrays. *)
Lemma built_snoc m ms : forall b y x, built H0 b ms y -> means H0 m y x -> built H0 b (ms ++ [m]) x.
Proof. induction ms as [|n ms IH]; intros b y x Hb Hm; cbn [built app] in *; [subst y; exists x; auto|]. destruct Hb as (z & Hz & Hb). exists z. split; [exact Hz|]. eapply IH; eassumption. Qed.
Lemma decompose x : registered r0 x -> exists b ms, built H0 b ms x /\ indirection (o_kind (H0 b)) = false /\ registered r0 b /\ (b = x \/ needs H0 x b) /\ own x = name_with (own b) ms /\ dims_below (2 ^ 31) ms /\ (ms = [] -> b = x).
Proof.
  revert x. apply W0. intros x Hx IH. assert (Nt := po_natural P0 Hx). unfold natural in Nt.
  assert (Step : forall m y, means H0 m y x -> dims_below (2 ^ 31) [m] -> exists b ms, built H0 b ms x /\ indirection (o_kind (H0 b)) = false /\ registered r0 b /\ (b = x \/ needs H0 x b) /\ own x = name_with (own b) ms /\ dims_below (2 ^ 31) ms /\ (ms = [] -> b = x)).
  { intros m y Hm Hd. assert (Iy := means_indirect Hm). assert (Dy : In y (dependsOn H0 x)) by (unfold means, dependsOn in *; destruct m; rewrite Hm; left; reflexivity). assert (Ny : needs H0 x y) by (constructor; exact Dy).
    destruct (IH y Ny) as (b & ms & B & Bi & Br & Bn & Bo & Bd & _). exists b, (ms ++ [m]). split; [eapply built_snoc; eassumption|]. split; [exact Bi|]. split; [exact Br|]. split; [right; destruct Bn as [-> |Bn]; [exact Ny|eapply needs_trans; eassumption]|].
    split; [rewrite (po_names P0 Hx Iy), mk_name_eq, Bo; unfold name_with; rewrite map_app, concat_app, app_assoc; cbn; rewrite app_nil_r; reflexivity|]. split; [apply Forall_app; split; assumption|]. destruct ms; discriminate. }
  destruct (o_kind (H0 x)) as [| |c|vs|y|d y|k y|fs] eqn:Hk;
    try (exists x, []; split; [reflexivity|]; split; [rewrite Hk; reflexivity|]; split; [exact Hx|]; split; [auto|]; split; [symmetry; apply name_with_nil|]; split; [constructor|reflexivity]).
  - apply (Step MPtr y); [exact Hk|repeat constructor].
  - apply (Step (MArr d) y); [exact Hk|]. constructor; [apply Nt|constructor].
Qed.
Lemma built_needs ms : forall b x, built H0 b ms x -> b = x \/ needs H0 x b.
Proof.
  induction ms as [|m ms IH]; intros b x Hb; cbn [built] in Hb; [auto|]. destruct Hb as (y & Hy & Hb). right. assert (N1 : needs H0 y b) by (constructor; unfold dependsOn; destruct m; rewrite Hy; left; reflexivity).
  destruct (IH y x Hb) as [-> |N2]; [exact N1|eapply needs_trans; eassumption].
Qed.
Lemma mods_ok x : registered r0 x -> forall ms b, built H0 b ms x -> registered r0 b -> dims_below (2 ^ 31) ms -> forall W st t', Rel W st -> get (i_reg st) (own b) = Some t' ->
  exists s' r' x' k, (forall f, k <= f -> apply_mods f (i_store st, i_reg st) t' (map as_mod ms) = ((s', r'), Ok x')) /\ Rel W (IS s' r' (i_md st) (i_map st)) /\
    step (fun y => y = x \/ needs H0 x y) st (IS s' r' (i_md st) (i_map st)) /\ get r' (own x) = Some x'.
Proof.
  intros Hx. induction ms as [|m ms IH]; intros b Hb Rb Hd W st t' R Hg.
  - cbn [built] in Hb. subst b. exists (i_store st), (i_reg st), t', 0. split; [reflexivity|]. assert (E : IS (i_store st) (i_reg st) (i_md st) (i_map st) = st) by (destruct st; reflexivity). rewrite E. split; [exact R|]. split; [apply step_refl|exact Hg].
  - cbn [built] in Hb. destruct Hb as (y & Hy & Hb). fold (means H0 m b y) in Hy. assert (Yx : y = x \/ needs H0 x y) by (exact (built_needs Hb)). assert (Ry : registered r0 y) by (destruct Yx as [-> |N]; [exact Hx|exact (needs_reg Hx N)]).
    assert (Iy := means_indirect Hy). assert (On := po_names P0 Ry Iy). rewrite mk_name_eq in On. assert (Lb := rel_name R Rb Hg). assert (R1 := rel_registered R Hg). assert (T1 := wo_reg (co_world (rel_core R)) R1).
    assert (Dm : dims_below (2 ^ 64) (m :: ms)). { eapply Forall_impl; [|exact Hd]. intros [|d]; [auto|]. intros X. change (2 ^ 31)%N with 2147483648%N in X. change (2 ^ 64)%N with 18446744073709551616%N. lia. }
    inversion Hd as [|? ? Hm Hd']; subst. set (o := mod_obj (s_heap (i_store st)) m t'). assert (Eo : o_name o = own y) by (unfold o; rewrite mod_obj_name, (proj1 Lb); symmetry; exact On).
    assert (Nx : exists s1 r1 y' k, (forall f, k <= f -> find_or_add f (i_store st, i_reg st) o = ((s1, r1), Ok y')) /\ Rel W (IS s1 r1 (i_md st) (i_map st)) /\ step (fun z => z = y) st (IS s1 r1 (i_md st) (i_map st)) /\ get r1 (own y) = Some y').
    { destruct (get (i_reg st) (own y)) as [y'|] eqn:Gy.
      - exists (i_store st), (i_reg st), y', 0. split; [intros f _; unfold find_or_add; rewrite Eo, Gy; reflexivity|]. assert (E : IS (i_store st) (i_reg st) (i_md st) (i_map st) = st) by (destruct st; reflexivity). rewrite E. split; [exact R|]. split; [apply step_refl|exact Gy].
      - destruct (own_get Ry) as [Ay Gy0]. destruct (@core_new H0 r0 I0 V0 D0 A0 (i_store st) (i_reg st) o y [] (rel_core R)) as (k & r1 & E & C' & M & Rg & G); try (rewrite Eo; assumption); try assumption.
        + apply mod_constructed. exact T1.
        + unfold o, mod_obj. unfold means in Hy. destruct m; rewrite Hy; constructor; (split; [exact R1|apply Lb]).
        + rewrite Eo in G. exists (alloc (i_store st) o), r1, (s_next (i_store st)), k. split; [intros f Hf; unfold find_or_add; rewrite Eo, Gy, (E f Hf); reflexivity|].
          assert (Ho : s_heap (alloc (i_store st) o) (s_next (i_store st)) = o) by apply upd_same. split; [|split; [|exact G]].
          * eapply rel_add; [exact R|exact C'|apply extends_alloc|exact M|exact Rg|exact Ry|exact G| |auto|].
            { rewrite Ho. assert (Nt := po_natural P0 Ry). unfold natural in Nt. unfold means in Hy. unfold o, mod_obj. destruct m as [|d]; rewrite Hy in Nt; cbn [pointer_obj array_obj o_size]; [symmetry; exact Nt|].
              rewrite (proj2 Nt). do 2 f_equal. apply (rel_size R R1). rewrite (proj1 Lb). apply own_get. exact Rb. }
            { unfold means in Hy. intros X. destruct m; rewrite Hy in X; discriminate. }
          * split; [apply extends_alloc|]. split; [exact M|]. split; [auto|]. cbn [i_reg i_store]. intros u Hu. apply Rg in Hu. destruct Hu as [Hu| ->]; [auto|]. right. exists y. split; [reflexivity|]. rewrite Ho. exact Eo. }
    destruct Nx as (s1 & r1 & y' & k1 & E1 & R2 & S1 & G1). destruct (IH y Hb Ry Hd' W _ y' R2 G1) as (s2 & r2 & x' & k2 & E2 & R3 & S2 & G2). cbn [i_store i_reg i_md i_map] in *.
    exists s2, r2, x', (k1 + k2). split; [|split; [exact R3|split; [|exact G2]]].
    + intros f Hf. rewrite (apply_cons f (i_store st) (i_reg st) t' Dm). fold o. rewrite E1 by lia. apply E2. lia.
    + eapply step_trans; [exact R2| |exact S2]. eapply of_step; [exact S1|]. intros z ->. exact Yx.
Qed.
Lemma name_longer b ms : ms <> [] -> length b < length (name_with b ms).
Proof. destruct ms as [|m ms]; [contradiction|]. intros _. unfold name_with. cbn [map concat]. rewrite !app_length, mod_text_eq. destruct m; cbn; lia. Qed.
Lemma all_built x : registered r0 x -> built_ok x.
Proof.
  revert x. apply W0. intros x Hx IH W st R Hw. destruct (decompose Hx) as (b & ms & B & Bi & Br & Bn & Bo & Bd & Be). destruct (own_get Hx) as [Ax _].
  assert (Bb : based_ok b). { apply base_ok; [assumption|assumption|]. intros y Hy. apply IH. destruct Bn as [-> |Bn]; [exact Hy|eapply needs_trans; eassumption]. }
  destruct (Bb W st R) as (st1 & t1 & E1 & R1 & S1 & G1 & M1).
  { intros y [-> |Hy]; apply Hw; destruct Bn as [-> |Bn]; auto. right. eapply needs_trans; eassumption. }
  assert (S1' : step (fun y => y = x \/ needs H0 x y) st st1). { eapply of_step; [exact S1|]. intros y [-> |Hy]; destruct Bn as [-> |Bn]; auto. right. eapply needs_trans; eassumption. }
  assert (Hb : base_name (own b)) by (apply own_base; assumption). assert (Pn : parseTypename (own x) = Ok (own b, map as_mod ms)) by (rewrite Bo; apply parse_ok; assumption).
  assert (Lift : forall st' t', runs (fun d f => bindM (ret_ (getBaseTypename (own x))) (fun basename => bindM (fbase (fbuild d f) f basename) (fun base =>
      if seqb basename (own x) then ret_ (Ok base) else bindM (registry_build f (own x)) (fun t => bindM (m_name t) (fun n => bindM (m_has (own x)) (fun h =>
        bindM (if negb (seqb n (own x)) && negb h then do_alias f n (own x) else ret_ (Ok tt)) (fun _ => bindM (m_erase_ (own x)) (fun _ => ret_ (Ok t))))))))) st st' t' -> runs (fun d f => fbuild d f (own x)) st st' t').
  { intros st' t' [k E]. exists (S k). intros d f Hd Hf. destruct d as [|d]; [lia|]. apply (E d f); lia. }
  destruct ms as [|m ms].
  - rewrite (Be eq_refl) in *. exists st1, t1. split; [|split; [exact R1|split; [exact S1'|split; [exact G1|exact M1]]]]. apply Lift. apply runs_ok with (own x); [unfold getBaseTypename; rewrite Pn; reflexivity|].
    eapply runs_bind; [exact E1|]. cbv beta. rewrite seqb_refl. apply runs_ret.
  - assert (Mid : exists st2 x', runs (fun _ f => registry_build f (own x)) st1 st2 x' /\ Rel W st2 /\ step (fun y => y = x \/ needs H0 x y) st1 st2 /\ get (i_reg st2) (own x) = Some x').
    { destruct (get (i_reg st1) (own x)) as [x1|] eqn:Gx.
      - exists st1, x1. split; [|split; [exact R1|split; [apply step_refl|exact Gx]]]. exists 0. intros _ f _ _. unfold registry_build. rewrite Gx. reflexivity.
      - destruct (mods_ok Hx B Br Bd R1 G1) as (s2 & r2 & x' & k & E2 & R2 & S2 & G2). exists (IS s2 r2 (i_md st1) (i_map st1)), x'. split; [|auto]. exists k. intros _ f _ Hf. unfold registry_build. rewrite Gx, full_abs by exact Ax. unfold build, parse. cbn [snd]. rewrite Pn. cbn [bind fst snd]. rewrite G1.
        rewrite (E2 f Hf). reflexivity. }
    destruct Mid as (st2 & x' & E2 & R2 & S2 & G2). exists (erased (own x) st2), x'. split; [|split; [|split; [|split; [exact G2|apply erase_none]]]].
    + apply Lift. apply runs_ok with (own b); [unfold getBaseTypename; rewrite Pn; reflexivity|]. eapply runs_bind; [exact E1|]. cbv beta.
      assert (Ne : own b <> own x). { intros X. assert (Y := @name_longer (own b) (m :: ms) ltac:(discriminate)). rewrite <- Bo, <- X in Y. lia. }
      rewrite (seqb_false Ne). apply (@runs_bind _ _ (fun _ f => registry_build f (own x)) (fun t _ f => bindM (m_name t) (fun n => bindM (m_has (own x)) (fun h =>
        bindM (if negb (seqb n (own x)) && negb h then do_alias f n (own x) else ret_ (Ok tt)) (fun _ => bindM (m_erase_ (own x)) (fun _ => ret_ (Ok t)))))) st1 st2 _ x'); [exact E2|].
      unfold m_name, m_has. apply runs_get. apply runs_get. rewrite (proj1 (rel_name R2 Hx G2)), seqb_refl. cbn [negb andb]. apply runs_ok with tt; [reflexivity|]. apply runs_erase. apply runs_ret.
    + apply (@rel_drop W (own x)); [apply rel_erase; exact R2|]. cbn [erased i_reg]. rewrite G2. discriminate.
    + eapply step_trans; [exact R2| |apply step_erase]. eapply step_trans; [exact R1|exact S1'|exact S2].
Qed.
(** ** The entries of the map *)
Lemma rel_alias W st r' : Rel W st -> Inv (s_heap (i_store st)) r' -> Sub H0 r0 (s_heap (i_store st)) r' -> mono (i_reg st) r' -> (forall d, registered r' d <-> registered (i_reg st) d) ->
  Rel W (IS (i_store st) r' (i_md st) (i_map st)).
Proof.
  intros [C B Cm D En F] I' S' M Rg. constructor; cbn [i_store i_reg i_md i_map]; try assumption.
  - destruct C as [[I R N Dp] Z S Dc]. constructor; try assumption.
    + constructor; try assumption. intros t Ht. apply R. apply Rg. exact Ht.
    + intros d x Hd Hx. apply Rg. apply Rg in Hd. apply (Dc d x Hd Hx).
  - intros t' t Ht. apply B. apply Rg. exact Ht.
  - intros t' t Ht. apply Cm. apply Rg. exact Ht.
  - intros p Hp. destruct (F p Hp) as [X|[X|X]]; auto. right. left. destruct (get (i_reg st) (fst p)) as [u|] eqn:Eu; [|contradiction]. rewrite (M (fst p) u); [discriminate| |exact Eu].
    unfold persistent in Hp. apply filter_In in Hp. destruct p as [n e]. apply (global_get I0 (proj1 Hp)).
Qed.
Lemma entry_built n e st : In (n, e) (persistent r0) -> Rel [] st ->
  exists st' t', runs (fun d f => fbuild d f n) st st' t' /\ Rel [] st' /\ m_find n (i_map st') = None /\ forall m v, m_find m (i_map st') = Some v -> m_find m (i_map st) = Some v.
Proof.
  intros Hp R. assert (Hp' := Hp). unfold persistent in Hp'. apply filter_In in Hp'. destruct Hp' as [Hi _]. destruct (global_get I0 Hi) as (Ha & _ & Hg0). set (x := e_type e) in *. assert (Hx : registered r0 x) by (exists n; auto).
  destruct (str_dec n (own x)) as [En|En].
  - destruct (all_built Hx R) as (st' & t' & E & R' & (_ & _ & F & _) & G & Mf); [intros y _ []|]. subst n. exists st', t'. auto.
  - assert (Hb := po_base P0 Hp). cbn [fst] in Hb. assert (Pn := parse_base Hb).
    assert (Lift : forall st' t', runs (fun d f => bindM (fbase (fbuild d f) f n) (fun base => ret_ (Ok base))) st st' t' -> runs (fun d f => fbuild d f n) st st' t').
    { intros st' t' [k E]. exists (S k). intros d f Hd Hf. destruct d as [|d]; [lia|]. cbn [fbuild]. unfold getBaseTypename. rewrite Pn. cbn [bind fst]. unfold bindM at 1, ret_ at 1. rewrite seqb_refl. apply (E d f); lia. }
    destruct (get (i_reg st) n) as [t'|] eqn:Hg.
    + destruct (m_find n (i_map st)) as [v|] eqn:Hm.
      * exists (erased n st), t'. split; [|split; [|split; [apply erase_none|apply (@step_erase (fun _ => True))]]].
        { apply Lift. eapply runs_bind; [|cbv beta; apply runs_ret]. unfold fbase, m_get. apply runs_get. apply runs_get. rewrite Hg, Hm. apply runs_erase. apply runs_ret. }
        { apply (@rel_drop [] n); [apply rel_erase; exact R|]. cbn [erased i_reg]. rewrite Hg. discriminate. }
      * exists st, t'. split; [|split; [exact R|split; [exact Hm|auto]]]. apply Lift. eapply runs_bind; [|cbv beta; apply runs_ret]. unfold fbase, m_get. apply runs_get. apply runs_get. rewrite Hg, Hm. apply runs_ret.
    + destruct (m_find n (i_map st)) as [v|] eqn:Hm.
      2:{ exfalso. destruct (rel_cover R Hp) as [X|[X|X]]; cbn [fst] in X; [congruence|congruence|destruct X]. }
      destruct (rel_nodes R Hm) as (e1 & He1 & ->). assert (e1 = e).
      { unfold persistent in He1. apply filter_In in He1. assert (X := key_unique (p := (n, e1)) (q := (n, e)) (gsorted_NoDup (inv_sorted I0)) (proj1 He1) Hi eq_refl). injection X as ->. reflexivity. }
      subst e1. assert (Al : isAlias H0 (n, e) = true) by (unfold isAlias; cbn [fst snd]; fold x; rewrite (seqb_false En); reflexivity).
      assert (R1 := rel_erase n R). destruct (all_built Hx R1) as (st2 & t' & E2 & R2 & S2 & G2 & _).
      { intros y Hy [X|[]]. assert (Ry : registered r0 y) by (destruct Hy as [-> |Hy]; [exact Hx|exact (needs_reg Hx Hy)]). destruct (own_get Ry) as [_ Gy]. rewrite <- X in Gy. rewrite Hg0 in Gy. injection Gy as Gy. subst y. apply En. symmetry. symmetry. exact X. }
      destruct (own_get Hx) as [Ax _]. assert (L2 := rel_name R2 Hx G2). destruct (rel_core R2) as [Wd Z S D] eqn:Ec.
      destruct (@core_alias H0 r0 I0 V0 D0 A0 (s_heap (i_store st2)) (i_reg st2) (own x) n (isPersistent (s_heap (i_store st2)) n t') [] t' x (wo_names Wd) (wo_inv Wd) S Ha G2 Hg0 L2) as (k & r3 & E3 & I3 & S3 & M3 & Rg3 & G3).
      assert (R3 := rel_alias R2 I3 S3 M3 Rg3). set (st3 := IS (i_store st2) r3 (i_md st2) (i_map st2)) in *. exists st3, t'. split; [|split; [|split]].
      * apply Lift. eapply runs_bind; [|cbv beta; apply runs_ret]. unfold fbase, m_get. apply runs_get. apply runs_get. rewrite Hg, Hm. unfold entry_node, node_src. rewrite Al. cbn [fst snd]. fold x. apply runs_erase.
        apply (@runs_bind _ _ (fun d f => load_alias (fbuild d f) f n (XElem (s_ "alias") [(s_ "name", n); (s_ "source", own x)] []))
          (fun t d f => bindM (m_name t) (fun m => bindM (m_has n) (fun h => bindM (if negb (seqb m n) && negb h then do_alias f m n else ret_ (Ok tt)) (fun _ => ret_ (Ok t))))) _ st3 _ t').
        { unfold load_alias. apply runs_ok with (own x); [reflexivity|]. eapply runs_bind; [exact E2|]. cbv beta.
          apply (@runs_bind _ _ (fun _ f => do_alias f (own x) n) (fun _ _ _ => ret_ (Ok t')) st2 st3 st3 tt); [|apply runs_ret]. exists k. intros _ f _ Hf. unfold do_alias, alias. rewrite G2. rewrite (E3 f Hf). reflexivity. }
        { unfold m_name, m_has. apply runs_get. apply runs_get. rewrite has_get. cbn [st3 i_reg]. rewrite G3. cbn [negb]. rewrite andb_false_r. apply runs_ok with tt; [reflexivity|]. apply runs_ret. }
      * apply (@rel_drop [] n); [exact R3|]. cbn [st3 i_reg]. rewrite G3. discriminate.
      * cbn [st3 i_map]. eapply step_find; [exact S2|]. apply erase_none.
      * cbn [st3 i_map]. intros m v Hv. destruct S2 as (_ & _ & F2 & _). apply F2 in Hv. cbn [erased i_map] in Hv. rewrite m_find_erase in Hv. destruct (seqb n m); [discriminate|exact Hv].
Qed.
Lemma map_shorter (a b : smap (xnode * str)) n : sorted a -> sorted b -> In n (map fst a) -> m_find n b = None -> (forall m v, m_find m b = Some v -> m_find m a = Some v) -> length b < length a.
Proof.
  intros Sa Sb Hn Hb Hi. rewrite <- (map_length fst b), <- (map_length fst a). assert (Nb := ssorted_NoDup (sorted_keys Sb)). assert (Nb' : NoDup (n :: map fst b)) by (constructor; [apply m_find_None; exact Hb|exact Nb]).
  assert (X := @NoDup_incl_length _ (n :: map fst b) (map fst a) Nb'). cbn [length] in X. apply X. intros m [<- |Hm]; [exact Hn|].
  destruct (m_find m b) as [v|] eqn:Ev; [|apply m_find_None in Ev; contradiction]. apply Hi in Ev. apply m_find_In in Ev; [|exact Sa]. apply (in_map fst) in Ev. exact Ev.
Qed.
Lemma all_entries : forall N st, Rel [] st -> length (i_map st) <= N -> exists st' k, (forall g d f, k <= g -> k <= d -> k <= f -> fbuild_all g d f st = (st', Ok tt)) /\ Rel [] st' /\ i_map st' = [].
Proof.
  induction N as [|N IH]; intros st R Hl.
  - destruct (i_map st) as [|p l] eqn:Em; [|cbn in Hl; lia]. exists st, 1. split; [|auto]. intros g d f Hg _ _. destruct g as [|g]; [lia|]. cbn [fbuild_all]. rewrite Em. reflexivity.
  - destruct (i_map st) as [|[n v] l] eqn:Em; [exists st, 1; split; [intros g d f Hg _ _; destruct g as [|g]; [lia|]; cbn [fbuild_all]; rewrite Em; reflexivity|auto]|].
    assert (Hv : m_find n (i_map st) = Some v) by (rewrite Em; cbn [m_find]; rewrite seqb_refl; reflexivity). destruct (rel_nodes R Hv) as (e & He & _).
    destruct (entry_built He R) as (st1 & t1 & [k1 E1] & R1 & Mn & Mi). destruct (IH st1 R1) as (st2 & k2 & E2 & R2 & M2).
    { assert (X := @map_shorter (i_map st) (i_map st1) n (rel_sorted R) (rel_sorted R1)). rewrite Em in X at 1. specialize (X (or_introl eq_refl) Mn Mi). rewrite Em in X. cbn [length] in X, Hl. lia. }
    exists st2, (S (k1 + k2)). split; [|auto]. intros g d f Hg Hd Hf. destruct g as [|g]; [lia|]. cbn [fbuild_all]. rewrite Em. unfold bindM. rewrite E1 by lia. apply E2; lia.
Qed.
(** ** The map of a document *)
Lemma node_known p : In p (persistent r0) -> existsb (seqb (tag_of (entry_node H0 md0 p))) known_tags = true /\ seqb (tag_of (entry_node H0 md0 p)) (s_ "comment") || seqb (tag_of (entry_node H0 md0 p)) (s_ "text") = false.
Proof.
  intros Hp. unfold entry_node. destruct (isAlias H0 p) eqn:Ea; [split; reflexivity|]. unfold persistent in Hp. apply filter_In in Hp. destruct p as [n e]. destruct Hp as [Hi Hp]. cbn [snd] in *.
  unfold isAlias in Ea. apply negb_false_iff, seqb_eq in Ea. cbn [fst snd] in Ea. assert (X := po_saved P0 Hi Ea). rewrite Hp in X. unfold type_node. destruct (o_kind (H0 (e_type e))); try discriminate; split; reflexivity.
Qed.
Lemma node_name p : get_string (entry_node H0 md0 p) (s_ "name") = Ok (fst p).
Proof.
  unfold entry_node. destruct (isAlias H0 p) eqn:Ea; [reflexivity|]. unfold isAlias in Ea. apply negb_false_iff, seqb_eq in Ea. unfold type_node. rewrite Ea. destruct (o_kind (H0 (e_type (snd p)))); reflexivity.
Qed.
Lemma node_source p : match assoc (s_ "source_id") (attributes (entry_node H0 md0 p)) with Some s => s | None => [] end = node_src p.
Proof.
  unfold entry_node, node_src. destruct (isAlias H0 p); [reflexivity|]. unfold type_node. destruct (o_kind (H0 (e_type (snd p)))); destruct (e_src (snd p)); reflexivity.
Qed.
Lemma skip_ws s l m : load_nodes [] (ws s ++ l) m = load_nodes [] l m.
Proof. induction s as [|c s IH]; [reflexivity|]. cbn [ws map app load_nodes]. exact IH. Qed.
Lemma load_nodes_ok out : (forall p, In p out -> In p (persistent r0)) -> NoDup (map fst out) -> forall m, sorted m -> (forall p, In p out -> m_find (fst p) m = None) ->
  exists m', load_nodes [] (concat (map (fun p => ws (s_ "  ") ++ [entry_node H0 md0 p] ++ ws nl) out)) m = Ok m' /\ sorted m' /\
    (forall n v, m_find n m' = Some v -> m_find n m = Some v \/ exists p, In p out /\ fst p = n /\ v = (entry_node H0 md0 p, node_src p)) /\
    (forall n, m_find n m <> None -> m_find n m' <> None) /\ forall p, In p out -> m_find (fst p) m' <> None.
Proof.
  induction out as [|p out IH]; intros Ho Hn m Sm Hm; [exists m; split; [reflexivity|]; split; [exact Sm|]; split; [auto|]; split; [auto|intros p []]|].
  cbn [map] in Hn. inversion Hn as [|? ? Hp Hn']; subst. set (m1 := m_set (fst p) (entry_node H0 md0 p, node_src p) m).
  destruct (IH (fun p0 Hp0 => Ho p0 (or_intror Hp0)) Hn' m1) as (m' & E & S' & F1 & F2 & F3).
  { apply m_set_sorted. exact Sm. }
  { intros p0 Hp0. unfold m1. rewrite m_find_set by exact Sm. destruct (seqb (fst p) (fst p0)) eqn:Es; [|apply Hm; right; exact Hp0]. apply seqb_eq in Es. exfalso. apply Hp. rewrite Es. apply in_map. exact Hp0. }
  exists m'. split; [|split; [exact S'|split; [|split]]].
  - cbn [map concat]. rewrite <- !app_assoc. rewrite skip_ws. cbn [app load_nodes]. destruct (node_known (Ho p (or_introl eq_refl))) as [K1 K2]. rewrite K2. unfold load_node. rewrite node_name. cbn [bind]. rewrite K1. cbn [negb].
    rewrite (Hm p (or_introl eq_refl)). cbn [bind]. rewrite node_source, skip_ws. exact E.
  - intros n v Hv. destruct (F1 n v Hv) as [X|(p0 & X & Y)]; [|right; exists p0; split; [right; exact X|exact Y]]. unfold m1 in X. rewrite m_find_set in X by exact Sm. destruct (seqb (fst p) n) eqn:Es; [|auto]. apply seqb_eq in Es. injection X as <-. right. exists p. auto. split; [left; reflexivity|auto].
  - intros n Hx. apply F2. unfold m1. rewrite m_find_set by exact Sm. destruct (seqb (fst p) n); [discriminate|exact Hx].
  - intros p0 [<- |Hp0]; [|apply F3; exact Hp0]. apply F2. unfold m1. rewrite m_find_set, seqb_refl by exact Sm. discriminate.
Qed.
Definition empty_store : store := Store (fun _ => null_obj) 0.
Lemma rel_init md m : sorted m -> (forall n v, m_find n m = Some v -> exists e, In (n, e) (persistent r0) /\ v = (entry_node H0 md0 (n, e), node_src (n, e))) ->
  (forall p, In p (persistent r0) -> m_find (fst p) m <> None) -> Rel [] (IS empty_store reg0 md m).
Proof.
  intros Sm Hn Hc. assert (No : forall t, ~ registered reg0 t) by (intros t (n & _ & X); discriminate). constructor; cbn [i_store i_reg i_md i_map]; try assumption.
  - constructor.
    + constructor; [apply Inv0|intros t Ht; destruct (No t Ht)|intros t x mk X; discriminate|intros t d []].
    + reflexivity.
    + intros n t' _ X. discriminate.
    + intros d x Hd. destruct (No d Hd).
  - intros t' t Ht. destruct (No t' Ht).
  - intros t' t Ht. destruct (No t' Ht).
  - intros p Hp. left. apply Hc. exact Hp.
Qed.
Lemma import_ok out md : (forall p, In p out <-> In p (persistent r0)) -> NoDup (map fst out) -> parse_doc (document H0 md0 out) = Some (root_node H0 md0 out) ->
  exists st', (exists k, forall f, k <= f -> tlb_import f (document H0 md0 out) empty_store reg0 md = (st', Ok tt)) /\ Rel [] st' /\ i_map st' = [].
Proof.
  intros Ho Hn Hp. destruct (@load_nodes_ok out (fun p => proj1 (Ho p)) Hn [] (SSorted_nil _) (fun p _ => eq_refl)) as (m & E & Sm & F1 & _ & F3).
  assert (R : Rel [] (IS empty_store reg0 md m)).
  { apply rel_init; [exact Sm| |intros p Hp'; apply F3; apply Ho; exact Hp']. intros n v Hv. destruct (F1 n v Hv) as [X|(p & X & <- & ->)]; [discriminate|]. destruct p as [n e]. exists e. split; [apply Ho; exact X|reflexivity]. }
  destruct (all_entries R (le_n _)) as (st' & k & E' & R' & M'). exists st'. split; [|auto]. exists k. intros f Hf. unfold tlb_import. rewrite Hp. change (negb (seqb (tag_of (root_node H0 md0 out)) (s_ "typelib"))) with false. cbv iota.
  cbn [root_node children]. rewrite skip_ws, E. apply E'; exact Hf.
Qed.
(** ** The same types *)
Lemma kind_like_both (R S : tid -> tid -> Prop) (H H' : heap) t t' : kind_like R (o_kind (H t)) (o_kind (H' t')) -> (forall x x', In x (dependsOn H t) -> In x' (dependsOn H' t') -> R x x' -> S x x') -> kind_like S (o_kind (H t)) (o_kind (H' t')).
Proof.
  unfold dependsOn. intros K. destruct K as [| | | |x x' Hx|d x x' Hx|k x x' Hx|fs fs' F]; intros Hi; try (constructor; fail); try (constructor; apply Hi; [left; reflexivity|left; reflexivity|assumption]).
  constructor. induction F as [|f f' fs fs' (A & B & C) F IH]; [constructor|]. constructor; [split; [assumption|]; split; [assumption|apply Hi; [left; reflexivity|left; reflexivity|assumption]]|]. apply IH. intros x x' Hx Hx'. apply Hi; right; assumption.
Qed.
Lemma rel_same W st : Rel W st -> forall t', registered (i_reg st) t' -> forall t, get r0 (o_name (s_heap (i_store st) t')) = Some t -> same H0 (s_heap (i_store st)) t t'.
Proof.
  intros R. destruct (rel_core R) as [Wd Z S D] eqn:Ec. clear Ec. intros t'. induction t' as [t' IH] using (well_founded_induction lt_wf). intros Rt t Ht.
  assert (Rt' := Rt). destruct Rt' as (n & Hn & Hg). destruct (get_primary (wo_inv Wd) Hg) as [Ha Gp]. destruct (S _ _ Ha Gp) as (u & Hu & L). rewrite Ht in Hu. injection Hu as <-. destruct L as [Ln Lk].
  assert (R0 : registered r0 t) by (exists (o_name (s_heap (i_store st) t')); auto). constructor; [exact Ln|apply (rel_size R Rt Ht)|].
  eapply kind_like_both; [exact Lk|]. intros x x' Hx Hx' E. cbv beta in E. apply IH; [apply (wo_deps Wd Hx')|apply (D _ _ Rt Hx')|]. rewrite E. apply own_get. apply (D0 R0 Hx).
Qed.
End Build.
