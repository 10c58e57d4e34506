(** * MergeSource: what Registry::merge does to the source ids. *)
From Verif Require Import Base Types NamesSpec Names NamesProofs Registry RegistrySpec RegistryProofs RegistryOps RegistryMain World TypeBuilder Merge MergeSpec MergeProofs MergeRel MergeMain MergeReg.
From Verif Require Import Graph GraphSpec GraphProofs.
Local Open Scope nat_scope.

(** ** Entries are never changed, and the new ones have no source id or the one of the source registry *)
Section Grow.
Variable S : str -> str -> Prop.
Definition may (n src : str) : Prop := src = [] \/ S n src.
Definition grow (r r' : reg) : Prop := incl (r_global r) (r_global r') /\ forall n e, In (n, e) (r_global r') -> In (n, e) (r_global r) \/ may n (e_src e).
Lemma grow_refl r : grow r r.
Proof. split; [apply incl_refl|]. intros n e X. left. exact X. Qed.
Lemma grow_trans a b c : grow a b -> grow b c -> grow a c.
Proof. intros [I1 G1] [I2 G2]. split; [eapply incl_tran; eassumption|]. intros n e X. destruct (G2 n e X) as [Y|Y]; [apply G1, Y|right; exact Y]. Qed.
Lemma named_grow H r n e r' x : may n (e_src e) -> add_named H r n e = (r', x) -> grow r r'.
Proof.
  intros M. unfold add_named. destruct (negb _); [intros E; inversion E; apply grow_refl|]. destruct (get r n) as [t|]; [destruct (t =? e_type e); intros E; inversion E; apply grow_refl|].
  intros E. inversion E; subst. split; cbn [r_global]; [intros p; apply ginsert_old|]. intros m e' X. apply In_ginsert in X. destruct X as [X|X]; [injection X as -> ->; right; exact M|left; exact X].
Qed.
Lemma seq_grow x f r r' out : (forall r1 y, x = (r1, y) -> grow r r1) -> (forall r1 r2 y, f r1 = (r2, y) -> grow r1 r2) -> seq_ x f = (r', out) -> grow r r'.
Proof.
  intros Hx Hf. unfold seq_. destruct x as [r1 [u|e|u|]]; intros E; try (inversion E; subst; eapply Hx; reflexivity). eapply grow_trans; [eapply Hx; reflexivity|eapply Hf; exact E].
Qed.
Lemma each_grow {X} (f : reg -> X -> reg * res unit) : (forall r x r' out, f r x = (r', out) -> grow r r') -> forall l r r' out, each f l r = (r', out) -> grow r r'.
Proof.
  intros Hf. induction l as [|x l IH]; intros r r' out E; cbn [each] in E; [inversion E; apply grow_refl|]. eapply seq_grow; [|intros r1 r2 y; apply IH|exact E]. intros r1 y; apply Hf.
Qed.
Lemma alias_grow H : forall f, (forall r b n p src r' out, may n src -> alias_ f H r b n p src = (r', out) -> grow r r') /\ (forall r t r' out, mda f H r t = (r', out) -> grow r r').
Proof.
  induction f as [|f [IH1 IH2]]; (split; [intros r b n p src r' out M E|intros r t r' out E]); cbn [alias_ mda] in E; try (inversion E; apply grow_refl).
  - destruct (negb _); [inversion E; apply grow_refl|]. destruct (get r b) as [t|]; [|inversion E; apply grow_refl]. revert E. apply seq_grow; [intros r1 y Ey; eapply named_grow; [|exact Ey]; exact M|].
    intros r1 r2 y. exact (@each_grow _ (mda f H) IH2 _ r1 r2 y).
  - destruct (indirect_name H t) as [[x mk]|]; [|inversion E; apply grow_refl]. revert E. apply each_grow. intros r1 a r2 y Ey. destruct (has r1 (mk a)); [inversion Ey; apply grow_refl|]. eapply IH1; [|exact Ey]. left. reflexivity.
Qed.
Lemma add_grow f H r t r' out : add f H r t [] = (r', out) -> grow r r'.
Proof.
  unfold add, add_type. apply seq_grow; [intros r1 y; apply named_grow; left; reflexivity|]. intros r1 r2 y Ey. destruct (existsb _ _); [eapply alias_grow; exact Ey|inversion Ey; apply grow_refl].
Qed.
(** The operations. *)
Definition gr {X} (m : MM X) : Prop := forall st, grow (m_reg st) (m_reg (fst (m st))).
Lemma gr_ret {X} (x : res X) : gr (mret x).
Proof. intros st. apply grow_refl. Qed.
Lemma gr_bind {X Y} (m : MM X) (k : X -> MM Y) : gr m -> (forall x, gr (k x)) -> gr (mbind m k).
Proof. intros Hm Hk st. unfold mbind. assert (A := Hm st). destruct (m st) as [st' [x|e|u|]]; try exact A. eapply grow_trans; [exact A|apply Hk]. Qed.
Lemma gr_asks {X} (g : mstate -> X) : gr (asks g).
Proof. intros st. apply grow_refl. Qed.
Lemma gr_obj t : gr (m_obj t). Proof. apply gr_asks. Qed.
Lemma gr_new o : gr (m_new o). Proof. intros st. apply grow_refl. Qed.
Lemma gr_set t o : gr (m_set t o). Proof. intros st. apply grow_refl. Qed.
Lemma gr_push k v : gr (m_push k v). Proof. intros st. apply grow_refl. Qed.
Lemma gr_has n : gr (m_has n). Proof. intros st. unfold m_has. destruct (has _ n); apply grow_refl. Qed.
Lemma gr_container n e : gr (m_container n e).
Proof. intros st. unfold m_container. destruct (get _ n) as [t|]; [|apply grow_refl]. destruct (o_kind _); apply grow_refl. Qed.
Lemma gr_add f t : gr (m_add f t).
Proof. intros st. unfold m_add. destruct (add f _ _ t []) as [r' x] eqn:E. exact (add_grow E). Qed.
Lemma gr_try f a : gr (try_merge f a).
Proof. intros st. unfold try_merge. destruct (lookup a _); [apply grow_refl|]. destruct (get _ _); [|apply grow_refl]. destruct (do_compare _ _ _ _ _ _) as [[[] sk]| | |]; apply grow_refl. Qed.
Lemma gr_throw a c m : gr m -> gr (on_throw a c m).
Proof. intros Hm st. assert (A := Hm st). unfold on_throw. destruct (m st) as [st' [x|e|u|]]; exact A. Qed.
Ltac grs := repeat first [apply gr_ret|apply gr_obj|apply gr_asks|apply gr_new|apply gr_set|apply gr_push|apply gr_has|apply gr_container|apply gr_add|apply gr_try|apply gr_bind; [|intros ?]].
Lemma gr_size t n : gr (m_setSize t n). Proof. unfold m_setSize. grs. Qed.
Lemma gr_fields rec c : (forall t, gr (rec t)) -> forall fs, gr (merge_fields rec c fs).
Proof. intros Hr. induction fs as [|x r IH]; cbn [merge_fields]; [grs|]. apply gr_bind; [apply Hr|]. intros t. apply gr_bind; [unfold add_field; grs|]. intros _. exact IH. Qed.
Lemma gr_vector f t : gr (vector_factory f t). Proof. unfold vector_factory. grs. match goal with |- gr (if ?b then _ else _) => destruct b end; grs. Qed.
Lemma gr_string f t : gr (string_factory f t).
Proof. unfold string_factory. grs. match goal with |- gr (if ?b then _ else _) => destruct b end; grs. match goal with |- gr (if ?b then _ else _) => destruct b end; grs. Qed.
Lemma gr_do rec f a : (forall t, gr (rec t)) -> gr (do_merge rec f a).
Proof.
  intros Hr. unfold do_merge. apply gr_bind; [grs|]. intros o. destruct (o_kind o) as [| | | |x|d x|k x|fs]; grs; try apply Hr; try apply gr_size.
  - destruct k; [apply gr_vector|apply gr_string].
  - apply gr_throw, gr_fields, Hr.
Qed.
Lemma gr_type rec f a : (forall t, gr (rec t)) -> gr (type_merge rec f a).
Proof. intros Hr. unfold type_merge. apply gr_bind; [grs|]. intros [b|]; [grs|]. apply gr_bind; [apply gr_do, Hr|]. intros b. grs. Qed.
Lemma gr_merge f : forall d a, gr (merge_ d f a).
Proof.
  induction d as [|d IH]; intros a; cbn [merge_]; [grs|]. apply gr_bind; [grs|]. intros o. assert (T := gr_type f a IH).
  destruct (o_kind o); try exact T; (apply gr_bind; [grs|]; intros [b|]; [grs|]; apply gr_bind; [apply IH|]; intros _; exact T).
Qed.
Lemma gr_mall {X} (m : X -> MM unit) l : (forall x, In x l -> gr (m x)) -> gr (mall m l).
Proof. induction l as [|x l IH]; intros Hm; cbn [mall]; [grs|]. apply gr_bind; [apply Hm; left; reflexivity|]. intros _. apply IH. intros y Hy. apply Hm. right. exact Hy. Qed.
Lemma gr_entry d f p : gr (merge_entry d f p).
Proof. unfold merge_entry, m_isAlias. apply gr_bind; [grs|]. intros []; grs. apply gr_merge. Qed.
Lemma gr_alias f p : S (fst p) (e_src (snd p)) -> gr (merge_alias f p).
Proof.
  intros Hs. unfold merge_alias, m_isAlias. apply gr_bind; [grs|]. intros b. destruct (negb b); [grs|]. apply gr_bind; [grs|]. intros [t|].
  - apply gr_bind; [intros st; apply grow_refl|]. intros []; grs.
  - apply gr_bind; [grs|]. intros o st. unfold m_alias. destruct (alias_ f _ _ _ _ _ _) as [r' x] eqn:E. apply (proj1 (alias_grow (m_heap st) f) _ _ _ _ _ _ _ (or_intror Hs) E).
Qed.
Lemma gr_body d f A : (forall n e, In (n, e) (r_global A) -> S n (e_src e)) -> gr (_ <~~ mall (merge_entry d f) (r_global A) ; mall (merge_alias f) (r_global A)).
Proof. intros Hs. apply gr_bind; [apply gr_mall; intros p _; apply gr_entry|]. intros _. apply gr_mall. intros [n e] Hp. apply gr_alias, (Hs _ _ Hp). Qed.
End Grow.

(** ** copySourceIDs *)
Definition typed (r : reg) (n : str) (t : tid) : Prop := exists e, find_ n (r_global r) = Some e /\ e_type e = t.
Lemma find_set n src g m : find_ m (set_source n src g) = match find_ m g with Some e => Some (if seqb m n then Ent (e_type e) (e_pers e) src else e) | None => None end.
Proof.
  induction g as [|[k e] g IH]; [reflexivity|]. unfold set_source in *. cbn [map fst snd]. destruct (seqb k n) eqn:E; cbn [find_]; destruct (seqb k m) eqn:F; try exact IH.
  - apply seqb_eq in F. subst k. rewrite E. reflexivity.
  - apply seqb_eq in F. subst k. rewrite E. reflexivity.
Qed.
(** The source id [src] was given to the type named [n] by the name [m]. *)
Definition lent (H : heap) (A r1 : reg) (n m src : str) : Prop :=
  source A m = Some src /\ src <> [] /\ source r1 m = Some [] /\ exists t, typed r1 m t /\ n = o_name (H t).
Record copy_inv (H : heap) (A r1 r : reg) : Prop := {
  ci_type : forall n t, typed r n t <-> typed r1 n t;
  ci_src : forall n s, source r n = Some s -> source r1 n = Some s \/ (s <> [] /\ exists m, lent H A r1 n m s);
  ci_keep : forall n s, source r1 n = Some s -> source r n = Some s \/ exists m s', source r n = Some s' /\ lent H A r1 n m s'
}.
Lemma typed_source r n t : typed r n t -> exists s, source r n = Some s.
Proof. intros (e & E & _). exists (e_src e). unfold source. rewrite E. reflexivity. Qed.
Lemma copy_step H A r1 r p : NoDup (map fst (r_global A)) -> In p (r_global A) -> copy_inv H A r1 r -> copy_inv H A r1 (copy_source H r p).
Proof.
  intros Nd Hp C. unfold copy_source. destruct p as [m ea]. cbn [fst snd]. destruct (find_ m (r_global r)) as [e|] eqn:E; [|exact C]. destruct (e_src ea) as [|c s0] eqn:Es; [exact C|]. destruct (e_src e) eqn:Ee; [|exact C]. rewrite <- Es.
  assert (Sa : source A m = Some (e_src ea)) by (unfold source; rewrite (In_find Nd Hp); reflexivity).
  assert (Nz : e_src ea <> []) by (rewrite Es; discriminate).
  assert (S1 : source r1 m = Some []). { destruct (ci_src C) with (n := m) (s := @nil ascii) as [X|[X _]]; [unfold source; rewrite E; cbn [option_map]; rewrite Ee; reflexivity|exact X|congruence]. }
  assert (T1 : typed r1 m (e_type e)) by (apply (ci_type C); exists e; auto).
  assert (L : lent H A r1 (o_name (H (e_type e))) m (e_src ea)) by (split; [exact Sa|]; split; [exact Nz|]; split; [exact S1|]; exists (e_type e); auto).
  set (r' := Reg (set_source (o_name (H (e_type e))) (e_src ea) (r_global r)) (r_current r) (r_ns r)).
  assert (F : forall k, find_ k (r_global r') = match find_ k (r_global r) with Some x => Some (if seqb k (o_name (H (e_type e))) then Ent (e_type x) (e_pers x) (e_src ea) else x) | None => None end) by (intros k; apply find_set).
  constructor.
  - intros n t. rewrite <- (ci_type C). unfold typed. rewrite F. destruct (find_ n (r_global r)) as [x|]; [|split; intros (y & X & _); discriminate]. destruct (seqb n (o_name (H (e_type e)))).
    + split; intros (y & X & <-); injection X as <-; eexists; split; reflexivity.
    + reflexivity.
  - intros n s Hs. unfold source in Hs. rewrite F in Hs. destruct (find_ n (r_global r)) as [x|] eqn:Fx; [|discriminate]. destruct (seqb n (o_name (H (e_type e)))) eqn:En.
    + cbn in Hs. injection Hs as <-. right. split; [exact Nz|]. apply seqb_eq in En. subst n. eauto.
    + apply (ci_src C). unfold source. rewrite Fx. exact Hs.
  - intros n s Hs. destruct (seqb n (o_name (H (e_type e)))) eqn:En.
    + right. apply seqb_eq in En. subst n. exists m, (e_src ea). split; [|exact L]. assert (K : exists t, typed r1 (o_name (H (e_type e))) t) by (unfold source in Hs; destruct (find_ _ (r_global r1)) as [x|] eqn:X; [exists (e_type x), x; auto|discriminate]).
      destruct K as (t & K). apply (ci_type C) in K. destruct K as (x & Fx & _). unfold source. rewrite F, Fx, seqb_refl. reflexivity.
    + assert (G : forall s, source r n = Some s -> source r' n = Some s) by (intros s1; unfold source; rewrite F; destruct (find_ n (r_global r)); [rewrite En; auto|auto]).
      destruct (ci_keep C Hs) as [X|(m' & s' & X & Y)]; [left; apply G, X|right; exists m', s'; split; [apply G, X|exact Y]].
Qed.
Lemma copy_spec H A r1 : NoDup (map fst (r_global A)) -> copy_inv H A r1 (copySourceIDs H r1 A).
Proof.
  intros Nd. unfold copySourceIDs. assert (G : forall l r, incl l (r_global A) -> copy_inv H A r1 r -> copy_inv H A r1 (fold_left (copy_source H) l r)).
  { induction l as [|p l IH]; intros r Hl C; cbn [fold_left]; [exact C|]. apply IH; [intros x Hx; apply Hl; right; exact Hx|]. apply copy_step; [exact Nd|apply Hl; left; reflexivity|exact C]. }
  apply G; [apply incl_refl|]. constructor; [reflexivity|auto|auto].
Qed.
(** After it, no source id of the other registry is ignored. *)
Lemma source_mono H l : forall r n c s, source r n = Some (c :: s) -> exists c' s', source (fold_left (copy_source H) l r) n = Some (c' :: s').
Proof.
  induction l as [|[m ea] l IH]; intros r n c s Hs; cbn [fold_left]; [eauto|]. assert (X : exists c' s', source (copy_source H r (m, ea)) n = Some (c' :: s')); [|destruct X as (c' & s' & X); eapply IH; exact X].
  unfold copy_source. cbn [fst snd]. destruct (find_ m (r_global r)) as [e|]; [|eauto]. destruct (e_src ea) as [|c1 s1] eqn:Ea; [eauto|]. destruct (e_src e); [|eauto].
  unfold source in *. cbn [r_global]. rewrite find_set. destruct (find_ n (r_global r)) as [x|]; [|discriminate]. destruct (seqb n _); cbn [option_map e_src]; eauto.
Qed.
Lemma copy_fills H r1 : forall l r, (forall n t, typed r n t <-> typed r1 n t) -> (forall n e, In (n, e) (r_global r1) -> exists e', In (o_name (H (e_type e)), e') (r_global r1) /\ e_type e' = e_type e) -> NoDup (map fst (r_global r1)) ->
  forall m ea c s t, In (m, ea) l -> e_src ea = c :: s -> typed r1 m t -> exists n c' s', (n = m \/ n = o_name (H t)) /\ source (fold_left (copy_source H) l r) n = Some (c' :: s').
Proof.
  induction l as [|[k eb] l IH]; intros r Ht Ip Nd m ea c s t Hi Es Tm; [destruct Hi|]. cbn [fold_left]. destruct Hi as [Hi|Hi].
  - injection Hi as -> ->. assert (Tr := proj2 (Ht m t) Tm). destruct Tr as (e & Fe & Et). destruct (e_src e) as [|c' s'] eqn:Ee.
    + exists (o_name (H t)). assert (X : source (copy_source H r (m, ea)) (o_name (H t)) = Some (c :: s)).
      { unfold copy_source. cbn [fst snd]. rewrite Fe, Es, Ee. unfold source. cbn [r_global]. rewrite find_set, Et, seqb_refl. destruct Tm as (e1 & F1 & E1). destruct (Ip m e1 (find_In F1)) as (e' & I' & Ee').
        assert (T' : typed r (o_name (H t)) t) by (apply Ht; exists e'; split; [apply In_find; [exact Nd|rewrite <- E1; exact I']|congruence]). destruct T' as (e2 & F2 & _). rewrite F2. reflexivity. }
      destruct (@source_mono H l _ _ _ _ X) as (c2 & s2 & Y). exists c2, s2. split; [right; reflexivity|exact Y].
    + assert (X : source (copy_source H r (m, ea)) m = Some (c' :: s')). { unfold copy_source. cbn [fst snd]. rewrite Fe, Es, Ee. unfold source. rewrite Fe. cbn [option_map]. rewrite Ee. reflexivity. }
      destruct (@source_mono H l _ _ _ _ X) as (c2 & s2 & Y). exists m, c2, s2. split; [left; reflexivity|exact Y].
  - eapply IH; try eassumption. intros n t'. rewrite <- Ht. unfold copy_source. cbn [fst snd]. destruct (find_ k (r_global r)) as [e|]; [|reflexivity]. destruct (e_src eb); [reflexivity|]. destruct (e_src e); [|reflexivity].
    unfold typed. cbn [r_global]. rewrite find_set. destruct (find_ n (r_global r)) as [x|]; [|reflexivity]. destruct (seqb n _); [|reflexivity]. split; intros (y & X & <-); injection X as <-; eexists; split; reflexivity.
Qed.

(** ** The merge *)
Section Merged.
Variables (H0 : heap) (N0 : tid) (A B0 : reg).
Hypothesis PA : proper H0 N0 A.
Hypothesis Disj : forall t, registered A t -> registered B0 t -> False.
Hypothesis Cons : forall t, constructed_as H0 t.
Hypothesis Arr : forall t, registered A t -> no_array_cycle H0 t.
Let IA : Inv H0 A := reachable_Inv (pr_reachable PA).
Definition inA (n src : str) : Prop := source A n = Some src.
Lemma A_nodup : NoDup (map fst (r_global A)).
Proof. apply gsorted_NoDup, (inv_sorted IA). Qed.
Lemma before_copy d f st st' : Rel H0 N0 A B0 [] [] (m_store st) (m_reg st) (m_stack st) -> merge_body d f A st = (st', Ok tt) ->
  exists r1, Inv (m_heap st') r1 /\ grow inA (m_reg st) r1 /\ m_reg st' = copySourceIDs (m_heap st') r1 A.
Proof.
  intros R E. assert (G := @gr_body inA d f A (fun n e Hi => f_equal (option_map e_src) (In_find A_nodup Hi)) st).
  assert (W1 := phase1 PA Disj Cons Arr d f (st := st) R). unfold merge_body in E. unfold mbind in E, G. unfold wp in W1. destruct (mall (merge_entry d f) (r_global A) st) as [st1 [[]|e|u|]]; try discriminate E.
  destruct W1 as [R1 L1]. assert (W2 := phase2 PA f R1 L1). unfold wp in W2. destruct (mall (merge_alias f) (r_global A) st1) as [st2 [[]|e|u|]]; try discriminate E. destruct W2 as (Es & Af & _).
  unfold m_copySourceIDs in E. injection E as <-. exists (m_reg st2). unfold m_heap. cbn [m_store m_reg]. split; [rewrite Es; apply (af_inv Af)|]. split; [exact G|reflexivity].
Qed.
End Merged.
Lemma typed_get H r n t : Inv H r -> absolute n -> (typed r n t <-> get r n = Some t).
Proof.
  intros I Hn. rewrite (get_global I Hn). unfold typed. destruct (find_ n (r_global r)) as [e|]; cbn [option_map]; [|split; [intros (x & X & _)|]; discriminate].
  split; [intros (x & X & <-); congruence|]. intros X. injection X as <-. eauto.
Qed.
Lemma grow_source S r r' n s : gsorted (r_global r') -> grow S r r' -> source r n = Some s -> source r' n = Some s.
Proof.
  intros Gs [I _] Hs. unfold source in *. destruct (find_ n (r_global r)) as [e|] eqn:E; [|discriminate]. rewrite (In_find (gsorted_NoDup Gs) (I _ (find_In E))). exact Hs.
Qed.
Lemma grow_back S r r' n s : gsorted (r_global r) -> grow S r r' -> source r' n = Some s -> source r n = Some s \/ s = [] \/ S n s.
Proof.
  intros Gs [_ G] Hs. unfold source in *. destruct (find_ n (r_global r')) as [e|] eqn:E; [|discriminate]. cbn in Hs. injection Hs as <-. destruct (G _ _ (find_In E)) as [X|X]; [left; rewrite (In_find (gsorted_NoDup Gs) X); reflexivity|right; exact X].
Qed.
