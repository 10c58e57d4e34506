(** * ExporterProofs: the work list of Exporter::save. *)
From Verif Require Import Base Types NamesSpec Names NamesProofs Graph GraphSpec GraphProofs Registry RegistrySpec RegistryProofs Exporter ExporterSpec.
Local Open Scope nat_scope.

Definition ety (p : ent) : tid := e_type (snd p).
Definition epers (p : ent) : bool := e_pers (snd p).

Lemma mem_In t l : mem t l = true <-> In t l.
Proof.
  unfold mem. rewrite existsb_exists. split; [intros (x & Hx & E)|intros Hi].
  - apply Nat.eqb_eq in E. subst; assumption.
  - exists t. split; [assumption|apply Nat.eqb_refl].
Qed.
Lemma ready_spec H saved p : ready H saved p = true <->
  (if isAlias H p then In (ety p) saved else forall d, In d (dependsOn H (ety p)) -> In d saved).
Proof.
  unfold ready, ety. destruct (isAlias H p); [apply mem_In|]. rewrite forallb_forall. split; intros A d Hd; specialize (A d Hd); apply mem_In; assumption.
Qed.
Lemma ready_mono H s s' p : incl s s' -> ready H s p = true -> ready H s' p = true.
Proof. rewrite !ready_spec. intros Hi. destruct (isAlias H p); auto. Qed.

(** ** Lists of entries in a valid order *)
Inductive topo (H : heap) : list ent -> Prop :=
| topo_nil : topo H []
| topo_snoc l p : topo H l -> ready H (map ety l) p = true -> topo H (l ++ [p]).
Lemma topo_prefix H a b : topo H (a ++ b) -> topo H a.
Proof.
  revert a. induction b as [|x b IH] using rev_ind; intros a Ht; [rewrite app_nil_r in Ht; assumption|].
  rewrite app_assoc in Ht. inversion Ht as [E|l p Hl Hr E]; [destruct (a ++ b); discriminate|].
  apply app_inj_tail in E. destruct E as [-> ->]. apply IH. assumption.
Qed.
Lemma topo_app H l m : topo H l -> (forall p, In p m -> ready H (map ety l) p = true) -> topo H (l ++ m).
Proof.
  intros Hl. induction m as [|x m IH] using rev_ind; intros Hm; [rewrite app_nil_r; assumption|].
  rewrite app_assoc. constructor; [apply IH; intros p Hp; apply Hm, in_or_app; auto|].
  apply (@ready_mono H (map ety l)); [rewrite map_app; intros y Hy; apply in_or_app; auto|]. apply Hm, in_or_app. right. left. reflexivity.
Qed.
Lemma alias_own H p : isAlias H p = false -> own H (ety p) p.
Proof. unfold isAlias. intros E. apply negb_false_iff, seqb_eq in E. split; [reflexivity|assumption]. Qed.
Lemma own_alias H t p : own H t p -> isAlias H p = false.
Proof. intros [E1 E2]. unfold isAlias. rewrite E1, E2, seqb_refl. reflexivity. Qed.
Lemma topo_own H l t : topo H l -> In t (map ety l) -> exists q, In q l /\ own H t q.
Proof.
  intros Ht. induction Ht as [|l p Ht IH Hr]; [intros []|]. rewrite map_app. intros Hi. apply in_app_or in Hi.
  assert (A : In t (map ety l) -> exists q, In q (l ++ [p]) /\ own H t q).
  { intros X. destruct (IH X) as (q & Hq & Ho). exists q. split; [apply in_or_app; auto|assumption]. }
  destruct Hi as [Hi|[<-|[]]]; [auto|]. apply ready_spec in Hr. destruct (isAlias H p) eqn:Ea; [auto|]. exists p. split; [apply in_or_app; right; left; reflexivity|apply alias_own; assumption].
Qed.
Lemma topo_needs H l : topo H l -> forall a p b, l = a ++ p :: b ->
  (isAlias H p = true -> In (ety p) (map ety a)) /\ (forall d, needs H (ety p) d -> In d (map ety a)).
Proof.
  intros Ht. induction Ht as [|l p Ht IH Hr]; intros a q b E; [destruct a; discriminate|].
  destruct b as [|y b _] using rev_ind.
  - apply app_inj_tail in E. destruct E as [-> ->]. apply ready_spec in Hr.
    assert (M : forall x d, In x (map ety a) -> needs H x d -> In d (map ety a)).
    { intros x d Hx Hn. apply in_map_iff in Hx. destruct Hx as (p & Ep & Hp). apply in_split in Hp. destruct Hp as (a1 & a2 & ->).
      destruct (IH a1 p a2 eq_refl) as [_ B]. rewrite map_app. apply in_or_app. left. apply B. rewrite Ep. assumption. }
    destruct (isAlias H q) eqn:Ea.
    + split; [auto|]. intros d Hd. eapply M; eassumption.
    + split; [discriminate|]. intros d Hd. inversion Hd as [t d' Hi|t x d' Hi Hn]; subst; [auto|]. eapply M; [apply Hr; exact Hi|assumption].
  - replace (a ++ q :: b ++ [y]) with ((a ++ q :: b) ++ [y]) in E by (rewrite <- app_assoc; reflexivity). apply app_inj_tail in E. destruct E as [E _]. apply (IH _ _ _ E).
Qed.
Lemma key_unique (l : list ent) p q : NoDup (map fst l) -> In p l -> In q l -> fst p = fst q -> p = q.
Proof.
  induction l as [|x l IH]; simpl; [tauto|]. intros Hn Hp Hq E. inversion Hn as [|? ? Hx Hn']; subst.
  destruct Hp as [-> |Hp], Hq as [-> |Hq]; auto; exfalso; apply Hx.
  - rewrite E. apply in_map. assumption.
  - rewrite <- E. apply in_map. assumption.
Qed.
Lemma own_key H t p q : own H t p -> own H t q -> fst p = fst q.
Proof. intros [_ A] [_ B]. congruence. Qed.
Lemma before_app {A} (p q : A) a b : In q a -> before q p (a ++ p :: b).
Proof. intros Hq. apply in_split in Hq. destruct Hq as (a1 & a2 & ->). exists a1, a2, b. rewrite <- app_assoc. reflexivity. Qed.
Lemma filter_before {A} (f : A -> bool) p q l : f p = true -> f q = true -> before p q l -> before p q (filter f l).
Proof.
  intros Hp Hq (a & b & c & ->). exists (filter f a), (filter f b), (filter f c). rewrite filter_app. simpl. rewrite Hp, filter_app. simpl. rewrite Hq. reflexivity.
Qed.
Lemma topo_well_ordered H l : topo H l -> NoDup (map fst l) -> well_ordered H (filter epers l).
Proof.
  intros Ht Hn p q Hp Hq. apply filter_In in Hp, Hq. destruct Hp as [Hp Fp], Hq as [Hq Fq].
  apply in_split in Hp. destruct Hp as (a & b & ->). destruct (topo_needs Ht eq_refl) as [A B].
  assert (C : forall d, In d (map ety a) -> own H d q -> before q p (filter epers (a ++ p :: b))).
  { intros d Hd Ho. destruct (topo_own (topo_prefix Ht) Hd) as (q' & Hq' & Ho'). apply filter_before; [assumption|assumption|]. apply before_app.
    replace q with q'; [assumption|]. apply (key_unique Hn); [apply in_or_app; auto|assumption|eapply own_key; eassumption]. }
  split; [intros Ha Ho; apply (C _ (A Ha) Ho)|intros d Hd Ho; apply (C _ (B _ Hd) Ho)].
Qed.

(** ** The maps *)
Lemma ginsert_perm n e m : ~ In n (map fst m) -> Permutation (ginsert n e m) ((n, e) :: m).
Proof.
  induction m as [|[k x] m IH]; simpl; intros Hn; [reflexivity|]. destruct (nameSort k n) eqn:E1; [|destruct (nameSort n k) eqn:E2; [reflexivity|]].
  - rewrite IH by tauto. apply perm_swap.
  - exfalso. destruct (@nameSort_total k n) as [X|X]; [intros ->; apply Hn; auto|congruence|congruence].
Qed.
Lemma nodup_perm {A B} (f : A -> B) l m : Permutation l m -> NoDup (map f l) -> NoDup (map f m).
Proof. intros P. apply Permutation_NoDup, Permutation_map. assumption. Qed.
Lemma all_types_perm g : NoDup (map fst g) -> Permutation (all_types g) g.
Proof.
  unfold all_types. intros Hn. assert (A : forall l m, NoDup (map fst (m ++ l)) -> Permutation (fold_left (fun m p => ginsert (fst p) (snd p) m) l m) (m ++ l)).
  { induction l as [|[k e] l IH]; intros m Hm; simpl; [rewrite app_nil_r; reflexivity|].
    assert (Pm : Permutation (ginsert k e m) ((k, e) :: m)).
    { apply ginsert_perm. rewrite map_app in Hm. simpl in Hm. apply NoDup_remove_2 in Hm. intros X. apply Hm, in_or_app. auto. }
    assert (Pl : Permutation (m ++ (k, e) :: l) (ginsert k e m ++ l)) by (rewrite Pm; simpl; symmetry; apply Permutation_middle).
    rewrite IH; [symmetry; assumption|]. eapply nodup_perm; eassumption. }
  apply (A g []). assumption.
Qed.
Lemma sweep_spec H saved : forall it free types' free', NoDup (map fst (it ++ free)) -> sweep H saved it free = (types', free') ->
  Permutation (it ++ free) (types' ++ free') /\ (forall p, In p types' -> ready H saved p = false) /\
  (forall p, In p free' -> In p free \/ ready H saved p = true).
Proof.
  induction it as [|p it IH]; intros free types' free' Hn E; cbn [sweep] in E.
  - inversion E; subst. split; [reflexivity|]. split; [intros p []|auto].
  - simpl in Hn. assert (Hn' := Hn). inversion Hn as [|? ? Hx Hn2]; subst. destruct (ready H saved p) eqn:Er.
    + assert (Pf : Permutation (ginsert (fst p) (snd p) free) (p :: free)).
      { replace (p :: free) with ((fst p, snd p) :: free) by (destruct p; reflexivity). apply ginsert_perm. intros X. apply Hx. rewrite map_app. apply in_or_app. auto. }
      assert (Pl : Permutation (it ++ ginsert (fst p) (snd p) free) ((p :: it) ++ free)) by (rewrite Pf; symmetry; apply Permutation_middle).
      destruct (IH _ _ _ ltac:(eapply nodup_perm; [symmetry; exact Pl|exact Hn']) E) as (A & B & C). split; [rewrite <- A; symmetry; assumption|]. split; [assumption|].
      intros q Hq. destruct (C q Hq) as [D|D]; [|auto]. apply (Permutation_in _ Pf) in D. destruct D as [<-|D]; auto.
    + destruct (sweep H saved it free) as [t1 f1] eqn:E1. inversion E; subst. destruct (IH _ _ _ Hn2 E1) as (A & B & C). split; [simpl; rewrite A; reflexivity|]. split; [|assumption].
      intros q [<-|Hq]; auto.
Qed.
Lemma purge_spec ns : forall it saved g s free saved' g' s', purge ns it saved g s = (free, saved', g', s') ->
  free = filter epers it /\ saved' = rev (map ety (filter (fun p => negb (epers p)) it)) ++ saved /\
  (g' = false -> filter (fun p => negb (epers p)) it = []) /\ (g' = true -> g = true \/ filter (fun p => negb (epers p)) it <> []) /\ (forall k, s' = Some k -> s = Some k \/ In k (map fst free)) /\ (g = true -> g' = true).
Proof.
  induction it as [|p it IH]; intros saved g s free saved' g' s' E; cbn [purge] in E.
  - inversion E; subst. simpl. repeat split; auto.
  - cbn [filter]. change (e_pers (snd p)) with (epers p) in E. destruct (epers p) eqn:Ep; cbn [negb] in E |- *.
    + destruct (purge ns it saved g _) as [[[f1 s1] g1] k1] eqn:E1. inversion E; subst. destruct (IH _ _ _ _ _ _ _ E1) as (A & B & C & C' & D & F). subst.
      split; [reflexivity|]. split; [reflexivity|]. split; [assumption|]. split; [assumption|]. split; [|assumption]. intros k Hk. destruct (D k Hk) as [X|X]; [|right; right; assumption]. destruct s; [auto|]. destruct (seqb (getNamespace (fst p)) ns); [|discriminate]. inversion X; subst. right. left. reflexivity.
    + destruct (IH _ _ _ _ _ _ _ E) as (A & B & C & C' & D & F). subst. assert (G : g' = true) by (apply F; reflexivity). subst g'. split; [reflexivity|]. split.
      { simpl. rewrite <- app_assoc. reflexivity. }
      split; [discriminate|]. split; [right; discriminate|]. split; [assumption|auto].
Qed.
Lemma split_at_spec k m a b : split_at k m = (a, b) -> m = a ++ b /\ (In k (map fst m) -> b <> []).
Proof.
  revert a b. induction m as [|p m IH]; simpl; intros a b E; [inversion E; subst; split; [reflexivity|tauto]|].
  destruct (seqb (fst p) k) eqn:Es; [inversion E; subst; split; [reflexivity|discriminate]|]. destruct (split_at k m) as [a1 b1] eqn:E1. inversion E; subst.
  destruct (IH _ _ eq_refl) as [-> B]. split; [reflexivity|]. apply seqb_neq in Es. intros [X|X]; [contradiction|auto].
Qed.
Lemma save_run_spec ret ns : forall it saved last out rest saved' last' out', save_run ret ns it saved last out = (rest, saved', last', out') ->
  exists run, it = run ++ rest /\ saved' = rev (map ety run) ++ saved /\ out' = out ++ run /\
    (forall p r, it = p :: r -> getNamespace (fst p) = ns -> run <> []).
Proof.
  induction it as [|p it IH]; intros saved last out rest saved' last' out' E; cbn [save_run] in E.
  - inversion E; subst. exists []. split; [reflexivity|split; [reflexivity|split; [symmetry; apply app_nil_r|]]]. intros p r X; discriminate X.
  - destruct (seqb (getNamespace (fst p)) ns) eqn:Es.
    + destruct (IH _ _ _ _ _ _ _ E) as (run & -> & -> & -> & _). exists (p :: run). simpl. rewrite <- !app_assoc. simpl. split; [reflexivity|split; [reflexivity|split; [reflexivity|]]]. intros; discriminate.
    + inversion E; subst. exists []. split; [reflexivity|split; [reflexivity|split; [symmetry; apply app_nil_r|]]]. intros p' r' X Y. inversion X; subst. rewrite seqb_refl in Es. discriminate.
Qed.

(** ** The main loop *)
Definition state_ok (H : heap) (G types free : nmap) (saved : list tid) (out done : list ent) : Prop :=
  Permutation G (types ++ free ++ done) /\ topo H done /\ (forall t, In t saved <-> In t (map ety done)) /\
  (forall p, In p free -> ready H saved p = true) /\ out = filter epers done.
Definition final (H : heap) (G : nmap) (out : list ent) (r : res unit) : Prop :=
  exists types done, Permutation G (types ++ done) /\ topo H done /\ out = filter epers done /\
    ((r = Ok tt /\ types = []) \/ (r = Throw EExport /\ types <> [] /\ forall p, In p types -> ready H (map ety done) p = false)).
Lemma filter_partition {A} (f : A -> bool) l : Permutation l (filter f l ++ filter (fun x => negb (f x)) l).
Proof. induction l as [|x l IH]; simpl; [reflexivity|]. destruct (f x); simpl; [constructor; assumption|]. rewrite IH at 1. apply Permutation_middle. Qed.
Lemma filter_all {A} (f : A -> bool) l : (forall x, In x l -> f x = true) -> filter f l = l.
Proof. induction l as [|x l IH]; simpl; intros Hf; [reflexivity|]. rewrite Hf by auto. f_equal. auto. Qed.
Lemma filter_none {A} (f : A -> bool) l : (forall x, In x l -> f x = false) -> filter f l = [].
Proof. induction l as [|x l IH]; simpl; intros Hf; [reflexivity|]. rewrite Hf by auto. auto. Qed.
Lemma filter_nil_all {A} (f : A -> bool) l : filter f l = [] -> forall x, In x l -> f x = false.
Proof. intros E x Hx. destruct (f x) eqn:Ef; [|reflexivity]. assert (X : In x (filter f l)) by (apply filter_In; auto). rewrite E in X. destruct X. Qed.

Lemma done_more H G types types' free free1 saved out done now : forall rest,
  NoDup (map fst G) -> state_ok H G types free saved out done ->
  Permutation (types ++ free) (types' ++ free1) -> (forall p, In p free1 -> ready H saved p = true) -> Permutation free1 (now ++ rest) ->
  state_ok H G types' rest (rev (map ety now) ++ saved) (out ++ filter epers now) (done ++ now).
Proof.
  intros rest Hn (P & T & S & R & O) P1 R1 P2. split; [|split; [|split; [|split]]].
  - rewrite P, app_assoc, P1, P2. rewrite <- !app_assoc. apply Permutation_app_head. rewrite Permutation_app_comm, <- app_assoc. reflexivity.
  - apply topo_app; [assumption|]. intros p Hp. apply (@ready_mono H saved); [intros t; apply S|]. apply R1. apply (Permutation_in _ (Permutation_sym P2)). apply in_or_app. auto.
  - intros t. rewrite map_app, !in_app_iff, <- in_rev, S. tauto.
  - intros p Hp. apply (@ready_mono H saved); [intros t Ht; apply in_or_app; auto|]. apply R1. apply (Permutation_in _ (Permutation_sym P2)). apply in_or_app. auto.
  - rewrite filter_app, O. reflexivity.
Qed.

Lemma save_loop_final H ret G : NoDup (map fst G) -> forall f types free saved ns out done,
  state_ok H G types free saved out done -> length types + length free < f ->
  exists out' r, save_loop f H ret types free saved ns out = (out', r) /\ final H G out' r.
Proof.
  intros Hn. induction f as [|f IH]; intros types free saved ns out done St Hf; [lia|]. cbn [save_loop].
  destruct types as [|p0 types0].
  - eexists _, _. split; [reflexivity|]. destruct St as (P & T & S & R & O). exists [], (done ++ free). split; [|split; [|split]].
    + rewrite P. simpl. apply Permutation_app_comm.
    + apply topo_app; [assumption|]. intros p Hp. apply (@ready_mono H saved); [intros t; apply S|]. auto.
    + rewrite filter_app, O. reflexivity.
    + left. auto.
  - set (types := p0 :: types0) in *. destruct (sweep H saved types free) as [types' free1] eqn:Es.
    assert (Hk : NoDup (map fst (types ++ free))).
    { destruct St as (P & _). rewrite app_assoc in P. apply (nodup_perm P) in Hn. rewrite map_app in Hn. revert Hn. generalize (map fst (types ++ free)). induction l as [|x l IHl]; simpl; intros Hn; [constructor|].
      inversion Hn as [|? ? Hx Hn']; subst. constructor; [intros X; apply Hx, in_or_app; auto|auto]. }
    destruct (sweep_spec Hk Es) as (P1 & F1 & R1).
    assert (R1' : forall p, In p free1 -> ready H saved p = true).
    { intros p Hp. destruct (R1 p Hp) as [X|X]; [|assumption]. destruct St as (_ & _ & _ & R & _). auto. }
    assert (L1 : length types + length free = length types' + length free1) by (rewrite <- !app_length; apply Permutation_length; assumption).
    destruct free1 as [|q0 free0] eqn:Ef.
    + eexists _, _. split; [reflexivity|]. destruct St as (P & T & S & R & O). exists types', done. split; [|split; [assumption|split; [assumption|]]].
      * rewrite P, app_assoc, P1, app_nil_r. reflexivity.
      * right. split; [reflexivity|]. split.
        { intros ->. simpl in L1. unfold types in L1. simpl in L1. lia. }
        { intros p Hp. destruct (ready H (map ety done) p) eqn:Er; [|reflexivity]. rewrite <- (F1 p Hp). symmetry. apply (@ready_mono H (map ety done)); [intros t; apply S|assumption]. }
    + rewrite <- Ef in *. destruct (purge ns free1 saved false None) as [[[free2 saved2] g] s] eqn:Ep.
      destruct (purge_spec Ep) as (E2 & Sv & Ng & Yg & Sk & _). set (gone := filter (fun p => negb (epers p)) free1) in *.
      assert (P2 : Permutation free1 (gone ++ free2)) by (rewrite E2; unfold gone; rewrite Permutation_app_comm; apply filter_partition).
      assert (L2 : length free1 = length gone + length free2) by (rewrite <- app_length; apply Permutation_length; assumption).
      assert (St2 := done_more Hn St P1 R1' P2). rewrite <- Sv in St2.
      assert (Eg : filter epers gone = []).
      { apply filter_none. intros x Hx. apply filter_In in Hx. destruct Hx as [_ X]. apply negb_true_iff in X. assumption. }
      rewrite Eg, app_nil_r in St2. destruct g.
      * apply (IH _ _ _ _ _ _ St2). destruct (Yg eq_refl) as [X|X]; [discriminate|]. destruct gone; [contradiction|]. cbn [length] in L2. lia.
      * assert (Ng' := Ng eq_refl). rewrite Ng' in *. cbn [length app] in L2, P2.
        assert (exists before from, match s with Some k => split_at k free2 | None => ([], free2) end = (before, from) /\ free2 = before ++ from /\ from <> []) as (bef & from & -> & Eb & Hne).
        { destruct s as [k|].
          - destruct (split_at k free2) as [a b] eqn:Ek. exists a, b. destruct (split_at_spec Ek) as [A B]. split; [reflexivity|]. split; [assumption|]. apply B. destruct (Sk k eq_refl) as [X|X]; [discriminate|assumption].
          - exists [], free2. split; [reflexivity|]. split; [reflexivity|]. intros ->. rewrite Ef in L2. simpl in L2. lia. }
        destruct from as [|p1 from]; [contradiction|]. destruct (save_run ret _ (p1 :: from) saved2 ns out) as [[[rest saved3] ns3] out3] eqn:Er.
        destruct (save_run_spec Er) as (run & E3 & Sv3 & Eo & Hr). specialize (Hr _ _ eq_refl eq_refl).
        assert (Hper : filter epers run = run).
        { apply filter_all. intros x Hx. assert (In x free2) as X by (rewrite Eb, E3; apply in_or_app; right; apply in_or_app; left; assumption). rewrite E2 in X. apply filter_In in X. tauto. }
        assert (P3 : Permutation free2 (run ++ (bef ++ rest))).
        { rewrite Eb, E3, !app_assoc. apply Permutation_app_tail. apply Permutation_app_comm. }
        assert (St3 := done_more Hn St2 (Permutation_refl _) (proj1 (proj2 (proj2 (proj2 St2)))) P3). rewrite Hper, <- Sv3, <- Eo in St3.
        apply (IH _ _ _ _ _ _ St3). assert (L3 : length free2 = length run + length (bef ++ rest)) by (rewrite <- app_length; apply Permutation_length; assumption).
        destruct run; [contradiction|]. cbn [length] in L3. lia.
Qed.
Lemma export_final H ret r f : gsorted (r_global r) -> S (length (r_global r)) <= f ->
  exists out res, export f H ret r = (out, res) /\ final H (r_global r) out res.
Proof.
  intros Hs Hf. assert (Hn := gsorted_NoDup Hs). assert (P := all_types_perm Hn). apply (@save_loop_final H ret _ Hn f _ _ _ _ _ []).
  - split; [rewrite P, app_nil_r; reflexivity|]. split; [constructor|]. simpl. repeat split; try tauto. 
  - rewrite (Permutation_length P). simpl. lia.
Qed.

(** ** When the export fails *)
Lemma needs_trans_step H t d x : needs H x t -> In d (dependsOn H t) -> needs H x d.
Proof. intros Hn Hd. induction Hn as [x t Hi|x y t Hi Hn IH]; [eapply needs_more; [exact Hi|constructor; assumption]|eapply needs_more; [exact Hi|auto]]. Qed.
Fixpoint chain (H : heap) (c : list tid) : Prop :=
  match c with [] => True | d :: c' => Forall (fun x => needs H x d) c' /\ chain H c' end.
Lemma chain_long H (U : list tid) (bad : Prop) : (forall t, In t U -> bad \/ exists d, In d U /\ In d (dependsOn H t)) ->
  U <> [] -> forall n, bad \/ exists c, length c = S n /\ chain H c /\ incl c U.
Proof.
  intros Hs Hu. induction n as [|n IH].
  - right. destruct U as [|t U]; [contradiction|]. exists [t]. simpl. repeat split; auto. intros x [<-|[]]. left. reflexivity.
  - destruct IH as [B|(c & L & C & I)]; [auto|]. destruct c as [|t c]; [discriminate|]. destruct (Hs t (I t (or_introl eq_refl))) as [B|(d & Hd & Ht)]; [auto|].
    right. exists (d :: t :: c). split; [simpl in *; lia|]. split; [|intros x [<-|Hx]; auto]. cbn [chain]. split; [|assumption]. destruct C as [C _]. constructor; [constructor; assumption|].
    rewrite Forall_forall in *. intros x Hx. eapply needs_trans_step; [apply C; assumption|assumption].
Qed.
Lemma chain_dup H c : chain H c -> NoDup c \/ exists t, In t c /\ needs H t t.
Proof.
  induction c as [|d c IH]; intros C; [left; constructor|]. destruct C as [F C]. destruct (IH C) as [Hn|(t & Ht & X)]; [|right; exists t; split; [right; assumption|assumption]].
  destruct (in_dec Nat.eq_dec d c) as [Hi|Hi]; [|left; constructor; assumption]. right. exists d. split; [left; reflexivity|]. rewrite Forall_forall in F. auto.
Qed.
Lemma endless H (U : list tid) (bad : Prop) : (forall t, In t U -> bad \/ exists d, In d U /\ In d (dependsOn H t)) ->
  U <> [] -> bad \/ exists t, In t U /\ needs H t t.
Proof.
  intros Hs Hu. destruct (chain_long Hs Hu (length U)) as [B|(c & L & C & I)]; [auto|]. right. destruct (chain_dup C) as [Hn|(t & Ht & X)]; [|eauto].
  exfalso. assert (Y := NoDup_incl_length Hn I). lia.
Qed.
Lemma defined_dec H G t : NoDup (map fst G) -> {defined H G t} + {~ defined H G t}.
Proof.
  intros Hn. destruct (find_ (o_name (H t)) G) as [e|] eqn:Ef.
  - destruct (Nat.eq_dec (e_type e) t) as [E|E]; [left; exists e; split; [apply find_In; assumption|assumption]|]. right. intros (e' & Hi & Et).
    assert (X : (o_name (H t), e') = (o_name (H t), e)) by (apply (key_unique Hn); [assumption|apply find_In; assumption|reflexivity]). inversion X. congruence.
  - right. intros (e & Hi & _). assert (A : forall m, In (o_name (H t), e) m -> find_ (o_name (H t)) m <> None).
    { induction m as [|[k x] m IH]; simpl; [tauto|]. intros [X|X]; [inversion X; rewrite seqb_refl; discriminate|]. destruct (seqb k (o_name (H t))); [discriminate|auto]. }
    apply (A _ Hi Ef).
Qed.
Lemma final_fails H G out r : NoDup (map fst G) -> (forall n e, In (n, e) G -> defined H G (e_type e)) -> final H G out r ->
  (r = Ok tt /\ ~ missing_dependency H G /\ ~ recursive_type H G) \/ (r = Throw EExport /\ (missing_dependency H G \/ recursive_type H G)).
Proof.
  intros Hn Hp (types & done & P & T & O & [[-> ->]|(-> & Hne & Nr)]).
  - left. split; [reflexivity|]. simpl in P. assert (Hd : NoDup (map fst done)) by (eapply nodup_perm; eassumption).
    assert (In1 : forall t, defined H G t -> exists a p b, done = a ++ p :: b /\ own H t p).
    { intros t (e & Hi & Et). apply (Permutation_in _ P) in Hi. apply in_split in Hi. destruct Hi as (a & b & E). exists a, (o_name (H t), e), b. split; [assumption|]. split; [assumption|reflexivity]. }
    split.
    + intros (t & d & Ht & Hi & Hm). apply Hm. destruct (In1 t Ht) as (a & p & b & E & Ho). destruct (topo_needs T E) as [_ B].
      assert (Hd' : In d (map ety a)) by (apply B; constructor; unfold ety; rewrite (proj1 Ho); assumption). rewrite E in T. destruct (topo_own (topo_prefix T) Hd') as (q & Hq & [Q1 Q2]).
      exists (snd q). split; [|assumption]. apply (Permutation_in _ (Permutation_sym P)). rewrite E. apply in_or_app. left. rewrite <- Q2. destruct q. assumption.
    + intros (t & Ht & Hs). destruct (In1 t Ht) as (a & p & b & E & Ho). destruct (topo_needs T E) as [_ B].
      assert (Hd' : In t (map ety a)) by (apply B; unfold ety; rewrite (proj1 Ho); assumption). rewrite E in T. destruct (topo_own (topo_prefix T) Hd') as (q & Hq & Ho').
      assert (Ek := own_key Ho Ho'). rewrite E, map_app in Hd. simpl in Hd. apply NoDup_remove_2 in Hd. apply Hd. apply in_or_app. left. rewrite Ek. apply in_map. assumption.
  - right. split; [reflexivity|]. assert (Hd : NoDup (map fst (types ++ done))) by (eapply nodup_perm; eassumption).
    assert (Saved : forall t, defined H G t -> In t (map ety done) \/ exists p, In p types /\ own H t p).
    { intros t (e & Hi & Et). apply (Permutation_in _ P) in Hi. apply in_app_or in Hi. destruct Hi as [Hi|Hi]; [right; eexists; split; [exact Hi|split; [assumption|reflexivity]]|].
      left. apply in_map_iff. exists (o_name (H t), e). split; assumption. }
    set (U := map ety (filter (fun p => negb (isAlias H p)) types)).
    assert (InU : forall t, In t U <-> exists p, In p types /\ own H t p).
    { intros t. unfold U. rewrite in_map_iff. split.
      - intros (p & Ep & Hi). apply filter_In in Hi. destruct Hi as [Hi Ha]. apply negb_true_iff in Ha. exists p. split; [assumption|]. rewrite <- Ep. apply alias_own. assumption.
      - intros (p & Hi & Ho). exists p. split; [apply Ho|]. apply filter_In. split; [assumption|]. rewrite (own_alias Ho). reflexivity. }
    assert (DefU : forall t, In t U -> defined H G t).
    { intros t Ht. apply InU in Ht. destruct Ht as (p & Hi & [E1 E2]). exists (snd p). split; [|assumption]. rewrite <- E2. apply (Permutation_in _ (Permutation_sym P)). apply in_or_app. left. destruct p. assumption. }
    destruct (@endless H U (missing_dependency H G)) as [B|(t & Ht & X)].
    + intros t Ht. assert (Dt := DefU _ Ht). apply InU in Ht. destruct Ht as (p & Hi & Ho). assert (Er := Nr p Hi). unfold ready in Er. rewrite (own_alias Ho), (proj1 Ho) in Er.
      assert (exists d, In d (dependsOn H t) /\ ~ In d (map ety done)) as (d & Hd1 & Hd2).
      { revert Er. generalize (dependsOn H t). induction l as [|x l IHl]; simpl; [discriminate|]. intros Er. apply andb_false_iff in Er. destruct Er as [Er|Er].
        - exists x. split; [auto|]. intros X. apply mem_In in X. congruence.
        - destruct (IHl Er) as (d & A & B). exists d. auto. }
      destruct (@defined_dec H G d Hn) as [Dd|Dd]; [|left; exists t, d; auto]. right. exists d. split; [|assumption]. apply InU. destruct (Saved d Dd) as [Z|Z]; [contradiction|assumption].
    + assert (exists p, In p types) as (p & Hi) by (destruct types as [|p ?]; [contradiction|exists p; left; reflexivity]). assert (exists t, In t U) as (t & Ht).
      { destruct (isAlias H p) eqn:Ea; [|exists (ety p); apply InU; exists p; split; [assumption|apply alias_own; assumption]].
        exists (ety p). apply InU. assert (D : defined H G (ety p)).
        { apply (Hp (fst p) (snd p)). apply (Permutation_in _ (Permutation_sym P)). apply in_or_app. left. destruct p. assumption. }
        destruct (Saved _ D) as [X|X]; [|assumption]. exfalso. assert (Er := Nr p Hi). unfold ready in Er. rewrite Ea in Er. apply mem_In in X. unfold ety in X at 1. congruence. }
      intros E. rewrite E in Ht. destruct Ht.
    + left. assumption.
    + right. exists t. split; [apply DefU; assumption|assumption].
Qed.

Lemma save_loop_more H ret : forall f types free saved ns out o r, save_loop f H ret types free saved ns out = (o, r) -> r <> Fuel ->
  forall k, save_loop (f + k) H ret types free saved ns out = (o, r).
Proof.
  induction f as [|f IH]; intros types free saved ns out o r E Hr k; cbn [save_loop plus] in E |- *; [inversion E; subst; contradiction|].
  destruct types as [|p types]; [assumption|]. destruct (sweep H saved (p :: types) free) as [t1 f1]. destruct f1 as [|q f1]; [assumption|].
  destruct (purge ns (q :: f1) saved false None) as [[[f2 s2] g] s]. destruct g; [apply IH; assumption|].
  destruct (match s with Some k => split_at k f2 | None => ([], f2) end) as [b fr]. destruct fr as [|p1 fr]; [assumption|].
  destruct (save_run ret (getNamespace (fst p1)) (p1 :: fr) s2 ns out) as [[[rest s3] n3] o3]. apply IH; assumption.
Qed.
Lemma nodup_filter {A} (f : A -> bool) l : NoDup l -> NoDup (filter f l).
Proof. apply NoDup_filter. Qed.
Lemma nodup_of_keys {A B} (f : A -> B) l : NoDup (map f l) -> NoDup l.
Proof. apply NoDup_map_inv. Qed.
