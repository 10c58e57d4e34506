(** * Properties_Plugins: where plugins are searched (C39), and which plugin a name gives (C47). *)
From Verif Require Import Base Names Graph Registry Smap SmapProofs Plugins PluginsSpec PluginsProofs.
From Coq Require Import Permutation.
Local Open Scope nat_scope.

(** Every path has exactly one list of components. *)
Theorem C39_components s : exists l, components s l /\ forall l', components s l' -> l' = l.
Proof. destruct (components_exist s) as (l & H). exists l. split; [assumption|]. intros l' H'. eapply components_unique; eassumption. Qed.
(** When TYPELIB_PLUGIN_PATH is set, the directories searched are exactly its components, in order (all of them, the empty
    ones included). The constructor succeeds when they can all be listed; otherwise it stops at the first that cannot, and
    throws. The default directory plays no role. *)
Theorem C39_path M s l h : components s l ->
  (Forall (fun d => dir M d <> None) l -> exists g, construct M (Some s) h = (g, Ok tt) /\ m_searched g = l) /\
  (forall u d v, l = u ++ d :: v -> Forall (fun d => dir M d <> None) u -> dir M d = None ->
     exists g, construct M (Some s) h = (g, Throw ERuntime) /\ m_searched g = u ++ [d]).
Proof.
  intros H. destruct (construct_env M h H) as (g & out & k & E & [Hs _ _] & Ho). rewrite E. split.
  - intros F. exists g. destruct Ho as [(-> & -> & _)|(-> & d & u & v & -> & _ & N & _)]; [auto|]. apply Forall_app in F. destruct F as [_ F]. inversion F. contradiction.
  - intros u d v -> Fu N. exists g. destruct Ho as [(_ & _ & F)|(-> & d' & u' & v' & E' & -> & N' & Fu')]; [apply Forall_app in F; destruct F as [_ F]; inversion F; contradiction|].
    split; [reflexivity|]. rewrite Hs. clear - N N' Fu Fu' E'. revert u' Fu' E'. induction u as [|a u IH]; intros [|a' u'] Fu' E'; simpl in *; inversion E'; subst; try reflexivity.
    + inversion Fu'. contradiction.
    + inversion Fu. contradiction.
    + inversion Fu; inversion Fu'; subst. f_equal. apply IH; assumption.
Qed.
(** When it is not set, the only directory searched is the default one, if it exists. *)
Theorem C39_default M h : exists g out, construct M None h = (g, out) /\ m_searched g = (if has_path M h then [h] else []) /\
  (out = Throw ERuntime <-> has_path M h = true /\ dir M h = None) /\ (out = Throw ERuntime \/ out = Ok tt).
Proof.
  destruct (construct_default M h) as (g & out & k & E & [Hs _ _] & Ho). exists g, out. split; [assumption|]. rewrite Hs.
  destruct Ho as [(-> & -> & ->)|(-> & -> & [(A & ->)|(A & ->)])]; (split; [reflexivity|]); (split; [|auto]); split; intros; try discriminate; try tauto; destruct H; congruence || contradiction.
Qed.
(** In each directory, the libraries loaded are the files named *.so or *.dylib that load, in the order of the listing. *)
Theorem C39_libraries M env h : exists g out, construct M env h = (g, out) /\
  restricted (fun p => named_library p /\ lib M p <> None) (concat (map (listing M) (m_searched g))) (m_handles g).
Proof.
  assert (Q : exists g out ds, construct M env h = (g, out) /\ accounts M g ds).
  { destruct env as [s|]; [destruct (components_exist s) as (l & H); destruct (construct_env M h H) as (g & out & k & E & A & _)|destruct (construct_default M h) as (g & out & k & E & A & _)]; eauto. }
  destruct Q as (g & out & ds & E & [A B _]). exists g, out. split; [assumption|]. rewrite A. eapply restricted_iff; [|exact B]. intros p. unfold loadable. rewrite is_library_iff. tauto.
Qed.
(** Empty components are searched as such: a trailing colon adds one, and the empty path is one. *)
Theorem C39_empty_component : components (s_ "/a:") [s_ "/a"; []] /\ components [] [[]] /\
  exists M, construct M (Some (s_ "/a:")) (s_ "/d") = (Manager [] [] [] [] [s_ "/a"; []], Throw ERuntime) /\ dir M (s_ "/a") = Some [].
Proof.
  split; [split; [discriminate|split; [reflexivity|repeat constructor; cbn; intuition discriminate]]|]. split; [split; [discriminate|split; [reflexivity|repeat constructor; cbn; intuition discriminate]]|].
  exists (Machine (fun d => match d with [] => None | _ => Some [] end) (fun _ => None) (fun _ => true)). split; reflexivity.
Qed.

(** The registrations a manager has seen: those of the entry points of its libraries, then those made by add. *)
Definition history M (g : manager) (xs : list registration) := concat (map (entry_point M) (m_handles g)) ++ xs.
(** importer and exporter give the plugin registered first under the name, of the right kind; they throw PluginNotFound
    exactly when there is none. The type definition plugins are called in the order of their registration. *)
Theorem C47_lookup M env h g out xs : construct M env h = (g, out) ->
  let g' := fold_left register xs g in let H := history M g xs in
  (forall n o, importer g' n = Ok o <-> first_under RegImporter H n o) /\
  (forall n, importer g' n = Throw ENotFound <-> none_under RegImporter H n) /\
  (forall n o, exporter g' n = Ok o <-> first_under RegExporter H n o) /\
  (forall n, exporter g' n = Throw ENotFound <-> none_under RegExporter H n) /\
  registerPluginTypes g' = map object (filter (fun x => match x with RegDefinition _ => true | _ => false end) H).
Proof.
  intros E. cbn zeta. assert (Q : exists ds, accounts M g ds).
  { destruct env as [s|]; [destruct (components_exist s) as (l & Hc); destruct (construct_env M h Hc) as (g1 & out1 & k & E1 & A & _)|destruct (construct_default M h) as (g1 & out1 & k & E1 & A & _)]; rewrite E in E1; inversion E1; subst; eauto. }
  destruct Q as (ds & A). destruct (tables_fold xs (accounts_tables A)) as [_ _ He Hi Hen Hin (ys & _ & _ & Hd)]. fold (history M g xs) in *.
  unfold importer, exporter, get_plugin. split; [intros n o; rewrite <- Hi|split; [intros n; rewrite <- Hin|split; [intros n o; rewrite <- He|split; [intros n; rewrite <- Hen|exact Hd]]]].
  - destruct (m_find n _); split; intros X; inversion X; reflexivity.
  - destruct (m_find n _); split; intros X; inversion X; reflexivity.
  - destruct (m_find n _); split; intros X; inversion X; reflexivity.
  - destruct (m_find n _); split; intros X; inversion X; reflexivity.
Qed.
(** add tells whether the plugin was taken: exactly when no plugin of this kind has the name. *)
Theorem C47_add g n o :
  (snd (add_exporter g n o) = true <-> exporter g n = Throw ENotFound) /\ (snd (add_importer g n o) = true <-> importer g n = Throw ENotFound) /\
  (snd (add_exporter g n o) = false -> fst (add_exporter g n o) = g) /\ (snd (add_importer g n o) = false -> fst (add_importer g n o) = g).
Proof.
  unfold add_exporter, add_importer, exporter, importer, get_plugin, add_plugin.
  destruct (m_find n (m_exporters g)), (m_find n (m_importers g)); cbn; repeat split; intros; try discriminate; try reflexivity; destruct g; reflexivity.
Qed.
(** The destructor deletes each plugin that was taken exactly once, and none of the others. *)
Theorem C47_destroy M env h g out xs : construct M env h = (g, out) ->
  let g' := fold_left register xs g in exists ys, accepted (history M g xs) ys /\ Permutation (destroy g') (map object ys).
Proof.
  intros E. cbn zeta. assert (Q : exists ds, accounts M g ds).
  { destruct env as [s|]; [destruct (components_exist s) as (l & Hc); destruct (construct_env M h Hc) as (g1 & out1 & k & E1 & A & _)|destruct (construct_default M h) as (g1 & out1 & k & E1 & A & _)]; rewrite E in E1; inversion E1; subst; eauto. }
  destruct Q as (ds & A). destruct (tables_fold xs (accounts_tables A)) as [_ _ _ _ _ _ (ys & Ha & Hp & _)]. exists ys. split; assumption.
Qed.
(** A case: two directories, three libraries (one that does not load), a clash of names. *)
Definition M1 : machine := Machine
  (fun d => if seqb d (s_ "/a") then Some [s_ "/a/x.so"; s_ "/a/readme"] else if seqb d (s_ "/b") then Some [s_ "/b/y.dylib"; s_ "/b/bad.so"] else None)
  (fun p => if seqb p (s_ "/a/x.so") then Some [RegImporter (s_ "tlb") 1; RegExporter (s_ "tlb") 2; RegDefinition 3]
            else if seqb p (s_ "/b/y.dylib") then Some [RegImporter (s_ "tlb") 4; RegImporter (s_ "c") 5] else None)
  (fun _ => true).
Example C39_case : components (s_ "/a:/b") [s_ "/a"; s_ "/b"] /\ Forall (fun d => dir M1 d <> None) [s_ "/a"; s_ "/b"] /\
  exists g, construct M1 (Some (s_ "/a:/b")) (s_ "/d") = (g, Ok tt) /\ m_handles g = [s_ "/a/x.so"; s_ "/b/y.dylib"] /\
  importer g (s_ "tlb") = Ok 1 /\ importer g (s_ "c") = Ok 5 /\ exporter g (s_ "c") = Throw ENotFound /\ destroy g = [5; 1; 2; 3].
Proof.
  split; [split; [discriminate|split; [reflexivity|repeat constructor; cbn; intuition discriminate]]|]. split; [repeat constructor; discriminate|].
  eexists. split; [vm_compute; reflexivity|]. repeat split; vm_compute; reflexivity.
Qed.
Print Assumptions C39_components. Print Assumptions C39_path. Print Assumptions C39_default. Print Assumptions C39_libraries.
Print Assumptions C47_lookup. Print Assumptions C47_add. Print Assumptions C47_destroy.
