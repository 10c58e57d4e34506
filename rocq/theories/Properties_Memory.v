(** * Properties_Memory: the memory table of the Ruby bindings (C42). *)
From Verif Require Import Base Memory MemorySpec MemoryProofs.
From Verif Require Import Graph.
Local Open Scope nat_scope.

Lemma mInv0 : mInv mem0 refs0.
Proof.
  assert (T : tyInv [] []) by (split; [constructor|constructor|reflexivity]).
  constructor; try exact T; try reflexivity; try exact (NoDup_nil _); try (intros; contradiction); try (intros ? ? []; fail); try (intros ? []; fail). intros p. reflexivity.
Qed.
Lemma calls_run l s : calls l s -> forall f, (Z.of_nat (length l) <= 1000000000)%Z -> length l < f ->
  exists m, runs_to f l m /\ mInv m s /\ sized m s (length l).
Proof.
  induction 1 as [|l s o s' H IH C]; intros f Hb Hf; [exists mem0; split; [constructor|split; [exact mInv0|split; cbn; lia]]|]. rewrite app_length in *. cbn [length] in *.
  destruct (IH f) as (m & R & I & Z); try lia. destruct (@step_ok m s o s' (length l) f I C Z) as (m' & ev & E & I' & Z' & _ & _); try lia.
  exists m'. split; [exact (runs_snoc R E)|]. split; [exact I'|]. rewrite Nat.add_comm. exact Z'.
Qed.
Lemma snoc_inj {A} (l l' : list A) x y : l ++ [x] = l' ++ [y] -> l = l' /\ x = y.
Proof. intros E. apply app_inj_tail in E. exact E. Qed.
Lemma runs_det f l m m' : runs_to f l m -> runs_to f l m' -> m' = m.
Proof.
  intros H. revert m'. induction H as [|l m o m1 H IH E]; intros m' H'.
  - inversion H' as [|l0 m0 o0 m1 H0 E0 X Y]; [reflexivity|]. destruct l0; discriminate.
  - inversion H' as [X Y|l0 m0 o0 m2 H0 E0 X Y]; subst; [destruct l; discriminate|]. apply snoc_inj in X. destruct X as [-> ->]. rewrite (IH _ H0) in E0. congruence.
Qed.

(** Any program that uses the bindings as [call] says: no call fails. Afterwards the table contains the referenced blocks
    and no other; every block that ruby_xmalloc returned was freed as often as it was allocated, except that the blocks
    which are owned and still referenced were freed once less; and wrapping the address of a live zone gives this zone. *)
Theorem C42_table l s f : calls l s -> (Z.of_nat (length l) <= 1000000000)%Z -> length l < f ->
  exists m, runs_to f l m /\
    (forall p, In p (map fst (mm_table m)) <-> referenced s p) /\
    (exists ps, NoDup ps /\ (forall p, In p ps <-> referenced s p) /\ table_size m = length ps) /\
    (forall p, rf_owned s p = true -> referenced s p -> times (EvAlloc p) (mm_log m) = S (times (EvFree p) (mm_log m))) /\
    (forall p, ~ (rf_owned s p = true /\ referenced s p) -> times (EvAlloc p) (mm_log m) = times (EvFree p) (mm_log m)) /\
    (forall z p root, In (z, Some p) (rf_zones s) -> memory_wrap m p false root = (m, Ok z)).
Proof.
  intros H Hb Hf. destruct (calls_run H Hb Hf) as (m & R & I & _). exists m. split; [exact R|].
  assert (Rf : forall p, In p (map fst (mm_table m)) <-> referenced s p) by (intros p; symmetry; apply (referenced_in p I)). split; [exact Rf|].
  split; [exists (map fst (mm_table m)); split; [exact (okT_nodup (mi_tab I))|split; [exact Rf|unfold table_size; rewrite map_length; reflexivity]]|].
  assert (Cn := mi_count I). unfold alive in Cn. split; [|split].
  - intros p Ho Hr. rewrite (Cn p). apply Rf in Hr. destruct (afind p (mm_table m)) eqn:E; [rewrite Ho; lia|]. apply afind_none in E. contradiction.
  - intros p Hn. rewrite (Cn p). destruct (afind p (mm_table m)) eqn:E; [|lia]. destruct (rf_owned s p) eqn:Ho; [|lia]. exfalso. apply Hn. split; [reflexivity|]. apply Rf. apply afind_in in E. apply (in_map fst) in E. exact E.
  - intros z p root Hz. unfold memory_wrap. rewrite (mi_obj I Hz). reflexivity.
Qed.

(** The next call, whatever it is: it frees exactly the owned blocks that were referenced and are not any more, each of them
    once. Those that have been initialized with a type are destroyed just before, with this type, and nothing else is.
    Only memory_allocate allocates. *)
Theorem C42_step l s f m o s' : calls l s -> (Z.of_nat (length l) <= 1000000000)%Z -> length l < f -> runs_to f l m -> call s o s' ->
  exists m' ev, mexec f m o = (m', Ok tt) /\ mm_log m' = mm_log m ++ ev /\
    (forall p, In (EvFree p) ev <-> rf_owned s p = true /\ referenced s p /\ ~ referenced s' p) /\
    (forall p, times (EvFree p) ev <= 1) /\
    (forall p t, In (EvDestroy p t) ev <-> In (EvFree p) ev /\ rf_type s p = Some t) /\
    (forall p t, In (EvDestroy p t) ev -> exists a b, ev = a ++ EvDestroy p t :: EvFree p :: b) /\
    (forall p, In (EvAlloc p) ev <-> o = MAlloc p).
Proof.
  intros H Hb Hf R C. destruct (calls_run H Hb Hf) as (m0 & R0 & I & Z). apply (runs_det R0) in R. subst m0.
  destruct (step_ok I C Z Hb Hf) as (m' & ev & E & I' & Z' & L & F0 & F1 & F2 & F3). exists m', ev. split; [exact E|]. split; [exact L|]. split; [exact F1|]. split; [intros p; apply F0|]. split; [exact F2|]. split; [exact F3|].
  intros p. destruct (F0 p) as [_ Fa]. unfold times in Fa. rewrite (count_occ_In mevent_dec), Fa. destruct o as [q| | | |]; cbn [oeq]; try (split; [lia|discriminate]).
  destruct (N.eqb_spec q p) as [-> |Ne]; split; try lia; try reflexivity; congruence.
Qed.
(** In particular a referenced block is never freed by a later call, and two calls that free the same block have an
    allocation of it between them: what the counts of C42_table say. *)
Theorem C42_never_early l s f m o s' p : calls l s -> (Z.of_nat (length l) <= 1000000000)%Z -> length l < f -> runs_to f l m -> call s o s' -> referenced s' p ->
  exists m' ev, mexec f m o = (m', Ok tt) /\ mm_log m' = mm_log m ++ ev /\ ~ In (EvFree p) ev /\ forall t, ~ In (EvDestroy p t) ev.
Proof.
  intros H Hb Hf R C Hp. destruct (C42_step H Hb Hf R C) as (m' & ev & E & L & F & _ & D & _). exists m', ev. split; [exact E|]. split; [exact L|].
  assert (N : ~ In (EvFree p) ev) by (intros X; apply F in X; tauto). split; [exact N|]. intros t X. apply D in X. tauto.
Qed.
(** The bindings hold the layout of a type as long as a referenced block was initialized with it, with the right count. *)
Theorem C42_layouts l s f m t : calls l s -> (Z.of_nat (length l) <= 1000000000)%Z -> length l < f -> runs_to f l m ->
  exists ps, NoDup ps /\ (forall p, In p ps <-> referenced s p /\ rf_type s p = Some t) /\
    nfind t (mm_layouts m) = match ps with [] => None | _ => Some (Z.of_nat (length ps)) end.
Proof.
  intros H Hb Hf R. destruct (calls_run H Hb Hf) as (m0 & R0 & I & Z). apply (runs_det R0) in R. subst m0.
  set (sel := filter (fun x => snd x =? t) (mm_types m)). exists (map fst sel).
  assert (Nd : NoDup (map fst sel)). { assert (K := ti_keys (mi_ty I)). unfold sel, keys in *. clear -K. induction (mm_types m) as [|[p u] ty IH]; [constructor|]. inversion K as [|? ? A B]; subst. cbn. destruct (u =? t); [|auto]. cbn. constructor; [|auto].
    intros X. apply A. apply in_map_iff in X. destruct X as (y & <- & Y). apply filter_In in Y. apply in_map. tauto. }
  split; [exact Nd|]. split.
  - intros p. split.
    + intros X. apply in_map_iff in X. destruct X as ((q & u) & <- & X). apply filter_In in X. destruct X as [X Y]. apply Nat.eqb_eq in Y. cbn in Y. subst u. cbn [fst].
      assert (Fq : afind q (mm_types m) = Some t). { assert (K := ti_keys (mi_ty I)). revert K X. clear. induction (mm_types m) as [|[p u] ty IH]; intros K X; [destruct X|]. inversion K as [|? ? A B]; subst. cbn. destruct X as [[= -> ->]|X]; [rewrite N.eqb_refl; reflexivity|].
        destruct (N.eqb_spec p q) as [-> |Ne]; [|auto]. destruct A. apply (in_map fst) in X. exact X. }
      destruct (in_dec N.eq_dec q (keys (mm_table m))) as [Y|Y]; [|rewrite (mi_unknown I Y) in Fq; discriminate]. split; [apply (referenced_in q I); exact Y|]. rewrite <- (mi_known I Y). exact Fq.
    + intros [A B]. apply (referenced_in p I) in A. rewrite <- (mi_known I A) in B. apply afind_in in B. apply in_map_iff. exists (p, t). split; [reflexivity|]. apply filter_In. split; [exact B|]. cbn. apply Nat.eqb_refl.
  - rewrite (ti_count (mi_ty I) t). unfold cntT. fold sel. rewrite map_length. destruct sel; reflexivity.
Qed.
(** Calls that are refused without effect: a second initialization, a type without layout; wrapping what is known. *)
Theorem C42_refused m z p t h : nfind z (mm_zones m) = Some p -> afind p (mm_types m) <> None \/ (nfind t (mm_layouts m) = None /\ h = false) ->
  memory_init m z t h = (m, Throw ERuntime).
Proof. intros E [A|[A ->]]; unfold memory_init; rewrite E; destruct (afind p (mm_types m)); try reflexivity; [congruence|]. rewrite A. reflexivity. Qed.

(** ** Where the bindings do not do this. *)
Definition mrun f l : mem * res unit := fold_left (fun x o => match x with (m, Ok _) => mexec f m o | y => y end) l (mem0, Ok tt).
Lemma mrun_runs f l m : mrun f l = (m, Ok tt) -> runs_to f l m.
Proof.
  revert m. induction l as [|o l IH] using rev_ind; intros m E; [injection E as <-; constructor|]. unfold mrun in E. rewrite fold_left_app in E. cbn [fold_left] in E.
  fold (mrun f l) in E. destruct (mrun f l) as [m0 [[]| | |]] eqn:E0; try discriminate. exact (runs_snoc (IH _ eq_refl) E).
Qed.
(** A part of a block is wrapped and the zone of the block itself is finalized (or invalidated): wrapping the block again
    gives the zone that is gone (or whose address is NULL), instead of a zone that gives access to it. *)
Theorem C42_stale_zone_refuted :
  (exists m, mrun 5 [MAlloc 16%N; MWrap 20%N (Some 16%N); MFinalize 0] = (m, Ok tt) /\ mm_zones m = [(1, 20%N)] /\ forall root, memory_wrap m 16%N false root = (m, Ok 0)) /\
  (exists m, mrun 5 [MAlloc 16%N; MWrap 20%N (Some 16%N); MInvalidate 0] = (m, Ok tt) /\ nfind 0 (mm_zones m) = Some 0%N /\ forall root, memory_wrap m 16%N false root = (m, Ok 0)).
Proof. split; (eexists; split; [reflexivity|]; split; [reflexivity|]; intros root; reflexivity). Qed.
(** Wrapping a part whose root is not registered raises, but leaves the entry and the zone behind; when the zone is
    finalized, the finalizer raises. The same after the refusal of a part that is given as its own root. *)
Theorem C42_failed_wrap_refuted :
  (exists m, mrun 5 [MWrap 20%N (Some 16%N)] = (m, Throw ERuntime) /\ table_size m = 1 /\ memory_wrap m 20%N false None = (m, Ok 0) /\ snd (mexec 5 m (MFinalize 0)) = Throw ERuntime) /\
  (exists m m', mrun 5 [MAlloc 16%N; MFinalize 0; MAlloc 24%N] = (m, Ok tt) /\ mexec 5 m (MWrap 20%N (Some 20%N)) = (m', Throw ERuntime) /\ snd (mexec 5 m' (MFinalize 2)) = Throw ERuntime).
Proof. split; [eexists; split; [reflexivity|]; split; [reflexivity|]; split; reflexivity|]. eexists. eexists. split; [reflexivity|]. split; reflexivity. Qed.
(** A part at address NULL is registered, holds its root, and is never given up: its finalizer does nothing. *)
Theorem C42_null_part_refuted : exists m, mrun 5 [MAlloc 16%N; MWrap 0%N (Some 16%N); MFinalize 1; MFinalize 0] = (m, Ok tt) /\ mm_zones m = [] /\ table_size m = 2 /\ times (EvFree 16%N) (mm_log m) = 0.
Proof. eexists. split; [reflexivity|]. repeat split. Qed.
(** A foreign block is wrapped, its owner frees it, and ruby_xmalloc returns the same address: the allocation takes the
    wrapper for its own, which does not own the block, and the block is never freed. *)
Theorem C42_address_reuse_refuted : exists m, mrun 5 [MWrap 16%N None; MAlloc 16%N; MFinalize 0] = (m, Ok tt) /\ mm_log m = [EvAlloc 16%N] /\ table_size m = 0.
Proof. eexists. split; [reflexivity|]. repeat split. Qed.

(** ** The hypotheses are met: a block, a part of it, a part of the part; they outlive the zone of the block. *)
Definition rt1 := aset (fun _ => None) 16%N (None : option addr).
Definition rt2 := aset rt1 20%N (Some 16%N).
Definition rt3 := aset rt2 24%N (Some 20%N).
Definition rt4 := aset rt3 64%N None.
Definition ow1 := aset (fun _ => false) 16%N true.
Definition ow2 := aset ow1 20%N false.
Definition ow3 := aset ow2 24%N false.
Definition ow4 := aset ow3 64%N true.
Definition ty0 := aset (fun _ => None) 16%N (None : option tid).
Definition ty1 := aset ty0 16%N (Some 3).
Definition ty2 := aset ty1 20%N None.
Definition ty3 := aset ty2 24%N None.
Definition ty4 := aset ty3 64%N None.
Definition cs1 := Refs [(0, Some 16%N)] 1 rt1 ow1 ty0.
Definition cs2 := Refs [(0, Some 16%N)] 1 rt1 ow1 ty1.
Definition cs3 := Refs [(1, Some 20%N); (0, Some 16%N)] 2 rt2 ow2 ty2.
Definition cs4 := Refs [(2, Some 24%N); (1, Some 20%N); (0, Some 16%N)] 3 rt3 ow3 ty3.
Definition cs5 := Refs [(3, Some 64%N); (2, Some 24%N); (1, Some 20%N); (0, Some 16%N)] 4 rt4 ow4 ty4.
Definition cs6 := Refs [(3, Some 64%N); (2, Some 24%N); (1, Some 20%N)] 4 rt4 ow4 ty4.
Definition cs7 := Refs [(3, None); (2, Some 24%N); (1, Some 20%N)] 4 rt4 ow4 ty4.
Definition case_calls := [MAlloc 16%N; MInit 0 3 true; MWrap 20%N (Some 16%N); MWrap 24%N (Some 20%N); MAlloc 64%N; MFinalize 0; MInvalidate 3].
Lemma not_referenced l s p : (forall z q, In (z, Some q) (rf_zones s) -> In q l) -> (forall q, In q l -> forall x, rf_root s q = Some x -> In x l) -> ~ In p l -> ~ referenced s p.
Proof. intros A B C R. apply C. clear C. induction R as [z q Hz|q x R IH E]; [eauto|]. eapply B; eauto. Qed.
Lemma case_calls_ok : calls case_calls cs7.
Proof.
  assert (C1 : calls [MAlloc 16%N] cs1). { refine (@calls_snoc [] refs0 _ cs1 calls_nil (@call_alloc refs0 16%N _ _)); [discriminate|]. apply (@not_referenced []); cbn; tauto. }
  assert (C2 : calls [MAlloc 16%N; MInit 0 3 true] cs2) by (refine (@calls_snoc _ cs1 _ cs2 C1 (@call_init cs1 0 16%N 3 _ _)); [left; reflexivity|reflexivity]).
  assert (C3 : calls [MAlloc 16%N; MInit 0 3 true; MWrap 20%N (Some 16%N)] cs3).
  { refine (@calls_snoc _ cs2 _ cs3 C2 (@call_wrap_new cs2 20%N (Some 16%N) _ _ _)); [discriminate| |intros q [= <-]; eapply ref_zone; left; reflexivity].
    apply (@not_referenced [16%N]); [intros z q [[= <- <-]|[]]; left; reflexivity|intros q [<- |[]] x X; discriminate|intros [X|[]]; discriminate]. }
  assert (C4 : calls [MAlloc 16%N; MInit 0 3 true; MWrap 20%N (Some 16%N); MWrap 24%N (Some 20%N)] cs4).
  { refine (@calls_snoc _ cs3 _ cs4 C3 (@call_wrap_new cs3 24%N (Some 20%N) _ _ _)); [discriminate| |intros q [= <-]; eapply ref_zone; left; reflexivity].
    apply (@not_referenced [16%N; 20%N]); [intros z q [[= <- <-]|[[= <- <-]|[]]]; cbn; auto|intros q [<- |[<- |[]]] x X; [discriminate|injection X as <-; left; reflexivity]|intros [X|[X|[]]]; discriminate]. }
  assert (C5 : calls [MAlloc 16%N; MInit 0 3 true; MWrap 20%N (Some 16%N); MWrap 24%N (Some 20%N); MAlloc 64%N] cs5).
  { refine (@calls_snoc _ cs4 _ cs5 C4 (@call_alloc cs4 64%N _ _)); [discriminate|].
    apply (@not_referenced [16%N; 20%N; 24%N]); [intros z q [[= <- <-]|[[= <- <-]|[[= <- <-]|[]]]]; cbn; auto|intros q [<- |[<- |[<- |[]]]] x X; [discriminate|injection X as <-; cbn; auto|injection X as <-; cbn; auto]|intros [X|[X|[X|[]]]]; discriminate]. }
  assert (C6 : calls [MAlloc 16%N; MInit 0 3 true; MWrap 20%N (Some 16%N); MWrap 24%N (Some 20%N); MAlloc 64%N; MFinalize 0] cs6) by (refine (@calls_snoc _ cs5 _ cs6 C5 (@call_finalize cs5 0 (Some 16%N) _)); cbn; auto).
  refine (@calls_snoc _ cs6 _ cs7 C6 (@call_invalidate cs6 3 (Some 64%N) _)). cbn. auto.
Qed.
Example C42_case : calls case_calls cs7 /\ referenced cs7 16%N /\ rf_owned cs7 16%N = true /\ rf_type cs7 16%N = Some 3 /\ ~ In 0 (map fst (rf_zones cs7)) /\
  exists m, runs_to 10 case_calls m /\ mm_log m = [EvAlloc 16%N; EvAlloc 64%N; EvFree 64%N].
Proof.
  split; [exact case_calls_ok|]. split; [|split; [reflexivity|split; [reflexivity|split; [cbn; intuition discriminate|]]]].
  - apply ref_part with 20%N; [|reflexivity]. apply ref_part with 24%N; [|reflexivity]. apply ref_zone with 2. cbn. auto.
  - exists (fst (mrun 10 case_calls)). split; [apply mrun_runs|]; vm_compute; reflexivity.
Qed.
Print Assumptions C42_table. Print Assumptions C42_step. Print Assumptions C42_never_early. Print Assumptions C42_layouts. Print Assumptions C42_refused.
Print Assumptions C42_stale_zone_refuted. Print Assumptions C42_failed_wrap_refuted. Print Assumptions C42_null_part_refuted. Print Assumptions C42_address_reuse_refuted.
