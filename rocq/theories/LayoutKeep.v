(** * LayoutKeep: layouts made with remove_trailing_skips = false (C16). *)
From Verif Require Import Base Types WellFormed Layout LayoutProofs LayoutMain InitProofs LayoutFinal LayoutSpec LayoutSpecProofs.
Local Open Scope N_scope.

(** What the simplification gives without the removal: one operation more, of the size of what is pending but without the skips since
    the last operation that is not one. *)
Definition skeep (merge : bool) (r : sops) : sops :=
  let '(o, (c, n, s)) := ssimp merge r FLAG_MEMCPY 0 0 in
  if n =? 0 then o else if c =? FLAG_MEMCPY then sapp o (SMem (n - s) SNil) else sapp o (SSkip (n - s) SNil).
Lemma skeep_ok merge t : wf t ->
  wf_out merge (skeep merge (rops t)) /\
  exists pre k, tatoms t = pre ++ repN k APad /\ atoms (skeep merge (rops t)) = norm merge pre.
Proof.
  intros Hw. unfold skeep. destruct (ssimp merge (rops t) FLAG_MEMCPY 0 0) as [o [[c n] s]] eqn:E.
  assert (Hlt : 0 + lenN (atoms (rops t)) < two64).
  { assert (X := proj1 tatoms_len t Hw). assert (Y := wf_lt Hw). unfold tatoms in X. lia. }
  destruct (ssimp_ok (proj1 rops_wf t Hw) Hlt (st_ok0 merge) E) as (A & (B1 & B2 & B3 & B4) & C & pre & D).
  rewrite pend_0 in A. change (repN 0 APad ++ atoms (rops t)) with (tatoms t) in D. simpl ([] ++ _) in A.
  destruct (N.eqb_spec n 0) as [->|Hn].
  - split; [assumption|]. exists (tatoms t), 0. rewrite repN_0, app_nil_r. split; [reflexivity|]. rewrite pend_0, app_nil_r in A. exact A.
  - unfold pend in A. destruct (N.eqb_spec c FLAG_MEMCPY) as [->|Hc].
    + split; [apply wf_out_sapp; [assumption|exact I]|]. exists pre, s. split; [exact D|]. rewrite atoms_sapp. simpl (atoms (SMem _ _)). rewrite app_nil_r.
      destruct merge.
      * change (atoms (rops t)) with (tatoms t) in A. rewrite D, norm_app, norm_repN in A. simpl (norm1 _ _) in A.
        replace n with ((n - s) + s) in A at 1 by lia. rewrite repN_add, app_assoc in A. apply app_inv_tail in A. exact A.
      * specialize (B4 eq_refl eq_refl). subst s. rewrite repN_0, app_nil_r in D. rewrite N.sub_0_r, A. unfold tatoms in D. rewrite D. reflexivity.
    + split; [apply wf_out_sapp; [assumption|exact I]|]. exists pre, s. split; [exact D|]. rewrite atoms_sapp. simpl (atoms (SSkip _ _)). rewrite app_nil_r.
      destruct merge; [exfalso; auto|]. rewrite norm_false in *. change (atoms (rops t)) with (tatoms t) in A. rewrite D in A.
      replace n with ((n - s) + s) in A at 1 by lia. rewrite repN_add, app_assoc in A. apply app_inv_tail in A. exact A.
Qed.
Lemma simp_keep merge t : wf t ->
  simp (S (length (flat (rops t)))) merge false 0 (flat (rops t)) FLAG_MEMCPY 0 0 [] = Ok ([], flat (skeep merge (rops t))).
Proof.
  intros Hw. unfold skeep. destruct (ssimp merge (rops t) FLAG_MEMCPY 0 0) as [o [[c n] s]] eqn:E.
  assert (Hlt : 0 + lenN (atoms (rops t)) < two64).
  { assert (X := proj1 tatoms_len t Hw). assert (Y := wf_lt Hw). unfold tatoms in X. lia. }
  destruct (ssimp_ok (proj1 rops_wf t Hw) Hlt (st_ok0 merge) E) as (A & (B1 & B2 & B3 & B4) & C & pre & D).
  assert (Hn64 : n < two64).
  { apply (f_equal lenN) in A. rewrite pend_0 in A. simpl ([] ++ _) in A. rewrite lenN_app, lenN_norm in A. unfold pend in A. rewrite lenN_repN in A. lia. }
  destruct (@simp_ssimp merge false (rops t) 0%nat FLAG_MEMCPY 0 0 [] [] (S (length (flat (rops t)))) o c n s
             (proj1 rops_wf t Hw) Hlt (st_ok0 merge) E) as (f' & Hf' & Es).
  { rewrite app_nil_r. lia. }
  rewrite app_nil_r in Es. rewrite Es. destruct f' as [|f']; [simpl in Hf'; lia|]. cbn [simp].
  destruct (N.eqb_spec n 0) as [->|Hn]; [reflexivity|]. cbn [negb orb]. rewrite wsub_small by lia.
  destruct B1 as [-> | ->]; [change (FLAG_MEMCPY =? FLAG_MEMCPY) with true|change (FLAG_SKIP =? FLAG_MEMCPY) with false]; cbv iota; rewrite flat_sapp; reflexivity.
Qed.
Theorem layout_keep ap merge t : wf t -> supported ap t = true ->
  exists l pre k, layout_of ap false merge false t = Ok l /\ places t = pre ++ repN k Pad /\ describes merge (ops l) (map (merged merge) pre).
Proof.
  intros Hw Hs. unfold layout_of. destruct (raw_layout_ops Hw Hs) as [io Hr]. rewrite Hr. cbn [bind].
  assert (Hi : io = iflat (riops t)) by (unfold raw_layout_of in Hr; apply (proj1 visit_riops t Hw) in Hr; exact Hr).
  unfold simplify. cbn [ops]. rewrite (simp_keep merge Hw). cbn [bind].
  destruct (@simplify_init_ok t (mkLayout (flat (rops t)) io) Hw Hi) as (oi & k & E & _). rewrite E. cbn [bind].
  destruct (skeep_ok merge Hw) as (Hwo & pre & j & A & B). eexists _, (map of_atom pre), j. split; [reflexivity|].
  split; [rewrite (proj1 places_atoms), A, map_app, map_repN; reflexivity|].
  cbn [ops]. rewrite <- norm_merged, <- B. apply flat_describes. assumption.
Qed.
(** With merge_skip_copy the argument has no effect. *)
Lemma stop_keep t : wf t -> stop true (rops t) = skeep true (rops t).
Proof.
  intros Hw. unfold stop, skeep. destruct (ssimp true (rops t) FLAG_MEMCPY 0 0) as [o [[c n] s]] eqn:E.
  assert (Hlt : 0 + lenN (atoms (rops t)) < two64).
  { assert (X := proj1 tatoms_len t Hw). assert (Y := wf_lt Hw). unfold tatoms in X. lia. }
  destruct (ssimp_ok (proj1 rops_wf t Hw) Hlt (st_ok0 true) E) as (_ & (_ & B2 & _) & _). rewrite (B2 eq_refl). reflexivity.
Qed.
Theorem layout_keep_merge ap t : wf t -> supported ap t = true -> layout_of ap false true false t = layout_of ap false true true t.
Proof.
  intros Hw Hs. unfold layout_of. destruct (raw_layout_ops Hw Hs) as [io Hr]. rewrite Hr. cbn [bind].
  unfold simplify. cbn [ops]. rewrite (simp_keep true Hw), (simp_top true Hw), (stop_keep Hw). reflexivity.
Qed.
