(** * LayoutMain: what layout_of returns, expanded byte per byte; the memcpy criterion. *)
From Verif Require Import Base Types WellFormed Layout LayoutProofs.
Local Open Scope N_scope.

Definition asize (a : atom) : N := match a with AByte | APad => 1 | ACont _ s _ => s end.
Fixpoint asizes (l : list atom) : N := match l with [] => 0 | a :: r => asize a + asizes r end.

Lemma asizes_app a b : asizes (a ++ b) = asizes a + asizes b.
Proof. induction a as [|x a IH]; simpl; [reflexivity|]. rewrite IH. lia. Qed.
Lemma asizes_repN n a : asizes (repN n a) = n * asize a.
Proof.
  induction n as [|n IH] using N.peano_ind; [reflexivity|].
  replace (N.succ n) with (1 + n) by lia. rewrite repN_add, asizes_app, IH.
  change (asizes (repN 1 a)) with (asize a + 0). lia.
Qed.
Lemma asizes_rep_list n l : asizes (rep_list n l) = n * asizes l.
Proof.
  induction n as [|n IH] using N.peano_ind; [reflexivity|].
  rewrite rep_list_S, asizes_app, IH. lia.
Qed.
Lemma asizes_norm m l : asizes (norm m l) = asizes l.
Proof. induction l as [|a l IH]; simpl; [reflexivity|]. rewrite IH. destruct a; [reflexivity|destruct m; reflexivity|reflexivity]. Qed.

Lemma tatoms_size :
  (forall t, wf t -> asizes (tatoms t) = sizeof t) /\
  (forall fs cur sz, wf_fields fs cur sz -> asizes (atoms (rfields fs cur sz)) = sz - cur).
Proof.
  unfold tatoms. apply ty_fields_ind; simpl; intros; rewrite ?app_nil_r, ?asizes_repN; simpl; try lia.
  - rewrite asizes_rep_list. destruct H0 as (_ & -> & _ & _ & He). rewrite (H He). reflexivity.
  - destruct H0 as [_ H0]. rewrite (H _ _ H0). lia.
  - rewrite atoms_sapp, !asizes_app, asizes_repN. simpl. destruct H1 as (H1 & H2 & H3).
    rewrite (H H2). assert (X := wf_fields_le H3). rewrite (H0 _ _ H3). lia.
Qed.

Lemma wf_lt t : wf t -> sizeof t < two64.
Proof. destruct t; simpl; tauto. Qed.

(** Result of the simplification at top level. *)
Definition stop (merge : bool) (r : sops) : sops :=
  let '(o, (c, n, s)) := ssimp merge r FLAG_MEMCPY 0 0 in
  if n =? 0 then o else if c =? FLAG_MEMCPY then sapp o (SMem (n - s) SNil) else o.

Lemma st_ok0 merge : st_ok merge FLAG_MEMCPY 0 0.
Proof. repeat split; auto; try (left; reflexivity); lia. Qed.

Lemma norm_false l : norm false l = l.
Proof. unfold norm. rewrite <- (map_id l) at 2. apply map_ext. intros []; reflexivity. Qed.

Lemma stop_ok merge t : wf t ->
  wf_out merge (stop merge (rops t)) /\
  exists pre k, tatoms t = pre ++ repN k APad /\ atoms (stop merge (rops t)) = norm merge pre.
Proof.
  intros Hw. unfold stop.
  destruct (ssimp merge (rops t) FLAG_MEMCPY 0 0) as [o [[c n] s]] eqn:E.
  assert (Hlt : 0 + lenN (atoms (rops t)) < two64).
  { assert (X := proj1 tatoms_len t Hw). assert (Y := wf_lt Hw). unfold tatoms in X. lia. }
  destruct (ssimp_ok (proj1 rops_wf t Hw) Hlt (st_ok0 merge) E) as (A & (B1 & B2 & B3 & B4) & C & pre & D).
  rewrite pend_0 in A. change (repN 0 APad ++ atoms (rops t)) with (tatoms t) in D.
  simpl ([] ++ _) in A.
  destruct (N.eqb_spec n 0) as [->|Hn].
  - split; [assumption|]. exists (tatoms t), 0. rewrite repN_0, app_nil_r. split; [reflexivity|].
    rewrite pend_0, app_nil_r in A. exact A.
  - destruct (N.eqb_spec c FLAG_MEMCPY) as [->|Hc].
    + split; [apply wf_out_sapp; [assumption|exact I]|].
      exists pre, s. split; [exact D|]. rewrite atoms_sapp. simpl (atoms (SMem _ _)). rewrite app_nil_r.
      unfold pend in A. rewrite N.eqb_refl in A.
      destruct merge.
      * change (atoms (rops t)) with (tatoms t) in A. rewrite D, norm_app, norm_repN in A. simpl (norm1 _ _) in A.
        replace n with ((n - s) + s) in A at 1 by lia. rewrite repN_add, app_assoc in A.
        apply app_inv_tail in A. exact A.
      * specialize (B4 eq_refl eq_refl). subst s. rewrite repN_0, app_nil_r in D.
        rewrite N.sub_0_r, A. unfold tatoms in D. rewrite D. reflexivity.
    + split; [assumption|]. destruct merge; [exfalso; auto|].
      exists (atoms o), n. rewrite norm_false in *. split; [|reflexivity].
      unfold tatoms. rewrite <- A. unfold pend. destruct (N.eqb_spec c FLAG_MEMCPY); [contradiction|reflexivity].
Qed.

Lemma sblock_ok merge t : wf t ->
  wf_out merge (sblock merge (rops t)) /\ atoms (sblock merge (rops t)) = norm merge (tatoms t).
Proof.
  intros Hw. unfold sblock.
  destruct (ssimp merge (rops t) FLAG_MEMCPY 0 0) as [o [[c n] s]] eqn:E.
  assert (Hlt : 0 + lenN (atoms (rops t)) < two64).
  { assert (X := proj1 tatoms_len t Hw). assert (Y := wf_lt Hw). unfold tatoms in X. lia. }
  destruct (ssimp_ok (proj1 rops_wf t Hw) Hlt (st_ok0 merge) E) as (A & _ & C & _).
  split; [apply wf_out_sapp; [assumption|apply wf_out_spush; exact I]|].
  rewrite atoms_sapp, atoms_spush. simpl (atoms SNil). rewrite app_nil_r. exact A.
Qed.

Lemma simp_top merge t : wf t ->
  simp (S (length (flat (rops t)))) merge true 0 (flat (rops t)) FLAG_MEMCPY 0 0 [] = Ok ([], flat (stop merge (rops t))).
Proof.
  intros Hw. unfold stop.
  destruct (ssimp merge (rops t) FLAG_MEMCPY 0 0) as [o [[c n] s]] eqn:E.
  assert (Hlt : 0 + lenN (atoms (rops t)) < two64).
  { assert (X := proj1 tatoms_len t Hw). assert (Y := wf_lt Hw). unfold tatoms in X. lia. }
  destruct (ssimp_ok (proj1 rops_wf t Hw) Hlt (st_ok0 merge) E) as (A & (B1 & B2 & B3 & B4) & C & pre & D).
  assert (Hn64 : n < two64).
  { apply (f_equal lenN) in A. rewrite pend_0 in A. simpl ([] ++ _) in A. rewrite lenN_app, lenN_norm in A.
    unfold pend in A. rewrite lenN_repN in A. lia. }
  destruct (@simp_ssimp merge true (rops t) 0%nat FLAG_MEMCPY 0 0 [] [] (S (length (flat (rops t)))) o c n s
             (proj1 rops_wf t Hw) Hlt (st_ok0 merge) E) as (f' & Hf' & Es).
  { rewrite app_nil_r. lia. }
  rewrite app_nil_r in Es. rewrite Es.
  destruct f' as [|f']; [simpl in Hf'; lia|]. cbn [simp].
  destruct (N.eqb_spec n 0) as [->|Hn]; [reflexivity|].
  destruct B1 as [-> | ->].
  - change (FLAG_MEMCPY =? FLAG_SKIP) with false. change (FLAG_MEMCPY =? FLAG_MEMCPY) with true. cbn [negb orb].
    rewrite wsub_small by lia. rewrite flat_sapp. reflexivity.
  - change (FLAG_SKIP =? FLAG_SKIP) with true. change (FLAG_SKIP =? FLAG_MEMCPY) with false. cbn [negb orb]. reflexivity.
Qed.
