(** * LayoutFinal: the layout of a supported type; when it is a single memcpy. *)
From Verif Require Import Base Types WellFormed Layout LayoutProofs LayoutMain InitProofs.
Local Open Scope N_scope.

Theorem layout_ok ap merge t : wf t -> supported ap t = true ->
  exists l oi k, layout_of ap false merge true t = Ok l /\
    ops l = flat (stop merge (rops t)) /\
    iops l = iflat oi /\ wf_i oi /\ iatoms oi ++ repN k IKeep = tiatoms t.
Proof.
  intros Hw Hs. unfold layout_of.
  destruct (raw_layout_ops Hw Hs) as [io Hr]. rewrite Hr. cbn [bind].
  assert (Hi : io = iflat (riops t)).
  { unfold raw_layout_of in Hr. apply (proj1 visit_riops t Hw) in Hr. exact Hr. }
  unfold simplify. cbn [ops].
  rewrite (simp_top merge Hw). cbn [bind].
  destruct (@simplify_init_ok t (mkLayout (flat (rops t)) io) Hw Hi) as (oi & k & E & H1 & H2).
  rewrite E. cbn [bind]. eexists _, oi, k. split; [reflexivity|]. auto.
Qed.

Lemma ssimp_shape r : forall cnt skp o c n s,
  wf_raw r -> cnt + lenN (atoms r) < two64 -> skp <= cnt ->
  ssimp true r FLAG_MEMCPY cnt skp = (o, (c, n, s)) ->
  (hasc r = false -> o = SNil /\ n = cnt + lenN (atoms r)) /\
  (hasc r = true -> (3 <= length (flat o))%nat).
Proof.
  induction r as [|m r IH|m r IH|m b IHb r IH|k sz e b IHb r IH]; intros cnt skp o c n s Hw Hlt Hsk E.
  - simpl in E. inversion E; subst. simpl. rewrite lenN_nil. split; [split; [reflexivity|lia]|discriminate].
  - cbn [wf_raw] in Hw. cbn [atoms] in *. rewrite lenN_app, lenN_repN in *. cbn [ssimp] in E.
    rewrite N.eqb_refl, wadd_small in E by lia. apply IH in E; [|assumption|lia|lia].
    cbn [hasc]. destruct E as [E1 E2]. split; [|assumption]. intros H. destruct (E1 H). split; [assumption|lia].
  - cbn [wf_raw] in Hw. cbn [atoms] in *. rewrite lenN_app, lenN_repN in *. cbn [ssimp] in E.
    change (FLAG_MEMCPY =? FLAG_SKIP) with false in E. cbv iota in E.
    rewrite !wadd_small in E by lia. apply IH in E; [|assumption|lia|lia].
    cbn [hasc]. destruct E as [E1 E2]. split; [|assumption]. intros H. destruct (E1 H). split; [assumption|lia].
  - cbn [wf_raw] in Hw. destruct Hw as (Hn & Hne & Hbl & Hwb & Hwr). cbn [atoms] in *. rewrite lenN_app, lenN_rep_list in *.
    cbn [ssimp] in E. cbn [hasc].
    destruct (ssimp true b FLAG_MEMCPY 0 0) as [ob [[c1 n1] s1]] eqn:Eb.
    rename Hbl into Hbl'. assert (Hbl : 0 + lenN (atoms b) < two64) by lia.
    destruct (ssimp_ok Hwb Hbl (st_ok0 true) Eb) as (A1 & (A2 & A3 & _) & _ & _).
    specialize (A3 eq_refl). subst c1.
    apply IHb in Eb; [|assumption|lia|lia]. destruct Eb as [B1 B2].
    destruct (hasc b).
    + cbn [orb]. split; [discriminate|]. intros _.
      assert (L : (3 <= length (flat (sapp ob (spush n1 FLAG_MEMCPY SNil))))%nat).
      { rewrite flat_sapp, app_length. specialize (B2 eq_refl). lia. }
      remember (sapp ob (spush n1 FLAG_MEMCPY SNil)) as ob' eqn:Eob. clear Eob.
      assert (Hgen : (let '(o0, st) := ssimp true r FLAG_MEMCPY 0 0 in (spush cnt FLAG_MEMCPY (SArr m ob' o0), st)) = (o, (c, n, s)) ->
          (3 <= length (flat o))%nat).
      { intros Hif. destruct (ssimp true r FLAG_MEMCPY 0 0) as [o1 st]. inversion Hif; subst.
        rewrite flat_spush by (left; reflexivity). rewrite app_length. cbn [flat length]. rewrite app_length. simpl. lia. }
      destruct ob' as [|x ro|x ro|n' b' ro|k' s' e' b' ro]; try (apply Hgen; exact E).
      * simpl in L; lia.
      * destruct ro; try (apply Hgen; exact E). simpl in L; lia.
      * destruct ro; try (apply Hgen; exact E). simpl in L; lia.
    + cbn [orb]. destruct (B1 eq_refl) as [-> Hn1]. rewrite N.add_0_l in Hn1. subst n1. cbn [sapp] in E.
      assert (Es : spush (lenN (atoms b)) FLAG_MEMCPY SNil = SMem (lenN (atoms b)) SNil).
      { unfold spush. destruct (N.eqb_spec (lenN (atoms b)) 0); [lia|reflexivity]. }
      rewrite Es in E. rewrite N.eqb_refl in E. rewrite wmul_small in E by nia. cbn [andb] in E.
      destruct (N.eqb_spec cnt 0) as [->|Hc0]; cbn [negb] in E.
      * destruct (ssimp true r FLAG_MEMCPY (lenN (atoms b) * m) 0) as [o1 st] eqn:Er. inversion E; subst.
        apply IH in Er; [|assumption|nia|lia]. unfold spush. rewrite N.eqb_refl.
        destruct Er as [E1 E2]. split; [|assumption]. intros H. destruct (E1 H). split; [assumption|lia].
      * rewrite wadd_small in E by nia. apply IH in E; [|assumption|nia|lia].
        destruct E as [E1 E2]. split; [|assumption]. intros H. destruct (E1 H). split; [assumption|lia].
  - cbn [hasc]. split; [discriminate|]. intros _. cbn [ssimp] in E.
    destruct (ssimp true b FLAG_MEMCPY 0 0) as [ob [[c1 n1] s1]].
    destruct (ssimp true r FLAG_MEMCPY 0 0) as [o1 st]. inversion E; subst.
    rewrite flat_spush by (left; reflexivity). rewrite app_length. cbn [flat length]. rewrite app_length. simpl. lia.
Qed.

Lemma hasc_atoms r : wf_raw r -> hasc r = false -> asizes (atoms r) = lenN (atoms r) /\ Forall (fun a => asize a = 1 /\ (a = AByte \/ a = APad)) (atoms r).
Proof.
  assert (Hrep : forall n a, a = AByte \/ a = APad -> Forall (fun a => asize a = 1 /\ (a = AByte \/ a = APad)) (repN n a)).
  { intros n a Ha. unfold repN. induction (N.to_nat n); simpl; constructor; auto. destruct Ha; subst; auto. }
  intros Hw Hh. assert (H : Forall (fun a => asize a = 1 /\ (a = AByte \/ a = APad)) (atoms r)).
  { revert Hw Hh; induction r as [|m r IH|m r IH|m b IHb r IH|k sz e b IHb r IH]; simpl; intros Hw Hh; auto.
    - apply Forall_app; auto.
    - apply Forall_app; auto.
    - apply orb_false_iff in Hh. apply Forall_app. split; [|apply IH; tauto].
      apply Forall_concat. unfold repN. assert (X := IHb (proj1 (proj2 (proj2 (proj2 Hw)))) (proj1 Hh)).
      induction (N.to_nat m); simpl; constructor; auto.
    - discriminate. }
  split; [|assumption]. clear Hw Hh. induction (atoms r) as [|a l IH]; [reflexivity|].
  inversion H as [|? ? H1 H2]; subst. cbn [asizes]. rewrite lenN_cons, IH by assumption. destruct H1 as [-> _]. reflexivity.
Qed.

(** The layout of a vector's elements is one memcpy exactly when no container occurs in them; inside of a
    container's block, it is then one memcpy of the whole element. *)
Lemma stop_nonempty merge t : wf t -> 1 <= sizeof t -> merge = true -> stop merge (rops t) <> SNil.
Proof.
  intros Hw Hs ->. unfold stop.
  destruct (ssimp true (rops t) FLAG_MEMCPY 0 0) as [o [[c n] s]] eqn:E.
  assert (Hlt : 0 + lenN (atoms (rops t)) < two64).
  { assert (X := proj1 tatoms_len t Hw). assert (Y := wf_lt Hw). unfold tatoms in X. lia. }
  destruct (ssimp_ok (proj1 rops_wf t Hw) Hlt (st_ok0 true) E) as (A & (B1 & B2 & _) & _ & _).
  assert (Hne := proj1 tatoms_ne t Hw (or_intror I) Hs). unfold tatoms in Hne.
  apply (f_equal lenN) in A. rewrite !lenN_app, lenN_norm in A. unfold pend in A. rewrite !lenN_repN in A.
  destruct (N.eqb_spec n 0) as [->|Hn].
  - intros ->. cbn [atoms] in A. unfold lenN at 1 in A. simpl in A. lia.
  - rewrite (B2 eq_refl). rewrite N.eqb_refl. destruct o; discriminate.
Qed.

Lemma memcpy_link t : wf t -> 1 <= sizeof t ->
  if hasc (rops t)
  then (length (flat (stop true (rops t))) =? 2)%nat = false
  else sblock true (rops t) = SMem (sizeof t) SNil /\ exists n, stop true (rops t) = SMem n SNil.
Proof.
  intros Hw Hs. unfold stop, sblock.
  destruct (ssimp true (rops t) FLAG_MEMCPY 0 0) as [o [[c n] s]] eqn:E.
  assert (Hlt : 0 + lenN (atoms (rops t)) < two64).
  { assert (X := proj1 tatoms_len t Hw). assert (Y := wf_lt Hw). unfold tatoms in X. lia. }
  destruct (ssimp_ok (proj1 rops_wf t Hw) Hlt (st_ok0 true) E) as (A & (B1 & B2 & _) & _ & _).
  specialize (B2 eq_refl). subst c.
  destruct (ssimp_shape (proj1 rops_wf t Hw) Hlt (N.le_refl 0) E) as [S1 S2].
  destruct (hasc (rops t)) eqn:Eh.
  - specialize (S2 eq_refl). destruct (n =? 0).
    + apply Nat.eqb_neq; lia.
    + rewrite N.eqb_refl. rewrite flat_sapp, app_length. apply Nat.eqb_neq; lia.
  - destruct (S1 eq_refl) as [-> ->]. destruct (hasc_atoms (proj1 rops_wf t Hw) Eh) as [H1 _].
    rewrite N.add_0_l. rewrite <- H1. change (atoms (rops t)) with (tatoms t). rewrite (proj1 tatoms_size t Hw).
    destruct (N.eqb_spec (sizeof t) 0); [lia|]. rewrite N.eqb_refl. cbn [sapp]. unfold spush.
    destruct (N.eqb_spec (sizeof t) 0); [lia|]. rewrite N.eqb_refl. eauto.
Qed.
