(** * EltOps: Vector::resize, given that init, copy and destroy work on the elements. *)
From Verif Require Import Base Types WellFormed Layout LayoutProofs LayoutMain InitProofs LayoutFinal
     ValueOps ValueSpec ValueAtoms ValueInst WalkProofs InitRun.
Local Open Scope N_scope.

(** ** Elements of containers inside of a type *)
Fixpoint cdepth (t : ty) : nat :=
  match t with
  | TArray _ _ e => cdepth e
  | TCont _ _ e => S (cdepth e)
  | TComp _ fs => cdepth_fields fs
  | _ => 0
  end
with cdepth_fields (fs : fields) : nat :=
  match fs with FNil => 0 | FCons _ _ t r => Nat.max (cdepth t) (cdepth_fields r) end.

Definition elt_wf (k : ckind) (s : N) (e : ty) : Prop :=
  wf e /\ plain e /\ 1 <= sizeof e /\ 1 <= s /\ (k = KStr -> exists c, e = TNum 1 c).

Lemma in_rep_list {A} (x : A) n l : In x (rep_list n l) -> In x l.
Proof.
  unfold rep_list, repN. induction (N.to_nat n); simpl; [contradiction|]. rewrite in_app_iff. tauto.
Qed.
Lemma in_repN {A} (x : A) n y : In x (repN n y) -> x = y.
Proof. unfold repN. intros H. apply repeat_spec in H. assumption. Qed.

Lemma tatoms_conts :
  (forall t ap, wf t -> supported ap t = true -> forall k s e, In (ACont k s e) (tatoms t) -> elt_wf k s e /\ (cdepth e < cdepth t)%nat) /\
  (forall fs ap cur sz, wf_fields fs cur sz -> supported_fields ap fs = true ->
     forall k s e, In (ACont k s e) (atoms (rfields fs cur sz)) -> elt_wf k s e /\ (cdepth e < cdepth_fields fs)%nat).
Proof.
  unfold tatoms. apply ty_fields_ind; try discriminate.
  - intros n c ap _ _ k s e H. simpl in H. rewrite app_nil_r in H. apply in_repN in H. discriminate.
  - intros n c ap _ _ k s e H. simpl in H. rewrite app_nil_r in H. apply in_repN in H. discriminate.
  - intros n ap _ _ k s e H. simpl in H. rewrite app_nil_r in H. apply in_repN in H. discriminate.
  - intros sz d e IH ap (_ & _ & _ & _ & He) Hs k s e' H. simpl in *. rewrite app_nil_r in H. apply in_rep_list in H. eauto.
  - intros k sz e IH ap Hw Hs k' s' e' H. simpl in H. destruct H as [H|[]]. inversion H; subst.
    split; [|simpl; lia]. simpl in *. unfold elt_wf, plain. destruct Hw as [_ Hw]. destruct k'.
    + repeat split; try tauto. discriminate.
    + destruct Hw as [? [c ->]]. simpl. unfold two64. repeat split; auto; try lia. eauto.
  - intros sz fs IH ap [_ Hw] Hs k s e H. simpl in *. eauto.
  - intros ap cur sz _ _ k s e H. simpl in H. rewrite app_nil_r in H. apply in_repN in H. discriminate.
  - intros nm off t IHt fs IHf ap cur sz (H1 & H2 & H3) Hs k s e H. cbn [rfields atoms] in H. rewrite atoms_sapp in H.
    simpl in Hs. apply andb_true_iff in Hs. rewrite !in_app_iff in H. simpl. destruct H as [H|[H|H]].
    + apply in_repN in H. discriminate.
    + destruct (IHt ap H2 (proj1 Hs) _ _ _ H). split; [assumption|lia].
    + destruct (IHf ap _ _ H3 (proj2 Hs) _ _ _ H). split; [assumption|lia].
Qed.

(** ** What the elements must provide *)
Record elt_ok (e : ty) : Prop := {
  eo_init : forall m m2, bytes (sizeof e) m ->
    exists m', conv (fun a => e_init (eops_at a) (elt_layout e) (m ++ m2)) (Ok (m' ++ m2)) /\ fresh e m';
  eo_copy : forall d s d2 s2, valid e d -> valid e s ->
    exists d', conv (fun a => e_copy (eops_at a) (elt_layout e) (d ++ d2) (s ++ s2)) (Ok (d' ++ d2)) /\ same e d' s;
  eo_destroy : forall m m2, valid e m ->
    exists m', conv (fun a => e_destroy (eops_at a) (elt_layout e) (m ++ m2)) (Ok (m' ++ m2)) /\ bytes (sizeof e) m'
}.

Lemma elt_layout_ok e : wf e -> plain e -> 1 <= sizeof e ->
  layout_default e = Ok (elt_layout e) /\ has_layout (elt_layout e) = true /\
  ops (elt_layout e) = flat (stop true (rops e)) /\ is_memcpy (elt_layout e) = negb (hasc (rops e)).
Proof.
  intros Hw Hp Hs. destruct (@layout_ok false true e Hw Hp) as (l & oi & k & Hl & E1 & _).
  unfold elt_layout, layout_default. rewrite Hl. split; [reflexivity|]. split; [|split; [assumption|]].
  - unfold has_layout. rewrite E1. assert (H := @stop_nonempty true e Hw Hs eq_refl).
    destruct (stop true (rops e)); [contradiction|reflexivity..].
  - unfold is_memcpy. rewrite E1. assert (H := @memcpy_link e Hw Hs). destruct (hasc (rops e)).
    + destruct (flat (stop true (rops e))) as [|w [|w' [|w'' l']]]; try reflexivity. discriminate.
    + destruct H as (_ & n & ->). reflexivity.
Qed.

Lemma hasc_valid e m : wf e -> plain e -> hasc (rops e) = false -> (valid e m <-> bytes (sizeof e) m).
Proof.
  intros Hw Hp Hh. rewrite (valid_atoms m Hp).
  destruct (hasc_atoms (proj1 rops_wf e Hw) Hh) as [H1 H2]. change (atoms (rops e)) with (tatoms e) in *.
  rewrite <- (proj1 tatoms_size e Hw), H1. clear - H2. unfold avalid.
  revert m; induction H2 as [|a l [_ Ha] _ IH]; intros m.
  - rewrite lenN_nil, bytes_0, arel_nil_inv. tauto.
  - rewrite lenN_cons. replace (1 + lenN l) with (N.succ (lenN l)) by lia. rewrite bytes_cons. split.
    + intros H. change (a :: l) with ([a] ++ l) in H. destruct (arel_inv H) as (m1 & m2 & x1 & x2 & -> & Ex & A1 & A2).
      symmetry in Ex. apply app_eq_nil in Ex. destruct Ex as [-> ->]. apply IH in A2.
      assert (A1' : bytes 1 m1). { change [a] with (repN 1 a) in A1. apply vb_bytes in A1; tauto. }
      change 1 with (N.succ 0) in A1'. apply bytes_cons in A1'. destruct A1' as (b & m' & -> & E). apply bytes_0 in E. subst m'.
      exists b, m2. split; [reflexivity|assumption].
    + intros (b & m' & -> & H). apply IH in H.
      change (@nil unit) with (@nil unit ++ @nil unit).
      destruct Ha as [-> | ->]; constructor; auto; split; eauto.
Qed.

Lemma hasc_fresh e m : wf e -> plain e -> hasc (rops e) = false -> bytes (sizeof e) m -> fresh e m.
Proof.
  intros Hw Hp Hh Hb. apply (hasc_valid m Hw Hp Hh) in Hb. apply (fresh_atoms m Hp). apply (valid_atoms m Hp) in Hb.
  destruct (hasc_atoms (proj1 rops_wf e Hw) Hh) as [_ H2]. change (atoms (rops e)) with (tatoms e) in H2.
  eapply arel_impl; [| | |exact Hb]; auto. intros k s e' o y Hi _. rewrite Forall_forall in H2. apply H2 in Hi.
  destruct Hi as [_ [Hi|Hi]]; discriminate.
Qed.
Lemma Forall_fresh_valid e ms : Forall (fresh e) ms -> Forall (valid e) ms.
Proof. intros H. eapply Forall_impl; [|exact H]. apply fresh_valid. Qed.

(** ** Loops over the elements of a buffer *)
Lemma at_index_app p x q x' (f : list cell -> res (list cell)) :
  f (x ++ q) = Ok (x' ++ q) -> at_index (lenN p) f (p ++ x ++ q) = Ok (p ++ x' ++ q).
Proof.
  intros H. unfold at_index. rewrite lenN_app. destruct (N.ltb_spec (lenN p + lenN (x ++ q)) (lenN p)); [lia|].
  rewrite dropN_app_exact, takeN_app_exact by reflexivity. rewrite H. reflexivity.
Qed.

Lemma concat_len e ms : wf e -> Forall (valid e) ms -> lenN (concat ms) = lenN ms * sizeof e.
Proof.
  intros Hw. induction 1 as [|m ms Hm Hms IH]; [reflexivity|].
  cbn [concat]. rewrite lenN_app, lenN_cons, IH, (proj1 valid_len e Hw _ Hm). lia.
Qed.

Section Loops.
  Variable e : ty.
  Hypothesis He : wf e.
  Hypothesis Hs : 1 <= sizeof e.
  Hypothesis EO : elt_ok e.
  Let lay := elt_layout e.
  Let es := sizeof e.

  Lemma destroy_loop xs : forall p, Forall (valid e) xs ->
    exists y, bytes (lenN xs * es) y /\
      conv2 (fun a f => for_range f (lenN p) (lenN p + lenN xs * es) es
                          (fun i c => at_index i (e_destroy (eops_at a) lay) c) (p ++ concat xs)) (Ok (p ++ y)).
  Proof.
    induction xs as [|x xs IH]; intros p Hv.
    - exists []. split; [apply bytes_0; reflexivity|]. exists 1%nat. intros a [|f] _ Hf; [lia|]. cbn [for_range].
      change (lenN (@nil (list cell))) with 0. destruct (N.ltb_spec (lenN p) (lenN p + 0 * es)); [lia|reflexivity].
    - inversion Hv as [|? ? Hx Hxs]; subst.
      destruct (eo_destroy EO (concat xs) Hx) as (x' & [n1 C1] & B1).
      destruct (IH (p ++ x') Hxs) as (y & By & [n2 C2]).
      exists (x' ++ y). split.
      { rewrite lenN_cons. replace ((1 + lenN xs) * es) with (es + lenN xs * es) by lia. apply bytes_app; assumption. }
      exists (S (Nat.max n1 n2)). intros a [|f] Ha Hf; [lia|]. cbn [for_range]. cbn [concat].
      rewrite lenN_cons. unfold es in *. destruct (N.ltb_spec (lenN p) (lenN p + (1 + lenN xs) * sizeof e)); [|lia].
      rewrite (@at_index_app p x (concat xs) x') by (apply C1; lia). cbn [bind].
      replace (lenN p + (1 + lenN xs) * sizeof e) with (lenN (p ++ x') + lenN xs * sizeof e) by (rewrite lenN_app, (bytes_len B1); lia).
      replace (lenN p + sizeof e) with (lenN (p ++ x')) by (rewrite lenN_app, (bytes_len B1); lia).
      rewrite (app_assoc p x'), C2 by lia. rewrite app_assoc. reflexivity.
  Qed.

  Lemma init_loop n : forall p y, bytes (n * es) y ->
    exists ms, lenN ms = n /\ Forall (fresh e) ms /\
      conv2 (fun a f => for_range f (lenN p) (lenN p + n * es) es
                          (fun i c => at_index i (e_init (eops_at a) lay) c) (p ++ y)) (Ok (p ++ concat ms)).
  Proof.
    induction n as [|n IH] using N.peano_ind; intros p y Hy.
    - apply bytes_0 in Hy. subst y. exists []. repeat split; [constructor|]. exists 1%nat. intros a [|f] _ Hf; [lia|]. cbn [for_range].
      destruct (N.ltb_spec (lenN p) (lenN p + 0 * es)); [lia|reflexivity].
    - replace (N.succ n * es) with (es + n * es) in Hy by lia. destruct (bytes_split Hy) as (x & z & -> & Hx & Hz).
      destruct (eo_init EO z Hx) as (x' & [n1 C1] & V1).
      destruct (IH (p ++ x') z Hz) as (ms & L & V & [n2 C2]).
      assert (Lx : lenN x' = sizeof e) by (apply (proj1 valid_len); [assumption|apply fresh_valid; assumption]).
      exists (x' :: ms). rewrite lenN_cons. repeat split; [lia|constructor; assumption|].
      exists (S (Nat.max n1 n2)). intros a [|f] Ha Hf; [lia|]. cbn [for_range]. cbn [concat].
      unfold es in *. destruct (N.ltb_spec (lenN p) (lenN p + N.succ n * sizeof e)); [|lia].
      rewrite (@at_index_app p x z x') by (apply C1; lia). cbn [bind].
      replace (lenN p + N.succ n * sizeof e) with (lenN (p ++ x') + n * sizeof e) by (rewrite lenN_app, Lx; lia).
      replace (lenN p + sizeof e) with (lenN (p ++ x')) by (rewrite lenN_app, Lx; lia).
      rewrite (app_assoc p x'), C2 by lia. rewrite app_assoc. reflexivity.
  Qed.

  Definition move_body (a : nat) (i : N) (st : list cell * list cell) : res (list cell * list cell) :=
    let '(nb, ob) := st in
    nb1 <- at_index i (e_init (eops_at a) lay) nb ;;
    nb2 <- (if lenN ob <? i then UB UOob else at_index i (fun d => e_copy (eops_at a) lay d (dropN i ob)) nb1) ;;
    ob1 <- at_index i (e_destroy (eops_at a) lay) ob ;;
    Ok (nb2, ob1).

  Lemma move_loop xs : forall pn po y z, lenN pn = lenN po -> bytes (lenN xs * es) y -> Forall (valid e) xs ->
    exists xs' w, Forall2 (same e) xs' xs /\ bytes (lenN xs * es) w /\
      conv2 (fun a f => for_range f (lenN pn) (lenN pn + lenN xs * es) es (move_body a) (pn ++ y ++ z, po ++ concat xs))
            (Ok (pn ++ concat xs' ++ z, po ++ w)).
  Proof.
    induction xs as [|x xs IH]; intros pn po y z Hl Hy Hv.
    - apply bytes_0 in Hy. subst y. exists [], []. repeat split; [constructor|apply bytes_0; reflexivity|].
      exists 1%nat. intros a [|f] _ Hf; [lia|]. cbn [for_range].
      change (lenN (@nil (list cell))) with 0. destruct (N.ltb_spec (lenN pn) (lenN pn + 0 * es)); [lia|reflexivity].
    - inversion Hv as [|? ? Hx Hxs]; subst.
      rewrite lenN_cons in *. replace ((1 + lenN xs) * es) with (es + lenN xs * es) in Hy by lia.
      destruct (bytes_split Hy) as (y1 & y2 & -> & Hy1 & Hy2).
      destruct (eo_init EO (y2 ++ z) Hy1) as (x1 & [n1 C1] & V1).
      destruct (eo_copy EO (y2 ++ z) (concat xs) (proj1 fresh_valid _ _ V1) Hx) as (x2 & [n2 C2] & S2).
      destruct (eo_destroy EO (concat xs) Hx) as (w1 & [n3 C3] & B3).
      assert (Lx : lenN x2 = sizeof e) by (apply (proj1 valid_len); [assumption|]; apply same_valid in S2; tauto).
      destruct (IH (pn ++ x2) (po ++ w1) y2 z) as (xs' & w & F & Bw & [n4 C4]).
      { rewrite !lenN_app, Lx, (bytes_len B3), Hl. reflexivity. } { assumption. } { assumption. }
      exists (x2 :: xs'), (w1 ++ w). repeat split; [constructor; assumption| |].
      { replace ((1 + lenN xs) * es) with (es + lenN xs * es) by lia. apply bytes_app; assumption. }
      exists (S (Nat.max (Nat.max n1 n2) (Nat.max n3 n4))). intros a [|f] Ha Hf; [lia|]. cbn [for_range]. cbn [concat].
      unfold es in *. destruct (N.ltb_spec (lenN pn) (lenN pn + (1 + lenN xs) * sizeof e)); [|lia].
      unfold move_body at 1. rewrite <- (app_assoc y1).
      rewrite (@at_index_app pn y1 (y2 ++ z) x1) by (apply C1; lia). cbn [bind].
      rewrite lenN_app. destruct (N.ltb_spec (lenN po + lenN (x ++ concat xs)) (lenN pn)); [lia|].
      rewrite (@dropN_app_exact _ po (x ++ concat xs) (lenN pn) Hl).
      rewrite (@at_index_app pn x1 (y2 ++ z) x2) by (apply C2; lia). cbn [bind].
      assert (AI := @at_index_app po x (concat xs) w1 (e_destroy (eops_at a) lay) ltac:(apply C3; lia)). rewrite <- Hl in AI.
      rewrite AI. cbn [bind]. clear AI.
      replace (lenN pn + (1 + lenN xs) * sizeof e) with (lenN (pn ++ x2) + lenN xs * sizeof e) by (rewrite lenN_app, Lx; lia).
      replace (lenN pn + sizeof e) with (lenN (pn ++ x2)) by (rewrite lenN_app, Lx; lia).
      rewrite (app_assoc pn x2), (app_assoc po w1), C4 by lia. rewrite <- !app_assoc. reflexivity.
  Qed.
End Loops.

(** ** Vector::resize *)
Lemma concat_takeN e ms n : wf e -> Forall (valid e) ms -> n <= lenN ms ->
  takeN (n * sizeof e) (concat ms) = concat (takeN n ms) /\ dropN (n * sizeof e) (concat ms) = concat (dropN n ms).
Proof.
  intros He Hv Hn.
  assert (Hc : concat ms = concat (takeN n ms) ++ concat (dropN n ms)).
  { rewrite <- concat_app, takeN_dropN. reflexivity. }
  assert (Hv2 : Forall (valid e) (takeN n ms)).
  { rewrite <- (takeN_dropN n ms) in Hv. apply Forall_app in Hv. tauto. }
  assert (L : n * sizeof e = lenN (concat (takeN n ms))).
  { rewrite (concat_len He Hv2), lenN_takeN. f_equal. lia. }
  rewrite Hc. split; [apply takeN_app_exact|apply dropN_app_exact]; exact L.
Qed.
Lemma bytes_concat e ms : wf e -> Forall (valid e) ms -> Forall (bytes (sizeof e)) ms -> bytes (lenN (concat ms)) (concat ms).
Proof.
  intros He Hv. induction 1 as [|m ms Hm Hms IH]; [apply bytes_0; reflexivity|].
  inversion Hv; subst. cbn [concat]. rewrite lenN_app. apply bytes_app; [|auto]. rewrite (bytes_len Hm). assumption.
Qed.
Lemma bytes_chunks s n y : bytes (n * s) y -> exists ms, lenN ms = n /\ y = concat ms /\ Forall (bytes s) ms.
Proof.
  revert y; induction n as [|n IH] using N.peano_ind; intros y H.
  - apply bytes_0 in H. subst. exists []. auto.
  - replace (N.succ n * s) with (s + n * s) in H by lia. destruct (bytes_split H) as (a & b & -> & Ha & Hb).
    destruct (IH _ Hb) as (ms & L & -> & F). exists (a :: ms). rewrite lenN_cons. repeat split; [lia|constructor; auto].
Qed.

Definition resized (e : ty) (new : N) (ms : list (list cell)) (cap' : N) (ms' : list (list cell)) : Prop :=
  lenN ms' = new /\ Forall (valid e) ms' /\ lenN (concat ms') <= cap' /\ cap' <= max_size /\
  exists xs ys, ms' = xs ++ ys /\ Forall2 (same e) xs (takeN new ms) /\ Forall (fresh e) ys.

Lemma Forall2_same_refl e ms : Forall (valid e) ms -> Forall2 (same e) ms ms.
Proof. intros H. apply Forall2_diag. eapply Forall_impl; [|exact H]. intros; apply same_refl; assumption. Qed.

Lemma max_size_lt : max_size < two64. Proof. unfold max_size, two64; lia. Qed.

Theorem vec_resize_ok e new cap ms : wf e -> plain e -> 1 <= sizeof e -> elt_ok e ->
  Forall (valid e) ms -> lenN (concat ms) <= cap -> cap <= max_size -> new * sizeof e <= max_size ->
  exists cap' ms', conv2 (fun a f => vec_resize f (eops_at a) e new cap (concat ms)) (Ok (cap', concat ms')) /\
    resized e new ms cap' ms'.
Proof.
  intros He Hp Hs EO Hv Hc1 Hc2 Hn.
  destruct (elt_layout_ok He Hp Hs) as (HL1 & HL2 & HL3 & HL4).
  assert (Hlen := concat_len He Hv).
  assert (M := max_size_lt).
  assert (Hvc : vec_count e (concat ms) = Ok (lenN ms)).
  { unfold vec_count. destruct (N.eqb_spec (sizeof e) 0); [lia|]. rewrite Hlen, N.div_mul by lia. reflexivity. }
  assert (Hwm : wmul new (sizeof e) = new * sizeof e) by (apply wmul_small; lia).
  assert (HvT : Forall (valid e) (takeN new ms)).
  { rewrite <- (takeN_dropN new ms) in Hv. apply Forall_app in Hv. tauto. }
  assert (HvD : Forall (valid e) (dropN new ms)).
  { rewrite <- (takeN_dropN new ms) in Hv. apply Forall_app in Hv. tauto. }
  unfold vec_resize. rewrite HL4, Hwm, HL2, Hvc. cbn [negb bind].
  destruct (hasc (rops e)) eqn:Eh; cbn [negb].
  - (* elements with containers *)
    destruct (N.le_gt_cases new (lenN ms)) as [Hle|Hgt].
    + (* shrinking, or same size *)
      destruct (concat_takeN He Hv Hle) as [HcT HcD].
      assert (HlT : lenN (concat (takeN new ms)) = new * sizeof e).
      { rewrite (concat_len He HvT), lenN_takeN. f_equal. lia. }
      destruct (@destroy_loop e Hs EO (dropN new ms) (concat (takeN new ms)) HvD) as (y & By & [n1 C1]).
      rewrite HlT, lenN_dropN in C1. rewrite lenN_dropN in By.
      exists cap, (takeN new ms). split.
      * exists (S n1). intros a f Ha Hf.
        assert (Hd : (if new <? lenN ms
            then for_range f (new * sizeof e) (lenN (concat ms)) (sizeof e) (fun i c => at_index i (e_destroy (eops_at a) (elt_layout e)) c) (concat ms)
            else Ok (concat ms)) = Ok (concat (takeN new ms) ++ y)).
        { destruct (N.ltb_spec new (lenN ms)) as [Hlt|Hge].
          - rewrite <- (takeN_dropN new ms) at 2. rewrite concat_app.
            replace (lenN (concat ms)) with (new * sizeof e + (lenN ms - new) * sizeof e) by nia.
            apply C1; lia.
          - assert (new = lenN ms) by lia. subst new. rewrite N.sub_diag in By. apply bytes_0 in By. subst y.
            rewrite app_nil_r, takeN_all by lia. reflexivity. }
        rewrite Hd. cbn [bind].
        destruct (N.leb_spec (new * sizeof e) cap); [|nia].
        unfold vec_raw_resize. rewrite lenN_app, HlT. destruct (N.leb_spec (new * sizeof e) (new * sizeof e + lenN y)); [|lia].
        rewrite dropN_app_exact, takeN_app_exact by (symmetry; exact HlT). rewrite (bytes_all By). cbn [bind].
        destruct (N.ltb_spec (lenN ms) new); [lia|]. reflexivity.
      * repeat split; auto.
        { rewrite lenN_takeN. lia. }
        { rewrite HlT. nia. }
        exists (takeN new ms), []. rewrite app_nil_r. split; [reflexivity|]. split; [apply Forall2_same_refl; assumption|auto].
    + (* growing *)
      destruct (N.ltb_spec new (lenN ms)); [lia|]. destruct (N.ltb_spec (lenN ms) new); [|lia]. cbn [bind].
      rewrite Hlen in *.
      destruct (N.leb_spec (new * sizeof e) cap) as [Hcap|Hcap].
      * (* in place *)
        unfold vec_raw_resize. rewrite Hlen.
        destruct (N.leb_spec (new * sizeof e) (lenN ms * sizeof e)); [nia|].
        destruct (N.leb_spec (new * sizeof e) cap); [|lia]. cbn [bind].
        destruct (@init_loop e He Hs EO (new - lenN ms) (concat ms) (repN (new * sizeof e - lenN ms * sizeof e) (B 0))) as (ms2 & L2 & V2 & [n1 C1]).
        { replace (new * sizeof e - lenN ms * sizeof e) with ((new - lenN ms) * sizeof e) by nia. apply bytes_repN. }
        exists cap, (ms ++ ms2). split.
        { exists n1. intros a f Ha Hf. specialize (C1 a f Ha Hf). rewrite Hlen in C1.
          replace (lenN ms * sizeof e + (new - lenN ms) * sizeof e) with (new * sizeof e) in C1 by nia.
          rewrite C1, concat_app. reflexivity. }
        assert (V : Forall (valid e) (ms ++ ms2)) by (apply Forall_app; auto using Forall_fresh_valid).
        repeat split; auto.
        { rewrite lenN_app. lia. }
        { rewrite (concat_len He V), lenN_app. nia. }
        exists ms, ms2. split; [reflexivity|]. rewrite takeN_all by lia. split; [apply Forall2_same_refl; assumption|auto].
      * (* reallocation *)
        unfold vec_raw_resize. change (lenN (@nil cell)) with 0.
        destruct (N.leb_spec (new * sizeof e) 0); [nia|]. destruct (N.ltb_spec max_size (new * sizeof e)); [lia|].
        cbn [forallb bind app]. rewrite N.sub_0_r.
        set (ncap := N.min max_size (0 + N.max 0 (new * sizeof e))).
        assert (Hnc : ncap = new * sizeof e) by (unfold ncap; lia).
        replace (repN (new * sizeof e) (B 0)) with (repN (lenN ms * sizeof e) (B 0) ++ repN ((new - lenN ms) * sizeof e) (B 0))
          by (rewrite <- repN_add; f_equal; nia).
        replace (N.min (lenN ms * sizeof e) (new * sizeof e)) with (lenN ms * sizeof e) by nia.
        destruct (@move_loop e He Hs EO ms [] [] (repN (lenN ms * sizeof e) (B 0)) (repN ((new - lenN ms) * sizeof e) (B 0)) eq_refl (bytes_repN _ _) Hv)
          as (xs & w & F & Bw & [n1 C1]).
        assert (Vx : Forall (valid e) xs).
        { clear -F. induction F as [|x y l l' H]; constructor; auto. apply same_valid in H; tauto. }
        assert (Lx : lenN xs = lenN ms) by (apply (F2_lenN F)).
        destruct (@init_loop e He Hs EO (new - lenN ms) (concat xs) (repN ((new - lenN ms) * sizeof e) (B 0)) (bytes_repN _ _)) as (ms2 & L2 & V2 & [n2 C2]).
        rewrite (concat_len He Vx), Lx in C2.
        exists ncap, (xs ++ ms2). split.
        { exists (Nat.max n1 n2). intros a f Ha Hf. specialize (C1 a f ltac:(lia) ltac:(lia)). cbn [app] in C1.
          change (lenN (@nil cell)) with 0 in C1. rewrite N.add_0_l in C1. unfold move_body in C1. rewrite C1. cbn [bind].
          rewrite (bytes_all Bw). cbn [bind]. specialize (C2 a f ltac:(lia) ltac:(lia)).
          replace (lenN ms * sizeof e + (new - lenN ms) * sizeof e) with (new * sizeof e) in C2 by nia.
          rewrite C2, concat_app. reflexivity. }
        assert (V : Forall (valid e) (xs ++ ms2)) by (apply Forall_app; auto using Forall_fresh_valid).
        repeat split; auto.
        { rewrite lenN_app. lia. }
        { rewrite (concat_len He V), lenN_app, Hnc. nia. }
        { lia. }
        exists xs, ms2. split; [reflexivity|]. rewrite takeN_all by lia. auto.
  - (* memcpy *)
    assert (Hb : Forall (bytes (sizeof e)) ms).
    { eapply Forall_impl; [|exact Hv]. intros m Hm. apply (hasc_valid m He Hp Eh). exact Hm. }
    assert (HB := bytes_concat He Hv Hb).
    unfold vec_raw_resize. rewrite Hlen.
    destruct (N.leb_spec (new * sizeof e) (lenN ms * sizeof e)) as [Hle|Hgt].
    + assert (Hle' : new <= lenN ms) by nia.
      destruct (concat_takeN He Hv Hle') as [HcT HcD]. rewrite HcT, HcD.
      assert (Hall : forallb is_byte (concat (dropN new ms)) = true).
      { apply bytes_all in HB. rewrite <- (takeN_dropN new ms), concat_app, forallb_app in HB. apply andb_true_iff in HB. tauto. }
      rewrite Hall. exists cap, (takeN new ms). split; [apply conv2_const|].
      repeat split; auto.
      { rewrite lenN_takeN. lia. }
      { rewrite (concat_len He HvT), lenN_takeN. nia. }
      exists (takeN new ms), []. rewrite app_nil_r. split; [reflexivity|]. split; [apply Forall2_same_refl; assumption|auto].
    + assert (Hlt : lenN ms < new) by nia.
      destruct (bytes_chunks (s := sizeof e) (n := new - lenN ms) (y := repN (new * sizeof e - lenN ms * sizeof e) (B 0))) as (ms2 & L2 & E2 & F2).
      { replace (new * sizeof e - lenN ms * sizeof e) with ((new - lenN ms) * sizeof e) by nia. apply bytes_repN. }
      assert (V2 : Forall (fresh e) ms2).
      { eapply Forall_impl; [|exact F2]. intros m Hm. apply (hasc_fresh He Hp Eh). exact Hm. }
      assert (V : Forall (valid e) (ms ++ ms2)) by (apply Forall_app; auto using Forall_fresh_valid).
      assert (Hfin : forall cap', new * sizeof e <= cap' -> cap' <= max_size -> resized e new ms cap' (ms ++ ms2)).
      { intros cap' H1 H2. repeat split; auto.
        - rewrite lenN_app. lia.
        - rewrite (concat_len He V), lenN_app, L2. nia.
        - exists ms, ms2. split; [reflexivity|]. rewrite takeN_all by lia. split; [apply Forall2_same_refl; assumption|auto]. }
      rewrite E2, (bytes_all HB).
      destruct (N.leb_spec (new * sizeof e) cap).
      * exists cap, (ms ++ ms2). rewrite concat_app. split; [apply conv2_const|]. apply Hfin; lia.
      * destruct (N.ltb_spec max_size (new * sizeof e)); [lia|].
        eexists _, (ms ++ ms2). rewrite concat_app. split; [apply conv2_const|]. apply Hfin; lia.
Qed.
