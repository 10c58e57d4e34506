(** * WrapperMain: which containers are protected, and what handle_invalidation leaves. *)
From Coq Require Import Sorted.
From Verif Require Import Base Wrapper WrapperSpec WrapperProofs.

(** The type below a path of String keys and indexes, not through strings. *)
Definition kstep (t : wty) (k : key) : option wty :=
  match t, k with
  | WComp fs, Fld false i => nth_error fs i
  | WArr n e, Idx i => if Nat.ltb i n then Some e else None
  | WVec e, Idx _ => Some e
  | _, _ => None
  end.
Fixpoint kpath (t : wty) (p : list key) : option wty :=
  match p with [] => Some t | k :: p' => match kstep t k with Some t' => kpath t' p' | None => None end end.
Lemma kpath_app t a b : kpath t (a ++ b) = match kpath t a with Some t' => kpath t' b | None => None end.
Proof. revert t. induction a as [|k a IH]; intros t; cbn [app kpath]; [reflexivity|]. destruct (kstep t k); [apply IH|reflexivity]. Qed.
Lemma kpath_part p : forall t t', kpath t p = Some t' -> part_type t (map kidx p) = Some t'.
Proof.
  induction p as [|k p IH]; intros t t' H; cbn [kpath map part_type] in *; [exact H|]. destruct (kstep t k) as [u|] eqn:E; [|discriminate].
  destruct t; cbn [kstep] in E; try discriminate; destruct k as [[|] i|i]; cbn [kstep kidx] in *; try discriminate.
  - rewrite E. auto.
  - destruct (Nat.ltb i n); [|discriminate]. injection E as ->. auto.
  - injection E as ->. auto.
Qed.
Lemma kpath_inj p : forall p' t t1 t2 , kpath t p = Some t1 -> kpath t p' = Some t2 -> map kidx p = map kidx p' -> p = p'.
Proof.
  induction p as [|k p IH]; intros [|k' p'] t t1 t2 H1 H2 E; try discriminate; [reflexivity|]. cbn [kpath map] in *. injection E as Ek Ep.
  destruct (kstep t k) as [u|] eqn:K; [|discriminate]. destruct (kstep t k') as [u'|] eqn:K'; [|discriminate].
  assert (k = k'). { destruct t; cbn [kstep] in K, K'; try discriminate; destruct k as [[|] i|i], k' as [[|] j|j]; cbn [kidx] in Ek; try discriminate; congruence. }
  subst k'. f_equal. rewrite K in K'. injection K' as <-. eapply IH; eassumption.
Qed.

(** ** Lookups *)
Lemma by_id_in l i w : by_id l i = Some w -> In w l /\ w_id w = i.
Proof. intros H. apply find_some in H. destruct H as [A B]. apply N.eqb_eq in B. auto. Qed.
Lemma in_by_id l w : NoDup (map w_id l) -> In w l -> by_id l (w_id w) = Some w.
Proof.
  unfold by_id. induction l as [|x l IH]; intros N H; [destruct H|]. cbn [map] in N. inversion N as [|? ? N1 N2]; subst. cbn [find]. destruct H as [-> |H]; [rewrite N.eqb_refl; reflexivity|].
  destruct (N.eqb_spec (w_id x) (w_id w)) as [E|]; [|auto]. exfalso. apply N1. rewrite E. apply in_map. exact H.
Qed.
Lemma by_path_in l p w : by_path l p = Some w -> In w l /\ w_path w = p.
Proof. intros H. apply find_some in H. destruct H as [A B]. apply path_eqb_eq in B. auto. Qed.
Lemma by_path_none l p : by_path l p = None -> forall w, In w l -> w_path w <> p.
Proof. intros H w Hw E. assert (X := find_none _ _ H w Hw). cbn beta in X. rewrite (proj2 (path_eqb_eq (w_path w) p) E) in X. discriminate. Qed.
Lemma path_uniq l w u : NoDup (map w_path l) -> In w l -> In u l -> w_path w = w_path u -> w = u.
Proof.
  induction l as [|x l IH]; intros N Hw Hu E; [destruct Hw|]. cbn [map] in N. inversion N as [|? ? N1 N2]; subst. destruct Hw as [-> |Hw], Hu as [-> |Hu]; auto.
  - exfalso. apply N1. rewrite E. apply in_map. exact Hu.
  - exfalso. apply N1. rewrite <- E. apply in_map. exact Hw.
Qed.
Lemma id_uniq l w u : NoDup (map w_id l) -> In w l -> In u l -> w_id w = w_id u -> w = u.
Proof. intros N Hw Hu E. assert (A := in_by_id N Hw). assert (B := in_by_id N Hu). rewrite E in A. congruence. Qed.

(** All wrappers on the way to a wrapper are there. *)
Definition closed (l : list wr) : Prop := forall w p k, In w l -> w_path w = p ++ [k] -> exists u, In u l /\ w_path u = p.
Lemma closed_prefix l : closed l -> forall r w p, In w l -> w_path w = p ++ r -> exists u, In u l /\ w_path u = p.
Proof.
  intros C r. induction r as [|k r IH] using rev_ind; intros w p Hw E; [rewrite app_nil_r in E; eauto|]. rewrite app_assoc in E. destruct (C w (p ++ r) k Hw E) as (u & Hu & Eu). eapply IH; eassumption.
Qed.

(** ** The containers found by the accessor *)
Fixpoint paths_from (i : nat) (l : list wty) : list (list astep) := match l with [] => [] | x :: r => map (cons (ACall i)) (paths x) ++ paths_from (S i) r end.
Lemma paths_eq t : paths t = (if is_container t then [[]] else []) ++ match t with WComp fs => paths_from 0 fs | WArr _ e | WVec e => map (cons AIterate) (paths e) | _ => [] end.
Proof. destruct t; reflexivity. Qed.
Lemma in_paths_from a l : forall i, In a (paths_from i l) <-> exists k x a', nth_error l k = Some x /\ a = ACall (i + k) :: a' /\ In a' (paths x).
Proof.
  induction l as [|y l IH]; intros i; cbn [paths_from]; [split; [intros []|intros (k & x & ? & H & _); destruct k; discriminate]|]. rewrite in_app_iff, IH, in_map_iff. split.
  - intros [(a' & <- & H)|(k & x & a' & H & -> & I)]; [exists O, y, a'; rewrite Nat.add_0_r; auto|exists (S k), x, a'; rewrite Nat.add_succ_r; auto].
  - intros (k & x & a' & H & -> & I). destruct k as [|k]; [injection H as ->; left; exists a'; rewrite Nat.add_0_r; auto|right; exists k, x, a'; rewrite Nat.add_succ_r; auto].
Qed.
Lemma paths_nil t : In [] (paths t) <-> is_container t = true.
Proof.
  rewrite paths_eq. split.
  - intros H. apply in_app_or in H. destruct H as [H|H]; [destruct (is_container t); [reflexivity|destruct H]|]. destruct t; try destruct H.
    + apply in_paths_from in H. destruct H as (k & x & a & _ & E & _). discriminate.
    + apply in_map_iff in H. destruct H as (a & E & _). discriminate.
    + reflexivity.
  - intros ->. left. reflexivity.
Qed.
Lemma paths_call t i a : In (ACall i :: a) (paths t) <-> exists fs x, t = WComp fs /\ nth_error fs i = Some x /\ In a (paths x).
Proof.
  rewrite paths_eq. split.
  - intros H. apply in_app_or in H. destruct H as [H|H]; [destruct (is_container t); [destruct H as [H|[]]; discriminate|destruct H]|]. destruct t; try destruct H.
    + apply in_paths_from in H. destruct H as (k & x & a' & Hk & E & I). injection E as -> ->. eauto.
    + apply in_map_iff in H. destruct H as (a' & E & _). discriminate.
    + apply in_map_iff in H. destruct H as (a' & E & _). discriminate.
  - intros (fs & x & -> & Hx & I). apply in_or_app. right. apply in_paths_from. exists i, x, a. auto.
Qed.
Lemma paths_iter t a : In (AIterate :: a) (paths t) <-> exists e, (t = WVec e \/ exists n, t = WArr n e) /\ In a (paths e).
Proof.
  rewrite paths_eq. split.
  - intros H. apply in_app_or in H. destruct H as [H|H]; [destruct (is_container t); [destruct H as [H|[]]; discriminate|destruct H]|]. destruct t; try destruct H.
    + apply in_paths_from in H. destruct H as (k & x & a' & Hk & E & I). discriminate.
    + apply in_map_iff in H. destruct H as (a' & E & I). injection E as ->. eauto.
    + apply in_map_iff in H. destruct H as (a' & E & I). injection E as ->. eauto.
  - intros (e & [-> |(n & ->)] & I); apply in_or_app; right; apply in_map; exact I.
Qed.
Definition shorter (a b : list astep) : Prop := (length a <= length b)%nat.
Lemma insert_in p l a : In a (insert_by p l) <-> a = p \/ In a l.
Proof. induction l as [|x l IH]; cbn [insert_by]; [cbn; intuition|]. match goal with |- context [Nat.ltb ?a ?b] => destruct (Nat.ltb a b) end; cbn [In]; [intuition|]. rewrite IH. cbn [In]. intuition. Qed.
Lemma insert_sorted p l : StronglySorted shorter l -> StronglySorted shorter (insert_by p l).
Proof.
  induction l as [|x l IH]; intros S; cbn [insert_by]; [repeat constructor|]. inversion S as [|? ? S1 S2]; subst. destruct (Nat.ltb_spec (length p) (length x)) as [L|L].
  - constructor; [exact S|]. constructor; [unfold shorter; lia|]. rewrite Forall_forall in *. intros a Ha. specialize (S2 a Ha). unfold shorter in *. lia.
  - constructor; [auto|]. rewrite Forall_forall in *. intros a Ha. apply insert_in in Ha. destruct Ha as [-> |Ha]; [exact L|auto].
Qed.
Lemma accessor_spec t : StronglySorted shorter (containers_accessor t) /\ forall a, In a (containers_accessor t) <-> In a (paths t).
Proof.
  unfold containers_accessor. assert (G : forall l acc, StronglySorted shorter acc -> StronglySorted shorter (fold_left (fun acc p => insert_by p acc) l acc) /\
    forall a, In a (fold_left (fun acc p => insert_by p acc) l acc) <-> In a l \/ In a acc).
  { induction l as [|p l IH]; intros acc S; cbn [fold_left]; [split; [exact S|cbn; intuition]|]. destruct (IH (insert_by p acc) (insert_sorted p S)) as [A B]. split; [exact A|]. intros a. rewrite B, insert_in. cbn [In]. intuition. }
  destruct (G (paths t) [] (SSorted_nil _)) as [A B]. split; [exact A|]. intros a. rewrite B. cbn [In]. intuition.
Qed.

Section Containers.
  Variables (l : list wr).
  Hypothesis Hc : closed l.
  Hypothesis Hp : NoDup (map w_path l).
  Variable T : wty.
  Hypothesis Hk : forall w, In w l -> kpath T (w_path w) = Some (w_type w).

  Lemma child_type w u k : In w l -> In u l -> w_path u = w_path w ++ [k] -> kstep (w_type w) k = Some (w_type u).
  Proof. intros Hw Hu E. assert (A := Hk Hu). rewrite E, kpath_app, (Hk Hw) in A. cbn [kpath] in A. destruct (kstep (w_type w) k); congruence. Qed.
  Lemma resolve_sound a : forall w c, In w l -> In a (paths (w_type w)) -> In c (resolve l w a) ->
    In c l /\ is_container (w_type c) = true /\ exists r, w_path c = w_path w ++ r /\ length r = length a.
  Proof.
    induction a as [|s a IH]; intros w c Hw Ha Hr; cbn [resolve] in Hr.
    - destruct Hr as [<- |[]]. split; [exact Hw|]. split; [apply paths_nil; exact Ha|]. exists []. rewrite app_nil_r. auto.
    - destruct s as [i|].
      + destruct (by_path l (w_path w ++ [Fld false i])) as [u|] eqn:E; [|destruct Hr]. apply by_path_in in E. destruct E as [Hu Eu].
        assert (K := child_type Hw Hu Eu). apply paths_call in Ha. destruct Ha as (fs & x & Et & Ex & Ia). rewrite Et in K. cbn [kstep] in K. assert (w_type u = x) by congruence.
        destruct (IH u c Hu) as (A & B & r & C & D); [rewrite H; exact Ia|exact Hr|]. split; [exact A|]. split; [exact B|]. exists (Fld false i :: r). rewrite C, Eu, <- app_assoc. cbn [length]. auto.
      + apply in_flat_map in Hr. destruct Hr as (u & Hu & Hr). apply filter_In in Hu. destruct Hu as [Hu Ci]. unfold child_index in Ci.
        destruct (strip (w_path w) (w_path u)) as [r0|] eqn:Sr; [|discriminate]. destruct r0 as [|k [|? ?]]; try discriminate; destruct k as [|i]; try discriminate. apply strip_eq in Sr.
        assert (K := child_type Hw Hu Sr). apply paths_iter in Ha. destruct Ha as (e & Et & Ia).
        assert (w_type u = e). { destruct Et as [Et|(n & Et)]; rewrite Et in K; cbn [kstep] in K; [congruence|destruct (Nat.ltb i n); congruence]. }
        destruct (IH u c Hu) as (A & B & r & C & D); [rewrite H; exact Ia|exact Hr|]. split; [exact A|]. split; [exact B|]. exists (Idx i :: r). rewrite C, Sr, <- app_assoc. cbn [length]. auto.
  Qed.
  Lemma resolve_complete r : forall w c, In w l -> In c l -> w_path c = w_path w ++ r -> is_container (w_type c) = true ->
    exists a, In a (paths (w_type w)) /\ In c (resolve l w a).
  Proof.
    induction r as [|k r IH]; intros w c Hw Hcl E Ct.
    - rewrite app_nil_r in E. assert (c = w) by (apply (path_uniq Hp); assumption). subst c. exists []. split; [apply paths_nil; exact Ct|left; reflexivity].
    - destruct (@closed_prefix l Hc r c (w_path w ++ [k]) Hcl) as (u & Hu & Eu); [rewrite E, <- app_assoc; reflexivity|]. assert (K := child_type Hw Hu Eu).
      destruct (IH u c Hu Hcl) as (a & Ia & Ra); [rewrite E, Eu, <- app_assoc; reflexivity|exact Ct|].
      destruct k as [b i|i]; destruct (w_type w) as [|fs|n te|te|] eqn:Et; cbn [kstep] in K; try discriminate; try (destruct b; discriminate).
      + destruct b; [discriminate|]. exists (ACall i :: a). split; [apply paths_call; eauto|]. cbn [resolve]. destruct (by_path l (w_path w ++ [Fld false i])) as [u'|] eqn:B.
        * apply by_path_in in B. destruct B as [Hu' Eu']. assert (u' = u) by (apply (path_uniq Hp); congruence). subst u'. exact Ra.
        * exfalso. exact (by_path_none B Hu Eu).
      + exists (AIterate :: a). assert (w_type u = te) by (destruct (Nat.ltb i n); congruence). subst te. split; [apply paths_iter; eauto|]. cbn [resolve]. apply in_flat_map. exists u. split; [|exact Ra]. apply filter_In. split; [exact Hu|].
        unfold child_index. rewrite (proj2 (strip_eq (w_path w) (w_path u) [Idx i]) Eu). reflexivity.
      + exists (AIterate :: a). assert (w_type u = te) by congruence. subst te. split; [apply paths_iter; eauto|]. cbn [resolve]. apply in_flat_map. exists u. split; [|exact Ra]. apply filter_In. split; [exact Hu|].
        unfold child_index. rewrite (proj2 (strip_eq (w_path w) (w_path u) [Idx i]) Eu). reflexivity.
  Qed.
  Definition depth_le (a b : wr) : Prop := (length (w_path a) <= length (w_path b))%nat.
  Lemma sorted_app {A} (R : A -> A -> Prop) a b : StronglySorted R a -> StronglySorted R b -> (forall x y, In x a -> In y b -> R x y) -> StronglySorted R (a ++ b).
  Proof.
    induction a as [|x a IH]; intros Sa Sb H; [exact Sb|]. cbn [app]. inversion Sa as [|? ? S1 S2]; subst. constructor; [apply IH; auto; intros; apply H; [right|]; assumption|].
    rewrite Forall_forall in *. intros y Hy. apply in_app_or in Hy. destruct Hy as [Hy|Hy]; [auto|apply H; [left; reflexivity|exact Hy]].
  Qed.
  Lemma cached_spec w : In w l ->
    (forall c, In c (cached_containers l w) <-> In c l /\ is_container (w_type c) = true /\ exists r, w_path c = w_path w ++ r) /\
    StronglySorted depth_le (cached_containers l w).
  Proof.
    intros Hw. destruct (accessor_spec (w_type w)) as [S M]. unfold cached_containers. split.
    - intros c. rewrite in_flat_map. split.
      + intros (a & Ha & Hr). apply M in Ha. destruct (resolve_sound Hw Ha Hr) as (A & B & r & C & _). eauto.
      + intros (A & B & r & C). destruct (resolve_complete Hw A C B) as (a & Ia & Ra). exists a. split; [apply M; exact Ia|exact Ra].
    - assert (G : forall a, In a (containers_accessor (w_type w)) -> forall c, In c (resolve l w a) -> length (w_path c) = (length (w_path w) + length a)%nat).
      { intros a Ha c Hr. apply M in Ha. destruct (resolve_sound Hw Ha Hr) as (_ & _ & r & C & D). rewrite C, app_length. lia. }
      clear M. induction S as [|a as' S IH F]; [constructor|]. cbn [flat_map]. apply sorted_app.
      + assert (Ga := G a (or_introl eq_refl)). induction (resolve l w a) as [|c cs IHc]; constructor; [apply IHc; intros; apply Ga; right; assumption|].
        apply Forall_forall. intros y Hy. unfold depth_le. rewrite (Ga c (or_introl eq_refl)), (Ga y (or_intror Hy)). lia.
      + apply IH. intros a' Ha'. apply G. right. exact Ha'.
      + intros x y Hx Hy. apply in_flat_map in Hy. destruct Hy as (a' & Ha' & Hy). unfold depth_le. rewrite (G a (or_introl eq_refl) x Hx), (G a' (or_intror Ha') y Hy). rewrite Forall_forall in F. specialize (F a' Ha'). unfold shorter in F. lia.
  Qed.
  (** Containers that are less deep come earlier. *)
  Lemma cached_order w L1 c L2 u : In w l -> cached_containers l w = L1 ++ c :: L2 -> In u (cached_containers l w) -> (length (w_path u) < length (w_path c))%nat -> In u L1.
  Proof.
    intros Hw E Hu Hl. destruct (cached_spec Hw) as [_ S]. rewrite E in *. clear E. induction L1 as [|x L1 IH]; cbn [app] in *.
    - exfalso. destruct Hu as [<- |Hu]; [lia|]. inversion S as [|? ? S1 S2]; subst. rewrite Forall_forall in S2. specialize (S2 u Hu). unfold depth_le in S2. lia.
    - destruct Hu as [-> |Hu]; [left; reflexivity|right]. inversion S. auto.
  Qed.
End Containers.
