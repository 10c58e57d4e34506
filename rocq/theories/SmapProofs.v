(** * SmapProofs *)
From Coq Require Import Sorted.
From Verif Require Import Base.
From Verif Require Import Names NamesProofs Graph GraphProofs Registry RegistryOps Smap.
Local Open Scope nat_scope.

Lemma slt_irrefl a : slt a a = false.
Proof. induction a as [|x a IH]; simpl; [reflexivity|]. rewrite ceqb_refl. exact IH. Qed.
Lemma slt_trans a : forall b c, slt a b = true -> slt b c = true -> slt a c = true.
Proof.
  induction a as [|x a IH]; intros [|y b] [|z c]; simpl; try discriminate; [reflexivity|].
  destruct (ceqb x y) eqn:E1; [apply ceqb_eq in E1; subst y|].
  - destruct (ceqb x z) eqn:E2; [apply IH|]. intros _ H. exact H.
  - destruct (ceqb y z) eqn:E2; [apply ceqb_eq in E2; subst z; rewrite E1; auto|].
    intros A B. apply Nat.ltb_lt in A, B. destruct (ceqb x z) eqn:E3; [apply ceqb_eq in E3; subst; lia|]. apply Nat.ltb_lt. lia.
Qed.
Lemma slt_asym a b : slt a b = true -> slt b a = false.
Proof. intros H. destruct (slt b a) eqn:E; [|reflexivity]. assert (X := slt_trans H E). rewrite slt_irrefl in X. discriminate. Qed.
Lemma slt_neq a b : slt a b = true -> a <> b.
Proof. intros H ->. rewrite slt_irrefl in H. discriminate. Qed.
Lemma seqb_false a b : a <> b -> seqb a b = false.
Proof. intros H. destruct (seqb a b) eqn:E; [apply seqb_eq in E; congruence|reflexivity]. Qed.

Definition sorted {A} (m : smap A) : Prop := StronglySorted (fun a b => slt (fst a) (fst b) = true) m.
Definition ssorted (l : list str) : Prop := StronglySorted (fun a b => slt a b = true) l.
(** Order of a multimap: equal keys allowed. *)
Definition wsorted {A} (m : smap A) : Prop := StronglySorted (fun a b => slt (fst b) (fst a) = false) m.

Lemma sorted_cons {A} k (v : A) m : sorted ((k, v) :: m) <-> sorted m /\ Forall (fun p => slt k (fst p) = true) m.
Proof. split; [intros H; inversion H; auto|intros [H1 H2]; constructor; auto]. Qed.
Lemma find_none_lt {A} n (m : smap A) : Forall (fun p => slt n (fst p) = true) m -> m_find n m = None.
Proof.
  induction 1 as [|[k v] m H F IH]; simpl in *; [reflexivity|]. rewrite seqb_false; [exact IH|]. intros ->. rewrite slt_irrefl in H. discriminate.
Qed.
Lemma m_insert_Forall {A} (P : str * A -> Prop) n v m : P (n, v) -> Forall P m -> Forall P (m_insert n v m).
Proof.
  intros Hn. induction 1 as [|[k x] m H F IH]; simpl; [auto|]. destruct (slt k n); [auto|]. destruct (slt n k); auto.
Qed.
Lemma m_insert_sorted {A} n (v : A) m : sorted m -> sorted (m_insert n v m).
Proof.
  induction m as [|[k x] m IH]; intros H; simpl; [repeat constructor|]. apply sorted_cons in H as [H F].
  destruct (slt k n) eqn:E1; [|destruct (slt n k) eqn:E2].
  - apply sorted_cons. split; [auto|]. apply m_insert_Forall; assumption.
  - apply sorted_cons. split; [apply sorted_cons; auto|]. constructor; [exact E2|]. eapply Forall_impl; [|exact F]. intros p Hp. eapply slt_trans; eauto.
  - apply sorted_cons. auto.
Qed.
Lemma m_find_insert {A} n k (v : A) m : sorted m ->
  m_find n (m_insert k v m) = if seqb k n then match m_find k m with Some x => Some x | None => Some v end else m_find n m.
Proof.
  induction m as [|[j x] m IH]; intros H; simpl; [destruct (seqb k n); reflexivity|]. apply sorted_cons in H as [H F].
  destruct (slt j k) eqn:E1; [|destruct (slt k j) eqn:E2].
  - simpl. rewrite IH by assumption. rewrite (seqb_false (slt_neq E1)). destruct (seqb j n) eqn:E; [|reflexivity].
    apply seqb_eq in E. subst n. destruct (seqb k j) eqn:E; [apply seqb_eq in E; subst; rewrite slt_irrefl in E1; discriminate|reflexivity].
  - simpl. destruct (seqb k n) eqn:E; [|reflexivity]. apply seqb_eq in E. subst n.
    rewrite seqb_false by (apply not_eq_sym, slt_neq; assumption). rewrite find_none_lt; [reflexivity|].
    eapply Forall_impl; [|exact F]. intros p Hp. eapply slt_trans; eauto.
  - assert (j = k) by (apply slt_total; assumption). subst k. simpl. rewrite seqb_refl. destruct (seqb j n); reflexivity.
Qed.
Lemma m_erase_sorted {A} n (m : smap A) : sorted m -> sorted (m_erase n m).
Proof.
  induction m as [|[k x] m IH]; intros H; [constructor|]. apply sorted_cons in H as [H F]. unfold m_erase. simpl. destruct (negb (seqb k n)); [|apply IH; assumption].
  apply sorted_cons. split; [apply IH; assumption|]. apply Forall_forall. intros p Hp. apply filter_In in Hp as [Hp _]. rewrite Forall_forall in F. auto.
Qed.
Lemma m_find_erase {A} n k (m : smap A) : m_find n (m_erase k m) = if seqb k n then None else m_find n m.
Proof.
  induction m as [|[j x] m IH]; simpl; [destruct (seqb k n); reflexivity|]. unfold m_erase. simpl. fold (m_erase k m). destruct (seqb j k) eqn:E; simpl.
  - apply seqb_eq in E. subst j. rewrite IH. destruct (seqb k n); reflexivity.
  - rewrite IH. destruct (seqb j n) eqn:E2; [|reflexivity]. apply seqb_eq in E2. subst j.
    destruct (seqb k n) eqn:E3; [apply seqb_eq in E3; subst k; rewrite seqb_refl in E; discriminate|reflexivity].
Qed.
Lemma m_set_sorted {A} n (v : A) m : sorted m -> sorted (m_set n v m).
Proof. intros H. apply m_insert_sorted, m_erase_sorted, H. Qed.
Lemma m_find_set {A} n k (v : A) m : sorted m -> m_find n (m_set k v m) = if seqb k n then Some v else m_find n m.
Proof.
  intros H. unfold m_set. rewrite m_find_insert by (apply m_erase_sorted; assumption). rewrite !m_find_erase, seqb_refl. destruct (seqb k n); reflexivity.
Qed.
Lemma m_find_In {A} n (v : A) m : sorted m -> (m_find n m = Some v <-> In (n, v) m).
Proof.
  induction m as [|[k x] m IH]; intros H; simpl; [split; [discriminate|tauto]|]. apply sorted_cons in H as [H F]. destruct (seqb k n) eqn:E.
  - apply seqb_eq in E. subst k. split; [intros X; inversion X; auto|]. intros [X|X]; [congruence|]. rewrite Forall_forall in F. apply F in X. simpl in X. rewrite slt_irrefl in X. discriminate.
  - rewrite IH by assumption. split; [auto|]. intros [X|X]; [|assumption]. inversion X; subst. rewrite seqb_refl in E. discriminate.
Qed.
Lemma m_find_None {A} n (m : smap A) : m_find n m = None <-> ~ In n (map fst m).
Proof.
  induction m as [|[k x] m IH]; simpl; [tauto|]. destruct (seqb k n) eqn:E; [apply seqb_eq in E; subst; split; [discriminate|tauto]|].
  rewrite IH. split; [intros H [X|X]; [subst; rewrite seqb_refl in E; discriminate|auto]|tauto].
Qed.
Lemma sorted_keys {A} (m : smap A) : sorted m -> ssorted (map fst m).
Proof.
  induction m as [|[k x] m IH]; intros H; [constructor|]. apply sorted_cons in H as [H F]. simpl. constructor; [apply IH, H|].
  apply Forall_forall. intros y Hy. apply in_map_iff in Hy as (p & <- & Hp). rewrite Forall_forall in F. auto.
Qed.
Lemma ssorted_NoDup l : ssorted l -> NoDup l.
Proof.
  induction 1 as [|x l H IH F]; constructor; [|assumption]. intros Hi. rewrite Forall_forall in F. apply F in Hi. rewrite slt_irrefl in Hi. discriminate.
Qed.
(** Sorted maps with the same lookups are the same. *)
Lemma sorted_ext {A} (a : smap A) : forall b, sorted a -> sorted b -> (forall n, m_find n a = m_find n b) -> a = b.
Proof.
  induction a as [|[k x] a IH]; intros [|[j y] b] Ha Hb E.
  - reflexivity.
  - specialize (E j). simpl in E. rewrite seqb_refl in E. discriminate.
  - specialize (E k). simpl in E. rewrite seqb_refl in E. discriminate.
  - apply sorted_cons in Ha as [Ha Fa], Hb as [Hb Fb]. assert (k = j).
    { apply slt_total; [destruct (slt k j) eqn:L|destruct (slt j k) eqn:L]; try reflexivity; exfalso.
      - assert (X := E k). simpl in X. rewrite seqb_refl in X. rewrite (seqb_false (not_eq_sym (slt_neq L))) in X.
        rewrite find_none_lt in X; [discriminate|]. eapply Forall_impl; [|exact Fb]. intros p Hp. eapply slt_trans; eauto.
      - assert (X := E j). simpl in X. rewrite seqb_refl in X. rewrite (seqb_false (not_eq_sym (slt_neq L))) in X.
        rewrite find_none_lt in X; [discriminate|]. eapply Forall_impl; [|exact Fa]. intros p Hp. eapply slt_trans; eauto. }
    subst j. assert (X := E k). simpl in X. rewrite seqb_refl in X. inversion X; subst y. f_equal. apply IH; try assumption.
    intros n. specialize (E n). simpl in E. destruct (seqb k n) eqn:Ek; [|exact E]. apply seqb_eq in Ek. subst n. rewrite !find_none_lt by assumption. reflexivity.
Qed.
(** Sets. *)
Lemma set_insert_Forall (P : str -> Prop) n l : P n -> Forall P l -> Forall P (set_insert n l).
Proof. intros Hn. induction 1; simpl; [auto|]. destruct (slt x n); [auto|]. destruct (slt n x); auto. Qed.
Lemma set_insert_sorted n l : ssorted l -> ssorted (set_insert n l).
Proof.
  induction 1 as [|k l H IH F]; simpl; [repeat constructor|]. destruct (slt k n) eqn:E1; [|destruct (slt n k) eqn:E2].
  - constructor; [assumption|]. apply set_insert_Forall; assumption.
  - constructor; [constructor; assumption|]. constructor; [assumption|]. eapply Forall_impl; [|exact F]. intros p Hp. eapply slt_trans; eauto.
  - constructor; assumption.
Qed.
Lemma ssorted_ext a : forall b, ssorted a -> ssorted b -> (forall x, In x a <-> In x b) -> a = b.
Proof.
  induction a as [|k a IH]; intros [|j b] Ha Hb E.
  - reflexivity.
  - exfalso. apply (proj2 (E j)). left. reflexivity.
  - exfalso. apply (proj1 (E k)). left. reflexivity.
  - inversion Ha as [|? ? Ha' Fa]; inversion Hb as [|? ? Hb' Fb]; subst. rewrite Forall_forall in Fa, Fb. assert (k = j).
    { destruct (proj1 (E k) (or_introl eq_refl)) as [X|X]; [auto|]. destruct (proj2 (E j) (or_introl eq_refl)) as [Y|Y]; [auto|].
      apply Fb in X. apply Fa in Y. rewrite (slt_asym X) in Y. discriminate. }
    subst j. f_equal. apply IH; try assumption. intros x. specialize (E x). simpl in E. split; intros Hx.
    + destruct (proj1 E (or_intror Hx)) as [X|X]; [|exact X]. subst x. apply Fa in Hx. rewrite slt_irrefl in Hx. discriminate.
    + destruct (proj2 E (or_intror Hx)) as [X|X]; [|exact X]. subst x. apply Fb in Hx. rewrite slt_irrefl in Hx. discriminate.
Qed.
(** Multimaps. *)
Definition values_of {A} (n : str) (m : smap A) : list A := map snd (filter (fun p => seqb (fst p) n) m).
Lemma mm_insert_Forall {A} (P : str * A -> Prop) n v m : P (n, v) -> Forall P m -> Forall P (mm_insert n v m).
Proof. intros Hn. induction 1 as [|[k x] m H F IH]; simpl; [auto|]. destruct (slt n k); auto. Qed.
Lemma mm_insert_sorted {A} n (v : A) m : wsorted m -> wsorted (mm_insert n v m).
Proof.
  induction 1 as [|[k x] m H IH F]; simpl; [repeat constructor|]. destruct (slt n k) eqn:E.
  - constructor; [constructor; assumption|]. constructor; [apply slt_asym; assumption|]. eapply Forall_impl; [|exact F]. simpl. intros p Hp.
    destruct (slt (fst p) n) eqn:E2; [|reflexivity]. rewrite (slt_trans E2 E) in Hp. discriminate.
  - constructor; [assumption|]. apply mm_insert_Forall; [exact E|exact F].
Qed.
Lemma values_insert {A} n k (v : A) m : wsorted m -> values_of n (mm_insert k v m) = if seqb k n then values_of n m ++ [v] else values_of n m.
Proof.
  unfold values_of. induction 1 as [|[j x] m H IH F]; simpl; [destruct (seqb k n); reflexivity|]. destruct (slt k j) eqn:E.
  - simpl. destruct (seqb k n) eqn:E2; [|destruct (seqb j n); reflexivity]. apply seqb_eq in E2. subst n.
    assert (Z : filter (fun p => seqb (fst p) k) ((j, x) :: m) = []).
    { assert (G : Forall (fun p : str * A => seqb (fst p) k = false) ((j, x) :: m)).
      { constructor; simpl; [apply seqb_false, not_eq_sym, slt_neq, E|]. eapply Forall_impl; [|exact F]. simpl. intros p Hp.
        apply seqb_false. intros <-. rewrite E in Hp. discriminate. }
      clear - G. induction G as [|p l Hp G IHG]; simpl; [reflexivity|]. rewrite Hp. exact IHG. }
    simpl in Z. rewrite Z. reflexivity.
  - simpl. destruct (seqb j n); simpl; rewrite IH; destruct (seqb k n); reflexivity.
Qed.
Lemma values_erase {A} n k (m : smap A) : values_of n (m_erase k m) = if seqb k n then [] else values_of n m.
Proof.
  unfold values_of, m_erase. induction m as [|[j x] m IH]; simpl; [destruct (seqb k n); reflexivity|]. destruct (seqb j k) eqn:E; simpl.
  - apply seqb_eq in E. subst j. rewrite IH. destruct (seqb k n); reflexivity.
  - destruct (seqb j n) eqn:E2; simpl; rewrite IH; [|reflexivity]. apply seqb_eq in E2. subst j.
    destruct (seqb k n) eqn:E3; [apply seqb_eq in E3; subst k; rewrite seqb_refl in E; discriminate|reflexivity].
Qed.
Lemma wsorted_erase {A} k (m : smap A) : wsorted m -> wsorted (m_erase k m).
Proof.
  induction 1 as [|p m H IH F]; [constructor|]. unfold m_erase. simpl. destruct (negb (seqb (fst p) k)); [|exact IH]. constructor; [exact IH|].
  apply Forall_forall. intros q Hq. apply filter_In in Hq as [Hq _]. rewrite Forall_forall in F. auto.
Qed.
