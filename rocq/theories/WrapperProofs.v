(** * WrapperProofs: places, searches and updates. *)
From Verif Require Import Base Wrapper WrapperSpec.

Lemma nats_eqb_eq a b : nats_eqb a b = true <-> a = b.
Proof.
  revert b. induction a as [|x a IH]; intros [|y b]; cbn [nats_eqb]; try (split; [discriminate|discriminate]); [split; reflexivity|].
  rewrite andb_true_iff, Nat.eqb_eq, IH. split; [intros [-> ->]; reflexivity|intros H; injection H as -> ->; auto].
Qed.
Lemma place_eqb_eq a b : place_eqb a b = true <-> a = b.
Proof.
  destruct a as [x p], b as [y q]. unfold place_eqb. cbn [fst snd]. rewrite andb_true_iff, N.eqb_eq, nats_eqb_eq.
  split; [intros [-> ->]; reflexivity|intros H; injection H as -> ->; auto].
Qed.
Lemma key_eqb_eq a b : key_eqb a b = true <-> a = b.
Proof.
  destruct a as [s i|i], b as [t j|j]; cbn [key_eqb]; try (split; discriminate).
  - rewrite andb_true_iff, Nat.eqb_eq, Bool.eqb_true_iff. split; [intros [-> ->]; reflexivity|intros H; injection H as -> ->; auto].
  - rewrite Nat.eqb_eq. split; [intros ->; reflexivity|intros H; injection H as ->; auto].
Qed.
Lemma path_eqb_eq a b : path_eqb a b = true <-> a = b.
Proof.
  revert b. induction a as [|x a IH]; intros [|y b]; cbn [path_eqb]; try (split; discriminate); [split; reflexivity|].
  rewrite andb_true_iff, key_eqb_eq, IH. split; [intros [-> ->]; reflexivity|intros H; injection H as -> ->; auto].
Qed.
Lemma strip_eq p q r : strip p q = Some r <-> q = p ++ r.
Proof.
  revert q. induction p as [|x p IH]; intros q; cbn [strip app]; [split; [intros H; injection H as ->; reflexivity|intros ->; reflexivity]|].
  destruct q as [|y q]; [split; discriminate|]. destruct (key_eqb x y) eqn:E.
  - apply key_eqb_eq in E. subst y. rewrite IH. split; [intros ->; reflexivity|intros H; injection H as ->; reflexivity].
  - split; [discriminate|]. intros H. injection H as -> ->. assert (X := proj2 (key_eqb_eq x x) eq_refl). congruence.
Qed.

(** Induction on values. *)
Section WvalInd.
  Variable P : wval -> Prop.
  Hypothesis HL : P VLeaf.
  Hypothesis HC : forall l, Forall P l -> P (VComp l).
  Hypothesis HV : forall b l, Forall P l -> P (VVec b l).
  Hypothesis HS : forall b n, P (VStr b n).
  Fixpoint wval_ind' (v : wval) : P v :=
    match v with
    | VLeaf => HL
    | VComp l => HC ((fix go l : Forall P l := match l with [] => Forall_nil _ | x :: r => Forall_cons _ (wval_ind' x) (go r) end) l)
    | VVec b l => HV b ((fix go l : Forall P l := match l with [] => Forall_nil _ | x :: r => Forall_cons _ (wval_ind' x) (go r) end) l)
    | VStr b n => HS b n
    end.
End WvalInd.

Lemma locate_app q r pl v : locate pl v (q ++ r) = match locate pl v q with Some (pl', x) => locate pl' x r | None => None end.
Proof.
  revert pl v. induction q as [|i q IH]; intros pl v; cbn [app locate]; [reflexivity|].
  destruct v as [|l|b l|b n]; try reflexivity.
  - destruct (nth_error l i); [apply IH|reflexivity].
  - destruct (nth_error l i); [apply IH|reflexivity].
  - destruct (Nat.ltb i n); [apply IH|reflexivity].
Qed.

(** Where a part is: in the same buffer, or in one of the buffers of the value. *)
Lemma locate_place v : forall pl q pl' x, locate pl v q = Some (pl', x) ->
  (fst pl' = fst pl /\ snd pl' = snd pl ++ q) \/ (In (fst pl') (bufs v) /\ q <> []).
Proof.
  induction v as [|l IH|b l IH|b n] using wval_ind'; intros pl q pl' x H; destruct q as [|i q]; cbn [locate] in H.
  - injection H as <- <-. left. rewrite app_nil_r. auto.
  - discriminate.
  - injection H as <- <-. left. rewrite app_nil_r. auto.
  - destruct (nth_error l i) as [y|] eqn:E; [|discriminate]. assert (Hy := nth_error_In _ _ E). rewrite Forall_forall in IH. apply (IH y Hy) in H. cbn [fst snd] in H.
    destruct H as [[A B]|[A _]]; [left; rewrite <- app_assoc in B; auto|right; split; [|discriminate]]. cbn [bufs]. apply in_flat_map. exists y. auto.
  - injection H as <- <-. left. rewrite app_nil_r. auto.
  - destruct (nth_error l i) as [y|] eqn:E; [|discriminate]. assert (Hy := nth_error_In _ _ E). rewrite Forall_forall in IH. apply (IH y Hy) in H. cbn [fst snd] in H.
    right. split; [|discriminate]. cbn [bufs]. destruct l as [|z l]; [destruct Hy|]. destruct H as [[A B]|[A _]]; [left; congruence|right]. apply in_flat_map. exists y. auto.
  - injection H as <- <-. left. rewrite app_nil_r. auto.
  - destruct (Nat.ltb_spec i n); [|discriminate]. right. split; [|discriminate]. destruct q as [|j q]; cbn [locate] in H; [|discriminate]. injection H as <- <-. cbn [bufs fst]. destruct n; [lia|]. left. reflexivity.
Qed.
(** ... for the elements of a vector, in its buffer or in theirs. *)
Lemma locate_elt b i y q pl' x : locate (b, [i]) y q = Some (pl', x) -> (fst pl' = b /\ exists r, snd pl' = i :: r) \/ In (fst pl') (bufs y).
Proof. intros H. apply locate_place in H. cbn [fst snd app] in H. destruct H as [[A B]|[A _]]; [left; eauto|auto]. Qed.

Lemma NoDup_flat_map (l : list wval) i j y z b : NoDup (flat_map bufs l) -> nth_error l i = Some y -> nth_error l j = Some z -> In b (bufs y) -> In b (bufs z) -> i = j.
Proof.
  revert i j. induction l as [|a l IH]; intros i j N Hi Hj By Bz; [destruct i; discriminate|]. cbn [flat_map] in N.
  assert (D : forall k w, nth_error l k = Some w -> In b (bufs w) -> In b (bufs a) -> False).
  { intros k w Hk Bw Ba. assert (X : In b (flat_map bufs l)) by (apply in_flat_map; exists w; split; [eapply nth_error_In; eassumption|exact Bw]).
    clear - N Ba X. induction (bufs a) as [|c r IHr]; [destruct Ba|]. cbn [app] in N. inversion N as [|? ? N1 N2]; subst. destruct Ba as [-> |Ba]; [apply N1; apply in_or_app; auto|auto]. }
  destruct i as [|i], j as [|j]; cbn [nth_error] in Hi, Hj; [reflexivity| | |].
  - injection Hi as ->. exfalso. eapply D; eassumption.
  - injection Hj as ->. exfalso. eapply D; eassumption.
  - f_equal. eapply IH; try eassumption. clear - N. induction (bufs a); [exact N|]. cbn [app] in N. inversion N. auto.
Qed.
Lemma NoDup_app_r {A} (a b : list A) : NoDup (a ++ b) -> NoDup b.
Proof. induction a; [auto|]. cbn [app]. intros H. inversion H. auto. Qed.
Lemma NoDup_app_l {A} (a b : list A) : NoDup (a ++ b) -> NoDup a.
Proof. induction a as [|x a IH]; [constructor|]. cbn [app]. intros H. inversion H as [|? ? H1 H2]; subst. constructor; [|auto]. intros X. apply H1. apply in_or_app. auto. Qed.
Lemma NoDup_flat_map_one (l : list wval) i y c : NoDup (c :: flat_map bufs l) -> nth_error l i = Some y -> NoDup (c :: bufs y).
Proof.
  revert i. induction l as [|a l IH]; intros [|i] N H; try discriminate; cbn [nth_error flat_map] in *.
  - injection H as ->. change (c :: bufs y ++ flat_map bufs l) with ((c :: bufs y) ++ flat_map bufs l) in N. exact (NoDup_app_l N).
  - apply (IH i); [|exact H]. inversion N as [|? ? N1 N2]; subst. constructor; [intros X; apply N1; apply in_or_app; auto|exact (NoDup_app_r N2)].
Qed.

(** Different parts are at different places. *)
Lemma locate_inj v : forall pl q1 q2 pl' x1 x2, NoDup (fst pl :: bufs v) -> locate pl v q1 = Some (pl', x1) -> locate pl v q2 = Some (pl', x2) -> q1 = q2.
Proof.
  assert (Z : forall u pl q pl' x, NoDup (fst pl :: bufs u) -> locate pl u q = Some (pl', x) -> pl' = pl -> q = []).
  { intros u pl q pl' x N H E. subst pl'. apply locate_place in H. destruct H as [[_ B]|[A _]].
    - rewrite <- (app_nil_r (snd pl)) in B at 1. apply app_inv_head in B. auto.
    - inversion N. contradiction. }
  induction v as [|l IH|b l IH|b n] using wval_ind'; intros pl q1 q2 pl' x1 x2 N H1 H2;
    (destruct q1 as [|i q1]; [injection H1 as <- <-; symmetry; eapply Z; [exact N|exact H2|reflexivity]|]);
    (destruct q2 as [|j q2]; [injection H2 as <- <-; eapply Z; [exact N|exact H1|reflexivity]|]); cbn [locate] in H1, H2; try discriminate.
  - destruct (nth_error l i) as [y|] eqn:Ei; [|discriminate]. destruct (nth_error l j) as [z|] eqn:Ej; [|discriminate]. cbn [bufs] in N.
    assert (E : i = j).
    { apply locate_place in H1, H2. cbn [fst snd] in H1, H2. destruct H1 as [[A1 B1]|[A1 _]], H2 as [[A2 B2]|[A2 _]].
      - rewrite B1 in B2. rewrite <- !app_assoc in B2. apply app_inv_head in B2. injection B2 as ->. reflexivity.
      - exfalso. inversion N as [|? ? N1 N2]; subst. apply N1. rewrite <- A1. apply in_flat_map. exists z. split; [eapply nth_error_In; eassumption|exact A2].
      - exfalso. inversion N as [|? ? N1 N2]; subst. apply N1. rewrite <- A2. apply in_flat_map. exists y. split; [eapply nth_error_In; eassumption|exact A1].
      - inversion N as [|? ? N1 N2]; subst. eapply NoDup_flat_map; eassumption. }
    subst j. rewrite Ei in Ej. injection Ej as <-. f_equal. rewrite Forall_forall in IH. eapply (IH y (nth_error_In _ _ Ei)); [|exact H1|exact H2]. cbn [fst]. exact (NoDup_flat_map_one N Ei).
  - destruct (nth_error l i) as [y|] eqn:Ei; [|discriminate]. destruct (nth_error l j) as [z|] eqn:Ej; [|discriminate].
    assert (N' : NoDup (b :: flat_map bufs l)). { cbn [bufs] in N. destruct l as [|a l]; [destruct i; discriminate|]. inversion N. assumption. }
    assert (E : i = j).
    { apply locate_elt in H1, H2. destruct H1 as [(A1 & r1 & B1)|A1], H2 as [(A2 & r2 & B2)|A2].
      - rewrite B1 in B2. injection B2 as -> _. reflexivity.
      - exfalso. apply NoDup_cons_iff in N'. destruct N' as [N1 _]. apply N1. rewrite <- A1. apply in_flat_map. exists z. split; [eapply nth_error_In; eassumption|assumption].
      - exfalso. apply NoDup_cons_iff in N'. destruct N' as [N1 _]. apply N1. rewrite <- A2. apply in_flat_map. exists y. split; [eapply nth_error_In; eassumption|assumption].
      - inversion N' as [|? ? N1 N2]; subst. eapply NoDup_flat_map; eassumption. }
    subst j. rewrite Ei in Ej. injection Ej as <-. f_equal. rewrite Forall_forall in IH. eapply (IH y (nth_error_In _ _ Ei)); [|exact H1|exact H2]. cbn [fst]. exact (NoDup_flat_map_one N' Ei).
  - destruct (Nat.ltb i n); [|discriminate]. destruct (Nat.ltb j n); [|discriminate]. destruct q1; [|discriminate]. destruct q2; [|discriminate]. cbn [locate] in H1, H2. congruence.
Qed.

(** The search finds exactly the parts. *)
Definition go_c (search : wval -> place -> place -> option (list nat)) (f : nat -> place) (target : place) :=
  fix go (i : nat) (l : list wval) : option (list nat) :=
    match l with
    | [] => None
    | x :: r => match search x (f i) target with Some q => Some (i :: q) | None => go (S i) r end
    end.
Lemma go_sound sr f target l : (forall x pl q, In x l -> sr x pl target = Some q -> exists y, locate pl x q = Some (target, y)) ->
  forall i q, go_c sr f target i l = Some q -> exists k q' x y, q = (i + k)%nat :: q' /\ nth_error l k = Some x /\ locate (f (i + k)%nat) x q' = Some (target, y).
Proof.
  intros H. induction l as [|x l IH]; intros i q E; cbn [go_c] in E; [discriminate|]. destruct (sr x (f i) target) as [q'|] eqn:S.
  - injection E as <-. destruct (H x (f i) q' (or_introl eq_refl) S) as (y & L). exists O, q', x, y. rewrite Nat.add_0_r. auto.
  - destruct (IH (fun x pl q Hx => H x pl q (or_intror Hx)) (Datatypes.S i) q E) as (k & q' & z & y & -> & Hk & L). exists (Datatypes.S k), q', z, y. rewrite Nat.add_succ_r. auto.
Qed.
Lemma go_complete sr f target l : (forall x pl q y, In x l -> locate pl x q = Some (target, y) -> sr x pl target <> None) ->
  forall i k q x y, nth_error l k = Some x -> locate (f (i + k)%nat) x q = Some (target, y) -> go_c sr f target i l <> None.
Proof.
  intros H. induction l as [|z l IH]; intros i k q x y Hk L; [destruct k; discriminate|]. cbn [go_c]. destruct (sr z (f i) target) as [q'|] eqn:S; [discriminate|].
  destruct k as [|k].
  - injection Hk as ->. rewrite Nat.add_0_r in L. exfalso. apply (H x (f i) q y (or_introl eq_refl) L). exact S.
  - cbn [nth_error] in Hk. apply (IH (fun x pl q y Hx => H x pl q y (or_intror Hx)) (Datatypes.S i) k q x y Hk). rewrite Nat.add_succ_r in L. exact L.
Qed.
Lemma search_eq v pl target : search v pl target = if place_eqb pl target then Some [] else
  match v with
  | VLeaf => None
  | VComp l => go_c search (fun i => (fst pl, snd pl ++ [i])) target O l
  | VVec b l => go_c search (fun i => (b, [i])) target O l
  | VStr b n => match target with (tb, [i]) => if N.eqb tb b && Nat.ltb i n then Some [i] else None | _ => None end
  end.
Proof. destruct v; reflexivity. Qed.
Lemma search_sound v : forall pl target q, search v pl target = Some q -> exists y, locate pl v q = Some (target, y).
Proof.
  induction v as [|l IH|b l IH|b n] using wval_ind'; intros pl target q H; rewrite search_eq in H; (destruct (place_eqb pl target) eqn:E; [apply place_eqb_eq in E; subst; injection H as <-; eexists; reflexivity|]); try discriminate.
  - apply go_sound in H; [|rewrite Forall_forall in IH; intros x pl' q' Hx; apply IH; exact Hx]. destruct H as (k & q' & x & y & -> & Hk & L). exists y. cbn [Nat.add locate]. rewrite Hk. exact L.
  - apply go_sound in H; [|rewrite Forall_forall in IH; intros x pl' q' Hx; apply IH; exact Hx]. destruct H as (k & q' & x & y & -> & Hk & L). exists y. cbn [Nat.add locate]. rewrite Hk. exact L.
  - destruct target as [tb [|i [|? ?]]]; try discriminate. destruct (N.eqb_spec tb b) as [-> |]; [|discriminate]. destruct (Nat.ltb_spec i n) as [Hi|]; [|discriminate]. injection H as <-. exists VLeaf. cbn [locate].
    destruct (Nat.ltb_spec i n); [reflexivity|lia].
Qed.
Lemma search_complete v : forall pl target q y, locate pl v q = Some (target, y) -> search v pl target <> None.
Proof.
  induction v as [|l IH|b l IH|b n] using wval_ind'; intros pl target q y H; rewrite search_eq; (destruct (place_eqb pl target) eqn:E; [discriminate|]);
    (destruct q as [|i q]; [injection H as <- <-; assert (X := proj2 (place_eqb_eq pl pl) eq_refl); congruence|]); cbn [locate] in H; try discriminate.
  - destruct (nth_error l i) as [x|] eqn:Ei; [|discriminate]. eapply go_complete with (k := i); [|exact Ei|exact H]. rewrite Forall_forall in IH. intros z pl' q' y' Hz. apply IH. exact Hz.
  - destruct (nth_error l i) as [x|] eqn:Ei; [|discriminate]. eapply go_complete with (k := i); [|exact Ei|exact H]. rewrite Forall_forall in IH. intros z pl' q' y' Hz. apply IH. exact Hz.
  - destruct (Nat.ltb_spec i n) as [Hi|]; [|discriminate]. destruct q; [|discriminate]. cbn [locate] in H. injection H as <- <-. rewrite N.eqb_refl. destruct (Nat.ltb_spec i n); [discriminate|lia].
Qed.
Lemma read_ok v q pl x : allocated v -> locate root_place v q = Some (pl, x) -> read v pl = Ok (q, x).
Proof.
  intros A L. unfold read. destruct (search v root_place pl) as [q'|] eqn:S; [|exfalso; exact (search_complete L S)].
  destruct (search_sound S) as (y & L'). assert (E : q' = q) by (exact (@locate_inj v root_place q' q pl y x A L' L)). subst q'. rewrite L. reflexivity.
Qed.
Lemma read_inv v pl q x : read v pl = Ok (q, x) -> locate root_place v q = Some (pl, x).
Proof.
  unfold read. destruct (search v root_place pl) as [q'|] eqn:S; [|discriminate]. destruct (search_sound S) as (y & L'). rewrite L'. intros H. injection H as <- <-. exact L'.
Qed.

(** Types along positions. *)
Lemma part_type_app t a b : part_type t (a ++ b) = match part_type t a with Some t' => part_type t' b | None => None end.
Proof.
  revert t. induction a as [|i a IH]; intros t; cbn [app part_type]; [reflexivity|]. destruct t; try reflexivity; try apply IH.
  - destruct (nth_error fs i); [apply IH|reflexivity].
  - destruct (Nat.ltb i n); [apply IH|reflexivity].
Qed.
Lemma Forall2_nth {A B} (R : A -> B -> Prop) l m i x : Forall2 R l m -> nth_error l i = Some x -> exists y, nth_error m i = Some y /\ R x y.
Proof.
  intros F. revert i. induction F as [|a b l m Hab F IH]; intros [|i] H; try discriminate; cbn [nth_error] in *; [injection H as ->; eauto|auto].
Qed.
Lemma Forall2_nth_r {A B} (R : A -> B -> Prop) l m i y : Forall2 R l m -> nth_error m i = Some y -> exists x, nth_error l i = Some x /\ R x y.
Proof.
  intros F. revert i. induction F as [|a b l m Hab F IH]; intros [|i] H; try discriminate; cbn [nth_error] in *; [injection H as ->; eauto|auto].
Qed.
(** The part at a typed position has its type. *)
Lemma locate_typed q : forall t v pl pl' x t', has_type t v -> part_type t q = Some t' -> locate pl v q = Some (pl', x) -> has_type t' x.
Proof.
  induction q as [|i q IH]; intros t v pl pl' x t' H T L; cbn [part_type locate] in T, L; [injection T as <-; injection L as <- <-; exact H|].
  inversion H as [|fs l F|n e l E F|e b l F|b n]; subst; try discriminate.
  - destruct (nth_error fs i) as [ti|] eqn:Ti; [|discriminate]. destruct (Forall2_nth F Ti) as (y & Ey & Hy). rewrite Ey in L. eapply IH; eassumption.
  - destruct (Nat.ltb_spec i (length l)); [|discriminate]. destruct (nth_error l i) as [y|] eqn:Ey; [|discriminate]. eapply IH; [|exact T|exact L]. rewrite Forall_forall in F. apply F. eapply nth_error_In; eassumption.
  - destruct (nth_error l i) as [y|] eqn:Ey; [|discriminate]. eapply IH; [|exact T|exact L]. rewrite Forall_forall in F. apply F. eapply nth_error_In; eassumption.
Qed.
Lemma nth_upd_len {A} (l : list A) i x : length (nth_upd l i x) = length l.
Proof. revert i. induction l as [|a l IH]; intros [|i]; cbn [nth_upd length]; auto. Qed.
Lemma nth_upd_same {A} (l : list A) i x y : nth_error l i = Some y -> nth_error (nth_upd l i x) i = Some x.
Proof. revert i. induction l as [|a l IH]; intros [|i] H; try discriminate; cbn [nth_upd nth_error] in *; auto. Qed.
Lemma nth_upd_other {A} (l : list A) i j x : i <> j -> nth_error (nth_upd l i x) j = nth_error l j.
Proof. revert i j. induction l as [|a l IH]; intros [|i] [|j] H; cbn [nth_upd nth_error]; auto; try congruence; apply IH; congruence. Qed.
Lemma nth_upd_forall {A} (P : A -> Prop) l i x : Forall P l -> P x -> Forall P (nth_upd l i x).
Proof. intros F H. revert i. induction F as [|a l Ha F IH]; intros [|i]; cbn [nth_upd]; constructor; auto. Qed.
Lemma nth_upd_forall2 {A B} (R : A -> B -> Prop) l m i x a : Forall2 R l m -> nth_error l i = Some a -> R a x -> Forall2 R l (nth_upd m i x).
Proof.
  intros F. revert i. induction F as [|a' b l m Hab F IH]; intros [|i] E H; try discriminate; cbn [nth_upd nth_error] in *; constructor; auto. injection E as ->. exact H.
Qed.
Lemma upd_typed q : forall t v pl pl' x t' nv, has_type t v -> part_type t q = Some t' -> locate pl v q = Some (pl', x) -> has_type t' nv ->
  has_type t (upd v q nv) /\ locate pl (upd v q nv) q = Some (pl', nv).
Proof.
  induction q as [|i q IH]; intros t v pl pl' x t' nv H T L Hn; cbn [part_type locate upd] in *; [injection T as <-; injection L as <- <-; auto|].
  inversion H as [|fs l F|n e l E F|e b l F|b n]; subst; try discriminate.
  - destruct (nth_error fs i) as [ti|] eqn:Ti; [|discriminate]. destruct (Forall2_nth F Ti) as (y & Ey & Hy). rewrite Ey in *. destruct (IH _ _ _ _ _ _ _ Hy T L Hn) as [A B].
    split; [constructor; eapply nth_upd_forall2; eassumption|]. rewrite (nth_upd_same _ Ey). exact B.
  - destruct (Nat.ltb_spec i (length l)); [|discriminate]. destruct (nth_error l i) as [y|] eqn:Ey; [|discriminate]. assert (Hy : has_type e y) by (rewrite Forall_forall in F; apply F; eapply nth_error_In; eassumption).
    destruct (IH _ _ _ _ _ _ _ Hy T L Hn) as [A B]. split; [constructor; [apply nth_upd_len|apply nth_upd_forall; assumption]|]. rewrite (nth_upd_same _ Ey). exact B.
  - destruct (nth_error l i) as [y|] eqn:Ey; [|discriminate]. assert (Hy : has_type e y) by (rewrite Forall_forall in F; apply F; eapply nth_error_In; eassumption).
    destruct (IH _ _ _ _ _ _ _ Hy T L Hn) as [A B]. split; [constructor; apply nth_upd_forall; assumption|]. rewrite (nth_upd_same _ Ey). exact B.
Qed.
(** A change leaves the places of other parts alone. *)
Lemma upd_other q : forall v pl nv p pl' x, (forall r, p <> q ++ r) -> locate pl v p = Some (pl', x) -> exists x', locate pl (upd v q nv) p = Some (pl', x').
Proof.
  induction q as [|i q IH]; intros v pl nv p pl' x H L; [exfalso; apply (H p); reflexivity|]. destruct p as [|j p]; [injection L as <- <-; cbn [locate]; eauto|]. cbn [upd].
  destruct v as [|l|b l|b n]; [eauto| | |eauto].
  - destruct (nth_error l i) as [y|] eqn:Ey; [|eauto]. cbn [locate] in *. destruct (Nat.eq_dec i j) as [<- |Nij].
    + rewrite (nth_upd_same _ Ey). rewrite Ey in L. eapply IH; [|exact L]. intros r E. apply (H r). rewrite E. reflexivity.
    + rewrite nth_upd_other by exact Nij. eauto.
  - destruct (nth_error l i) as [y|] eqn:Ey; [|eauto]. cbn [locate] in *. destruct (Nat.eq_dec i j) as [<- |Nij].
    + rewrite (nth_upd_same _ Ey). rewrite Ey in L. eapply IH; [|exact L]. intros r E. apply (H r). rewrite E. reflexivity.
    + rewrite nth_upd_other by exact Nij. eauto.
Qed.
