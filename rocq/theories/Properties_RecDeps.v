(** * C77: recursive_dependencies. *)
From Verif Require Import Base RecDeps.
Local Open Scope nat_scope.

Section C77.
  Variable deps : nat -> list nat.
  (** u is needed, directly or not, to define t. *)
  Inductive needs : nat -> nat -> Prop :=
  | needs_direct t u : In u (deps t) -> needs t u
  | needs_trans t d u : In d (deps t) -> needs d u -> needs t u.
  (** No recursive type is needed to define t, and it is none itself. *)
  Definition not_recursive (t : nat) : Prop := ~ needs t t /\ forall u, needs t u -> ~ needs u u.
  Lemma needs_app t u v : needs t u -> needs u v -> needs t v.
  Proof. induction 1 as [t u H|t d u H _ IH]; intros H2; [eapply needs_trans; eauto|eapply needs_trans; eauto]. Qed.
  Notation rec_deps := (rec_deps deps).
  Definition sound (m : memo) : Prop := forall t l u, m t = Some l -> In u l -> needs t u.
  Definition complete (m : memo) (t : nat) : Prop := forall u, needs t u -> In u (get m t).
  (** What a call changes: it fills the sets of types that had none. *)
  Definition grows (m m' : memo) : Prop := forall u, m u <> None -> m' u = m u.
  Lemma put_same m t l : put m t l t = Some l.
  Proof. unfold put. rewrite Nat.eqb_refl. reflexivity. Qed.
  Lemma put_other m t l u : u <> t -> put m t l u = m u.
  Proof. intros N. unfold put. destruct (Nat.eqb_spec u t); [contradiction|reflexivity]. Qed.
  Lemma get_put_same m t l : get (put m t l) t = l.
  Proof. unfold get. rewrite put_same. reflexivity. Qed.
  Lemma get_put_other m t l u : u <> t -> get (put m t l) u = get m u.
  Proof. intros N. unfold get. rewrite put_other by exact N. reflexivity. Qed.
  Definition good_rec (rec : memo -> nat -> option memo) : Prop :=
    forall m d m', rec m d = Some m' -> grows m m' /\ m' d <> None /\ (sound m -> sound m') /\
      (forall u, m u = None -> m' u <> None -> (u = d \/ In u (get m' d)) /\ forall v, In v (deps u) -> In v (get m' d) /\ m' v <> None).
  (** One turn of the loop, seen from outside. *)
  Lemma each_dep_spec rec t : good_rec rec -> forall ds m m', m t <> None -> incl ds (deps t) -> each_dep rec m t ds = Some m' ->
    m' t <> None /\ (forall u, u <> t -> m u <> None -> m' u = m u) /\ incl (get m t) (get m' t) /\ (sound m -> sound m') /\
    (forall d, In d ds -> In d (get m' t) /\ m' d <> None) /\
    (forall u, u <> t -> m u = None -> m' u <> None -> In u (get m' t) /\ forall v, In v (deps u) -> In v (get m' t) /\ m' v <> None).
  Proof.
    intros G. induction ds as [|d ds IH]; intros m m' Ht Hi E; cbn [each_dep] in E.
    - injection E as <-. split; [exact Ht|]. split; [auto|]. split; [apply incl_refl|]. split; [auto|]. split; [intros d []|]. intros u _ H1 H2. contradiction.
    - set (m1 := put m t (get m t ++ [d])) in *. destruct (rec m1 d) as [m2|] eqn:E2; [|discriminate]. destruct (G _ _ _ E2) as (G1 & G2 & G3 & G4). set (m3 := put m2 t (get m2 t ++ get m2 d)) in *.
      assert (T2 : m2 t = Some (get m t ++ [d])) by (rewrite G1 by (unfold m1; rewrite put_same; discriminate); apply put_same).
      assert (T2' : get m2 t = get m t ++ [d]) by (unfold get at 1; rewrite T2; reflexivity).
      assert (T3 : m3 t <> None) by (unfold m3; rewrite put_same; discriminate).
      destruct (IH m3 m' T3 (fun x Hx => Hi x (or_intror Hx)) E) as (I1 & I2 & I3 & I4 & I5 & I6).
      assert (Get3 : get m3 t = (get m t ++ [d]) ++ get m2 d) by (unfold m3; rewrite get_put_same, T2'; reflexivity).
      assert (In3 : forall x, In x (get m2 d) -> In x (get m' t)) by (intros x Hx; apply I3; rewrite Get3; apply in_or_app; right; exact Hx).
      assert (Old : forall u, u <> t -> m u <> None -> m2 u = m u).
      { intros u N H. rewrite G1; [unfold m1; apply put_other; exact N|]. unfold m1. rewrite put_other by exact N. exact H. }
      assert (Now : forall u, m2 u <> None -> m' u <> None).
      { intros u H. destruct (Nat.eq_dec u t) as [-> |N]; [exact I1|]. rewrite I2; [unfold m3; rewrite put_other by exact N; exact H|exact N|unfold m3; rewrite put_other by exact N; exact H]. }
      split; [exact I1|]. split; [|split; [|split; [|split]]].
      + intros u N H. rewrite I2; [unfold m3; rewrite put_other by exact N; apply Old; assumption|exact N|]. unfold m3. rewrite put_other by exact N. rewrite Old by assumption. exact H.
      + intros x Hx. apply I3. rewrite Get3. apply in_or_app. left. apply in_or_app. left. exact Hx.
      + intros S. assert (Nd : needs t d) by (apply needs_direct, Hi; left; reflexivity).
        assert (S1 : sound m1).
        { intros u l x Eu Hx. unfold m1, put in Eu. destruct (Nat.eqb_spec u t) as [-> |]; [|eapply S; eauto]. injection Eu as <-. apply in_app_or in Hx as [Hx|[<- |[]]]; [|exact Nd]. unfold get in Hx. destruct (m t) as [l|] eqn:El; [eapply S; eauto|contradiction]. }
        apply I4. assert (S2 := G3 S1). intros u l x Eu Hx. unfold m3, put in Eu. destruct (Nat.eqb_spec u t) as [-> |]; [|eapply S2; eauto]. injection Eu as <-. apply in_app_or in Hx as [Hx|Hx].
        * unfold get in Hx. rewrite T2 in Hx. eapply S2; eauto.
        * unfold get in Hx. destruct (m2 d) as [l|] eqn:El; [|contradiction]. eapply needs_app; [exact Nd|]. eapply S2; eauto.
      + intros x [<- |Hx]; [|apply I5; exact Hx]. split; [apply I3; rewrite Get3; apply in_or_app; left; apply in_or_app; right; left; reflexivity|]. apply Now. exact G2.
      + intros u N H1 H2. destruct (m2 u) as [l|] eqn:Eu.
        * assert (H1' : m1 u = None) by (unfold m1; rewrite put_other by exact N; exact H1). assert (H2' : m2 u <> None) by congruence.
          destruct (G4 u H1' H2') as [Hin Hv]. split.
          -- destruct Hin as [-> |Hin]; [apply I3; rewrite Get3; apply in_or_app; left; apply in_or_app; right; left; reflexivity|apply In3; exact Hin].
          -- intros v Iv. destruct (Hv v Iv) as [X Y]. split; [apply In3; exact X|apply Now; exact Y].
        * apply I6; [exact N|unfold m3; rewrite put_other by exact N; exact Eu|exact H2].
  Qed.
  Lemma rec_deps_good fuel : good_rec (rec_deps fuel).
  Proof.
    induction fuel as [|f IH]; intros m d m' E; cbn [RecDeps.rec_deps] in E; [discriminate|]. destruct (m d) as [l|] eqn:Ed.
    - injection E as <-. split; [intros u _; reflexivity|]. split; [congruence|]. split; [auto|]. intros u H1 H2. contradiction.
    - assert (P0 : put m d [] d <> None) by (rewrite put_same; discriminate). destruct (each_dep_spec IH P0 (incl_refl _) E) as (I1 & I2 & I3 & I4 & I5 & I6). split; [|split; [exact I1|split]].
      + intros u H. assert (N : u <> d) by congruence. rewrite I2; [apply put_other; exact N|exact N|rewrite put_other by exact N; exact H].
      + intros S. apply I4. intros u l x Eu Hx. unfold put in Eu. destruct (u =? d); [injection Eu as <-; contradiction|eapply S; eauto].
      + intros u H1 H2. destruct (Nat.eq_dec u d) as [-> |N]; [split; [left; reflexivity|exact I5]|]. assert (H1' : put m d [] u = None) by (rewrite put_other by exact N; exact H1). destruct (I6 u N H1' H2) as [X Y]. split; [right; exact X|exact Y].
  Qed.

  (** Types that are not recursive: their sets are complete as soon as they are not being filled. [S]: the types being filled. *)
  Definition done (S : list nat) (m : memo) : Prop := forall u, m u <> None -> not_recursive u -> In u S \/ complete m u.
  Lemma rec_deps_done : forall fuel S m t m', rec_deps fuel m t = Some m' -> (forall a, In a S -> needs a t) -> done S m -> done S m'.
  Proof.
    induction fuel as [|f IH]; intros S m t m' E HS D; cbn [RecDeps.rec_deps] in E; [discriminate|]. destruct (m t) as [l|] eqn:Et; [injection E as <-; exact D|].
    assert (L : forall ds m m', m t <> None -> incl ds (deps t) -> done (t :: S) m -> each_dep (rec_deps f) m t ds = Some m' ->
      done (t :: S) m' /\ (not_recursive t -> forall d, In d ds -> forall x, needs d x -> In x (get m' t))).
    { induction ds as [|d ds IHd]; intros m0 m0' Ht Hi D0 E0.
      - cbn [each_dep] in E0. injection E0 as <-. split; [exact D0|]. intros _ d [].
      - assert (Sp := each_dep_spec (@rec_deps_good f) Ht Hi E0). cbn [each_dep] in E0. set (m1 := put m0 t (get m0 t ++ [d])) in *. destruct (rec_deps f m1 d) as [m2|] eqn:E2; [|discriminate]. destruct (rec_deps_good E2) as (G1 & G2 & _). set (m3 := put m2 t (get m2 t ++ get m2 d)) in *.
        assert (Nd : needs t d) by (apply needs_direct, Hi; left; reflexivity).
        assert (HS' : forall a, In a (t :: S) -> needs a d) by (intros a [<- |Ha]; [exact Nd|eapply needs_app; [apply HS; exact Ha|exact Nd]]).
        assert (D1 : done (t :: S) m1).
        { intros u Hu Nr. destruct (Nat.eq_dec u t) as [-> |N]; [left; left; reflexivity|]. unfold m1 in Hu. rewrite put_other in Hu by exact N. destruct (D0 u Hu Nr) as [X|X]; [left; exact X|right]. intros x Hx. unfold m1. rewrite get_put_other by exact N. apply X. exact Hx. }
        assert (D2 := IH _ _ _ _ E2 HS' D1).
        assert (D3 : done (t :: S) m3).
        { intros u Hu Nr. destruct (Nat.eq_dec u t) as [-> |N]; [left; left; reflexivity|]. unfold m3 in Hu. rewrite put_other in Hu by exact N. destruct (D2 u Hu Nr) as [X|X]; [left; exact X|right]. intros x Hx. unfold m3. rewrite get_put_other by exact N. apply X. exact Hx. }
        assert (T3 : m3 t <> None) by (unfold m3; rewrite put_same; discriminate). destruct (IHd m3 m0' T3 (fun x Hx => Hi x (or_intror Hx)) D3 E0) as [R1 R2]. split; [exact R1|].
        intros Nr d' [<- |Hd']; [|exact (R2 Nr d' Hd')]. intros x Hx. destruct (each_dep_spec (@rec_deps_good f) T3 (fun x Hx => Hi x (or_intror Hx)) E0) as (_ & _ & I3 & _). apply I3. unfold m3. rewrite get_put_same. apply in_or_app. right.
        assert (Nrd : not_recursive d) by (split; [apply Nr; exact Nd|intros u Hu; apply Nr; eapply needs_app; eauto]). destruct (D2 d G2 Nrd) as [X|X]; [exfalso; exact (proj1 Nrd (HS' d X))|exact (X x Hx)]. }
    assert (P0 : put m t [] t <> None) by (rewrite put_same; discriminate).
    assert (D0 : done (t :: S) (put m t [])).
    { intros u Hu Nr. destruct (Nat.eq_dec u t) as [-> |N]; [left; left; reflexivity|]. rewrite put_other in Hu by exact N. destruct (D u Hu Nr) as [X|X]; [left; right; exact X|right]. intros x Hx. rewrite get_put_other by exact N. apply X. exact Hx. }
    destruct (L _ _ _ P0 (incl_refl _) D0 E) as [R1 R2]. destruct (each_dep_spec (@rec_deps_good f) P0 (incl_refl _) E) as (_ & _ & _ & _ & I5 & _).
    intros u Hu Nr. destruct (R1 u Hu Nr) as [[<- |X]|X]; [|left; exact X|right; exact X]. right. intros x Hx. inversion Hx as [? ? Hd|? d ? Hd Hx']; subst; [apply I5; exact Hd|exact (R2 Nr d Hd x Hx')].
  Qed.
  (** The first call. *)
  Lemma first_complete fuel t m' : rec_deps fuel no_memo t = Some m' -> complete m' t.
  Proof.
    intros E. destruct (rec_deps_good E) as (_ & Ht & _ & G). assert (X : forall a u, needs a u -> m' a <> None -> In u (get m' t)).
    { induction 1 as [a u H|a d u H _ IH]; intros Ha; destruct (G a eq_refl Ha) as [_ Gv]; [exact (proj1 (Gv u H))|exact (IH (proj2 (Gv d H)))]. }
    intros u Hu. exact (X t u Hu Ht).
  Qed.

  (** Every call returns types that are needed only; ... *)
  Theorem C77_sound fuel l rs i t r u : calls deps fuel no_memo l = Some rs -> nth_error l i = Some t -> nth_error rs i = Some r -> In u r -> needs t u.
  Proof.
    assert (X : forall l m rs i, sound m -> calls deps fuel m l = Some rs -> nth_error l i = Some t -> nth_error rs i = Some r -> In u r -> needs t u).
    { clear. induction l as [|a l IH]; intros m rs i S E Ei Er Hu; [destruct i; discriminate|]. cbn [calls] in E. destruct (rec_deps fuel m a) as [m'|] eqn:Ea; [|discriminate]. destruct (calls deps fuel m' l) as [rs'|] eqn:El; [|discriminate]. injection E as <-.
      destruct (rec_deps_good Ea) as (_ & G2 & G3 & _). destruct i as [|i]; cbn [nth_error] in *; [|exact (IH _ _ _ (G3 S) El Ei Er Hu)]. injection Ei as ->. injection Er as <-. unfold get in Hu. destruct (m' t) as [x|] eqn:Et; [|contradiction]. exact (G3 S _ _ _ Et Hu). }
    apply X. intros a x y E. discriminate.
  Qed.
  (** ... all of them, if neither the type nor any it needs is recursive, whatever was called before, ... *)
  Theorem C77_complete_partial fuel l rs i t r u : calls deps fuel no_memo l = Some rs -> nth_error l i = Some t -> nth_error rs i = Some r -> not_recursive t -> needs t u -> In u r.
  Proof.
    intros E0 E1 E2 Nr Hu. assert (X : forall l m rs i, done [] m -> calls deps fuel m l = Some rs -> nth_error l i = Some t -> nth_error rs i = Some r -> In u r).
    { clear -Nr Hu. induction l as [|a l IH]; intros m rs i D E Ei Er; [destruct i; discriminate|]. cbn [calls] in E. destruct (rec_deps fuel m a) as [m'|] eqn:Ea; [|discriminate]. destruct (calls deps fuel m' l) as [rs'|] eqn:El; [|discriminate]. injection E as <-.
      assert (D' : done [] m') by (apply (rec_deps_done Ea); [intros a' []|exact D]). destruct (rec_deps_good Ea) as (_ & G2 & _). destruct i as [|i]; cbn [nth_error] in *; [|exact (IH _ _ _ D' El Ei Er)]. injection Ei as ->. injection Er as <-. destruct (D' t G2 Nr) as [[]|Z]. exact (Z u Hu). }
    eapply X; eauto. intros a H. contradiction.
  Qed.
  (** ... and in any case if it is the first call. *)
  Theorem C77_first_call_complete_partial fuel t l rs r u : calls deps fuel no_memo (t :: l) = Some rs -> nth_error rs 0 = Some r -> needs t u -> In u r.
  Proof. cbn [calls]. destruct (rec_deps fuel no_memo t) as [m'|] eqn:E; [|discriminate]. destruct (calls deps fuel m' l); [|discriminate]. intros X Er Hu. injection X as <-. injection Er as <-. exact (first_complete E Hu). Qed.
  (** A type has the same set for ever. *)
  Theorem C77_stable fuel l rs i j t a b : calls deps fuel no_memo l = Some rs -> nth_error l i = Some t -> nth_error l j = Some t -> nth_error rs i = Some a -> nth_error rs j = Some b -> a = b.
  Proof.
    assert (Later : forall l m rs i b x, calls deps fuel m l = Some rs -> m t = Some x -> nth_error l i = Some t -> nth_error rs i = Some b -> b = x).
    { clear. induction l as [|c l IH]; intros m rs i b x E Em Ei Eb; [destruct i; discriminate|]. cbn [calls] in E. destruct (rec_deps fuel m c) as [m'|] eqn:Ec; [|discriminate]. destruct (calls deps fuel m' l) as [rs'|] eqn:El; [|discriminate]. injection E as <-.
      destruct (rec_deps_good Ec) as (G1 & _). assert (Em' : m' t = Some x) by (rewrite G1; congruence). destruct i as [|i]; cbn [nth_error] in *; [|exact (IH _ _ _ _ _ El Em' Ei Eb)]. injection Ei as ->. injection Eb as <-. unfold get. rewrite Em'. reflexivity. }
    generalize no_memo. revert rs i j. induction l as [|c l IH]; intros rs i j m E Ei Ej Ea Eb; [destruct i; discriminate|]. assert (E' := E). cbn [calls] in E'. destruct (rec_deps fuel m c) as [m'|] eqn:Ec; [|discriminate]. destruct (calls deps fuel m' l) as [rs'|] eqn:El; [|discriminate]. injection E' as <-.
    assert (Hd : c = t -> exists x, m' t = Some x /\ get m' c = x) by (intros ->; destruct (rec_deps_good Ec) as (_ & G2 & _); unfold get; destruct (m' t) as [x|]; [eauto|contradiction]).
    destruct i as [|i], j as [|j]; cbn [nth_error] in *; [congruence| | |exact (IH _ _ _ _ El Ei Ej Ea Eb)].
    - injection Ei as Ei. destruct (Hd Ei) as (x & X1 & X2). injection Ea as <-. rewrite X2. symmetry. exact (Later _ _ _ _ _ _ El X1 Ej Eb).
    - injection Ej as Ej. destruct (Hd Ej) as (x & X1 & X2). injection Eb as <-. rewrite X2. exact (Later _ _ _ _ _ _ El X1 Ei Ea).
  Qed.
  (** It ends: for finitely many types closed under dependencies, recursive or not. *)
  Definition unfilled (m : memo) (l : list nat) : nat := length (filter (fun u => match m u with None => true | _ => false end) l).
  Lemma unfilled_le m m' l : (forall u, m u <> None -> m' u <> None) -> unfilled m' l <= unfilled m l.
  Proof. intros H. unfold unfilled. induction l as [|a l IH]; cbn [filter]; [lia|]. destruct (m a) as [x|] eqn:E; [assert (X := H a ltac:(congruence)); destruct (m' a); [exact IH|contradiction]|]. destruct (m' a); cbn [length]; lia. Qed.
  Lemma unfilled_lt m t x l : m t = None -> In t l -> unfilled (put m t x) l < unfilled m l.
  Proof.
    intros E. induction l as [|a l IH]; intros Hi; [contradiction|]. unfold unfilled in *. cbn [filter]. assert (Le : unfilled (put m t x) l <= unfilled m l) by (apply unfilled_le; intros u Hu; unfold put; destruct (u =? t); [discriminate|exact Hu]). unfold unfilled in Le.
    destruct (Nat.eq_dec a t) as [-> |N]; [rewrite put_same, E; cbn [length]; lia|]. destruct Hi as [<- |Hi]; [contradiction|]. specialize (IH Hi). rewrite put_other by exact N. destruct (m a); cbn [length]; lia.
  Qed.
  Theorem C77_ends types l fuel : (forall t d, In t types -> In d (deps t) -> In d types) -> incl l types -> length types < fuel -> exists rs, calls deps fuel no_memo l = Some rs.
  Proof.
    intros Cl Hl Hf. assert (T : forall f m t, In t types -> unfilled m types < f -> exists m', rec_deps f m t = Some m').
    { induction f as [|f IH]; intros m t Ht Hu; [lia|]. cbn [RecDeps.rec_deps]. destruct (m t) as [x|] eqn:E; [eauto|].
      assert (L : forall ds m, incl ds types -> unfilled m types < f -> m t <> None -> exists m', each_dep (rec_deps f) m t ds = Some m').
      { induction ds as [|d ds IHd]; intros m0 Hi Hm Hn; cbn [each_dep]; [eauto|]. set (m1 := put m0 t (get m0 t ++ [d])).
        assert (Le : unfilled m1 types <= unfilled m0 types) by (apply unfilled_le; intros u Hu'; unfold m1, put; destruct (u =? t); [discriminate|exact Hu']).
        destruct (IH m1 d (Hi d (or_introl eq_refl)) ltac:(lia)) as [m2 E2]. rewrite E2. destruct (rec_deps_good E2) as (G1 & _). apply IHd; [intros y Hy; apply Hi; right; exact Hy| |rewrite put_same; discriminate].
        assert (Le2 : unfilled (put m2 t (get m2 t ++ get m2 d)) types <= unfilled m1 types); [|lia]. apply unfilled_le. intros u Hu'. unfold put. destruct (u =? t); [discriminate|]. rewrite G1; exact Hu'. }
      apply L; [intros d Hd; eapply Cl; eauto| |rewrite put_same; discriminate]. assert (X := unfilled_lt [] E Ht). lia. }
    assert (B : forall m, unfilled m types <= length types) by (intros m; unfold unfilled; induction types as [|a ts IHt]; cbn [filter]; [lia|clear; destruct (m a); cbn [length]; induction ts as [|b ts IHb]; cbn [filter length] in *; try lia; destruct (m b); cbn [length]; lia]).
    generalize no_memo. clear -T B Hl Hf. induction l as [|t l IH]; intros m; cbn [calls]; [eauto|]. destruct (T fuel m t (Hl t (or_introl eq_refl))) as [m' E]; [assert (X := B m); lia|]. rewrite E. destruct (IH (fun x Hx => Hl x (or_intror Hx)) m') as [rs Er]. rewrite Er. cbn [option_map]. eauto.
  Qed.
End C77.

(** struct A { std::vector<B> b; C c; }; struct B { std::vector<A> a; }: asked for A first, B does not need C, whereas asked for B first it does. *)
Definition c77_deps (t : nat) : list nat := match t with 0 => [1; 2] | 1 => [0] | _ => [] end.
Theorem C77_recursive_types_refuted : needs c77_deps 1 2 /\
  calls c77_deps 9 no_memo [0; 1] = Some [[1; 0; 1; 2]; [0; 1]] /\ calls c77_deps 9 no_memo [1; 0] = Some [[0; 1; 0; 2]; [1; 0; 2]].
Proof. split; [|split; reflexivity]. eapply needs_trans; [left; reflexivity|]. apply needs_direct. right. left. reflexivity. Qed.
(** Not vacuous: a diamond. *)
Definition c77_diamond (t : nat) : list nat := match t with 0 => [1; 2] | 1 => [3] | 2 => [3] | 3 => [4] | _ => [] end.
Example C77_case : calls c77_diamond 9 no_memo [1; 0; 2] = Some [[3; 4]; [1; 3; 4; 2; 3; 4]; [3; 4]] /\ not_recursive c77_diamond 0.
Proof.
  split; [reflexivity|]. assert (Lt : forall a b, needs c77_diamond a b -> a < b).
  { induction 1 as [a b H|a d b H _ IH]; [|enough (a < d) by lia; clear IH]; do 5 (destruct a as [|a]; [cbn in H; intuition lia|]); contradiction. }
  split; [intros X; apply Lt in X; lia|intros u _ X; apply Lt in X; lia].
Qed.
