(** * DescribeProofs: lemmas for C86. *)
From Verif Require Import Base Types Graph GraphProofs DescribeSpec Describe.
Local Open Scope N_scope.

Ltac ceq :=
  repeat match goal with
  | |- context [seqb ?a ?b] => let r := eval vm_compute in (seqb a b) in lazymatch r with true => idtac | false => idtac end; change (seqb a b) with r; cbv iota
  end.

Lemma hget_hset k k' v h : hget k (hset k' v h) = if seqb k' k then Some v else hget k h.
Proof.
  induction h as [|[x w] h IH]; cbn [hset hget]; [reflexivity|].
  destruct (seqb x k') eqn:E; cbn [hget].
  - apply seqb_eq in E. subst x. destruct (seqb k' k); reflexivity.
  - rewrite IH. destruct (seqb x k) eqn:E2; [|reflexivity]. destruct (seqb k' k) eqn:E3; [|reflexivity].
    apply seqb_eq in E2, E3. subst. rewrite seqb_refl in E. discriminate.
Qed.
Lemma hset_keys k v h x : In x (map fst (hset k v h)) -> x = k \/ In x (map fst h).
Proof.
  induction h as [|[y w] h IH]; cbn [hset map fst In]; [intuition congruence|].
  destruct (seqb y k); cbn [map fst In]; intuition.
Qed.
Lemma hget_keys k h : hget k h <> None -> In k (map fst h).
Proof.
  induction h as [|[y w] h IH]; cbn [hget map fst In]; [congruence|].
  destruct (seqb y k) eqn:E; [apply seqb_eq in E; auto|auto].
Qed.
Lemma keys_in_i ks h : (forall x, In x (map fst h) -> exists s, In s ks /\ x = s_ s) -> keys_in ks h.
Proof. intros A k K. apply A, hget_keys, K. Qed.

Lemma keys2 a b v w : keys_in [a; b] [(s_ a, v); (s_ b, w)].
Proof. apply keys_in_i. intros x. cbn [map fst In]. intros [<- |[<- |[]]]; [exists a|exists b]; cbn [In]; tauto. Qed.
Lemma superclass k : superclass_name k = s_ (class_name k).
Proof. destruct k; reflexivity. Qed.
Lemma minimal_get k lay o :
  hget k (to_h_minimal lay o) =
  if seqb (s_ "name") k then Some (RStr (o_name o)) else if seqb (s_ "class") k then Some (RStr (superclass_name (o_kind o)))
  else if seqb (s_ "size") k then (if lay then Some (rsize o) else None) else None.
Proof.
  unfold to_h_minimal. destruct lay; cbn [hget]; [rewrite hget_hset; cbn [hget]|].
  - destruct (seqb (s_ "size") k) eqn:E.
    + apply seqb_eq in E. subst k. ceq. reflexivity.
    + reflexivity.
  - destruct (seqb (s_ "size") k); reflexivity.
Qed.
Lemma minimal_keys lay o x : In x (map fst (to_h_minimal lay o)) -> exists s, In s (head_keys lay) /\ x = s_ s.
Proof.
  unfold to_h_minimal. intros A. destruct lay.
  - apply hset_keys in A. destruct A as [A|A]; [subst; exists "size"%string; cbn; tauto|].
    cbn [map fst In] in A. destruct A as [A|[A|[]]]; subst; [exists "name"%string|exists "class"%string]; cbn; tauto.
  - cbn [map fst In] in A. destruct A as [A|[A|[]]]; subst; [exists "name"%string|exists "class"%string]; cbn; tauto.
Qed.
Lemma minimal_headed lay o : headed lay o (to_h_minimal lay o).
Proof.
  unfold headed, entry. rewrite !minimal_get. ceq. rewrite superclass. split; [reflexivity|]. split; [reflexivity|]. intros ->. reflexivity.
Qed.
Lemma minimal_ok lay o : minimal_of lay o (RHash (to_h_minimal lay o)).
Proof. exists (to_h_minimal lay o). split; [reflexivity|]. split; [apply minimal_headed|]. apply keys_in_i, minimal_keys. Qed.
Ltac hd := unfold headed, entry; rewrite ?hget_hset, ?minimal_get; ceq; rewrite ?superclass; repeat split; auto.

(** With the names of the fields distinct, offset_of finds the offset of the field. *)
Lemma offset_of_field f fs : NoDup (map f_name fs) -> In f fs -> offset_of (f_name f) fs = Ok (f_off f).
Proof.
  induction fs as [|g fs IH]; cbn [map offset_of In]; [tauto|]. intros N [->|I]; [rewrite seqb_refl; reflexivity|].
  inversion N as [|? ? N1 N2]; subst. destruct (seqb (f_name g) (f_name f)) eqn:E; [|auto].
  apply seqb_eq in E. exfalso. apply N1. rewrite E. apply in_map, I.
Qed.
Lemma fields_h_ok sub fs l : fields_h sub fs = Ok l ->
  Forall2 (fun f g => exists d, sub (f_type f) = Ok d /\ g = [(s_ "name", RStr (f_name f)); (s_ "type", RHash d)]) fs l.
Proof.
  revert l. induction fs as [|f fs IH]; intros l E; cbn [fields_h] in E; [inversion E; constructor|].
  destruct (sub (f_type f)) as [d| | |] eqn:D; cbn [bind] in E; try discriminate.
  destruct (fields_h sub fs) as [r| | |]; cbn [bind] in E; try discriminate. inversion E; subst. constructor; [eauto|auto].
Qed.
Lemma offsets_h_ok fs l l' : offsets_h fs l = Ok l' ->
  Forall2 (fun g g' => exists n o, hget (s_ "name") g = Some (RStr n) /\ offset_of n fs = Ok o /\ g' = hset (s_ "offset") (RInt (Z.of_N o)) g) l l'.
Proof.
  revert l'. induction l as [|g l IH]; intros l' E; cbn [offsets_h] in E; [inversion E; constructor|].
  destruct (hget (s_ "name") g) as [[n| | | |]|] eqn:G; try discriminate.
  destruct (offset_of n fs) as [o| | |] eqn:O; cbn [bind] in E; try discriminate.
  destruct (offsets_h fs l) as [r| | |]; cbn [bind] in E; try discriminate. inversion E; subst. constructor; [eauto 8|auto].
Qed.
Lemma Forall2_in {A B} (P : A -> B -> Prop) l m x : Forall2 P l m -> In x l -> exists y, In y m /\ P x y.
Proof. induction 1 as [|a b l m Pab F IH]; cbn [In]; [tauto|]. intros [->|I]; [eauto|destruct (IH I) as (y & I2 & Py); eauto]. Qed.
Lemma Forall2_imp_in {A B} (P Q : A -> B -> Prop) l m : (forall x y, In x l -> P x y -> Q x y) -> Forall2 P l m -> Forall2 Q l m.
Proof. intros I F. induction F; constructor; [apply I; [left|]; auto|apply IHF; intros; apply I; [right|]; auto]. Qed.

(** to_h gives a description of the type. *)
Lemma to_h_describes full lay H f : forall t h, (lay = true -> forall x, inside H t x -> distinct H x) -> to_h f full lay H t = Ok h -> describes full lay H t (RHash h).
Proof.
  induction f as [|f IH]; intros t h D E; [discriminate|]. cbn [to_h] in E.
  set (sub := fun x => if full then to_h f full lay H x else Ok (to_h_minimal lay (H x))) in E.
  assert (S : forall x h, In x (parts H t) -> sub x = Ok h -> part_describes full lay H x (RHash h)).
  { intros x g Ix Ex. unfold sub in Ex. destruct full eqn:Ef; [apply Part_full; [reflexivity|]; apply IH; [|exact Ex]|].
    - intros L y Iy. apply D; [exact L|]. clear - Ix Iy. induction Iy; [eapply In_part; [apply In_self|exact Ix]|eapply In_part; eauto].
    - inversion Ex; subst. apply Part_minimal; [reflexivity|]. apply minimal_ok. }
  destruct (o_kind (H t)) eqn:K.
  - inversion E; subst. apply Describes_plain; [rewrite K; exact I|apply minimal_headed|apply keys_in_i, minimal_keys].
  - inversion E; subst. apply Describes_plain; [rewrite K; exact I|apply minimal_headed|apply keys_in_i, minimal_keys].
  - assert (KS : forall x, In x (map fst (to_h_minimal lay (H t))) -> exists s, In s (head_keys true) /\ x = s_ s).
    { intros x Ix. destruct (minimal_keys Ix) as (s & Is & ->). exists s. split; [|reflexivity]. destruct lay; [exact Is|]. cbn in *. tauto. }
    destruct c; cbn [integer_p] in E; inversion E; subst.
    + eapply Describes_integer; [exact K|discriminate|hd|hd|hd|]. apply keys_in_i. intros x Ix.
      apply hset_keys in Ix. destruct Ix as [->|Ix]; [exists "unsigned"%string; cbn; tauto|]. apply hset_keys in Ix. destruct Ix as [->|Ix]; [exists "integer"%string; cbn; tauto|].
      apply hset_keys in Ix. destruct Ix as [->|Ix]; [exists "size"%string; cbn; tauto|]. destruct (KS _ Ix) as (s & Is & ->). exists s. split; [right; right; exact Is|reflexivity].
    + eapply Describes_integer; [exact K|discriminate|hd|hd|hd|]. apply keys_in_i. intros x Ix.
      apply hset_keys in Ix. destruct Ix as [->|Ix]; [exists "unsigned"%string; cbn; tauto|]. apply hset_keys in Ix. destruct Ix as [->|Ix]; [exists "integer"%string; cbn; tauto|].
      apply hset_keys in Ix. destruct Ix as [->|Ix]; [exists "size"%string; cbn; tauto|]. destruct (KS _ Ix) as (s & Is & ->). exists s. split; [right; right; exact Is|reflexivity].
    + eapply Describes_float; [exact K|hd|hd|]. apply keys_in_i. intros x Ix.
      apply hset_keys in Ix. destruct Ix as [->|Ix]; [exists "integer"%string; cbn; tauto|].
      apply hset_keys in Ix. destruct Ix as [->|Ix]; [exists "size"%string; cbn; tauto|]. destruct (KS _ Ix) as (s & Is & ->). exists s. split; [right; exact Is|reflexivity].
  - inversion E; subst. eapply Describes_enum; [exact K|hd| |  |].
    + intros ->. reflexivity.
    + unfold entry. rewrite hget_hset. ceq. reflexivity.
    + clear. induction values as [|p vs IH]; cbn [map]; constructor; [|exact IH]. eexists. split; [reflexivity|]. split; [hd|]. split; [hd|]. apply keys2.
    + apply keys_in_i. intros x Ix. apply hset_keys in Ix. destruct Ix as [->|Ix]; [exists "values"%string; cbn; tauto|].
      destruct (minimal_keys Ix) as (s & Is & ->). exists s. split; [right; exact Is|reflexivity].
  - inversion E; subst. apply Describes_plain; [rewrite K; exact I|apply minimal_headed|apply keys_in_i, minimal_keys].
  - change (if full then to_h f full lay H on else Ok (to_h_minimal lay (H on))) with (sub on) in E. clearbody sub. destruct (sub on) as [e| | |] eqn:Se; cbn [bind] in E; try discriminate. inversion E; subst.
    eapply Describes_array; [exact K| |hd|hd|apply S; [unfold parts; rewrite K; left; reflexivity|exact Se]|].
    + hd.  intros ->. reflexivity.
    + apply keys_in_i. intros x Ix. apply hset_keys in Ix. destruct Ix as [->|Ix]; [exists "element"%string; cbn; tauto|].
      apply hset_keys in Ix. destruct Ix as [->|Ix]; [exists "length"%string; cbn; tauto|].
      destruct (minimal_keys Ix) as (s & Is & ->). exists s. split; [right; right; exact Is|reflexivity].
  - change (if full then to_h f full lay H on else Ok (to_h_minimal lay (H on))) with (sub on) in E. clearbody sub. destruct (sub on) as [e| | |] eqn:Se; cbn [bind] in E; try discriminate. inversion E; subst.
    eapply Describes_container; [exact K| |hd|apply S; [unfold parts; rewrite K; left; reflexivity|exact Se]|].
    + hd. intros ->. reflexivity.
    + apply keys_in_i. intros x Ix. apply hset_keys in Ix. destruct Ix as [->|Ix]; [exists "element"%string; cbn; tauto|].
      destruct (minimal_keys Ix) as (s & Is & ->). exists s. split; [right; exact Is|reflexivity].
  - clearbody sub. destruct (fields_h sub fs) as [l| | |] eqn:F; cbn [bind] in E; try discriminate.
    destruct (if lay then offsets_h fs l else Ok l) as [l'| | |] eqn:O; cbn [bind] in E; try discriminate. inversion E; subst.
    eapply Describes_compound; [exact K| |hd| |].
    + hd. intros ->. reflexivity.
    + apply fields_h_ok in F.
      assert (SS : forall f d, In f fs -> sub (f_type f) = Ok d -> part_describes full lay H (f_type f) (RHash d)).
      { intros f0 d I0. apply S. unfold parts. rewrite K. apply in_map, I0. }
      destruct lay.
      * assert (Nd : NoDup (map f_name fs)) by (apply (D eq_refl t (In_self H t) fs K)).
        assert (OO : forall f, In f fs -> offset_of (f_name f) fs = Ok (f_off f)) by (intros f0 I0; apply offset_of_field; assumption).
        apply offsets_h_ok in O. clear - F O OO SS. set (off := fun n => offset_of n fs).
        assert (O1 : Forall2 (fun g g' => exists n o, hget (s_ "name") g = Some (RStr n) /\ off n = Ok o /\ g' = hset (s_ "offset") (RInt (Z.of_N o)) g) l l') by exact O. clear O. revert l' O1.
        assert (OO' : forall f, In f fs -> forall o, off (f_name f) = Ok o -> o = f_off f) by (unfold off; intros f0 I0 o; rewrite (OO f0 I0); congruence). clear OO. clearbody off. rename OO' into OO.
        induction F as [|g h gs l (d & Sd & ->) F IHF]; intros l' O; inversion O as [|? ? ? ? (n & o & G & Oo & ->) O']; subst; cbn [map]; constructor.
        -- cbn [hget] in G. rewrite seqb_refl in G. inversion G; subst n. rewrite (OO g (or_introl eq_refl) o Oo).
           econstructor; [unfold entry; rewrite hget_hset; ceq; reflexivity|unfold entry; rewrite hget_hset; ceq; reflexivity|apply SS; [left; reflexivity|exact Sd]|intros _; unfold entry; rewrite hget_hset; ceq; reflexivity|].
           apply keys_in_i. intros x Ix. apply hset_keys in Ix. destruct Ix as [->|Ix]; [exists "offset"%string; cbn; tauto|].
           cbn [map fst In] in Ix. destruct Ix as [<- |[<- |[]]]; [exists "name"%string|exists "type"%string]; cbn; tauto.
        -- apply IHF; [intros f0 d0 I0; apply SS; right; exact I0|intros f0 I0; apply OO; right; exact I0|exact O'].
      * inversion O; subst. clear - F SS. induction F as [|g h fs l (d & Sd & ->) F IHF]; cbn [map]; [constructor|]. constructor.
        -- econstructor; [hd|hd|apply SS; [left; reflexivity|exact Sd]|discriminate|apply keys2].
        -- apply IHF. intros f0 d0 I0. apply SS. right. exact I0.
    + apply keys_in_i. intros x Ix. apply hset_keys in Ix. destruct Ix as [->|Ix]; [exists "fields"%string; cbn; tauto|].
      destruct (minimal_keys Ix) as (s & Is & ->). exists s. split; [right; exact Is|reflexivity].
Qed.

(** ** Termination *)
Lemma offset_of_ok f fs : In f fs -> exists o, offset_of (f_name f) fs = Ok o.
Proof.
  induction fs as [|g fs IH]; cbn [offset_of In]; [tauto|]. intros [->|I]; [rewrite seqb_refl; eauto|]. destruct (seqb (f_name g) (f_name f)); eauto.
Qed.
Lemma offsets_h_total fs : forall gs l sub, incl gs fs -> fields_h sub gs = Ok l -> exists l', offsets_h fs l = Ok l'.
Proof.
  induction gs as [|g gs IH]; intros l sub I E; cbn [fields_h] in E; [inversion E; cbn; eauto|].
  destruct (sub (f_type g)) as [d| | |]; cbn [bind] in E; try discriminate. destruct (fields_h sub gs) as [r| | |] eqn:Er; cbn [bind] in E; try discriminate.
  inversion E; subst. cbn [offsets_h]. cbn [hget]. rewrite seqb_refl.
  destruct (@offset_of_ok g fs) as (o & ->); [apply I; left; reflexivity|]. cbn [bind].
  destruct (IH r sub) as (r' & ->); [intros x Ix; apply I; right; exact Ix|exact Er|]. cbn [bind]. eauto.
Qed.
Lemma fields_h_total sub fs : (forall f, In f fs -> exists d, sub (f_type f) = Ok d) -> exists l, fields_h sub fs = Ok l.
Proof.
  induction fs as [|f fs IH]; intros A; cbn [fields_h]; [eauto|]. destruct (A f (or_introl eq_refl)) as (d & ->). cbn [bind].
  destruct IH as (l & ->); [intros g Ig; apply A; right; exact Ig|]. cbn [bind]. eauto.
Qed.
(** A level of to_h ends if it ends on the parts. *)
Lemma to_h_step full lay H f t : (full = true -> forall x, In x (parts H t) -> exists d, to_h f full lay H x = Ok d) -> exists d, to_h (S f) full lay H t = Ok d.
Proof.
  intros A. cbn [to_h]. set (sub := fun x => if full then to_h f full lay H x else Ok (to_h_minimal lay (H x))).
  assert (B : forall x, In x (parts H t) -> exists d, sub x = Ok d).
  { intros x I. unfold sub. destruct full; [apply A; [reflexivity|exact I]|eauto]. }
  unfold parts in B. destruct (o_kind (H t)) eqn:K; eauto.
  - destruct (B on (or_introl eq_refl)) as (d & Ed). unfold sub in Ed. rewrite Ed. cbn [bind]. eauto.
  - destruct (B on (or_introl eq_refl)) as (d & Ed). unfold sub in Ed. rewrite Ed. cbn [bind]. eauto.
  - destruct (@fields_h_total sub fs) as (l & El); [intros f0 I0; apply B, in_map, I0|]. rewrite El. cbn [bind].
    destruct lay; [|cbn [bind]; eauto]. destruct (@offsets_h_total fs fs l sub (incl_refl _) El) as (l' & ->). cbn [bind]. eauto.
Qed.
Lemma fields_h_ext sub sub' fs l : (forall f d, In f fs -> sub (f_type f) = Ok d -> sub' (f_type f) = Ok d) -> fields_h sub fs = Ok l -> fields_h sub' fs = Ok l.
Proof.
  revert l. induction fs as [|f fs IH]; intros l A E; cbn [fields_h] in *; [exact E|].
  destruct (sub (f_type f)) as [d| | |] eqn:D; cbn [bind] in E; try discriminate. rewrite (A f d (or_introl eq_refl) D). cbn [bind].
  destruct (fields_h sub fs) as [r| | |] eqn:R; cbn [bind] in E; try discriminate. rewrite (IH r); [exact E|intros g e Ig; apply A; right; exact Ig|reflexivity].
Qed.
Lemma to_h_mono full lay H f : forall t d f', to_h f full lay H t = Ok d -> (f <= f')%nat -> to_h f' full lay H t = Ok d.
Proof.
  induction f as [|f IH]; intros t d f' E L; [discriminate|]. destruct f' as [|f']; [lia|]. cbn [to_h] in *.
  destruct (o_kind (H t)) eqn:K; try exact E.
  - destruct full; [|exact E]. destruct (to_h f true lay H on) as [e| | |] eqn:Ee; cbn [bind] in E; try discriminate. rewrite (IH on e f' Ee) by lia. exact E.
  - destruct full; [|exact E]. destruct (to_h f true lay H on) as [e| | |] eqn:Ee; cbn [bind] in E; try discriminate. rewrite (IH on e f' Ee) by lia. exact E.
  - destruct (fields_h _ fs) as [l| | |] eqn:El in E; cbn [bind] in E; try discriminate.
    rewrite (@fields_h_ext (fun x => if full then to_h f full lay H x else Ok (to_h_minimal lay (H x))) (fun x => if full then to_h f' full lay H x else Ok (to_h_minimal lay (H x))) fs l); [exact E| |exact El].
    intros g e Ig. cbv beta. destruct full; [|auto]. intros Ee. apply IH with (1 := Ee). lia.
Qed.
Lemma to_h_bound full lay H : forall l, (forall x, In x l -> exists f d, to_h f full lay H x = Ok d) -> exists f, forall x, In x l -> exists d, to_h f full lay H x = Ok d.
Proof.
  induction l as [|x l IH]; intros A; [exists O; intros x []|]. destruct IH as (f & F); [intros y I; apply A; right; exact I|].
  destruct (A x (or_introl eq_refl)) as (g & d & G). exists (max f g). intros y [<- |I]; [exists d; apply to_h_mono with (1 := G); lia|].
  destruct (F y I) as (e & E). exists e. apply to_h_mono with (1 := E). lia.
Qed.
Lemma to_h_finite lay H t : finite H t -> exists f d, to_h f true lay H t = Ok d.
Proof.
  induction 1 as [t _ IH]. destruct (@to_h_bound true lay H (parts H t) IH) as (f & F). exists (S f). apply to_h_step. auto.
Qed.
Lemma finite_to_h lay H f : forall t d, to_h f true lay H t = Ok d -> finite H t.
Proof.
  induction f as [|f IH]; intros t d E; [discriminate|]. cbn [to_h] in E. constructor. intros x I. unfold parts in I.
  destruct (o_kind (H t)) eqn:K; cbn [In] in I; try tauto.
  - destruct I as [<- |[]]. destruct (to_h f true lay H on) eqn:Ee; cbn [bind] in E; try discriminate. eauto.
  - destruct I as [<- |[]]. destruct (to_h f true lay H on) eqn:Ee; cbn [bind] in E; try discriminate. eauto.
  - destruct (fields_h _ fs) as [l| | |] eqn:El in E; cbn [bind] in E; try discriminate. apply fields_h_ok in El.
    apply in_map_iff in I. destruct I as (g & <- & Ig). destruct (Forall2_in El Ig) as (h & _ & e & Ee & _). eauto.
Qed.
Lemma to_h_fuel full lay H f : forall t, (exists d, to_h f full lay H t = Ok d) \/ to_h f full lay H t = Fuel.
Proof.
  induction f as [|f IH]; intros t; [right; reflexivity|]. cbn [to_h]. set (sub := fun x => if full then to_h f full lay H x else Ok (to_h_minimal lay (H x))).
  assert (B : forall x, (exists d, sub x = Ok d) \/ sub x = Fuel). { intros x. unfold sub. destruct full; [apply IH|eauto]. }
  destruct (o_kind (H t)) eqn:K; eauto.
  - destruct (B on) as [(d & E)|E]; unfold sub in E; rewrite E; cbn [bind]; eauto.
  - destruct (B on) as [(d & E)|E]; unfold sub in E; rewrite E; cbn [bind]; eauto.
  - assert (C : (exists l, fields_h sub fs = Ok l) \/ fields_h sub fs = Fuel).
    { clear - B. induction fs as [|g fs IH]; cbn [fields_h]; [eauto|]. destruct (B (f_type g)) as [(d & ->)| ->]; cbn [bind]; [|auto].
      destruct IH as [(l & ->)| ->]; cbn [bind]; eauto. }
    destruct C as [(l & El)|El]; rewrite El; cbn [bind]; [|auto].
    destruct lay; [|cbn [bind]; eauto]. destruct (@offsets_h_total fs fs l sub (incl_refl _) El) as (l' & ->). cbn [bind]. eauto.
Qed.

(** ** Descriptions and definitions *)
Lemma class_category k k' : s_ (class_name k) = s_ (class_name k') -> category k = category k'.
Proof. destruct k, k'; try reflexivity; intros E; vm_compute in E; discriminate. Qed.
Lemma same_entry h g k x y : same (RHash h) (RHash g) -> entry h k x -> entry g k y -> same x y.
Proof. intros S A B. inversion S as [| | | |? ? _ S2]; subst. exact (S2 _ _ _ A B). Qed.
Lemma same_str a b : same (RStr a) (RStr b) -> a = b.
Proof. intros S. inversion S. reflexivity. Qed.
Lemma same_int a b : same (RInt a) (RInt b) -> a = b.
Proof. intros S. inversion S. reflexivity. Qed.
Lemma same_bool a b : same (RBool a) (RBool b) -> a = b.
Proof. intros S. inversion S. reflexivity. Qed.
Lemma same_array l m : same (RArr l) (RArr m) -> Forall2 same l m.
Proof. intros S. inversion S. assumption. Qed.
Lemma same_head o o' h g : same (RHash h) (RHash g) -> headed true o h -> headed true o' g ->
  o_name o = o_name o' /\ o_size o = o_size o' /\ category (o_kind o) = category (o_kind o').
Proof.
  intros S (A & B & C) (A' & B' & C'). split; [apply same_str, (same_entry S A A')|]. split.
  - assert (E := same_int (same_entry S (C eq_refl) (C' eq_refl))). lia.
  - apply class_category, same_str, (same_entry S B B').
Qed.
Lemma describes_headed full H t d : describes full true H t d -> exists h, d = RHash h /\ headed true (H t) h.
Proof. intros D. inversion D; subst; eauto. Qed.

Lemma describes_alike H H' t : finite H t -> forall t' d d', describes true true H t d -> describes true true H' t' d' -> same d d' -> alike H H' t t'.
Proof.
  induction 1 as [t _ IH]. intros t' d d' D D' S.
  destruct (describes_headed D) as (h & -> & Hd). destruct (describes_headed D') as (h' & -> & Hd').
  destruct (same_head S Hd Hd') as (En & Es & Ec).
  inversion D as [t0 h0 P0 _ _|t0 h0 K0 _ I0 _|t0 h0 c K0 Nc _ I0 U0 _|t0 h0 vs l K0 _ V0 F0 _|t0 h0 dm x e K0 _ L0 E0 P0 _|t0 h0 k x e K0 _ E0 P0 _|t0 h0 fs l K0 _ E0 F0 _]; subst t0 h0;
  inversion D' as [t0 h0 P1 _ _|t0 h0 K1 _ I1 _|t0 h0 c1 K1 Nc1 _ I1 U1 _|t0 h0 vs1 l1 K1 _ V1 F1 _|t0 h0 dm1 x1 e1 K1 _ L1 E1 P1 _|t0 h0 k1 x1 e1 K1 _ E1 P1 _|t0 h0 fs1 l1 K1 _ E1 F1 _]; subst t0 h0;
  try (rewrite K0 in Ec); try (rewrite K1 in Ec); try discriminate Ec.
  all: try (exfalso; destruct (o_kind (H t)) in P0, Ec; try tauto; discriminate Ec).
  all: try (exfalso; destruct (o_kind (H' t')) in P1, Ec; try tauto; discriminate Ec).
  - apply Alike_plain; [exact En|exact Es|]. destruct (o_kind (H t)), (o_kind (H' t')); try tauto; discriminate Ec.
  - apply Alike_plain; [exact En|exact Es|]. rewrite K0, K1. reflexivity.
  - exfalso. assert (E := same_bool (same_entry S I0 I1)). discriminate E.
  - exfalso. assert (E := same_bool (same_entry S I0 I1)). discriminate E.
  - apply Alike_plain; [exact En|exact Es|]. rewrite K0, K1. assert (E := same_bool (same_entry S U0 U1)). destruct c, c1; congruence.
  - apply Alike_plain; [exact En|exact Es|]. rewrite K0, K1. assert (E := same_array (same_entry S V0 V1)). clear - F0 F1 E.
    revert vs1 l1 F1 E. induction F0 as [|[n v] d vs l (g & -> & A & B & _) F IH]; intros vs1 l1 F1 E; inversion E as [|? ? ? ? S1 S2]; subst; inversion F1 as [|[n1 v1] ? ? ? (g1 & -> & A1 & B1 & _) F2]; subst; [reflexivity|].
    cbn [fst snd] in *. assert (X := same_str (same_entry S1 A A1)). assert (Y := same_int (same_entry S1 B B1)). subst. f_equal. eapply IH; eauto.
  - assert (E := same_int (same_entry S L0 L1)). assert (dm = dm1) by lia. subst dm1.
    eapply Alike_array; [exact En|exact Es|exact K0|exact K1|]. inversion P0 as [? ? _ Q0|? ? F0 _]; [|discriminate F0]. inversion P1 as [? ? _ Q1|? ? F0 _]; [|discriminate F0]. subst.
    apply IH with (2 := Q0) (3 := Q1); [unfold parts; rewrite K0; left; reflexivity|]. exact (same_entry S E0 E1).
  - eapply Alike_container; [exact En|exact Es|exact K0|exact K1|]. inversion P0 as [? ? _ Q0|? ? F0 _]; [|discriminate F0]. inversion P1 as [? ? _ Q1|? ? F0 _]; [|discriminate F0]. subst.
    apply IH with (2 := Q0) (3 := Q1); [unfold parts; rewrite K0; left; reflexivity|]. exact (same_entry S E0 E1).
  - eapply Alike_compound; [exact En|exact Es|exact K0|exact K1|]. assert (E := same_array (same_entry S E0 E1)).
    assert (IH' : forall f, In f fs -> forall t' d d', describes true true H (f_type f) d -> describes true true H' t' d' -> same d d' -> alike H H' (f_type f) t').
    { intros f If. apply IH. unfold parts. rewrite K0. apply in_map, If. }
    clear - F0 F1 E IH'. revert fs1 l1 F1 E. induction F0 as [|f d fs l Fd F IHF]; intros fs1 l1 F1 E; inversion E as [|? ? ? ? S1 S2]; subst; inversion F1 as [|f1 ? ? ? Fd1 F2]; subst; constructor.
    + inversion Fd as [? g e A B C D _]; subst. inversion Fd1 as [? g1 e1 A1 B1 C1 D1 _]; subst. constructor.
      * exact (same_str (same_entry S1 A A1)).
      * assert (X := same_int (same_entry S1 (D eq_refl) (D1 eq_refl))). lia.
      * inversion C as [? ? _ Q0|? ? Fx _]; [|discriminate Fx]. inversion C1 as [? ? _ Q1|? ? Fx _]; [|discriminate Fx]. subst.
        apply (IH' f (or_introl eq_refl) _ _ _ Q0 Q1). exact (same_entry S1 B B1).
    + apply IHF with (l1 := l'); [intros f0 I0; apply IH'; right; exact I0|exact F2|exact S2].
Qed.

(** The same definition gives the same description, whatever the options. *)
Lemma alike_minimal lay H H' t t' : alike H H' t t' -> to_h_minimal lay (H t) = to_h_minimal lay (H' t').
Proof.
  intros A. assert (E : o_name (H t) = o_name (H' t') /\ o_size (H t) = o_size (H' t') /\ superclass_name (o_kind (H t)) = superclass_name (o_kind (H' t'))).
  { inversion A as [? ? En Es K|? ? ? ? ? En Es K K'|? ? ? ? ? ? En Es K K'|? ? ? ? En Es K K']; subst; (split; [exact En|split; [exact Es|]]); rewrite ?K, ?K'; try reflexivity.
    destruct (o_kind (H t)), (o_kind (H' t')); try tauto; reflexivity. }
  destruct E as (E1 & E2 & E3). unfold to_h_minimal, rsize. rewrite E1, E2, E3. reflexivity.
Qed.
Lemma alike_offsets H H' fs fs' n : Forall2 (field_alike H H') fs fs' -> offset_of n fs = offset_of n fs'.
Proof. induction 1 as [|f f' fs fs' [? ? En Eo _] F IH]; cbn [offset_of]; [reflexivity|]. rewrite En, Eo, IH. reflexivity. Qed.
Lemma alike_to_h full lay H H' f : forall t t', alike H H' t t' -> to_h f full lay H t = to_h f full lay H' t'.
Proof.
  induction f as [|f IH]; intros t t' A; [reflexivity|].
  assert (M := alike_minimal lay A). cbn [to_h]. rewrite M.
  set (sub := fun x => if full then to_h f full lay H x else Ok (to_h_minimal lay (H x))). set (sub' := fun x => if full then to_h f full lay H' x else Ok (to_h_minimal lay (H' x))).
  assert (B : forall x x', alike H H' x x' -> sub x = sub' x'). { intros x x' Ax. unfold sub, sub'. destruct full; [apply IH, Ax|rewrite (alike_minimal lay Ax); reflexivity]. }
  inversion A as [? ? En Es K|? ? d x x' En Es K K' X|? ? k k' x x' En Es K K' X|? ? fs fs' En Es K K' F]; subst.
  - unfold rsize. rewrite Es. destruct (o_kind (H t)), (o_kind (H' t')); try tauto; subst; reflexivity.
  - rewrite K, K'. assert (Bx := B _ _ X). unfold sub, sub' in Bx. rewrite Bx. reflexivity.
  - rewrite K, K'. assert (Bx := B _ _ X). unfold sub, sub' in Bx. rewrite Bx. reflexivity.
  - rewrite K, K'.
    assert (Fl : fields_h sub fs = fields_h sub' fs').
    { clear - F B. induction F as [|g g' fs fs' [? ? En Eo Al] F IHF]; cbn [fields_h]; [reflexivity|]. rewrite (B _ _ Al), IHF, En. reflexivity. }
    rewrite Fl. destruct (fields_h sub' fs') as [l| | |]; cbn [bind]; try reflexivity. destruct lay; [|reflexivity].
    assert (Ol : offsets_h fs l = offsets_h fs' l).
    { clear Fl. induction l as [|g l IHl]; cbn [offsets_h]; [reflexivity|]. destruct (hget (s_ "name") g) as [[n| | | |]|]; try reflexivity. rewrite (alike_offsets n F), IHl. reflexivity. }
    rewrite Ol. reflexivity.
Qed.
Lemma same_refl : forall d, same d d.
Proof.
  fix IH 1. intros [s|z|b|l|l]; [constructor|constructor|constructor| |].
  - constructor. induction l as [|x l IHl]; constructor; [apply IH|exact IHl].
  - assert (R : forall k x, hget k l = Some x -> same x x).
    { induction l as [|[n v] l IHl]; intros k x; cbn [hget]; [discriminate|]. destruct (seqb n k); [|apply IHl].
      intros Ex. injection Ex as <-. apply IH. }
    constructor; [tauto|]. intros k x y Ex Ey. assert (E : x = y) by congruence. destruct E. exact (R k x Ex).
Qed.
Lemma describes_compound full lay H t h fs : describes full lay H t (RHash h) -> o_kind (H t) = OComp fs ->
  exists l, entry h "fields" (RArr l) /\ Forall2 (field_describes full lay H) fs l.
Proof.
  intros D K. inversion D; subst; try congruence.
  - rewrite K in *. tauto.
  - match goal with A : o_kind (H t) = OComp _ |- _ => rewrite K in A; inversion A; subst end. eauto.
Qed.
