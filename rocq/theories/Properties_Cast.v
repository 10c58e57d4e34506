(** * Properties_Cast: C36, value_cast; C46, value_get_field. *)
From Verif Require Import Base Types WellFormed Layout ValueOps ValueSpec InitProofs ValueAtoms ValueInst EltOps EltProofs Visitor EndianSpec Csv CastSpec CastProofs.
Local Open Scope N_scope.

(** C36: on a number, value_cast<T> gives its bytes if the type of the value is T, and throws BadValueCast otherwise. *)
Theorem C36_cast_number_partial n c n' c' bs f : num_supported n' c' = true -> lenN bs = n' ->
  (n' = n /\ c' = c /\ value_cast n c f (TNum n' c') (map B bs) = Ok bs) \/
  (~ (n' = n /\ c' = c) /\ value_cast n c f (TNum n' c') (map B bs) = Throw EBadValueCast).
Proof.
  intros Hn <-. unfold value_cast, apply_visitor. cbn [vvisit]. rewrite Hn. rewrite <- (app_nil_r (map B bs)), take_raw_map. cbn [bind vh_num cast_visitor].
  destruct (N.eqb_spec (lenN bs) n) as [E|E]; [|right; split; [tauto|reflexivity]].
  destruct c, c'; cbn; (left; repeat split; assumption) || (right; split; [intros [_ X]; discriminate|reflexivity]).
Qed.
(** C36: on an enum or an opaque it throws BadValueCast. *)
Theorem C36_cast_enum_partial n c vs bs f : lenN bs = 4 -> value_cast n c f (TEnum 4 vs) (map B bs) = Throw EBadValueCast.
Proof.
  intros L. unfold value_cast, apply_visitor. cbn [vvisit]. unfold enum_size. rewrite <- L, <- (app_nil_r (map B bs)), take_raw_map. reflexivity.
Qed.
Theorem C36_cast_opaque_partial n c k m f : value_cast n c f (TOpaque k) m = Throw EBadValueCast.
Proof. reflexivity. Qed.
(** C36, the part that holds for all types: for every type without pointers and opaques and every valid value of it, value_cast
    terminates normally or throws BadValueCast, and what it returns are the bytes of a number of type T that is in the value.
    Missing: the claim says that it throws on compounds, arrays and containers; it does not (see below). *)
Theorem C36_cast_partial n c t m : wf t -> swappable t = true -> valid t m ->
  (exists bs, conv (fun f => value_cast n c f t m) (Ok bs) /\ contains t m n c bs) \/ conv (fun f => value_cast n c f t m) (Throw EBadValueCast).
Proof.
  intros Hw Hs Hv. destruct (proj1 (cast_visit n c) t Hw Hs m None [] [] Hv) as (b & s' & C & M). rewrite !app_nil_r in C.
  destruct C as [k C]. destruct M as [-> |(bs & -> & Hc)]; [right|left; exists bs; split; [|exact Hc]];
    exists k; intros f Hf; unfold value_cast, apply_visitor; rewrite (C f Hf); reflexivity.
Qed.
(** C36: if there is no number of type T in the type, it throws BadValueCast. *)
Theorem C36_no_number_throws t m n c : wf t -> swappable t = true -> valid t m -> ~ has_num t n c ->
  conv (fun f => value_cast n c f t m) (Throw EBadValueCast).
Proof.
  intros Hw Hs Hv Hn. destruct (C36_cast_partial n c Hw Hs Hv) as [(bs & _ & H)|H]; [|exact H]. exfalso. apply Hn. eapply (proj1 (@contains_has n c)), H.
Qed.
Example C36_example : wf (TComp 8 (FCons (s_ "a") 0 (TNum 4 SInt) (FCons (s_ "b") 4 (TNum 4 Float) FNil))) /\
  swappable (TComp 8 (FCons (s_ "a") 0 (TNum 4 SInt) (FCons (s_ "b") 4 (TNum 4 Float) FNil))) = true /\
  ~ has_num (TComp 8 (FCons (s_ "a") 0 (TNum 4 SInt) (FCons (s_ "b") 4 (TNum 4 Float) FNil))) 8 Float /\
  valid (TComp 8 (FCons (s_ "a") 0 (TNum 4 SInt) (FCons (s_ "b") 4 (TNum 4 Float) FNil))) (map B [1; 2; 3; 4; 5; 6; 7; 8]).
Proof.
  split; [repeat split; unfold two64; simpl; lia|]. split; [reflexivity|]. split; [cbn; intuition discriminate|].
  exists [], (map B [1; 2; 3; 4]), (map B [5; 6; 7; 8]). split; [reflexivity|]. split; [exists []; auto|]. split; [exists [1; 2; 3; 4]; auto|].
  exists [], (map B [5; 6; 7; 8]), []. split; [reflexivity|]. split; [exists []; auto|]. split; [exists [5; 6; 7; 8]; auto|]. exists []; auto.
Qed.

(** ** Where the claim is false *)
(** A cast of a compound gives its first number, if it has the type T ... *)
Theorem C36_compound_refuted : conv (fun f => value_cast 4 SInt f (TComp 8 (FCons (s_ "a") 0 (TNum 4 SInt) (FCons (s_ "b") 4 (TNum 4 SInt) FNil)))
  (map B [1; 2; 3; 4; 5; 6; 7; 8])) (Ok [1; 2; 3; 4]).
Proof. exists 10%nat. intros m Hm. replace m with (10 + (m - 10))%nat by lia. generalize (m - 10)%nat. intros k. vm_compute. reflexivity. Qed.
(** ... and throws if the first number has another type, unless that number is in an array: the array's visit returns true
    whatever the visit of the elements returns, so the float after it is found. *)
Theorem C36_after_array_refuted :
  conv (fun f => value_cast 4 Float f (TComp 8 (FCons (s_ "a") 0 (TNum 4 SInt) (FCons (s_ "b") 4 (TNum 4 Float) FNil)))
    (map B [1; 2; 3; 4; 5; 6; 7; 8])) (Throw EBadValueCast) /\
  conv (fun f => value_cast 4 Float f (TComp 8 (FCons (s_ "a") 0 (TArray 4 1 (TNum 4 SInt)) (FCons (s_ "b") 4 (TNum 4 Float) FNil)))
    (map B [1; 2; 3; 4; 5; 6; 7; 8])) (Ok [5; 6; 7; 8]).
Proof.
  split; exists 10%nat; intros m Hm; replace m with (10 + (m - 10))%nat by lia; generalize (m - 10)%nat; intros k; vm_compute; reflexivity.
Qed.
(** A cast of an array gives its first element, a cast of a vector gives its last. *)
Theorem C36_elements_refuted :
  conv (fun f => value_cast 4 SInt f (TArray 8 2 (TNum 4 SInt)) (map B [1; 2; 3; 4; 5; 6; 7; 8])) (Ok [1; 2; 3; 4]) /\
  conv (fun f => value_cast 4 SInt f (TCont KVec 24 (TNum 4 SInt)) (put_obj 24 (VecObj 8 (map B [1; 2; 3; 4; 5; 6; 7; 8])))) (Ok [5; 6; 7; 8]).
Proof.
  split; exists 10%nat; intros m Hm; replace m with (10 + (m - 10))%nat by lia; generalize (m - 10)%nat; intros k; vm_compute; reflexivity.
Qed.
(** On a number of a size without C++ type it throws UnsupportedType, which is not a BadValueCast. *)
Theorem C36_unsupported n c n' c' f m : num_supported n' c' = false -> value_cast n c f (TNum n' c') m = Throw EUnsupported.
Proof. intros H. unfold value_cast, apply_visitor. cbn [vvisit]. rewrite H. reflexivity. Qed.

(** ** C46: value_get_field on a compound gives the first field that has the name (its place in the value and its type), and
    throws FieldNotFound (a BadValueCast) exactly if no field has it. *)
Theorem C46_get_field name s fs m f : wf (TComp s fs) -> lenN m = s ->
  (exists off t, first_field name fs off t /\ value_get_field name f (TComp s fs) m = Ok ([SField name], off, t)) \/
  (~ In name (field_names fs) /\ value_get_field name f (TComp s fs) m = Throw EBadValueCast).
Proof.
  intros (_ & Hw) L. unfold value_get_field, apply_visitor. cbn [vvisit].
  destruct (@field_getter_fields name f fs [] m 0 s Hw L) as [(off & t & F & E)|(Hn & E)].
  - left. exists off, t. split; [exact F|]. rewrite E. reflexivity.
  - right. split; [exact Hn|]. rewrite E. reflexivity.
Qed.
Theorem C46_first_field_exists name fs : In name (field_names fs) <-> exists off t, first_field name fs off t.
Proof.
  split.
  - induction fs as [|nm off t r IH]; cbn [field_names]; [intros []|]. intros H. destruct (list_eq_dec ascii_dec nm name) as [-> |Hn]; [exists off, t; constructor|].
    destruct H as [H|H]; [congruence|]. destruct (IH H) as (o & u & F). exists o, u. constructor; assumption.
  - intros (off & t & F). induction F; [left; reflexivity|right; assumption].
Qed.
(** On a number, an enum or an opaque it throws. *)
Theorem C46_not_a_compound name f n c bs k vs m bs4 : num_supported n c = true -> lenN bs = n -> lenN bs4 = 4 ->
  value_get_field name f (TNum n c) (map B bs) = Throw EBadValueCast /\ value_get_field name f (TEnum 4 vs) (map B bs4) = Throw EBadValueCast /\
  value_get_field name f (TOpaque k) m = Throw EBadValueCast.
Proof.
  intros Hn <- L. unfold value_get_field, apply_visitor. cbn [vvisit]. rewrite Hn. unfold enum_size. rewrite <- L, <- (app_nil_r (map B bs)), <- (app_nil_r (map B bs4)), !take_raw_map.
  repeat split; reflexivity.
Qed.
Example C46_example : let fs := FCons (s_ "a") 0 (TNum 4 SInt) (FCons (s_ "b") 4 (TNum 4 Float) FNil) in
  wf (TComp 8 fs) /\ value_get_field (s_ "b") 10 (TComp 8 fs) (map B [1; 2; 3; 4; 5; 6; 7; 8]) = Ok ([SField (s_ "b")], 4, TNum 4 Float) /\
  value_get_field (s_ "c") 10 (TComp 8 fs) (map B [1; 2; 3; 4; 5; 6; 7; 8]) = Throw EBadValueCast.
Proof. split; [repeat split; unfold two64; simpl; lia|]. split; vm_compute; reflexivity. Qed.
(** "Throws FieldNotFound if the field is not a field of the base type" (value.hh:110) is false for arrays: the visitor goes
    through the elements, and the field of the first one is returned although an array has no field. *)
Theorem C46_array_refuted : let t := TArray 8 2 (TComp 4 (FCons (s_ "x") 0 (TNum 4 SInt) FNil)) in
  wf t /\ conv (fun f => value_get_field (s_ "x") f t (map B [1; 2; 3; 4; 5; 6; 7; 8])) (Ok ([SElt 0; SField (s_ "x")], 0, TNum 4 SInt)).
Proof.
  split; [repeat split; unfold two64; simpl; lia|].
  exists 10%nat. intros m Hm. replace m with (10 + (m - 10))%nat by lia. generalize (m - 10)%nat. intros k. vm_compute. reflexivity.
Qed.
