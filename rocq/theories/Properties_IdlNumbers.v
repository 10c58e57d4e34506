(** * Properties_IdlNumbers: numbers and identifiers in IDL files (C87, more on C57). *)
From Verif Require Import Base Types NamesSpec Names NamesProofs.
From Verif Require Import Graph GraphSpec GraphProofs Registry RegistrySpec Exporter Idl IdlSpec IdlProofs IdlMain Properties_Idl.
Local Open Scope char_scope.

(** ** C57: identifiers *)
(** No identifier has the characters that only type names of typelib have; names without them, and without a leading
    underscore, are used as they are; every other character is kept in its place, up to one leading underscore. *)
Theorem C57_identifiers s :
  (forall x, In x (s_ "<>/,") -> ~ In x (idl_id s)) /\
  (clean s -> idl_id s = s) /\
  (exists r, (idl_id s = r \/ r = "_" :: idl_id s) /\
             Forall2 (fun x y => y = x /\ ~ In x (s_ "<>/,") \/ y = "_" /\ In x (s_ "<>/,")) s r).
Proof.
  assert (hsp : forall x, special x = true <-> In x (s_ "<>/,")).
  { intros x. unfold special. rewrite !orb_true_iff, !NamesProofs.ceqb_eq. cbn. firstorder congruence. }
  assert (hr : Forall2 (fun x y => y = x /\ ~ In x (s_ "<>/,") \/ y = "_" /\ In x (s_ "<>/,")) s (map (fun c => if special c then "_" else c) s)).
  { induction s as [| x s IH]; [constructor |]. constructor; [| exact IH]. destruct (special x) eqn:e.
    - right. split; [reflexivity | apply hsp; exact e].
    - left. split; [reflexivity |]. intros h. apply hsp in h. congruence. }
  assert (hm : forall x, In x (s_ "<>/,") -> ~ In x (map (fun c => if special c then "_" else c) s)).
  { intros x hx hi. apply in_map_iff in hi. destruct hi as (y & e & _). destruct (special y) eqn:ey.
    - subst x. simpl in hx. intuition discriminate.
    - subst y. apply hsp in hx. congruence. }
  split; [| split].
  - intros x hx hi. apply (hm x hx). unfold idl_id, strip1 in hi. destruct (map _ s) as [| y r]; [destruct hi |].
    destruct (ceqb y "_"); [right |]; assumption.
  - intros (hne & hall & hfirst). unfold idl_id.
    assert (em : map (fun c => if special c then "_" else c) s = s).
    { rewrite <- (map_id s) at 2. apply map_ext_in. intros x hx. rewrite Forall_forall in hall. specialize (hall x hx).
      destruct (special x) eqn:e; [| reflexivity]. apply hsp in e. exfalso. apply hall. simpl in e |- *. tauto. }
    rewrite em. destruct s as [| x r]; [reflexivity |]. unfold strip1. destruct (ceqb x "_") eqn:e; [| reflexivity].
    apply ceqb_eq in e. contradiction.
  - exists (map (fun c => if special c then "_" else c) s). split; [| exact hr].
    unfold idl_id, strip1. destruct (map _ s) as [| y r]; [left; reflexivity |]. destruct (ceqb y "_") eqn:e; [| left; reflexivity].
    right. apply ceqb_eq in e. subst; reflexivity.
Qed.
Example C57_identifiers_case : idl_id (s_ "map</std/string,/int>") = s_ "map__std_string__int_" /\ idl_id (s_ "_hidden") = s_ "hidden".
Proof. split; reflexivity. Qed.

(** ** C87: numbers *)
(** A number that IDL has: its category and size are in the table (bool is the one-byte type of that name). *)
Definition in_idl (o : tobj) (k : ncat) : Prop :=
  (exists n, In (n, (k, o_size o)) idl_numbers) /\ (o_name o = s_ "/bool" -> k = UInt /\ o_size o = 1%N).
Lemma numeric_in_idl o k : in_idl o k ->
  In (numeric_name o k, (k, o_size o)) idl_numbers /\ (numeric_name o k = s_ "boolean" <-> o_name o = s_ "/bool").
Proof.
  intros [(n & hn) hb]. unfold numeric_name. destruct (seqb (o_name o) (s_ "/bool")) eqn:eb.
  { apply seqb_eq in eb. destruct (hb eb) as [-> ->]. split; [left; reflexivity | tauto]. }
  assert (hnb : o_name o <> s_ "/bool") by (intros e; apply seqb_eq in e; congruence).
  clear hb eb. revert hn. generalize (o_size o). intros z hn.
  repeat (destruct hn as [e | hn];
    [injection e as _ <- <-; vm_compute; split; [tauto | split; [discriminate | intros e2; exfalso; apply hnb; exact e2]] |]).
  destruct hn.
Qed.
(** A numeric type is referred to by the basic type of IDL that has the same category and the same size. *)
Theorem C87_basic_type_partial c H t k o n d : o_kind (H t) = ONum k -> in_idl (H t) k -> named c H t o n d ->
  o = None /\ d = [] /\ In (n, (k, o_size (H t))) idl_numbers /\ (n = s_ "boolean" <-> o_name (H t) = s_ "/bool").
Proof.
  intros hk hin hn. destruct (numeric_in_idl hin) as [h1 h2]. inversion hn; subst; try congruence.
  assert (k0 = k) by congruence. subst k0. repeat split; try reflexivity; try exact h1; apply h2.
Qed.
(** What is written for a field of such a type. *)
Theorem C87_field_partial fuel c H t k field : o_kind (H t) = ONum k -> in_idl (H t) k -> field <> [] -> no_colon field ->
  exists n, In (n, (k, o_size (H t))) idl_numbers /\ (n = s_ "boolean" <-> o_name (H t) = s_ "/bool") /\
    idl_absolute (S fuel) c H t field = Ok (n ++ s_ " " ++ strip1 field).
Proof.
  intros hk hin hf hc. destruct (numeric_in_idl hin) as [h1 h2]. exists (numeric_name (H t) k).
  split; [exact h1 |]. split; [exact h2 |].
  unfold idl_absolute, idl_base. cbn [ident]. rewrite hk. cbn [bind]. rewrite (strip_no_colon hc).
  assert (e : normalizeIDLName (numeric_name (H t) k) = numeric_name (H t) k).
  { clear h2. repeat (destruct h1 as [e | h1]; [injection e as e1 _ _; rewrite <- e1; reflexivity |]). destruct h1. }
  rewrite e. destruct field as [| x r]; [congruence |]. rewrite app_nil_r. reflexivity.
Qed.
(** Arrays of numbers: the same with the dimension. *)
Theorem C87_array_field_partial fuel c H a dim t k field : o_kind (H a) = OArr dim t -> o_kind (H t) = ONum k -> in_idl (H t) k ->
  field <> [] -> no_colon field ->
  exists n, In (n, (k, o_size (H t))) idl_numbers /\ (n = s_ "boolean" <-> o_name (H t) = s_ "/bool") /\
    idl_absolute (S (S fuel)) c H a field = Ok (n ++ s_ " " ++ strip1 field ++ s_ "[" ++ dec dim ++ s_ "]").
Proof.
  intros ha hk hin hf hc. destruct (numeric_in_idl hin) as [h1 h2]. exists (numeric_name (H t) k).
  split; [exact h1 |]. split; [exact h2 |].
  unfold idl_absolute, idl_base. cbn [ident]. rewrite ha, hk. cbn [bind ident]. rewrite (strip_no_colon hc).
  assert (e : normalizeIDLName (normalizeIDLName (numeric_name (H t) k) ++ []) = numeric_name (H t) k).
  { clear h2. repeat (destruct h1 as [e | h1]; [injection e as e1 _ _; rewrite <- e1; reflexivity |]). destruct h1. }
  rewrite e. destruct field as [| x r]; [congruence |]. reflexivity.
Qed.
(** What basic types there are for. *)
Theorem C87_domain o k : o_name o <> s_ "/bool" ->
  (in_idl o k <-> match k with
                  | UInt => In (o_size o) [1; 2; 4; 8]%N
                  | SInt => In (o_size o) [2; 4; 8]%N
                  | Float => In (o_size o) [4; 8]%N
                  end).
Proof.
  intros hb. unfold in_idl. generalize dependent (o_size o). intros z. split.
  - intros [(n & hn) _]. repeat (destruct hn as [e | hn]; [injection e as _ <- <-; simpl; tauto |]). destruct hn.
  - intros h. split; [| intros e; congruence].
    destruct k; simpl in h;
      repeat (destruct h as [<- | h]; [eexists; unfold idl_numbers; repeat ((left; reflexivity) || right) |]); destruct h.
Qed.
(** Two numeric types that have the same name in IDL have the same category and size, and are both bool or none is. *)
Theorem C87_distinct_partial c H t k o n d t' k' o' d' :
  o_kind (H t) = ONum k -> in_idl (H t) k -> named c H t o n d ->
  o_kind (H t') = ONum k' -> in_idl (H t') k' -> named c H t' o' n d' ->
  k = k' /\ o_size (H t) = o_size (H t') /\ (o_name (H t) = s_ "/bool" <-> o_name (H t') = s_ "/bool").
Proof.
  intros hk hi hn hk' hi' hn'. destruct (C87_basic_type_partial hk hi hn) as (_ & _ & h1 & h2).
  destruct (C87_basic_type_partial hk' hi' hn') as (_ & _ & h1' & h2').
  assert (U : forall m x y, In (m, x) idl_numbers -> In (m, y) idl_numbers -> x = y).
  { clear. intros m x y h1 h2.
    repeat (destruct h1 as [e | h1];
      [injection e as e1 e2; subst m x; repeat (destruct h2 as [e | h2]; [first [discriminate e | injection e as <-; reflexivity] |]); destruct h2 |]).
    destruct h1. }
  pose proof (U _ _ _ h1 h1') as e. injection e as -> ->. repeat split; tauto.
Qed.

(** The heap of the cases: int8_t (the type of char), long double, uint16_t, a 24-bit integer, bool, and an array. *)
Definition hnum : heap := fun t =>
  match t with
  | 0%nat => Obj (s_ "/int8_t") 1 (ONum SInt)
  | 1%nat => Obj (s_ "/long double") 16 (ONum Float)
  | 2%nat => Obj (s_ "/uint16_t") 2 (ONum UInt)
  | 3%nat => Obj (s_ "/int24_t") 3 (ONum SInt)
  | 4%nat => Obj (s_ "/bool") 1 (ONum UInt)
  | 5%nat => Obj (s_ "/uint8_t") 1 (ONum UInt)
  | 6%nat => Obj (s_ "/uint16_t[3]") 6 (OArr 3 2)
  | _ => Obj [] 0 ONull
  end.
Definition no_cfg : cfg := make_cfg [] [] 0 false [].
Example C87_case : in_idl (hnum 2) UInt /\ in_idl (hnum 4) UInt /\ no_colon (s_ "_speed") /\
  idl_absolute 3 no_cfg hnum 6 (s_ "_speed") = Ok (s_ "unsigned short speed[3]") /\
  idl_absolute 1 no_cfg hnum 4 (s_ "on") = Ok (s_ "boolean on").
Proof.
  split; [| split; [| split; [| split; reflexivity]]].
  - apply C87_domain; [discriminate | simpl; tauto].
  - split; [exists (s_ "boolean"); left; reflexivity | intros; split; reflexivity].
  - unfold no_colon. simpl. intuition discriminate.
Qed.
(** int8_t, the type of char, is written as the unsigned octet of uint8_t. *)
Theorem C87_sign_refuted : exists n,
  idl_absolute 1 no_cfg hnum 0 (s_ "x") = Ok (n ++ s_ " x") /\ idl_absolute 1 no_cfg hnum 5 (s_ "x") = Ok (n ++ s_ " x") /\
  o_kind (hnum 0) = ONum SInt /\ o_kind (hnum 5) = ONum UInt /\
  In (n, (UInt, 1%N)) idl_numbers /\ ~ In (n, (SInt, 1%N)) idl_numbers.
Proof.
  exists (s_ "octet"). split; [reflexivity |]. split; [reflexivity |].
  split; [reflexivity |]. split; [reflexivity |]. split; [right; left; reflexivity |].
  intros h. repeat (destruct h as [e | h]; [discriminate e |]). destruct h.
Qed.
(** A long double of 16 bytes is written as a double. *)
Theorem C87_size_refuted : exists n,
  idl_absolute 1 no_cfg hnum 1 (s_ "x") = Ok (n ++ s_ " x") /\ o_kind (hnum 1) = ONum Float /\ o_size (hnum 1) = 16%N /\ (forall k z, In (n, (k, z)) idl_numbers -> z = 8%N).
Proof.
  exists (s_ "double"). split; [reflexivity |]. split; [reflexivity |]. split; [reflexivity |].
  intros k z h. repeat (destruct h as [e | h]; [first [discriminate e | injection e as <- <-; reflexivity] |]). destruct h.
Qed.
(** An integer of another size has no type at all in the line of the field: no error is reported. *)
Theorem C87_other_size_refuted : idl_absolute 1 no_cfg hnum 3 (s_ "x") = Ok (s_ " x").
Proof. reflexivity. Qed.

Print Assumptions C57_identifiers.
Print Assumptions C87_basic_type_partial.
Print Assumptions C87_field_partial.
Print Assumptions C87_array_field_partial.
Print Assumptions C87_domain.
Print Assumptions C87_distinct_partial.
Print Assumptions C87_sign_refuted.
Print Assumptions C87_size_refuted.
Print Assumptions C87_other_size_refuted.
