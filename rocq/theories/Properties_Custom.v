(** * C79: customizations of types (specialize, specialize_model, convert_to_ruby, convert_from_ruby) *)
From Verif Require Import Base CustomSpec Custom CustomProofs.
From Coq Require Import Lia.

(** After any sequence of set and add, find_all returns the objects registered for the type, in the order: the key of the
    container or array kind, the name, the regexps (in the order of their first registration); for each key in the order of
    registration. *)
Theorem C79_find_all : forall (matches : N -> str -> bool) (O : Type) (h : list (op O)) (t : tm),
  find_all matches (run (new_table true) h) t = customizations matches h t.
Proof. intros. apply find_all_agrees. apply (agrees_run h agrees_new). Qed.
(** In particular it returns an object exactly if it is registered, not replaced since, for a key that is for the type, and
    its condition holds. *)
Theorem C79_found_iff : forall (matches : N -> str -> bool) (O : Type) (h : list (op O)) (t : tm) (x : O),
  In x (find_all matches (run (new_table true) h) t) <->
  exists k e, registered h k e /\ key_for matches k t /\ e_obj e = Some x /\ e_if e t = true.
Proof. intros. rewrite C79_find_all. apply customizations_in. Qed.
(** find returns the only object, or nil; with error_if_ambiguous = false, the first one. *)
Theorem C79_find_partial : forall (matches : N -> str -> bool) (O : Type) (h : list (op O)) (t : tm) (err : bool),
  (err = true -> length (customizations matches h t) <= 1) ->
  find matches (run (new_table true) h) t err = inl (hd_error (customizations matches h t)).
Proof.
  intros matches O h t err H. unfold find. rewrite C79_find_all. destruct err; [|rewrite andb_false_r; destruct (customizations matches h t); reflexivity].
  specialize (H eq_refl). destruct (Nat.ltb_spec 1 (length (customizations matches h t))); [lia|]. destruct (customizations matches h t); reflexivity.
Qed.
(** Without a container, add is refused and set replaces what the key had. *)
Theorem C79_without_container : forall (O : Type) (h : list (op O)) k e,
  add (run (new_table false) h) k e = None /\ pget (set (run (new_table false) h) k e) (mapping_for_key k) = Some [e].
Proof.
  intros O h k e. split; [|unfold set; rewrite pget_pset_key; destruct (key_dec k k); congruence].
  assert (F : forall l (tb : table O), tb_container tb = false -> tb_container (run tb l) = false).
  { induction l as [|[k' e'|k' e'] l IH]; intros tb H; cbn [run fold_left run_op]; [exact H| |]; apply IH.
    - unfold set. rewrite pset_container. exact H.
    - unfold add. rewrite H. exact H. }
  unfold add. rewrite (F h (new_table false) eq_refl). reflexivity.
Qed.

(** The documented ArgumentError of find is never raised. *)
Theorem C79_ambiguous_refuted :
  (forall (matches : N -> str -> bool) (O : Type) (tb : table O) t err, find matches tb t err <> inr ArgumentError) /\
  exists (h : list (op N)) t, length (customizations (fun _ _ => true) h t) = 2 /\ find (fun _ _ => true) (run (new_table true) h) t true = inr NameError.
Proof.
  split.
  - intros matches O tb t err. unfold find. destruct (_ && _); discriminate.
  - exists [OAdd (KText (s_ "/A")) (Entry (fun _ => true) (Some 1%N)); OAdd (KMatch 0) (Entry (fun _ => true) (Some 2%N))], (TM (s_ "/A") ShCompound). split; reflexivity.
Qed.

(** ** New types *)
Fixpoint created (h : list event) : nat := match h with [] => 0 | ECreate _ :: r => Datatypes.S (created r) | ECall _ :: r => created r end.
Lemma created_app : forall h1 h2, created (h1 ++ h2) = created h1 + created h2.
Proof. induction h1 as [|[c|t] h IH]; intros h2; cbn [app created]; [reflexivity|apply IH|rewrite IH; reflexivity]. Qed.
(** The type created after [h1], whatever happens later. *)
Lemma new_type_is : forall matches h1 t h2, nth_error (w_types (run_events matches world0 (h1 ++ ECreate t :: h2))) (created h1)
  = Some (t, subclass_initialize matches (run_events matches world0 h1) t).
Proof.
  intros matches h1 t h2. replace (h1 ++ ECreate t :: h2) with ((h1 ++ [ECreate t]) ++ h2) by (rewrite <- app_assoc; reflexivity).
  unfold run_events. rewrite fold_left_app. fold (run_events matches world0 (h1 ++ [ECreate t])).
  destruct (types_grow matches h2 (run_events matches world0 (h1 ++ [ECreate t]))) as (l & E). unfold run_events in E at 1. rewrite E.
  assert (L : length (w_types (run_events matches world0 h1)) = created h1).
  { clear. induction h1 as [|e h IH] using rev_ind; [reflexivity|]. unfold run_events. rewrite fold_left_app, created_app. fold (run_events matches world0 h). cbn [fold_left].
    destruct e as [c|t]; cbn [run_event created].
    - destruct (types_grow matches [ECall c] (run_events matches world0 h)) as (l & E). cbn [run_events fold_left run_event] in E.
      replace (w_types match run_call (run_events matches world0 h) c with Some w' => w' | None => run_events matches world0 h end) with (w_types (run_events matches world0 h)); [rewrite IH, Nat.add_0_r; reflexivity|].
      generalize (run_events matches world0 h). intros w. destruct c as [k o m|k o m|k a o b|a k o b]; cbn [run_call].
      + destruct (validate_options o); [destruct (add _ _ _)|]; reflexivity.
      + destruct (validate_options o); [destruct (add _ _ _)|]; reflexivity.
      + destruct a, b; try reflexivity; (destruct (validate_options o); [destruct (add _ _ _)|]; reflexivity).
      + destruct (validate_options o); [destruct a, b; try destruct (add _ _ _)|]; reflexivity.
    - cbn [w_types]. rewrite app_length, IH. cbn [length]. reflexivity. }
  unfold run_events at 1. rewrite fold_left_app. cbn [fold_left run_event w_types]. fold (run_events matches world0 h1).
  rewrite <- app_assoc, nth_error_app2, L, Nat.sub_diag by (rewrite L; apply Nat.le_refl). reflexivity.
Qed.

(** A type gets the modules of specialize_model and specialize that were registered before it was created; nothing changes
    them afterwards. *)
Theorem C79_modules : forall matches h1 t h2, exists cu,
  nth_error (w_types (run_events matches world0 (h1 ++ ECreate t :: h2))) (created h1) = Some (t, cu) /\
  cu_model cu = customizations matches (asked asks_model h1) t /\
  cu_value cu = customizations matches (asked asks_value h1) t.
Proof.
  intros matches h1 t h2. eexists. split; [apply new_type_is|]. destruct (events_agree matches h1) as [A1 A2 A3].
  rewrite <- (find_all_agrees matches t A1), <- (find_all_agrees matches t A2). unfold subclass_initialize, type_subclass_initialize.
  destruct (find matches _ t false) as [[[cls b]|]|]; destruct (tm_shape t); split; reflexivity.
Qed.

(** to_ruby uses the first conversion registered for the type, and the type says so. Missing: calls with a Hash as second
    argument, and what numeric types say (C79_condition_refuted, C79_numeric_refuted). *)
Theorem C79_to_ruby_partial : forall matches h1 t h2, Forall plain_event h1 -> exists cu,
  nth_error (w_types (run_events matches world0 (h1 ++ ECreate t :: h2))) (created h1) = Some (t, cu) /\
  cu_to_ruby cu = option_map snd (hd_error (customizations matches (asked asks_to h1) t)) /\
  ((forall i, tm_shape t <> ShNumeric i) ->
   cu_declared cu = option_map (fun p => (fst p, false)) (hd_error (customizations matches (asked asks_to h1) t)) /\
   (needs_convertion_to_ruby cu = true <-> customizations matches (asked asks_to h1) t <> [])).
Proof.
  intros matches h1 t h2 P. eexists. split; [apply new_type_is|]. pose proof (events_to matches P) as A. rewrite <- (find_all_agrees matches t A).
  unfold subclass_initialize, type_subclass_initialize, find. rewrite andb_false_r.
  match goal with |- context [match match ?l with [] => None | x :: _ => Some x end with _ => _ end] => set (F := l) end.
  change (find_all matches (w_to (run_events matches world0 h1)) t) with F. clearbody F.
  destruct F as [|[cls b] F]; (split; [destruct (tm_shape t); reflexivity|]); intros NN; (split; [destruct (tm_shape t); try reflexivity; destruct (NN integer eq_refl)|]);
    destruct (tm_shape t); cbn; try (destruct (NN integer eq_refl)); split; try congruence; try discriminate.
Qed.

(** from_ruby for objects of a class uses the last conversion registered for that class and the type. Missing: Array for
    arrays, Array and DeepCopyArray for containers (C79_array_refuted). *)
Theorem C79_from_ruby_partial : forall matches h1 t h2 c,
  (forall e, tm_shape t = ShArray e -> c <> c_Array) -> (forall k, tm_shape t = ShContainer k -> c <> c_Array /\ c <> c_DeepCopyArray) ->
  exists cu,
  nth_error (w_types (run_events matches world0 (h1 ++ ECreate t :: h2))) (created h1) = Some (t, cu) /\
  forall b, hget N.eq_dec (cu_from cu) c = Some (Registered b) <->
    exists l1 l2, customizations matches (asked asks_from h1) t = l1 ++ (c, b) :: l2 /\ forall b', ~ In (c, b') l2.
Proof.
  intros matches h1 t h2 c HA HC. eexists. split; [apply new_type_is|]. destruct (events_agree matches h1) as [A1 A2 A3]. rewrite <- (find_all_agrees matches t A3).
  set (w := run_events matches world0 h1). set (F := find_all matches (w_from w) t). intros b.
  assert (LAST : last_for c F None = Some b <-> exists l1 l2, F = l1 ++ (c, b) :: l2 /\ forall b', ~ In (c, b') l2).
  { clearbody F. clear. assert (G : forall l acc, last_for c l acc = Some b <-> (exists l1 l2, l = l1 ++ (c, b) :: l2 /\ forall b', ~ In (c, b') l2) \/ (acc = Some b /\ forall b', ~ In (c, b') l)).
    { induction l as [|[c' b'] l IH]; intros acc; cbn [last_for].
      - split; [intros ->; right; split; [reflexivity|intros ? []]|]. intros [(l1 & l2 & E & _)|[E _]]; [destruct l1; discriminate|exact E].
      - rewrite IH. split.
        + intros [(l1 & l2 & -> & N)|[E N]]; [left; exists ((c', b') :: l1), l2; split; [reflexivity|exact N]|].
          destruct (N.eq_dec c' c) as [-> |Nc]; [injection E as ->; left; exists [], l; split; [reflexivity|exact N]|].
          right. split; [exact E|]. intros b2 [X|X]; [congruence|exact (N _ X)].
        + intros [(l1 & l2 & E & N)|[E N]].
          * destruct l1 as [|x l1]; cbn [app] in E; [injection E as -> -> ->|injection E as _ E2; left; exists l1, l2; split; [exact E2|exact N]].
            right. destruct (N.eq_dec c c); [split; [reflexivity|exact N]|congruence].
          * right. destruct (N.eq_dec c' c) as [-> |Nc]; [destruct (N b'); left; reflexivity|]. split; [exact E|]. intros b2 X. apply (N b2). right; exact X. }
    rewrite G. split; [intros [H|[H _]]; [exact H|discriminate]|auto]. }
  rewrite <- LAST. clear LAST.
  assert (FROM : hget N.eq_dec (cu_from (type_subclass_initialize matches w t)) c = match last_for c F None with Some b => Some (Registered b) | None => None end).
  { replace (cu_from (type_subclass_initialize matches w t)) with (fold_left (fun h (x : from_conv) => hset N.eq_dec h (fst x) (Registered (snd x))) F []).
    - apply from_fold.
    - unfold type_subclass_initialize. destruct (find matches _ t false) as [[[cls b0]|]|]; reflexivity. }
  assert (KEEP : forall X, hget N.eq_dec X c = match last_for c F None with Some b => Some (Registered b) | None => None end \/ (hget N.eq_dec X c = Some Builtin /\ last_for c F None = None) ->
     (hget N.eq_dec X c = Some (Registered b) <-> last_for c F None = Some b)).
  { intros X [H|[H1 H2]]; [rewrite H; destruct (last_for c F None); split; congruence|rewrite H1, H2; split; discriminate]. }
  unfold subclass_initialize. set (cu := type_subclass_initialize matches w t) in *. clearbody cu F. destruct (tm_shape t) as [k|e| |i|]; cbn [with_from cu_from]; apply KEEP.
  - destruct (HC k eq_refl) as [N1 N2]. left. rewrite !hget_hset. destruct (N.eq_dec c_DeepCopyArray c); [congruence|]. destruct (N.eq_dec c_Array c); [congruence|]. exact FROM.
  - specialize (HA e eq_refl). left. rewrite hget_hset. destruct (N.eq_dec c_Array c); [congruence|]. exact FROM.
  - assert (STEP : forall X c', (hget N.eq_dec X c = match last_for c F None with Some b => Some (Registered b) | None => None end \/ (hget N.eq_dec X c = Some Builtin /\ last_for c F None = None)) ->
       let Y := match hget N.eq_dec X c' with Some _ => X | None => hset N.eq_dec X c' Builtin end in
       hget N.eq_dec Y c = match last_for c F None with Some b => Some (Registered b) | None => None end \/ (hget N.eq_dec Y c = Some Builtin /\ last_for c F None = None)).
    { intros X c' H Y. subst Y. destruct (hget N.eq_dec X c') eqn:E; [exact H|]. rewrite hget_hset. destruct (N.eq_dec c' c) as [-> |_]; [|exact H].
      right. split; [reflexivity|]. destruct H as [H|[H1 H2]]; [|exact H2]. rewrite E in H. destruct (last_for c F None); congruence. }
    cbv zeta in STEP. apply STEP, STEP. left. exact FROM.
  - left. exact FROM.
  - left. exact FROM.
Qed.

(** Arrays and containers replace a registered conversion from Array by their own (compounds do not). *)
Theorem C79_array_refuted : exists matches h1 t cu,
  nth_error (w_types (run_events matches world0 (h1 ++ [ECreate t]))) (created h1) = Some (t, cu) /\
  customizations matches (asked asks_from h1) t = [(c_Array, 7%N)] /\ hget N.eq_dec (cu_from cu) c_Array = Some Builtin.
Proof. exists (fun _ _ => false), [ECall (CFromRuby (AClass c_Array) (KText (s_ "/double[]")) no_options (Some 7%N))], (TM (s_ "/double[3]") (ShArray (s_ "/double"))). eexists. repeat split. Qed.
(** convert_to_ruby name, :if => condition: the condition is dropped. *)
Theorem C79_condition_refuted : exists matches h1 t cu,
  nth_error (w_types (run_events matches world0 (h1 ++ [ECreate t]))) (created h1) = Some (t, cu) /\
  customizations matches (asked asks_to h1) t = [] /\ cu_to_ruby cu = Some 7%N.
Proof. exists (fun _ _ => false), [ECall (CToRuby (KText (s_ "/A")) (AHash (Options (Some (fun _ => false)) [])) no_options (Some 7%N))], (TM (s_ "/A") ShCompound). eexists. repeat split. Qed.
(** A conversion for a numeric type is used by to_ruby, but the type says that it needs none. *)
Theorem C79_numeric_refuted : exists matches h1 t cu,
  nth_error (w_types (run_events matches world0 (h1 ++ [ECreate t]))) (created h1) = Some (t, cu) /\
  cu_to_ruby cu = Some 7%N /\ cu_declared cu = Some (Some c_Numeric, true) /\ needs_convertion_to_ruby cu = false /\ cu_contains cu = false.
Proof. exists (fun _ _ => false), [ECall (CToRuby (KText (s_ "/bool")) ANil no_options (Some 7%N))], (TM (s_ "/bool") (ShNumeric true)). eexists. repeat split. Qed.

(** ** A history with all kinds of keys, a replaced value and a condition *)
Definition yes : tm -> bool := fun _ => true.
Definition only_A : tm -> bool := fun t => if list_eq_dec ascii_dec (tm_name t) (s_ "/A") then true else false.
Example history : list (op N) :=
  [OAdd (KMatch 3) (Entry yes (Some 1%N)); OAdd (KText (s_ "/std/vector<>")) (Entry yes (Some 2%N)); OAdd (KText (s_ "/std/vector</A>")) (Entry yes (Some 3%N));
   OAdd (KText (s_ "/std/vector<>")) (Entry only_A (Some 4%N)); OAdd (KText (s_ "/A[]")) (Entry yes (Some 5%N)); OSet (KMatch 3) (Entry yes (Some 6%N)); OAdd (KMatch 3) (Entry yes None)].
Example history_vector : customizations (fun _ _ => true) history (TM (s_ "/std/vector</A>") (ShContainer (s_ "/std/vector"))) = [2; 3; 6]%N.
Proof. reflexivity. Qed.
Example history_array : customizations (fun _ _ => false) history (TM (s_ "/A[4]") (ShArray (s_ "/A"))) = [5%N].
Proof. reflexivity. Qed.
