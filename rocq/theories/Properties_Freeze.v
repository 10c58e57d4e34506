(** * Properties_Freeze: frozen values (C85). *)
From Verif Require Import Base FreezeSpec Freeze.
Local Open Scope nat_scope.

Lemma upd_nth_same {A} i (f : A -> A) : forall l x, nth_error l i = Some x -> nth_error (upd_nth i f l) i = Some (f x).
Proof. induction i; intros [|y l] x E; try discriminate; cbn in *; [injection E as ->; reflexivity|apply IHi, E]. Qed.
Lemma upd_nth_other {A} i j (f : A -> A) : i <> j -> forall l, nth_error (upd_nth i f l) j = nth_error l j.
Proof. revert j. induction i; intros [|j] N [|y l]; cbn; try reflexivity; [contradiction|apply IHi; congruence]. Qed.
Lemma upd_nth_len {A} i (f : A -> A) : forall l, length (upd_nth i f l) = length l.
Proof. induction i; intros [|y l]; cbn; try reflexivity; rewrite IHi; reflexivity. Qed.
Definition wfz (w : wr) := match w with Wr b _ => b end.
Definition wcache (w : wr) := match w with Wr _ l => l end.
Lemma cfind_map i f l : cfind i (map (fun jx => (fst jx, f (snd jx))) l) = option_map f (cfind i l).
Proof. induction l as [|[j w] l IH]; [reflexivity|]. cbn. destruct (j =? i); [reflexivity|exact IH]. Qed.
Lemma cfind_at i j f l : cfind j (map (fun jx => if fst jx =? i then (fst jx, f (snd jx)) else jx) l) = if i =? j then option_map f (cfind j l) else cfind j l.
Proof.
  induction l as [|[k w] l IH]; cbn [map cfind]; [destruct (i =? j); reflexivity|]. cbn [fst snd]. destruct (k =? i) eqn:E; cbn [cfind].
  - apply Nat.eqb_eq in E. subst k. destruct (i =? j) eqn:E2; [reflexivity|exact IH].
  - destruct (k =? j) eqn:E2; [|exact IH]. apply Nat.eqb_eq in E2. subst k. rewrite Nat.eqb_sym, E. reflexivity.
Qed.
Section wr_ind.
  Variable P : wr -> Prop.
  Hypothesis H : forall b l, Forall (fun jx => P (snd jx)) l -> P (Wr b l).
  Fixpoint wr_ind' (w : wr) : P w :=
    match w with Wr b l => H b ((fix go l : Forall (fun jx => P (snd jx)) l := match l with [] => Forall_nil _ | x :: r => Forall_cons x (wr_ind' (snd x)) (go r) end) l) end.
End wr_ind.

(** ** An object of the cache after a call: it keeps its flag, or is frozen, or is gone, or is new. *)
Lemma object_freeze p : forall w, object p (freeze w) = option_map freeze (object p w).
Proof. induction p as [|i p IH]; intros [b l]; [reflexivity|]. cbn [object freeze]. rewrite cfind_map. destruct (cfind i l); [apply IH|reflexivity]. Qed.
Lemma object_upd p f : forall q w, frozen_at q (wr_upd p f w) =
  match object p w with
  | None => frozen_at q w
  | Some o => if list_eq_dec Nat.eq_dec (firstn (length p) q) p then frozen_at (skipn (length p) q) (f o) else frozen_at q w
  end.
Proof.
  unfold frozen_at. induction p as [|i p IH]; intros q [b l].
  - cbn [object wr_upd length firstn skipn]. destruct (list_eq_dec Nat.eq_dec [] []); [reflexivity|contradiction].
  - cbn [object wr_upd]. destruct q as [|j q].
    + cbn [object firstn]. destruct (cfind i l); [|reflexivity]. destruct (object p w); [|reflexivity]. destruct (list_eq_dec Nat.eq_dec (firstn (length (i :: p)) []) (i :: p)) as [E|_]; [discriminate|reflexivity].
    + cbn [object]. rewrite cfind_at. destruct (Nat.eqb_spec i j) as [<- |N].
      * destruct (cfind i l) as [x|]; [|reflexivity]. cbn [option_map]. rewrite IH. destruct (object p x) as [o|]; [|reflexivity]. cbn [length firstn skipn].
        destruct (list_eq_dec Nat.eq_dec (firstn (length p) q) p) as [E|E]; destruct (list_eq_dec Nat.eq_dec (i :: firstn (length p) q) (i :: p)) as [E2|E2]; try reflexivity; exfalso; [apply E2; rewrite E; reflexivity|injection E2; assumption].
      * destruct (cfind i l) as [x|]; [|reflexivity]. destruct (object p x) as [o|]; [|reflexivity]. destruct (list_eq_dec Nat.eq_dec (firstn (length (i :: p)) (j :: q)) (i :: p)) as [E|E]; [cbn in E; congruence|reflexivity].
Qed.
Lemma object_app q : forall p w o, object p w = Some o -> object (p ++ q) w = object q o.
Proof. induction p as [|i p IH]; intros [b l] o O; [injection O as <-; reflexivity|]. cbn [app object] in *. destruct (cfind i l); [|discriminate]. apply IH, O. Qed.
(** [grows a b]: the flags of [b] are those of [a], except for objects that are gone, new ones, and frozen ones. *)
Definition grows (a b : wr) : Prop := forall q, frozen_at q a = Some true -> frozen_at q b = Some true \/ frozen_at q b = None.
Lemma prune_flags : forall w keep q, frozen_at q (prune keep w) = frozen_at q w \/ (frozen_at q (prune keep w) = None).
Proof.
  unfold frozen_at. intros w. induction w as [b l F] using wr_ind'. intros keep [|i q]; [left; reflexivity|]. cbn [prune object].
  induction F as [|[j x] l Fx F IH]; [left; reflexivity|]. cbn [cfind fst snd] in *. destruct (keep [j]) eqn:K.
  - cbn [cfind]. destruct (j =? i); [apply Fx|apply IH].
  - destruct (j =? i) eqn:E; [|apply IH]. apply Nat.eqb_eq in E. subst j. clear - K. right. induction l as [|[j y] l IH]; [reflexivity|]. destruct (keep [j]) eqn:K2; [|exact IH].
    cbn [cfind]. destruct (j =? i) eqn:E; [apply Nat.eqb_eq in E; subst; congruence|exact IH].
Qed.
Lemma upd_grows p f : (forall o, grows o (f o)) -> forall w, grows w (wr_upd p f w).
Proof.
  intros G w q E. rewrite object_upd. destruct (object p w) as [o|] eqn:O; [|left; exact E]. destruct (list_eq_dec Nat.eq_dec (firstn (length p) q) p) as [X|X]; [|left; exact E].
  apply G. rewrite <- E. unfold frozen_at. rewrite <- (firstn_skipn (length p) q) at 2. rewrite X, (@object_app _ _ _ _ O). reflexivity.
Qed.
Lemma grows_refl w : grows w w. Proof. intros q E. left. exact E. Qed.
Lemma prune_grows keep w : grows w (prune keep w).
Proof. intros q E. destruct (prune_flags w keep q) as [X|X]; rewrite X; [left; exact E|right; reflexivity]. Qed.
Lemma freeze_grows w : grows w (freeze w).
Proof. intros q E. left. unfold frozen_at in *. rewrite object_freeze. destruct (object q w) as [[b l]|]; [reflexivity|discriminate]. Qed.
Lemma get_grows i w : grows w (get_part i w).
Proof.
  intros q E. left. unfold frozen_at in *. destruct w as [b l]. unfold get_part. destruct (cfind i l) eqn:C; [exact E|]. destruct q as [|j q]; [exact E|]. cbn [object cfind] in *.
  destruct (i =? j) eqn:X; [apply Nat.eqb_eq in X; subst; rewrite C in E; discriminate|exact E].
Qed.
Lemma drop_grows w : grows w (drop_all w).
Proof. destruct w as [b l]. intros [|i q] E; [left; exact E|right; reflexivity]. Qed.
Lemma get_prune_grows i keep w : grows w (wr_upd [i] (prune keep) (get_part i w)).
Proof.
  intros q E. assert (X : frozen_at q (get_part i w) = Some true). { destruct (@get_grows i w q E) as [X|X]; [exact X|]. exfalso. unfold frozen_at in *. destruct w as [b l]. unfold get_part in X.
    destruct (cfind i l) eqn:C; [rewrite X in E; discriminate|]. destruct q as [|j q]; [discriminate|]. cbn [object cfind] in *. destruct (i =? j) eqn:Y; [apply Nat.eqb_eq in Y; subst; rewrite C in E; discriminate|rewrite X in E; discriminate]. }
  apply upd_grows; [intros; apply prune_grows|exact X].
Qed.
Lemma call_grows st p c : grows (snd st) (snd (fst (do_call st p c))).
Proof.
  destruct st as [v w]. unfold do_call. destruct (object p w) as [[fz cache]|] eqn:O; [|apply grows_refl]. destruct (part p v) as [x|] eqn:X; [|apply grows_refl].
  destruct c as [i|i typed y keep| |xs keep|i keep|del keep|y keep| ]; destruct x as [z|[| |] l]; cbn [fst snd];
    repeat match goal with |- context [if ?b then _ else _] => destruct b | |- context [match ?x with [] => _ | _ => _ end] => destruct x | |- context [match ?x with Some _ => _ | None => _ end] => destruct x end; cbn [fst snd];
    try apply grows_refl; try (apply upd_grows; intros; first [apply prune_grows|apply get_grows|apply freeze_grows|apply drop_grows|apply get_prune_grows|apply upd_grows; intros; apply prune_grows]).
Qed.

Lemma frozen_object p w : frozen_at p w = Some true -> exists l, object p w = Some (Wr true l).
Proof. unfold frozen_at. destruct (object p w) as [[b l]|]; [|discriminate]. intros E. injection E as ->. exists l. reflexivity. Qed.
Ltac cases := repeat match goal with |- context [if ?b then _ else _] => destruct b | |- context [match ?x with [] => _ | _ => _ end] => destruct x | |- context [match ?x with Some _ => _ | None => _ end] => destruct x end.

(** A frozen object refuses the methods that change its value: they raise, and neither the value nor any object changes.
    Except for the assignment of typed values to the elements of arrays. *)
Theorem C85_refused_partial v w p x c : frozen_at p w = Some true -> part p v = Some x -> own_method c x = true -> loophole c x = false ->
  exists e, do_call (v, w) p c = ((v, w), Throw e) /\ (e = EType \/ e = EArg).
Proof.
  intros F X M L. destruct (frozen_object F) as (l & O). unfold do_call. rewrite O, X.
  destruct c as [i|i typed y keep| |xs keep|i keep|del keep|y keep| ]; destruct x as [z|[| |] l']; try discriminate; try (destruct typed; [discriminate|]); cases; try discriminate; eexists; (split; [reflexivity|auto]).
Qed.
(** No other call on it changes the value, except for those that write it as a whole. *)
Lemma frozen_call v w p x c : frozen_at p w = Some true -> part p v = Some x -> loophole c x = false -> fst (fst (do_call (v, w) p c)) = v.
Proof.
  intros F X L. destruct (frozen_object F) as (l & O). unfold do_call. rewrite O, X.
  destruct c as [i|i typed y keep| |xs keep|i keep|del keep|y keep| ]; destruct x as [z|[| |] l']; try discriminate; try (destruct typed; [discriminate|]); cases; reflexivity.
Qed.
(** Any number of calls on objects that are frozen when they are called leave the whole value what it is. *)
Inductive through_frozen : state -> list (path * call) -> Prop :=
| tf_nil st : through_frozen st []
| tf_cons st p c h : frozen_at p (snd st) = Some true -> (forall x, part p (fst st) = Some x -> loophole c x = false) ->
    through_frozen (fst (do_call st p c)) h -> through_frozen st ((p, c) :: h).
Theorem C85_readonly_partial st h : through_frozen st h -> fst (do_calls st h) = fst st.
Proof.
  induction 1 as [st|[v w] p c h F L T IH]; [reflexivity|]. cbn [do_calls]. rewrite IH. destruct (part p v) as [x|] eqn:X; [apply frozen_call with (x := x); [exact F|exact X|apply L, X]|].
  unfold do_call. rewrite X. destruct (object p w) as [[b l]|]; reflexivity.
Qed.
(** freeze reaches the object and all the objects that exist for its parts, at any depth; others are not touched, nor is the
    value. *)
Theorem C85_freeze st p q b : frozen_at p (snd st) <> None -> part p (fst st) <> None ->
  let st' := fst (do_call st p CFreeze) in fst st' = fst st /\
  (frozen_at (p ++ q) (snd st) = Some b -> frozen_at (p ++ q) (snd st') = Some true) /\
  (firstn (length p) q <> p -> frozen_at q (snd st') = frozen_at q (snd st)).
Proof.
  destruct st as [v w]. cbn [fst snd]. intros F X. unfold do_call. unfold frozen_at in F. destruct (object p w) as [[fz l]|] eqn:O; [|contradiction]. destruct (part p v) as [x|]; [|contradiction].
  cbn [fst snd]. split; [reflexivity|]. split; intros H; rewrite object_upd, O.
  - rewrite firstn_app, Nat.sub_diag, firstn_all, firstn_O, app_nil_r. destruct (list_eq_dec Nat.eq_dec p p); [|contradiction]. rewrite skipn_app, skipn_all, Nat.sub_diag. cbn [app skipn].
    unfold frozen_at in *. rewrite object_freeze. rewrite (@object_app q _ _ _ O) in H. destruct (object q (Wr fz l)) as [[? ?]|]; [reflexivity|discriminate].
  - destruct (list_eq_dec Nat.eq_dec (firstn (length p) q) p); [contradiction|reflexivity].
Qed.
(** No call undoes a freeze: a frozen object stays frozen through any calls, as long as it is not invalidated. *)
Theorem C85_stays_frozen st h q : frozen_at q (snd st) = Some true -> (forall h1 h2, h = h1 ++ h2 -> frozen_at q (snd (do_calls st h1)) <> None) ->
  frozen_at q (snd (do_calls st h)) = Some true.
Proof.
  revert st. induction h as [|[p c] h IH]; intros st F N; [exact F|]. cbn [do_calls]. apply IH.
  - destruct (@call_grows st p c q F) as [X|X]; [exact X|]. exfalso. apply (N [(p, c)] h); [reflexivity|exact X].
  - intros h1 h2 ->. apply (N ((p, c) :: h1) h2). reflexivity.
Qed.
(** What a freeze prevents: on an object that is not frozen the assignment of a part changes this part. *)
Lemma part_upd i y : forall p v x, part (p ++ [i]) v = Some x -> part (p ++ [i]) (val_upd (p ++ [i]) (fun _ => y) v) = Some y.
Proof.
  intros p. induction p as [|j p IH]; intros [z|k l] x E; cbn [app part val_upd] in *; try discriminate.
  - destruct (nth_error l i) eqn:N; [|discriminate]. rewrite (@upd_nth_same _ i _ _ _ N). reflexivity.
  - destruct (nth_error l j) eqn:N; [|discriminate]. rewrite (@upd_nth_same _ j _ _ _ N). eapply IH, E.
Qed.
Lemma part_app q : forall p v x, part p v = Some x -> part (p ++ q) v = part q x.
Proof. induction p as [|i p IH]; intros v x E; [injection E as <-; reflexivity|]. cbn [app part] in *. destruct v; [discriminate|]. destruct (nth_error parts i); [apply IH, E|discriminate]. Qed.
Theorem C85_unfrozen_set v w p k l i typed y keep : frozen_at p w = Some false -> part p v = Some (VNode k l) -> i < length l ->
  snd (do_call (v, w) p (CSet i typed y keep)) = Ok tt /\ part (p ++ [i]) (fst (fst (do_call (v, w) p (CSet i typed y keep)))) = Some y.
Proof.
  intros F X I. unfold frozen_at in F. unfold do_call. destruct (object p w) as [[b c]|]; [|discriminate]. injection F as ->. rewrite X.
  assert (E : exists z, part (p ++ [i]) v = Some z). { rewrite (@part_app [i] _ _ _ X). cbn [part]. destruct (nth_error l i) eqn:N; [eexists; reflexivity|]. apply nth_error_None in N. lia. }
  destruct E as (z & E). apply Nat.ltb_lt in I. destruct k; rewrite I; destruct typed; cbn [fst snd]; (split; [reflexivity|eapply part_upd, E]).
Qed.

(** ... and the methods of containers do their work. *)
Lemma part_update f : forall p v x, part p v = Some x -> part p (val_upd p f v) = Some (f x).
Proof.
  induction p as [|j p IH]; intros v x E; [injection E as ->; reflexivity|]. destruct v as [z|k l]; cbn [part val_upd] in *; [discriminate|]. destruct (nth_error l j) eqn:N; [|discriminate].
  rewrite (@upd_nth_same _ j _ _ _ N). apply IH, E.
Qed.
Lemma delete_at_spec del l : forall i, delete_at del i l = map snd (filter (fun p => negb (del (fst p))) (combine (seq i (length l)) l)).
Proof. induction l as [|x l IH]; intros i; [reflexivity|]. cbn [delete_at length seq combine filter fst]. destruct (del i); cbn [negb map snd]; [apply IH|f_equal; apply IH]. Qed.
Theorem C85_unfrozen_container v w p l keep : frozen_at p w = Some false -> part p v = Some (VNode KVec l) ->
  (forall c, c = CClear \/ (exists xs, c = CPush xs keep) \/ (exists a, c = CErase a keep) \/ (exists d, c = CDeleteIf d keep) -> snd (do_call (v, w) p c) = Ok tt) /\
  part p (fst (fst (do_call (v, w) p CClear))) = Some (VNode KVec []) /\
  (forall xs, part p (fst (fst (do_call (v, w) p (CPush xs keep)))) = Some (VNode KVec (l ++ xs))) /\
  (forall a y b, l = a ++ y :: b -> part p (fst (fst (do_call (v, w) p (CErase (Some (length a)) keep)))) = Some (VNode KVec (a ++ b))) /\
  part p (fst (fst (do_call (v, w) p (CErase None keep)))) = Some (VNode KVec l) /\
  (forall del, part p (fst (fst (do_call (v, w) p (CDeleteIf del keep)))) = Some (VNode KVec (map snd (filter (fun p => negb (del (fst p))) (combine (seq 0 (length l)) l))))).
Proof.
  intros F X. unfold frozen_at in F. unfold do_call. destruct (object p w) as [[fz c]|]; [|discriminate]. injection F as ->. rewrite X. split; [|split; [|split; [|split; [|split]]]].
  - intros c0 [-> |[(xs & ->)|[(a & ->)|(d & ->)]]]; try reflexivity; [destruct xs|destruct a]; reflexivity.
  - cbn [fst]. rewrite (part_update _ X). reflexivity.
  - intros [|x xs]; cbn [fst]; [rewrite app_nil_r; exact X|]. rewrite (part_update _ X). reflexivity.
  - intros a y b ->. cbn [fst]. rewrite (part_update _ X). cbn [with_parts]. unfold remove_at. rewrite firstn_app, Nat.sub_diag, firstn_all, firstn_O, app_nil_r.
    rewrite skipn_app, skipn_all2 by lia. replace (S (length a) - length a) with 1 by lia. reflexivity.
  - exact X.
  - intros del. cbn [fst]. rewrite (part_update _ X). cbn [with_parts]. rewrite delete_at_spec. reflexivity.
Qed.

(** Refuted: the object of a part that is asked for after the freeze is not frozen, and through it the frozen value is
    changed. *)
Theorem C85_later_parts_refuted v w p k0 l0 i l j typed y keep : frozen_at p w = Some true -> part p v = Some (VNode k0 l0) -> object (p ++ [i]) w = None ->
  part (p ++ [i]) v = Some (VNode KComp l) -> j < length l ->
  let st := do_calls (v, w) [(p, CGet i); (p ++ [i], CSet j typed y keep)] in
  frozen_at p (snd st) = Some true /\ part ((p ++ [i]) ++ [j]) (fst st) = Some y.
Proof.
  intros F X N P J. destruct (frozen_object F) as (c & O). assert (I : i < length l0). { rewrite (@part_app [i] _ _ _ X) in P. cbn [part] in P. apply nth_error_Some. destruct (nth_error l0 i); discriminate. }
  assert (C : cfind i c = None). { rewrite (@object_app [i] _ _ _ O) in N. cbn [object] in N. destruct (cfind i c); [discriminate|reflexivity]. }
  cbn [do_calls]. assert (E1 : do_call (v, w) p (CGet i) = ((v, wr_upd p (get_part i) w), Ok tt)). { unfold do_call. rewrite O, X. apply Nat.ltb_lt in I. rewrite I. reflexivity. }
  rewrite E1. cbn [fst]. set (w1 := wr_upd p (get_part i) w).
  assert (F1 : forall q, frozen_at (p ++ q) w1 = frozen_at q (get_part i (Wr true c))).
  { intros q. unfold w1. rewrite object_upd, O, firstn_app, Nat.sub_diag, firstn_all, firstn_O, app_nil_r, skipn_app, skipn_all, Nat.sub_diag. destruct (list_eq_dec Nat.eq_dec p p); [reflexivity|contradiction]. }
  assert (Fi : frozen_at (p ++ [i]) w1 = Some false). { rewrite F1. unfold get_part. rewrite C. unfold frozen_at. cbn [object cfind]. rewrite Nat.eqb_refl. reflexivity. }
  assert (Fp : frozen_at p w1 = Some true). { rewrite <- (app_nil_r p), F1. unfold get_part. rewrite C. reflexivity. }
  destruct (@C85_unfrozen_set v w1 (p ++ [i]) KComp l j typed y keep Fi P J) as (_ & S). split; [|exact S].
  destruct (@call_grows (v, w1) (p ++ [i]) (CSet j typed y keep) p Fp) as [A|A]; [exact A|]. exfalso. cbn [snd] in A. revert A. unfold do_call.
  unfold frozen_at in Fi. destruct (object (p ++ [i]) w1) as [[b2 c2]|] eqn:O2; [|discriminate]. injection Fi as ->. rewrite P. apply Nat.ltb_lt in J. rewrite J.
  destruct typed; cbn [fst snd]; [rewrite object_upd, O2; destruct (list_eq_dec Nat.eq_dec (firstn (length (p ++ [i])) p) (p ++ [i])) as [A|A]; [apply (f_equal (@length nat)) in A; rewrite firstn_length, app_length in A; cbn in A; lia|]|]; rewrite Fp; discriminate.
Qed.
(** Refuted: Typelib.copy, from_buffer, zero! and raw_memcpy write to frozen values, and Typelib.copy also to an element of a
    frozen array that is assigned. *)
Lemma part_replace y : forall p v x, part p v = Some x -> part p (val_upd p (fun _ => y) v) = Some y.
Proof.
  induction p as [|j p IH]; intros v x E; [reflexivity|]. destruct v as [z|k l]; cbn [part val_upd] in *; [discriminate|]. destruct (nth_error l j) eqn:N; [|discriminate].
  rewrite (@upd_nth_same _ j _ _ _ N). eapply IH, E.
Qed.
Theorem C85_whole_value_refuted v w p x y keep : frozen_at p w = Some true -> part p v = Some x ->
  snd (do_call (v, w) p (CReplace y keep)) = Ok tt /\ part p (fst (fst (do_call (v, w) p (CReplace y keep)))) = Some y.
Proof. intros F X. destruct (frozen_object F) as (l & O). unfold do_call. rewrite O, X. destruct x; cbn [fst snd]; (split; [reflexivity|eapply part_replace, X]). Qed.
Theorem C85_array_elements_refuted v w p l i y keep : frozen_at p w = Some true -> part p v = Some (VNode KArr l) -> i < length l ->
  snd (do_call (v, w) p (CSet i true y keep)) = Ok tt /\ part (p ++ [i]) (fst (fst (do_call (v, w) p (CSet i true y keep)))) = Some y.
Proof.
  intros F X I. destruct (frozen_object F) as (c & O). unfold do_call. rewrite O, X.
  assert (E : exists z, part (p ++ [i]) v = Some z). { rewrite (@part_app [i] _ _ _ X). cbn [part]. destruct (nth_error l i) eqn:N; [eexists; reflexivity|]. apply nth_error_None in N. lia. }
  destruct E as (z & E). apply Nat.ltb_lt in I. rewrite I. cbn [fst snd]. split; [reflexivity|eapply part_upd, E].
Qed.

(** A case: a compound with an array of compounds and a container, whose container has an object, frozen. *)
Definition case_v : val := VNode KComp [VNode KArr [VNode KComp [VNum 1]; VNode KComp [VNum 2]]; VNode KVec [VNum 3; VNum 4]].
Definition all (_ : path) : bool := true.
Definition case_st : state := do_calls (case_v, fresh) [([], CGet 1); ([], CFreeze)].
Example C85_case : frozen_at [] (snd case_st) = Some true /\ frozen_at [1] (snd case_st) = Some true /\ frozen_at [0] (snd case_st) = None /\
  through_frozen case_st [([1], CPush [VNum 5] all); ([1], CClear); ([], CSet 0 true (VNum 0) all); ([], CGet 0); ([1], CSet 0 false (VNum 7) all)] /\
  fst (do_calls case_st [([], CGet 0); ([0], CSet 1 true (VNode KComp [VNum 9]) all)]) = VNode KComp [VNode KArr [VNode KComp [VNum 1]; VNode KComp [VNum 9]]; VNode KVec [VNum 3; VNum 4]].
Proof.
  repeat split; try reflexivity. repeat (apply tf_cons; [reflexivity|cbn; intros x E; injection E as <-; reflexivity|]). apply tf_nil.
Qed.
Print Assumptions C85_refused_partial. Print Assumptions C85_readonly_partial. Print Assumptions C85_freeze. Print Assumptions C85_stays_frozen. Print Assumptions C85_unfrozen_set. Print Assumptions C85_unfrozen_container.
Print Assumptions C85_later_parts_refuted. Print Assumptions C85_whole_value_refuted. Print Assumptions C85_array_elements_refuted.
