(** * Properties_Vector: C17, vectors behave as sequences. *)
From Verif Require Import Base Types WellFormed Layout ValueOps ValueSpec ValueInst WalkProofs EltOps EltProofs CmpProofs ValueMain
     Vector VectorSpec VectorProofs Properties_Value.
Local Open Scope N_scope.

Lemma on_vector_ok {A} s cap cs r (f : nat -> N -> list cell -> res (A * (N * list cell))) x :
  1 <= s -> conv (fun n => f n cap cs) x ->
  conv (fun n => on_vector s (put_obj s (VecObj cap cs) ++ r) (f n))
       ('(a, (cap', cs')) <- x ;; Ok (a, put_obj s (VecObj cap' cs') ++ r)).
Proof.
  intros Hs [n C]. exists n. intros m Hm. unfold on_vector. rewrite take_obj_put by assumption. cbn [bind]. rewrite C by lia. reflexivity.
Qed.
Lemma noval_conv {A B} (f : nat -> res (A * B)) x : conv f x -> conv (fun n => noval (f n)) (noval x).
Proof. intros [n C]. exists n. intros m Hm. rewrite C by lia. reflexivity. Qed.

Section P.
  Variables (s : N) (e : ty).
  Hypothesis Ht : wf (TCont KVec s e).
  Hypothesis Hp : plain (TCont KVec s e).
  Lemma vec_hyps : wf e /\ plain e /\ 1 <= sizeof e /\ 1 <= s.
  Proof. cbn [wf] in Ht. destruct Ht as (_ & H1 & H2 & H3). repeat split; auto. Qed.

  Lemma elements_valid m : (exists ms, elements s e m ms) <-> valid (TCont KVec s e) m.
  Proof. cbn [valid]. unfold elements. split; [intros (ms & cap & H)|intros (cap & ms & H)]; eauto. Qed.
End P.

(** The elements of a valid vector are determined by its memory, and getElementCount is their number. *)
Theorem C17_elements_exist s e m : wf (TCont KVec s e) -> valid (TCont KVec s e) m ->
  exists ms, elements s e m ms /\ (forall ms', elements s e m ms' -> ms' = ms) /\
    forall r, vector_count s e (m ++ r) = Ok (lenN ms).
Proof.
  intros Ht (cap & ms & -> & V & C1 & C2). cbn [wf] in Ht. destruct Ht as (_ & H1 & H2 & H3).
  exists ms. split; [exists cap; auto|]. split.
  - intros ms' (cap' & E & V' & _). inversion E. apply (concat_inj H3 H2 V' V). congruence.
  - intros r. unfold vector_count. rewrite take_obj_put by assumption. cbn [bind]. apply vc_ok; assumption.
Qed.

(** ** push *)
Theorem C17_push s e m ms v v2 r :
  wf (TCont KVec s e) -> plain (TCont KVec s e) -> elements s e m ms -> valid e v ->
  (lenN ms + 1) * sizeof e <= max_size ->
  exists m' ms' v', conv (fun f => vector_push f s e true (v ++ v2) (m ++ r)) (Ok (tt, m' ++ r)) /\
    elements s e m' (ms' ++ [v']) /\ same_seq e ms' ms /\ same e v' v.
Proof.
  intros Ht Hp (cap & -> & V & C1 & C2) Vv Hn. cbn [wf] in Ht. destruct Ht as (_ & H1 & H2 & H3).
  destruct (@vec_push_ok e H3 Hp H2 v v2 cap ms V C1 C2 Vv Hn) as (cap' & ms' & v' & C & F & S & L1 & L2).
  exists (put_obj s (VecObj cap' (concat (ms' ++ [v'])))), ms', v'. split; [|split; [|auto]].
  - apply conv2_diag, noval_conv in C. apply (on_vector_ok (s := s) r H1 C).
  - exists cap'. repeat split; auto. apply Forall_app. split; [apply (F2_same_valid F)|]. constructor; [apply same_valid in S; tauto|constructor].
Qed.
Theorem C17_push_limit s e m ms v r :
  wf (TCont KVec s e) -> plain (TCont KVec s e) -> elements s e m ms ->
  max_size < (lenN ms + 1) * sizeof e ->
  conv (fun f => vector_push f s e true v (m ++ r)) (Throw ELength).
Proof.
  intros Ht Hp (cap & -> & V & C1 & C2) Hn. cbn [wf] in Ht. destruct Ht as (_ & H1 & H2 & H3).
  assert (C := @vec_push_too_long e H3 Hp H2 v cap ms V C1 C2 Hn).
  apply conv2_diag, noval_conv in C. apply (on_vector_ok (s := s) r H1 C).
Qed.
(** A value of another type is refused by push and erase(value). *)
Theorem C17_type_mismatch s e m ms v r :
  wf (TCont KVec s e) -> elements s e m ms ->
  (forall f, vector_push f s e false v (m ++ r) = Throw ERuntime) /\ (forall f, vector_erase f s e false v (m ++ r) = Throw ERuntime).
Proof.
  intros Ht (cap & -> & _). cbn [wf] in Ht. destruct Ht as (_ & H1 & _).
  split; intros f; unfold vector_push, vector_erase, on_vector; rewrite take_obj_put by assumption; reflexivity.
Qed.

(** ** erase(value): the first logically equal element goes, the others stay in order. *)
Theorem C17_erase_value s e m ms v v2 r :
  wf (TCont KVec s e) -> plain (TCont KVec s e) -> elements s e m ms -> valid e v ->
  exists b m' ms', conv (fun f => vector_erase f s e true (v ++ v2) (m ++ r)) (Ok (b, m' ++ r)) /\ elements s e m' ms' /\
    (b = false -> m' = m /\ Forall (fun y => ~ same e y v) ms) /\
    (b = true -> exists before x after, ms = before ++ x :: after /\ same e x v /\ Forall (fun y => ~ same e y v) before /\
       same_seq e ms' (before ++ after)).
Proof.
  intros Ht Hp (cap & -> & V & C1 & C2) Vv. cbn [wf] in Ht. destruct Ht as (_ & H1 & H2 & H3).
  destruct (@vec_erase_loop_ok e H3 Hp H2 v v2 cap Vv ms [] V C1 C2) as (b & ms' & [n C] & Spec).
  cbn [app] in *. exists b, (put_obj s (VecObj cap (concat ms'))), ms'.
  assert (Cv : conv (fun f => vec_erase f (eops_at f) e true (v ++ v2) cap (concat ms)) (Ok (b, (cap, concat ms')))).
  { exists n. intros f Hf. unfold vec_erase. cbn [negb]. rewrite (vc_ok H3 H2 V). cbn [bind].
    specialize (C f f f Hf Hf Hf). rewrite lenN_nil, N.add_0_l in C. exact C. }
  split; [apply (on_vector_ok (s := s) r H1 Cv)|].
  assert (V' : Forall (valid e) ms' /\ lenN ms' <= lenN ms).
  { destruct Spec as [(_ & -> & _)|(_ & p1 & x & p2 & p2' & -> & _ & _ & -> & F)]; [split; [assumption|lia]|].
    apply Forall_app in V. destruct V as [V1 V2]. split; [apply Forall_app; split; [assumption|apply (F2_same_valid F)]|].
    rewrite !lenN_app, lenN_cons, (F2_lenN F). lia. }
  split; [|split].
  - exists cap. repeat split; [tauto| |assumption]. rewrite (concat_len H3 (proj1 V')). rewrite (concat_len H3 V) in C1. nia.
  - intros ->. destruct Spec as [(_ & -> & F)|(H & _)]; [auto|discriminate].
  - intros ->. destruct Spec as [(H & _)|(_ & p1 & x & p2 & p2' & -> & Fa & Sx & -> & F)]; [discriminate|].
    exists p1, x, p2. repeat split; auto. apply Forall2_app; [|assumption]. apply Forall2_same_refl. apply Forall_app in V. tauto.
Qed.

(** ** erase(index) *)
Theorem C17_erase_index s e m before x after r :
  wf (TCont KVec s e) -> plain (TCont KVec s e) -> elements s e m (before ++ x :: after) ->
  exists m' ms', conv (fun f => on_vector s (m ++ r) (fun cap cs => noval (vec_erase_at f (eops_at f) e (lenN before) cap cs))) (Ok (tt, m' ++ r)) /\
    elements s e m' ms' /\ same_seq e ms' (before ++ after).
Proof.
  intros Ht Hp (cap & -> & V & C1 & C2). cbn [wf] in Ht. destruct Ht as (_ & H1 & H2 & H3).
  destruct (@vec_erase_at_ok e H3 Hp H2 before x after cap V C1 C2) as (post' & F & C).
  assert (V0 := V). apply Forall_app in V0. destruct V0 as [Vb _].
  exists (put_obj s (VecObj cap (concat (before ++ post')))), (before ++ post'). split; [|split].
  - apply conv2_diag, noval_conv in C. apply (on_vector_ok (s := s) r H1 C).
  - assert (V' : Forall (valid e) (before ++ post')) by (apply Forall_app; split; [assumption|apply (F2_same_valid F)]).
    exists cap. repeat split; auto. rewrite (concat_len H3 V'). rewrite (concat_len H3 V) in C1.
    rewrite lenN_app, (F2_lenN F). rewrite lenN_app, lenN_cons in C1. nia.
  - apply Forall2_app; [apply Forall2_same_refl; assumption|assumption].
Qed.

(** ** delete_if: each element is offered to the predicate once, in order; exactly the refused ones stay. *)
Theorem C17_delete_if {P} s e (pred : P -> list cell -> bool * P) st m ms r :
  wf (TCont KVec s e) -> plain (TCont KVec s e) -> logical e pred -> elements s e m ms ->
  exists m' ms', conv (fun f => vector_delete_if f s e pred st (m ++ r)) (Ok (fst (sieve pred st ms), m' ++ r)) /\
    elements s e m' ms' /\ same_seq e ms' (snd (sieve pred st ms)).
Proof.
  intros Ht Hp Hl (cap & -> & V & C1 & C2). cbn [wf] in Ht. destruct Ht as (_ & H1 & H2 & H3).
  destruct (@vec_delete_loop_ok e H3 Hp H2 P pred cap Hl C2 _ ms eq_refl [] st V C1) as (ms' & [n C] & F).
  cbn [app] in *. exists (put_obj s (VecObj cap (concat ms'))), ms'.
  assert (Cv : conv (fun f => vec_delete_if f (eops_at f) e pred st cap (concat ms)) (Ok (fst (sieve pred st ms), (cap, concat ms')))).
  { exists n. intros f Hf. unfold vec_delete_if. rewrite (vc_ok H3 H2 V). cbn [bind].
    specialize (C f f f Hf Hf Hf). rewrite lenN_nil, N.add_0_l in C. exact C. }
  split; [apply (on_vector_ok (s := s) r H1 Cv)|]. split; [|assumption].
  assert (V' := proj1 (F2_same_valid F)). exists cap. repeat split; auto. rewrite (concat_len H3 V'). rewrite (concat_len H3 V) in C1.
  assert (L : forall xs st0, lenN (snd (sieve pred st0 xs)) <= lenN xs).
  { induction xs as [|x xs IH]; intros st0; cbn [sieve]; [reflexivity || (cbn [snd]; rewrite lenN_nil; lia)|]. destruct (pred st0 x) as [d st1]. specialize (IH st1).
    destruct (sieve pred st1 xs). cbn [snd] in *. rewrite lenN_cons. destruct d; [|rewrite lenN_cons]; lia. }
  specialize (L ms st). rewrite <- (F2_lenN F) in L. nia.
Qed.
(** For a predicate without a state, that is a filter. *)
Theorem C17_delete_if_filter s e (q : list cell -> bool) m ms r :
  wf (TCont KVec s e) -> plain (TCont KVec s e) -> (forall a b, same e a b -> q a = q b) -> elements s e m ms ->
  exists m' ms', conv (fun f => vector_delete_if f s e (fun (_ : unit) x => (q x, tt)) tt (m ++ r)) (Ok (tt, m' ++ r)) /\
    elements s e m' ms' /\ same_seq e ms' (filter (fun x => negb (q x)) ms).
Proof.
  intros Ht Hp Hq He. destruct (@C17_delete_if unit s e (fun _ x => (q x, tt)) tt m ms r Ht Hp) as (m' & ms' & C & E & F); auto.
  { intros st a b H. rewrite (Hq a b H). reflexivity. }
  assert (Es : forall xs, snd (sieve (fun (_ : unit) x => (q x, tt)) tt xs) = filter (fun x => negb (q x)) xs).
  { induction xs as [|x xs IH]; [reflexivity|]. cbn [sieve filter]. destruct (sieve _ tt xs). cbn [snd] in IH. destruct (q x); cbn [negb]; cbn [snd]; congruence. }
  rewrite Es in F. destruct (sieve (fun (_ : unit) (x : list cell) => (q x, tt)) tt ms) as [[] k]. eauto.
Qed.

(** ** resize keeps the common prefix; the new elements are freshly initialised. *)
Theorem C17_resize s e m ms n r :
  wf (TCont KVec s e) -> plain (TCont KVec s e) -> elements s e m ms -> n * sizeof e <= max_size ->
  exists m' xs ys, conv (fun f => vector_resize f s e n (m ++ r)) (Ok (tt, m' ++ r)) /\ elements s e m' (xs ++ ys) /\
    lenN (xs ++ ys) = n /\ same_seq e xs (takeN n ms) /\ Forall (fresh e) ys.
Proof.
  intros Ht Hp (cap & -> & V & C1 & C2) Hn. cbn [wf] in Ht. destruct Ht as (_ & H1 & H2 & H3).
  destruct (@vec_resize_ok e n cap ms H3 Hp H2 (elt_ok_all H3 Hp) V C1 C2 Hn) as (cap' & ms' & C & L & V' & L1 & L2 & xs & ys & -> & F & Fy).
  exists (put_obj s (VecObj cap' (concat (xs ++ ys)))), xs, ys. split; [|repeat split; auto].
  - apply conv2_diag, noval_conv in C. apply (on_vector_ok (s := s) r H1 C).
  - exists cap'. auto.
Qed.

(** ** setElement / getElement inside of the bounds *)
Theorem C17_set_element s e m before x after v v2 r :
  wf (TCont KVec s e) -> plain (TCont KVec s e) -> elements s e m (before ++ x :: after) -> valid e v ->
  exists m' x', conv (fun f => vector_set f s e true (lenN before) (v ++ v2) (m ++ r)) (Ok (tt, m' ++ r)) /\
    elements s e m' (before ++ x' :: after) /\ same e x' v.
Proof.
  intros Ht Hp (cap & -> & V & C1 & C2) Vv. cbn [wf] in Ht. destruct Ht as (_ & H1 & H2 & H3).
  assert (V0 := V). apply Forall_app in V0. destruct V0 as [Vb Vxa]. inversion Vxa as [|? ? Vx Va]; subst.
  assert (M := max_size_lt).
  destruct (count_lt H3 H2 V C1 C2) as [B1 B2]. rewrite lenN_app, lenN_cons in B1.
  destruct (eo_copy (elt_ok_all H3 Hp) (concat after) v2 Vx Vv) as (x' & [n C] & S).
  destruct (elt_layout_ok H3 Hp H2) as (HL & _).
  assert (V' : Forall (valid e) (before ++ x' :: after)) by (apply Forall_app; split; [assumption|constructor; [apply same_valid in S; tauto|assumption]]).
  exists (put_obj s (VecObj cap (concat (before ++ x' :: after)))), x'. split; [|split; [|assumption]].
  - assert (Cv : conv (fun f => vec_set f (eops_at f) e true (lenN before) (v ++ v2) cap (concat (before ++ x :: after)))
                      (Ok (cap, concat (before ++ x' :: after)))).
    { exists n. intros f Hf. unfold vec_set. rewrite wmul_small by nia. rewrite (concat_len H3 V), lenN_app, lenN_cons.
      destruct (N.leb_spec ((lenN before + (1 + lenN after)) * sizeof e) (lenN before * sizeof e)); [nia|]. cbn [negb].
      rewrite HL. cbn [bind]. rewrite !concat_app. cbn [concat]. rewrite <- (concat_len H3 Vb).
      rewrite (@at_index_app (concat before) x (concat after) x') by (apply C; lia). reflexivity. }
    apply noval_conv in Cv. apply (on_vector_ok (s := s) r H1 Cv).
  - exists cap. repeat split; auto. rewrite (concat_len H3 V'). rewrite (concat_len H3 V) in C1. rewrite !lenN_app, !lenN_cons in *. assumption.
Qed.
Theorem C17_get_element s e m before x after r :
  wf (TCont KVec s e) -> elements s e m (before ++ x :: after) ->
  vector_get s e (lenN before) (m ++ r) = Ok (x ++ concat after).
Proof.
  intros Ht (cap & -> & V & C1 & C2). cbn [wf] in Ht. destruct Ht as (_ & H1 & H2 & H3).
  assert (V0 := V). apply Forall_app in V0. destruct V0 as [Vb Vxa].
  assert (M := max_size_lt). destruct (count_lt H3 H2 V C1 C2) as [B1 B2]. rewrite lenN_app, lenN_cons in B1.
  unfold vector_get. rewrite take_obj_put by assumption. cbn [bind]. unfold vec_get. rewrite wmul_small by nia.
  rewrite (concat_len H3 V), lenN_app, lenN_cons.
  destruct (N.leb_spec ((lenN before + (1 + lenN after)) * sizeof e) (lenN before * sizeof e)); [nia|].
  rewrite concat_app. cbn [concat]. rewrite dropN_app_exact; [reflexivity|]. rewrite (concat_len H3 Vb). reflexivity.
Qed.

(** ** What does not hold *)
(** Pushing an element of the vector itself reads freed memory when the buffer is full (v.push_back(v[0]) works with
    std::vector). *)
Theorem C17_push_own_element_refuted :
  let t := TCont KVec 24 (TNum 4 SInt) in
  let m := put_obj 24 (VecObj 4 (map B [1;2;3;4])) in
  wf t /\ plain t /\ elements 24 (TNum 4 SInt) m [map B [1;2;3;4]] /\
  conv (fun f => vector_push_own f 24 (TNum 4 SInt) 0 m) (UB UOob).
Proof.
  split; [repeat split; unfold two64; simpl; lia|]. split; [reflexivity|]. split.
  - exists 4. repeat split; [repeat constructor; apply bytes_map; reflexivity|vm_compute; discriminate..].
  - exists 10%nat. intros m Hm. replace m with (10 + (m - 10))%nat by lia. generalize (m - 10)%nat. intros k. vm_compute. reflexivity.
Qed.
(** Strings: push appends the character, but erase never removes anything nor does delete_if. *)
Theorem C17_string_push s c bs v2 r :
  1 <= s -> string_push s true (B c :: v2) (put_obj s (StrObj bs) ++ r) = Ok (tt, put_obj s (StrObj (bs ++ [c])) ++ r).
Proof.
  intros H. unfold string_push. rewrite take_obj_put by assumption. cbn [bind negb].
  change (B c :: v2) with (map B [c] ++ v2). change 1 with (lenN [c]). rewrite take_raw_map. reflexivity.
Qed.
(** A value of another type than the characters of the string is refused. *)
Theorem C17_string_type_mismatch s bs v r : 1 <= s -> string_push s false v (put_obj s (StrObj bs) ++ r) = Throw ERuntime.
Proof. intros H. unfold string_push. rewrite take_obj_put by assumption. reflexivity. Qed.
Theorem C17_string_erase_refuted :
  let m := put_obj 32 (StrObj [104; 105]) in
  valid (TCont KStr 32 (TNum 1 SInt)) m /\ string_erase [B 104] m = Ok (false, m) /\
  string_delete_if (fun (_ : unit) _ => (true, tt)) tt m = Ok (tt, m).
Proof. split; [exists [104; 105]; split; [reflexivity|vm_compute; discriminate]|]. split; reflexivity. Qed.

(** ** The hypotheses are met: a vector of structures that hold a string. *)
Definition ex_vec : list cell := put_obj 24 (VecObj 80 (ex_elt ++ ex_elt)).
Definition ex_elt2 : list cell := put_obj 32 (StrObj [1]) ++ map B [7; 7] ++ map B [9;9;9;9;9;9].
Example ex_vec_elements : elements 24 ex_inner ex_vec [ex_elt; ex_elt].
Proof. exists 80. repeat split; [repeat constructor; apply ex_elt_valid|vm_compute; discriminate..]. Qed.
Example ex_vec_wf : wf (TCont KVec 24 ex_inner) /\ plain (TCont KVec 24 ex_inner).
Proof. repeat split; try (eexists; reflexivity); unfold two64; simpl; lia. Qed.
Example ex_vec_run : exists m1 m2 m3 m4 x, vector_push ex_fuel 24 ex_inner true ex_elt2 ex_vec = Ok (tt, m1) /\
  vector_count 24 ex_inner m1 = Ok 3 /\
  vector_erase ex_fuel 24 ex_inner true ex_elt m1 = Ok (true, m2) /\
  vector_set ex_fuel 24 ex_inner true 0 ex_elt2 m2 = Ok (tt, m3) /\
  vector_delete_if ex_fuel 24 ex_inner (fun n (_ : list cell) => (n =? 0, n + 1)) 0 m3 = Ok (2, m4) /\
  vector_get 24 ex_inner 0 m4 = Ok x /\ do_compare ex_fuel ex_inner x ex_elt2 = Ok true.
Proof.
  eexists _, _, _, _, _. split; [vm_compute; reflexivity|]. split; [vm_compute; reflexivity|]. split; [vm_compute; reflexivity|].
  split; [vm_compute; reflexivity|]. split; [vm_compute; reflexivity|]. split; [vm_compute; reflexivity|]. vm_compute; reflexivity.
Qed.
Example ex_vec_logical : logical ex_inner (fun n (_ : list cell) => (n =? 0, n + 1)).
Proof. intros st a b _. reflexivity. Qed.

Print Assumptions C17_elements_exist.
Print Assumptions C17_push.
Print Assumptions C17_push_limit.
Print Assumptions C17_type_mismatch.
Print Assumptions C17_erase_value.
Print Assumptions C17_erase_index.
Print Assumptions C17_delete_if.
Print Assumptions C17_delete_if_filter.
Print Assumptions C17_resize.
Print Assumptions C17_set_element.
Print Assumptions C17_get_element.
Print Assumptions C17_push_own_element_refuted.
Print Assumptions C17_string_push.
Print Assumptions C17_string_type_mismatch.
Print Assumptions C17_string_erase_refuted.
