(** * Properties_RubyCalls: C83, a call from Ruby returns or raises an exception; it does not take the process down.

    [answered], [aborted]: RubyCallsSpec.v; [wf], [supported], [unnested] (WellFormed.v), [contains] (LayoutSpec.v), [valid], [same],
    [dumped], [initialised], [zeroed] (ValueSpec.v). The values Ruby can create are those of the [supported true] types (C83_new). *)
From Verif Require Import Base Types WellFormed Layout LayoutProofs LayoutMain InitProofs LayoutFinal LayoutSpec LayoutSpecProofs
     ValueOps ValueSpec ValueAtoms ValueInst WalkProofs InitRun EltOps EltProofs CmpProofs DumpProofs LoadProofs LoadSafe ValueMain
     Visitor Endian EndianSpec EndianProofs Names Graph Registry.
From Verif Require Import Properties_Value Properties_OfSize Properties_Endian RubyCallsSpec RubyCalls RubyCallsProofs.
Local Open Scope N_scope.

Lemma catch_not_aborted {A} (r : res A) : ~ aborted (catch_all r).
Proof. intros (e & H & E). destruct r; try discriminate H. injection H as <-. discriminate E. Qed.
Lemma conv_catch {A} (f : nat -> res A) r : conv f r -> conv (fun n => catch_all (f n)) (catch_all r).
Proof. intros [n C]. exists n. intros m Hm. rewrite C by assumption. reflexivity. Qed.

(** ** What holds. Creating a value never aborts: it gives an initialised value or raises ArgumentError, by the type only. *)
Theorem C83_new t raw : wf t -> bytes (sizeof t) raw ->
  if supported true t then exists m, conv (fun f => rb_new f t raw) (Ok m) /\ initialised t raw m
  else conv (fun f => rb_new f t raw) (Throw EArg).
Proof.
  intros Hw Hb. destruct (supported true t) eqn:Hs.
  - destruct (@layout_ok true true t Hw Hs) as (l & _ & _ & Hl & _). destruct (@init_layout_ok true true t l Hw Hs Hl raw [] Hb) as (m & [n C] & I).
    exists m. split; [|exact I]. rewrite !app_nil_r in C. exists n. intros f Hf. unfold rb_new. rewrite Hl. cbn [bind]. rewrite C by assumption. reflexivity.
  - destruct (@layout_throws true true t Hw Hs) as [e E]. exists 0%nat. intros f _. unfold rb_new. rewrite E. reflexivity.
Qed.
(** These methods never abort, whatever they are given. *)
Theorem C83_guarded_methods :
  (forall ap ao merge rts t, ~ aborted (rb_memory_layout ap ao merge rts t)) /\
  (forall f t raw, ~ aborted (rb_new f t raw)) /\
  (forall f t a b, ~ aborted (rb_do_compare f t a b)) /\
  (forall H r n, ~ aborted (snd (rb_remove_alias H r n))).
Proof.
  repeat split; intros; try apply catch_not_aborted. unfold rb_remove_alias. destruct (removeAlias H r n) as [r' out]. apply catch_not_aborted.
Qed.
(** marshalling_size of a value never aborts: nil when there is a pointer in the type. *)
Theorem C83_marshalling_size_partial t v : wf t -> supported true t = true -> sizeof t <= max_size -> valid t v ->
  if contains is_ptr t then conv (fun f => rb_marshalling_size f t v) (Ok None)
  else exists out, conv (fun f => rb_to_byte_array f t v) (Ok out) /\
         (lenN out < 2147483648 -> conv (fun f => rb_marshalling_size f t v) (Ok (Some (Z.of_N (lenN out))))).
Proof.
  intros Hw Hs Hsz Hv. destruct (contains is_ptr t) eqn:Hp.
  - exists 0%nat. intros f _. unfold rb_marshalling_size, do_dump_size, layout_default. rewrite (@ptr_fails true true t Hw Hs Hp). reflexivity.
  - assert (Hpl := ptr_plain Hs Hp). destruct (C02_dump_size_exact Hw Hpl Hsz Hv) as (out & D & S). exists out. split; [exact D|].
    intros L. destruct S as [n C]; [unfold two64; lia|]. exists n. intros f Hf. unfold rb_marshalling_size. rewrite C by assumption.
    unfold to_int. rewrite N.mod_small by lia. destruct (Z.ltb_spec (Z.of_N (lenN out)) 2147483648); [reflexivity|lia].
Qed.
(** From 2 GiB on the number is wrong: a string of 2^31 characters has a negative marshalling size. *)
Theorem C83_marshalling_size_refuted cs : lenN cs = 2147483648 ->
  let t := TCont KStr 32 (TNum 1 SInt) in let v := put_obj 32 (StrObj cs) in
  wf t /\ valid t v /\ exists out z, conv (fun f => rb_to_byte_array f t v) (Ok out) /\ lenN out = 2147483656 /\
    conv (fun f => rb_marshalling_size f t v) (Ok (Some z)) /\ (z < 0)%Z.
Proof.
  intros L t v. assert (Hw : wf t) by (repeat split; unfold two64; simpl; try lia; eauto).
  assert (Hv : valid t v) by (exists cs; split; [reflexivity|rewrite L; unfold max_size; lia]).
  split; [exact Hw|]. split; [exact Hv|].
  assert (Hi : image t v (le_bytes 8 (lenN cs) ++ cs)) by (exists cs; repeat split; rewrite L; unfold max_size; lia).
  assert (D := @cont_image KStr 32 (TNum 1 SInt) v _ Hw eq_refl ltac:(unfold max_size; lia) Hi).
  assert (Lo : lenN (le_bytes 8 (lenN cs) ++ cs) = 2147483656) by (rewrite lenN_app, L; reflexivity).
  destruct (@C02_dump_size_exact t v Hw eq_refl ltac:(unfold t, max_size; cbn [sizeof]; lia) Hv) as (out & D' & S).
  remember (le_bytes 8 (lenN cs) ++ cs) as img. injection (conv_fun D D') as <-. destruct S as [n C]; [rewrite Lo; unfold two64; lia|]. rewrite Lo in C.
  eexists _, _. split; [exact D|]. split; [exact Lo|]. split.
  - exists n. intros f Hf. unfold rb_marshalling_size. rewrite C by assumption. reflexivity.
  - reflexivity.
Qed.

(** ** The methods without a try block: they work on every value without pointers, and take the process down on every value with
    a pointer, although Type.new has created it. *)
Theorem C83_to_byte_array_partial t v : wf t -> supported true t = true -> sizeof t <= max_size -> valid t v -> contains is_ptr t = false ->
  exists out, conv (fun f => rb_to_byte_array f t v) (Ok out) /\ dumped t v out.
Proof. intros Hw Hs Hsz Hv Hp. exact (C01_dump_format Hw (ptr_plain Hs Hp) Hsz Hv). Qed.
Theorem C83_zero_copy_partial t v w : wf t -> supported true t = true -> valid t v -> valid t w -> contains is_ptr t = false ->
  (exists m, conv (fun f => rb_zero f t v) (Ok m) /\ zeroed t m) /\ (exists m, conv (fun f => rb_do_copy f t v w) (Ok m) /\ same t m w).
Proof.
  intros Hw Hs Hv Hw' Hp. assert (Hpl := ptr_plain Hs Hp). split.
  - destruct (@C10_zero_clears t v [] Hw Hpl Hv) as (m & C & Z & _). rewrite !app_nil_r in C. eauto.
  - destruct (@C09_copy_duplicates t v w [] [] Hw Hpl Hv Hw') as (m & C & S). rewrite !app_nil_r in C. eauto.
Qed.
(** from_buffer: any string at all is answered (no vector within a container, C05). *)
Theorem C83_from_buffer_partial ap t d x : wf t -> supported ap t = true -> unnested t = true -> sizeof t <= max_size -> lenN x <= max_size -> valid t d ->
  exists r, conv (fun f => rb_do_from_buffer f ap false true true t d x) r /\ answered r.
Proof.
  intros Hw Hs Hu Hsz Hx Vd. destruct (@load_safe_gen ap t d [] 0 x Hw Hs Hu Hsz ltac:(lia) Vd) as (l & r & Hl & [n C] & K). rewrite app_nil_r in C.
  exists (catch_all ('(m', i, it) <- r ;; match it with
             | _ :: _ => Throw ERuntime
             | [] => if negb (fst i =? lenN x) && negb (fst i + trailing_padding t =? lenN x) then Throw ERuntime else Ok m' end)). split.
  - exists n. intros f Hf. unfold rb_do_from_buffer. rewrite Hl. cbn [bind]. rewrite C by assumption. reflexivity.
  - destruct K as [(d' & i & x' & -> & _)|[e ->]]; cbn [bind catch_all]; [|right; exists EArg; auto].
    destruct (_ && _); cbn [catch_all]; [right; exists EArg; auto|left; eauto].
Qed.
Theorem C83_pointers_refuted t v w x merge rts : wf t -> contains is_ptr t = true -> supported true t = true ->
  (exists r, conv (fun f => rb_do_byte_array f false false merge rts t v) r /\ aborted r) /\
  (exists r, conv (fun f => rb_do_from_buffer f false false merge rts t v x) r /\ aborted r) /\
  (exists r, conv (fun f => rb_zero f t v) r /\ aborted r) /\
  (exists r, conv (fun f => rb_do_copy f t v w) r /\ aborted r).
Proof.
  intros Hw Hp Hs. assert (E := fun m r => @ptr_fails m r t Hw Hs Hp).
  repeat split; exists (Throw ENoLayout); (split; [|exists ENoLayout; auto]); exists 0%nat; intros f _.
  - unfold rb_do_byte_array. rewrite E. reflexivity.
  - unfold rb_do_from_buffer. rewrite E. reflexivity.
  - unfold rb_zero, zero_value, layout_default. rewrite E. reflexivity.
  - unfold rb_do_copy, copy_value, layout_default. rewrite E. reflexivity.
Qed.
(** PointerType.create_null never returns. *)
Theorem C83_create_null_refuted n raw : n < two64 -> bytes n raw -> exists r, conv (fun f => rb_create_null f n raw) r /\ aborted r.
Proof.
  intros Hn Hb. assert (Hw : wf (TPtr n)) by (split; [exact Hn|exact I]). assert (X := C83_new Hw Hb). destruct X as (m & [k C] & _).
  exists (Throw ENoLayout). split; [|exists ENoLayout; auto]. exists k. intros f Hf. unfold rb_create_null. rewrite C by assumption. reflexivity.
Qed.
(** ** With accept_pointers: true, every value that Type.new can create is marshalled, and read back. The pointers are marshalled too:
    the documentation of to_byte_array says that they are ignored. *)
Theorem C83_accept_pointers t v : wf t -> supported true t = true -> sizeof t <= max_size -> valid t v ->
  exists out, conv (fun f => rb_do_byte_array f true false true true t v) (Ok out) /\ dumped t v out /\
    (lenN out <= max_size -> forall d, fresh t d ->
       exists d', conv (fun f => rb_do_from_buffer f true false true true t d out) (Ok d') /\ same t d' v).
Proof.
  intros Hw Hs Hsz Hv. destruct (dump_split_gen Hw Hs Hv) as (out & pad & pre & v1 & H1 & H2 & H3 & H4 & H5). exists out. split; [|split].
  - destruct (@dump_stream_gen _ _ _ _ vector_stream true t v [] [] out pad pre v1 Hw Hs Hsz I H2 H3 H4 H5) as (l & Hl & [n C]).
    rewrite app_nil_r in C. exists n. intros f Hf. unfold rb_do_byte_array. rewrite Hl. cbn [bind]. unfold do_dump_stream. rewrite C by assumption. reflexivity.
  - apply (@parts_dumped_gen true t v out pad pre v1 Hw Hs). constructor; assumption.
  - intros Lo d Fd. assert (Vd := proj1 fresh_valid _ _ Fd).
    destruct (@load_stream_gen true t d [] 0 (out ++ []) v out pad pre v1 Hw Hs Hsz) as (l & r & Hl & [n C] & K); auto; [rewrite app_nil_r; lia|apply comp_app|].
    apply consumes_app in K. destruct K as (d' & -> & V & S). rewrite !app_nil_r in C.
    exists d'. split; [|auto]. exists n. intros f Hf. unfold rb_do_from_buffer. rewrite Hl. cbn [bind]. rewrite C by assumption. cbn [bind fst].
    rewrite N.add_0_l, N.eqb_refl. reflexivity.
Qed.
Theorem C83_pointers_marshalled_refuted bs : lenN bs = 8 -> conv (fun f => rb_do_byte_array f true false true true (TPtr 8) (map B bs)) (Ok bs).
Proof.
  intros L. destruct (@C83_accept_pointers (TPtr 8) (map B bs)) as (out & C & (pad & (Lp & Ep) & S) & _); [split; [reflexivity|exact I]|reflexivity|unfold max_size; simpl; lia|exists bs; auto|].
  assert (E : bs = out ++ pad).
  { assert (X : forall a b : list N, map B a = map B b -> a = b) by (induction a; destruct b; simpl; intros H; try discriminate; inversion H; f_equal; auto). apply X. exact Ep. }
  destruct pad as [|p pad]; [rewrite app_nil_r in E; subst; exact C|]. exfalso.
  destruct (S (repN (lenN (p :: pad)) (p + 1)) ltac:(unfold lenN, repN; rewrite repeat_length; lia)) as [_ X].
  subst bs. rewrite !map_app in X. cbn [sizeof] in X. rewrite lenN_app in L.
  replace (8 - lenN (p :: pad)) with (lenN (map B out)) in X by (unfold lenN in *; rewrite map_length; lia).
  rewrite takeN_app_exact in X by reflexivity. apply app_inv_head in X.
  assert (K : exists k, lenN (p :: pad) = N.succ k) by (exists (lenN pad); unfold lenN; cbn [length]; lia). destruct K as (k & K). rewrite K in X.
  unfold repN in X. rewrite N2Nat.inj_succ in X. cbn [repeat map] in X. inversion X. lia.
Qed.

(** ** endian_swap!: what can be swapped is swapped; a pointer aborts. *)
Theorem C83_endian_swap_partial t m : wf t -> swappable t = true -> valid t m -> octets m ->
  exists m', conv (fun f => rb_endian_swap_b f t m) (Ok m') /\ swapped t m m'.
Proof. intros Hw Hs Hv Ho. destruct (C33_endian_swap Hw Hs Hv Ho) as (m' & C & S & _). eauto. Qed.
Theorem C83_endian_swap_refuted m : lenN m = 16 -> (exists bs, m = map B bs) ->
  supported true ex_ptr_t = true /\ exists r, conv (fun f => rb_endian_swap_b f ex_ptr_t m) r /\ aborted r.
Proof. intros L Hb. split; [reflexivity|]. exists (Throw ERuntime). split; [apply C33_pointers_throw; assumption|exists ERuntime; auto]. Qed.

(** ** Registry#alias takes the process down exactly when the new name is a valid one that is the name of another type. *)
Lemma each_no (A : Type) (f : reg -> A -> reg * res unit) l : (forall r x, snd (f r x) <> Throw EAlreadyDefined) ->
  forall r, snd (each f l r) <> Throw EAlreadyDefined.
Proof.
  intros Hf. induction l as [|x l IH]; intros r; cbn [each]; [discriminate|]. unfold seq_. specialize (Hf r x).
  destruct (f r x) as [r1 [u|e|u|]] eqn:E; cbn [snd] in *; auto; discriminate.
Qed.
Lemma alias_no f : forall H r,
  (forall base n pers src, get r n = None -> snd (alias_ f H r base n pers src) <> Throw EAlreadyDefined) /\
  (forall t, snd (mda f H r t) <> Throw EAlreadyDefined).
Proof.
  induction f as [|f IH]; intros H r; [split; intros; cbn [alias_ mda snd]; discriminate|]. split.
  - intros base n pers src Hn. cbn [alias_]. destruct (negb _) eqn:Ev; [cbn [snd]; discriminate|]. destruct (get r base) as [b|]; [|cbn [snd]; discriminate].
    unfold add_named. rewrite Ev, Hn. cbn [seq_]. apply each_no. intros r0 x. apply IH.
  - intros t. cbn [mda]. destruct (indirect_name H t) as [[x mk]|]; [|cbn [snd]; discriminate]. apply each_no. intros r0 a. unfold has.
    destruct (get r0 (mk a)) eqn:E.
    + unfold get in E. destruct (find_ (mk a) (r_current r0)); [cbn [snd]; discriminate|discriminate].
    + unfold get in E. destruct (find_ (mk a) (r_current r0)) eqn:E'; [discriminate|]. apply IH. unfold get. rewrite E'. reflexivity.
Qed.
Lemma each_exn (A : Type) (f : reg -> A -> reg * res unit) (P : res unit -> Prop) l : P (Ok tt) -> (forall r x, P (snd (f r x))) ->
  forall r, P (snd (each f l r)).
Proof.
  intros H0 Hf. induction l as [|x l IH]; intros r; cbn [each]; [exact H0|]. unfold seq_. specialize (Hf r x).
  destruct (f r x) as [r1 [u|e|u|]] eqn:E; cbn [snd] in *; auto.
Qed.
Definition alias_out (r : res unit) : Prop := match r with Ok _ | Fuel | Throw (EBadName | EUndefined | EAlreadyDefined) => True | _ => False end.
Lemma alias_outs f : forall H r, (forall base n pers src, alias_out (snd (alias_ f H r base n pers src))) /\ (forall t, alias_out (snd (mda f H r t))).
Proof.
  induction f as [|f IH]; intros H r; [split; intros; exact I|]. split.
  - intros base n pers src. cbn [alias_]. destruct (negb _) eqn:Ev; [exact I|]. destruct (get r base) as [b|]; [|exact I].
    unfold add_named. rewrite Ev. cbn [e_type]. destruct (get r n) as [u|].
    + destruct (Nat.eqb u b); cbn [seq_]; [|exact I]. apply each_exn; [exact I|]. intros r0 x. apply IH.
    + cbn [seq_]. apply each_exn; [exact I|]. intros r0 x. apply IH.
  - intros t. cbn [mda]. destruct (indirect_name H t) as [[x mk]|]; [|exact I]. apply each_exn; [exact I|]. intros r0 a. destruct (has _ _); [exact I|]. apply IH.
Qed.
Theorem C83_alias_refuted f H r name aliased :
  aborted (snd (rb_alias (S f) H r name aliased)) <->
  isValidTypename name true = true /\ exists t u, get r aliased = Some t /\ get r name = Some u /\ u <> t.
Proof.
  assert (O := alias_outs (S f) H r). destruct O as [O _]. assert (X := alias_no f H). unfold rb_alias, alias.
  destruct (get r aliased) as [b|] eqn:Eb.
  2: { cbn [snd]. split; [intros (e & K & Ke); injection K as <-; discriminate Ke|intros (_ & t & u & K & _); discriminate K]. }
  specialize (O aliased name (isPersistent H name b) []). cbn [alias_] in *. destruct (isValidTypename name true) eqn:Ev; cbn [negb] in *.
  2: { cbn [snd]. split; [intros (e & K & Ke); injection K as <-; discriminate Ke|intros (K & _); discriminate K]. }
  rewrite Eb in *. unfold add_named in *. rewrite Ev in *. cbn [negb e_type] in *. destruct (get r name) as [u|] eqn:En.
  - destruct (Nat.eqb_spec u b) as [->|Hne]; cbn [seq_] in *.
    + split; [|intros (_ & t & u & K & K' & K''); congruence]. intros (e & K & Ke). exfalso. revert O K.
      match goal with |- context [each ?g ?l ?r0] => assert (Y := @each_no _ g l (fun r x => proj2 (X r) x) r0); destruct (each g l r0) as [r1 out] end.
      cbn [snd] in *. destruct out as [|e'| |]; try discriminate. destruct e'; simpl; intros; try contradiction; try congruence;
      match goal with h : Throw _ = Throw _ |- _ => injection h as <-; discriminate Ke end.
    + cbn [snd]. split; [intros _; split; [reflexivity|]; exists b, u; auto|intros _; exists EAlreadyDefined; auto].
  - cbn [seq_] in *. split; [|intros (_ & t & u & _ & K' & _); discriminate K']. intros (e & K & Ke). exfalso. revert O K.
    match goal with |- context [each ?g ?l ?r0] => assert (Y := @each_no _ g l (fun r x => proj2 (X r) x) r0); destruct (each g l r0) as [r1 out] end.
    cbn [snd] in *. destruct out as [|e'| |]; try discriminate. destruct e'; simpl; intros; try contradiction; try congruence;
    match goal with h : Throw _ = Throw _ |- _ => injection h as <-; discriminate Ke end.
Qed.

(** ** Cases: struct { uint16_t a; <6 bytes of padding> void* p } meets the hypotheses of C83_pointers_refuted and C83_accept_pointers. *)
Example C83_case : let v := map B [1;2;0;0;0;0;0;0;9;8;7;6;5;4;3;2] in
  wf ex_ptr_t /\ supported true ex_ptr_t = true /\ contains is_ptr ex_ptr_t = true /\ unnested ex_ptr_t = true /\ valid ex_ptr_t v /\ fresh ex_ptr_t v /\
  conv (fun f => rb_do_byte_array f true false true true ex_ptr_t v) (Ok [1;2;0;0;0;0;0;0;9;8;7;6;5;4;3;2]).
Proof.
  split; [apply C33_pointers_throw|]. do 3 (split; [reflexivity|]).
  assert (V : valid ex_ptr_t (map B [1;2;0;0;0;0;0;0;9;8;7;6;5;4;3;2])).
  { exists [], (map B [1;2]), (map B [0;0;0;0;0;0;9;8;7;6;5;4;3;2]). split; [reflexivity|]. split; [exists []; auto|]. split; [exists [1;2]; auto|].
    exists (map B [0;0;0;0;0;0]), (map B [9;8;7;6;5;4;3;2]), []. split; [reflexivity|]. split; [exists [0;0;0;0;0;0]; auto|]. split; [exists [9;8;7;6;5;4;3;2]; auto|]. exists []; auto. }
  split; [exact V|]. split; [|exists 40%nat; intros m Hm; replace m with (40 + (m - 40))%nat by lia; generalize (m - 40)%nat; intros k; vm_compute; reflexivity].
  exact V.
Qed.
(** An alias to a name in use: registry with /A and /B, alias '/B', '/A'. *)
Definition two_types (t : tid) : tobj := Obj (if Nat.eqb t 0 then s_ "/A" else s_ "/B") 4 (ONum SInt).
Example C83_alias_case : let r := fst (add_type 5 two_types (fst (add_type 5 two_types reg0 0%nat true [])) 1%nat true []) in
  get r (s_ "/A") = Some 0%nat /\ get r (s_ "/B") = Some 1%nat /\ isValidTypename (s_ "/B") true = true /\
  snd (rb_alias 5 two_types r (s_ "/B") (s_ "/A")) = Throw EAlreadyDefined /\ snd (rb_alias 5 two_types r (s_ "/C") (s_ "/A")) = Ok tt /\
  snd (rb_alias 5 two_types r (s_ "/C") (s_ "/D")) = Throw ENotFound.
Proof. repeat split; vm_compute; reflexivity. Qed.
