(** * Properties_Compiled: C34, the compiled endian swap agrees with the in-place one. *)
From Verif Require Import Base Types WellFormed Layout ValueOps ValueSpec InitProofs ValueAtoms EltOps LoadSafe Visitor Endian EndianSpec EndianProofs
  Compiled CompiledSpec CompiledProofs Properties_Endian.
Local Open Scope N_scope.

Lemma swappable_plain :
  (forall t, swappable t = true -> supported false t = true) /\
  (forall fs, swappable_fields fs = true -> supported_fields false fs = true).
Proof.
  apply ty_fields_ind; simpl; auto; try discriminate.
  intros nm off t IHt r IHr H. apply andb_true_iff in H as [H1 H2]. rewrite IHt, IHr by assumption. reflexivity.
Qed.
Lemma valid_bytes t bs : wf t -> swappable t = true -> cont_free t = true -> lenN bs = sizeof t -> valid t (map B bs).
Proof.
  intros Hw Hs Hc L. apply hasc_valid; try assumption.
  - apply swappable_plain. assumption.
  - apply (proj1 cont_free_hasc). assumption.
  - exists bs. auto.
Qed.
Lemma octets_bytes bs : Forall (fun b => b < 256) bs -> octets (map B bs).
Proof. intros H. apply octets_map. exact H. Qed.
Lemma slice_all {A} (l : list A) : slice 0 (lenN l) l = l.
Proof. unfold slice. rewrite dropN_0. apply takeN_all. lia. Qed.

Lemma compiled_core t inp out s code : prog 0 code s -> compile_swap t = Ok code -> Forall is8 inp -> lenN inp = sizeof t -> lenN out = sizeof t ->
  sizeof t < lim -> lenN s <= sizeof t -> Forall (fun j => j < sizeof t) s ->
  conv (fun f => compiled_swap f false t inp out) (Ok (gather inp 0 s ++ dropN (lenN s) out)).
Proof.
  intros P E H8 Li Lo Hs Hl Hr. unfold compiled_swap. rewrite E. cbn [bind].
  apply conv_bind with (a := (lenN s, @nil N, gather inp 0 s ++ dropN (lenN s) out)); [|cbn; apply conv_const].
  assert (R := prog_run (inp := inp) H8). rewrite Li in R. specialize (R Hs 0 code s P 0 [] out [] (Ok (lenN s, [], gather inp 0 s ++ dropN (lenN s) out))).
  rewrite app_nil_r in R. apply R.
  - reflexivity.
  - rewrite lenN_nil. lia.
  - lia.
  - exact Hr.
  - exists 1%nat. intros [|f] Hf; [lia|]. reflexivity.
Qed.

(** C34 (partial): for every well-formed type of less than 2^31 bytes without containers, pointers and opaques, with
    numerics of native sizes and 4-byte enums, in which only the outermost compound may end with padding, and for every value:
    the compiled swap terminates without undefined behaviour and writes the bytes the in-place swap gives; the trailing
    padding of the destination is left as it was.
    Missing: types with trailing padding inside, for which it is false (see below); sizes of 2 GiB and more. *)
Theorem C34_compiled_agrees_partial t inp out :
  wf t -> swappable t = true -> cont_free t = true -> tight_inside t -> sizeof t < 2147483648 ->
  Forall (fun b => b < 256) inp -> lenN inp = sizeof t -> lenN out = sizeof t ->
  exists res m', conv (fun f => compiled_swap f false t inp out) (Ok res) /\
    conv (fun f => endian_swap f t (map B inp)) (Ok (map B m')) /\
    takeN (used_size t) res = takeN (used_size t) m' /\
    dropN (used_size t) res = dropN (used_size t) out /\ lenN res = sizeof t.
Proof.
  intros Hw Hs Hc Ht Hsz H8 Li Lo.
  destruct (C33_endian_swap Hw Hs (valid_bytes Hw Hs Hc Li) (octets_bytes H8)) as (m & Cm & Sm & _).
  assert (Main : exists s code, prog 0 code s /\ compile_swap t = Ok code /\ lenN s = used_size t /\ Forall (fun j => j < sizeof t) s /\
            used_size t <= sizeof t /\
            swapped t (map B inp) (map B (gather inp 0 s ++ slice (used_size t) (sizeof t - used_size t) inp))).
  { assert (Gen : okt t -> exists s code, prog 0 code s /\ compile_swap t = Ok code /\ lenN s = sizeof t /\ Forall (fun j => j < sizeof t) s /\
            swapped t (map B inp) (map B (gather inp 0 s))).
    { intros Hok. destruct (proj1 cvisit_ok t Hok 0 [] [] [] (or_introl eq_refl) (p_nil 0)) as (idx' & code & E & P & _).
      - exact Hsz.
      - exists (srcs t 0), code. change (0 + lenN (@nil N)) with 0 in *. split; [exact P|]. split.
        { unfold compile_swap. change (@nil N ++ []) with (@nil N) in E. rewrite E. reflexivity. }
        split; [apply (proj1 srcs_len); assumption|]. split.
        { apply Forall_forall. intros x Hx. apply (proj1 srcs_range t Hok) in Hx. lia. }
        assert (K := proj1 srcs_swapped t Hok inp 0). rewrite <- Li, slice_all in K. apply K. lia. }
    assert (Nc : (forall s fs, t <> TComp s fs) -> tight t -> used_size t = sizeof t ->
              exists s code, prog 0 code s /\ compile_swap t = Ok code /\ lenN s = used_size t /\ Forall (fun j => j < sizeof t) s /\
            used_size t <= sizeof t /\
            swapped t (map B inp) (map B (gather inp 0 s ++ slice (used_size t) (sizeof t - used_size t) inp))).
    { intros _ Htt Hu. destruct Gen as (s & code & P & E & L & R & S); [repeat split; assumption|]. exists s, code. rewrite Hu, N.sub_diag.
      change (slice (sizeof t) 0 inp) with (@nil N). rewrite app_nil_r. repeat split; auto. lia. }
    destruct t as [| | | | | | |sz fs]; try (apply Nc; [intros; discriminate|exact Ht|reflexivity]). clear Gen Nc.
    destruct Hw as [Hw0 Hw]. cbn [sizeof] in *. cbn [swappable cont_free tight_inside used_size] in *.
    assert (K := fields_end_ge Hw).
    destruct (proj2 cvisit_ok fs Hs Hc Ht sz 0 [] [] [] 0 0 Hw eq_refl (or_introl eq_refl) (p_nil 0)) as (idx' & code & E & P).
    { rewrite N.add_0_l. exact Hsz. }
    exists (srcs_fields fs 0 0), code. split; [exact P|]. split.
    { unfold compile_swap. cbn [cvisit]. change (@nil N ++ []) with (@nil N) in E. change (0 + 0) with 0 in E. rewrite E. reflexivity. }
    split; [rewrite (proj2 srcs_len fs Hs Hc Ht 0 0 sz Hw); lia|]. split.
    { apply Forall_forall. intros x Hx. apply (proj2 srcs_range fs Hs Hc Ht 0 0 sz x Hw) in Hx. lia. }
    split; [lia|].
    assert (Q := proj2 srcs_swapped fs Hs Hc Ht inp 0 0 sz Hw). rewrite !N.add_0_l, N.sub_0_r in Q. replace (slice 0 sz inp) with inp in Q by (rewrite <- Li; symmetry; apply slice_all). apply Q. lia. }
  destruct Main as (s & code & P & E & Ls & R & Hu & S). set (u := used_size t) in *.
  assert (Em := proj1 swapped_fun t Hw _ _ _ Sm S). subst m.
  eexists (gather inp 0 s ++ dropN (lenN s) out), _. split; [|split; [exact Cm|]].
  - apply (@compiled_core t inp out s code); try assumption; unfold lim; lia.
  - assert (Lg : u = lenN (gather inp 0 s)) by (rewrite gather_len; auto).
    rewrite !(takeN_app_exact _ Lg), (dropN_app_exact _ Lg). rewrite lenN_app, gather_len, lenN_dropN, Ls. repeat split. lia.
Qed.

(** The types the visitor compiles have no container, pointer or opaque inside: for all the others apply throws. *)
Theorem C34_compile_supported t code : wf t -> sizeof t < 2147483648 -> compile_swap t = Ok code ->
  cont_free t = true /\ supported false t = true.
Proof.
  assert (Sol : forall e, solid e = true -> forall st r, cvisit e st = Ok r -> cont_free e = true /\ supported false e = true).
  { induction e; simpl; intros Hs [i c] r H; try discriminate; auto.
    destruct (is_array e).
    - destruct (cvisit e (i, c)) as [x| | |] eqn:E; try discriminate. exact (IHe Hs _ _ E).
    - destruct (cvisit e (i, c ++ [CARRAY; dim; sizeof e])) as [x| | |] eqn:E; try discriminate. exact (IHe Hs _ _ E). }
  assert (M : (forall t, wf t -> forall st r, fst st + sizeof t < big -> cvisit t st = Ok r -> cont_free t = true /\ supported false t = true) /\
              (forall fs, forall sz cur base code r, wf_fields fs cur sz -> base + sz < big -> cvisit_fields fs base (base + cur, code) = Ok r ->
                  cont_free_fields fs = true /\ supported_fields false fs = true)).
  { apply ty_fields_ind; try (intros; repeat match goal with st : (N * list N)%type |- _ => destruct st as [? ?] end; discriminate || (split; reflexivity)).
    - intros s d e IH (_ & -> & Hd & He1 & He) [i c] r Hb H. cbn [cont_free supported]. cbn [fst sizeof] in Hb. cbn [cvisit] in H.
      destruct Hd as [Hd|Hd].
      2:{ destruct (is_array e).
          - destruct (cvisit e (i, c)) as [x| | |] eqn:E; try discriminate. exact (Sol e Hd _ _ E).
          - destruct (cvisit e (i, c ++ [CARRAY; d; sizeof e])) as [x| | |] eqn:E; try discriminate. exact (Sol e Hd _ _ E). }
      destruct (is_array e).
      + destruct (cvisit e (i, c)) as [x| | |] eqn:E; try discriminate. apply (IH He _ _) in E; [exact E|]. cbn [fst]. nia.
      + destruct (cvisit e (i, c ++ [CARRAY; d; sizeof e])) as [x| | |] eqn:E; try discriminate. apply (IH He _ _) in E; [exact E|]. cbn [fst]. nia.
    - intros s fs IH (_ & Hw) [i c] r Hb H. cbn [cvisit] in H. cbn [fst sizeof] in Hb.
      apply (IH s 0 i c r Hw Hb). rewrite N.add_0_r. exact H.
    - intros nm off t' IHt rs IHr sz cur base code0 r (Ho & Hw & Hwr) Hb H. cbn [cvisit_fields] in H.
      assert (K := fields_end_ge Hwr).
      rewrite (wadd_small (a := base) (b := off)) in H by (unfold big, two64 in *; lia).
      destruct (N.ltb_spec (base + off) (base + cur)); [lia|].
      match type of H with bind ?x _ = _ => destruct x as [[i2 c2]| | |] eqn:E; try discriminate end.
      cbn [bind] in H. rewrite wadd_small in H by (unfold big, two64 in *; lia). rewrite <- N.add_assoc in H.
      apply IHt in E as [E1 E2]; [|assumption|cbn [fst]; lia]. destruct (IHr sz _ base _ _ Hwr Hb H) as [H1 H2].
      cbn [cont_free_fields supported_fields]. rewrite E1, E2, H1, H2. auto. }
  intros Hw Hs H. unfold compile_swap in H. destruct (cvisit t (0, [])) as [x| | |] eqn:E; try discriminate.
  apply (proj1 M t Hw _ _) in E; [exact E|]. cbn [fst]. exact Hs.
Qed.

(** ** A case that meets the hypotheses: struct { int8_t a; <1> uint16_t b[2][2]; E e; struct { double d; int32_t f; } g[2]; char h; <7> }
    (the inner struct is packed: 12 bytes). *)
Definition ex_ct : ty := TComp 48 (FCons (s_ "a") 0 (TNum 1 SInt) (FCons (s_ "b") 2 (TArray 8 2 (TArray 4 2 (TNum 2 UInt)))
  (FCons (s_ "e") 12 (TEnum 4 []) (FCons (s_ "g") 16 (TArray 24 2 (TComp 12 (FCons (s_ "d") 0 (TNum 8 Float) (FCons (s_ "f") 8 (TNum 4 SInt) FNil))))
  (FCons (s_ "h") 40 (TNum 1 SInt) FNil))))).
Example ex_ct_ok : wf ex_ct /\ swappable ex_ct = true /\ cont_free ex_ct = true /\ tight_inside ex_ct /\ sizeof ex_ct < 2147483648.
Proof. repeat split; unfold two64; simpl; lia. Qed.
Example ex_ct_run : conv (fun f => compiled_swap f false ex_ct (seqN 100 48) (repN 48 0))
  (Ok ([100; 101; 103; 102; 105; 104; 107; 106; 109; 108; 110; 111; 115; 114; 113; 112; 123; 122; 121; 120; 119; 118; 117; 116;
        127; 126; 125; 124; 135; 134; 133; 132; 131; 130; 129; 128; 139; 138; 137; 136; 140; 0; 0; 0; 0; 0; 0; 0])).
Proof. exists 30%nat. intros m Hm. replace m with (30 + (m - 30))%nat by lia. generalize (m - 30)%nat. intros k. vm_compute. reflexivity. Qed.

(** ** Where the claim is false *)

(** A compound field that ends with padding, the common layout of struct { struct { int32_t x; int8_t y; } a; int32_t b; }: the
    padding is left out of the compiled code, and everything behind is shifted. The two swaps give different results. *)
Definition ex_padded : ty := TComp 12 (FCons (s_ "a") 0 (TComp 8 (FCons (s_ "x") 0 (TNum 4 SInt) (FCons (s_ "y") 4 (TNum 1 SInt) FNil)))
  (FCons (s_ "b") 8 (TNum 4 SInt) FNil)).
Theorem C34_nested_padding_refuted :
  wf ex_padded /\ swappable ex_padded = true /\ cont_free ex_padded = true /\
  conv (fun f => endian_swap f ex_padded (map B (seqN 1 12))) (Ok (map B [4; 3; 2; 1; 5; 6; 7; 8; 12; 11; 10; 9])) /\
  conv (fun f => compiled_swap f false ex_padded (seqN 1 12) (repN 12 0)) (Ok [4; 3; 2; 1; 5; 9; 8; 7; 6; 0; 0; 0]).
Proof.
  split; [repeat split; unfold two64; simpl; lia|]. split; [reflexivity|]. split; [reflexivity|].
  split; exists 30%nat; intros m Hm; replace m with (30 + (m - 30))%nat by lia; generalize (m - 30)%nat; intros k; vm_compute; reflexivity.
Qed.
(** The same for an array of such compounds. *)
Definition ex_padded_arr : ty := TArray 16 2 (TComp 8 (FCons (s_ "x") 0 (TNum 4 SInt) (FCons (s_ "y") 4 (TNum 1 SInt) FNil))).
Theorem C34_padded_array_refuted :
  wf ex_padded_arr /\ swappable ex_padded_arr = true /\ cont_free ex_padded_arr = true /\
  conv (fun f => endian_swap f ex_padded_arr (map B (seqN 1 16))) (Ok (map B [4; 3; 2; 1; 5; 6; 7; 8; 12; 11; 10; 9; 13; 14; 15; 16])) /\
  conv (fun f => compiled_swap f false ex_padded_arr (seqN 1 16) (repN 16 0)) (Ok [4; 3; 2; 1; 5; 9; 8; 7; 6; 10; 0; 0; 0; 0; 0; 0]).
Proof.
  split; [repeat split; unfold two64; simpl; lia|]. split; [reflexivity|]. split; [reflexivity|].
  split; exists 30%nat; intros m Hm; replace m with (30 + (m - 30))%nat by lia; generalize (m - 30)%nat; intros k; vm_compute; reflexivity.
Qed.
(** An array without elements, struct { int16_t a[0]; int32_t b; }: the compiled code of the elements is not skipped, an iterator
    that was never set is used. *)
Definition ex_empty_arr : ty := TComp 4 (FCons (s_ "a") 0 (TArray 0 0 (TNum 2 SInt)) (FCons (s_ "b") 0 (TNum 4 SInt) FNil)).
Theorem C34_empty_array_refuted :
  wf ex_empty_arr /\ swappable ex_empty_arr = true /\ cont_free ex_empty_arr = true /\
  conv (fun f => endian_swap f ex_empty_arr (map B (seqN 1 4))) (Ok (map B [4; 3; 2; 1])) /\
  conv (fun f => compiled_swap f false ex_empty_arr (seqN 1 4) (repN 4 0)) (UB UOther).
Proof.
  split; [repeat split; unfold two64; simpl; auto; lia|]. split; [reflexivity|]. split; [reflexivity|].
  split; exists 30%nat; intros m Hm; replace m with (30 + (m - 30))%nat by lia; generalize (m - 30)%nat; intros k; vm_compute; reflexivity.
Qed.
(** The two values given to swap(in, out) must not be the same memory: a 2-byte number would be overwritten by half. *)
Theorem C34_same_buffer_refuted :
  conv (fun f => compiled_swap f true (TNum 2 UInt) [1; 2] [1; 2]) (Ok [2; 2]).
Proof. exists 30%nat; intros m Hm; replace m with (30 + (m - 30))%nat by lia; generalize (m - 30)%nat; intros k; vm_compute; reflexivity. Qed.
