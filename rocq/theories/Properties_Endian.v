(** * Properties_Endian: C33, in-place endian swap. *)
From Verif Require Import Base Types WellFormed Layout ValueOps ValueSpec Visitor Endian EndianSpec EndianProofs.
Local Open Scope N_scope.

(** C33: for every well-formed type without pointers and opaques, whose numerics have a native size and whose enums have
    4 bytes, endian_swap terminates normally on every valid value, reverses the bytes of each number and enum at any
    depth and changes nothing else (padding, element counts, capacities). *)
Theorem C33_endian_swap t m : wf t -> swappable t = true -> valid t m -> octets m ->
  exists m', conv (fun f => endian_swap f t m) (Ok m') /\ swapped t m m' /\ valid t m'.
Proof.
  intros Hw Hs Hv Ho. destruct (endian_swap_ok Hw Hs Hv Ho) as (m' & C & S). exists m'. repeat split; auto.
  apply (proj1 swapped_valid t Hw m m'); assumption.
Qed.

(** C33: swapping twice gives the value back, bit for bit. *)
Theorem C33_swap_involution t m m' m'' : wf t -> swappable t = true -> valid t m -> octets m ->
  conv (fun f => endian_swap f t m) (Ok m') -> conv (fun f => endian_swap f t m') (Ok m'') -> m'' = m.
Proof.
  intros Hw Hs Hv Ho C1 C2. destruct (endian_swap_ok Hw Hs Hv Ho) as (n1 & D1 & S1).
  injection (conv_fun C1 D1) as <-. destruct (proj1 swapped_valid t Hw m m' S1 Hv Ho) as [V O].
  destruct (endian_swap_ok Hw Hs V O) as (n2 & D2 & S2). injection (conv_fun C2 D2) as <-.
  apply (proj1 swapped_fun t Hw m'); [assumption|]. apply (proj1 swapped_sym). assumption.
Qed.

(** The specification [swapped] determines the result: there is only one correct output. *)
Theorem C33_swapped_unique t m a b : wf t -> swapped t m a -> swapped t m b -> a = b.
Proof. intros Hw. apply (proj1 swapped_fun t Hw). Qed.

(** ** A value that meets the hypotheses: struct { uint16_t a; <2 bytes of padding> int32_t b[2]; std::vector<E> c; std::string d },
    E an enum. *)
Definition ex_et : ty := TComp 68 (FCons (s_ "a") 0 (TNum 2 UInt) (FCons (s_ "b") 4 (TArray 8 2 (TNum 4 SInt))
  (FCons (s_ "c") 12 (TCont KVec 24 (TEnum 4 [(s_ "X", 5%Z)])) (FCons (s_ "d") 36 (TCont KStr 32 (TNum 1 SInt)) FNil)))).
Definition ex_em : list cell := map B [1; 2] ++ map B [9; 9] ++ map B [1; 2; 3; 4] ++ map B [5; 6; 7; 8] ++
  put_obj 24 (VecObj 8 (map B [5; 0; 0; 0])) ++ put_obj 32 (StrObj [104; 105]).
Definition ex_em' : list cell := map B [2; 1] ++ map B [9; 9] ++ map B [4; 3; 2; 1] ++ map B [8; 7; 6; 5] ++
  put_obj 24 (VecObj 8 (map B [0; 0; 0; 5])) ++ put_obj 32 (StrObj [104; 105]).
Example ex_et_wf : wf ex_et /\ swappable ex_et = true.
Proof. split; [|reflexivity]. repeat split; try (eexists; reflexivity); unfold two64; simpl; lia. Qed.
Example ex_em_valid : valid ex_et ex_em /\ octets ex_em.
Proof.
  split.
  - exists [], (map B [1; 2]), (map B [9; 9] ++ map B [1; 2; 3; 4] ++ map B [5; 6; 7; 8] ++
      put_obj 24 (VecObj 8 (map B [5; 0; 0; 0])) ++ put_obj 32 (StrObj [104; 105])).
    split; [reflexivity|]. split; [exists []; auto|]. split; [exists [1; 2]; auto|].
    exists (map B [9; 9]), (map B [1; 2; 3; 4] ++ map B [5; 6; 7; 8]),
      (put_obj 24 (VecObj 8 (map B [5; 0; 0; 0])) ++ put_obj 32 (StrObj [104; 105])).
    split; [reflexivity|]. split; [exists [9; 9]; auto|]. split.
    { exists [map B [1; 2; 3; 4]; map B [5; 6; 7; 8]]. split; [reflexivity|]. split; [reflexivity|].
      repeat constructor; [exists [1; 2; 3; 4]|exists [5; 6; 7; 8]]; auto. }
    exists [], (put_obj 24 (VecObj 8 (map B [5; 0; 0; 0]))), (put_obj 32 (StrObj [104; 105])).
    split; [reflexivity|]. split; [exists []; auto|]. split.
    { exists 8, [map B [5; 0; 0; 0]]. split; [reflexivity|]. split; [repeat constructor; exists [5; 0; 0; 0]; auto|].
      split; [vm_compute; discriminate|vm_compute; discriminate]. }
    exists [], (put_obj 32 (StrObj [104; 105])), [].
    split; [reflexivity|]. split; [exists []; auto|]. split; [exists [104; 105]; split; [reflexivity|vm_compute; discriminate]|].
    exists []; auto.
  - unfold ex_em. rewrite !octets_app, octets_vec, octets_str, !octets_map.
    repeat split; repeat (apply Forall_cons; [reflexivity|]); apply Forall_nil.
Qed.
Example ex_em_swap : conv (fun f => endian_swap f ex_et ex_em) (Ok ex_em').
Proof. exists 10%nat. intros m Hm. replace m with (10 + (m - 10))%nat by lia. generalize (m - 10)%nat. intros k. vm_compute. reflexivity. Qed.

(** ** What the code does beyond these types *)

(** A pointer field makes the swap throw after the fields before it were swapped: the value is left half swapped. (The model
    returns no memory when an exception leaves; the memory at that time is that of the visit of the fields before.) *)
Definition ex_ptr_t : ty := TComp 16 (FCons (s_ "a") 0 (TNum 2 UInt) (FCons (s_ "p") 8 (TPtr 8) FNil)).
Theorem C33_pointers_throw : wf ex_ptr_t /\ (forall m, lenN m = 16 -> (exists bs, m = map B bs) ->
  conv (fun f => endian_swap f ex_ptr_t m) (Throw ERuntime)).
Proof.
  split; [repeat split; unfold two64; simpl; lia|]. intros m L (bs & ->).
  exists 10%nat. intros f _. unfold endian_swap, apply_visitor. cbn [vvisit ex_ptr_t vvisit_fields].
  destruct (N.ltb_spec (lenN (map B bs)) 0); [lia|]. cbn [vh_field swap_visitor]. rewrite dropN_0.
  assert (L' : length bs = 16%nat) by (unfold lenN in L; rewrite map_length in L; lia).
  do 16 (destruct bs as [|? bs]; [discriminate L'|]). destruct bs; [|discriminate L'].
  lazy -[swap_helper le_val N.modulo N.div]. reflexivity.
Qed.
(** An opaque value is silently left as it is, whatever its content. *)
Theorem C33_opaque_unswapped n m f : endian_swap (S f) (TOpaque n) m = Ok m.
Proof. reflexivity. Qed.
(** An enum that is not stored in 4 bytes is accessed through a 4-byte reference: with 1 byte the swap reads and writes
    outside of the value. *)
Theorem C33_small_enum_refuted : wf (TEnum 1 []) /\ valid (TEnum 1 []) [B 1] /\
  conv (fun f => endian_swap f (TEnum 1 []) [B 1]) (UB UOob).
Proof.
  split; [split; [unfold two64; simpl; lia|simpl; lia]|]. split; [exists [1]; auto|].
  exists 1%nat. intros [|f] Hf; [lia|]. reflexivity.
Qed.
