(** * C80: containers built from a size and an element *)
From Verif Require Import Base Types WellFormed Layout LayoutProofs LayoutMain InitProofs LayoutFinal LayoutSpec LayoutSpecProofs
     ValueOps ValueSpec ValueAtoms ValueInst WalkProofs InitRun EltOps EltProofs CmpProofs DumpProofs LoadProofs LoadSafe ValueMain Properties_Value OfSize.
From Coq Require Import Lia.
Local Open Scope N_scope.

Lemma pack_Q_ok n : n < two64 -> pack_Q (Z.of_N n) = Ok (le_bytes 8 n).
Proof.
  intros H. unfold pack_Q. destruct (Z.leb_spec (Z.of_N two64) (Z.of_N n)); [lia|]. destruct (Z.leb_spec (Z.of_N n) (- Z.of_N two64)) as [X|X].
  - exfalso. assert (0 < Z.of_N two64)%Z by reflexivity. lia.
  - rewrite Z.mod_small by lia. rewrite N2Z.id. reflexivity.
Qed.
Lemma str_times_ok bs n : str_times bs (Z.of_N n) = Ok (concat (repN n bs)).
Proof. unfold str_times. destruct (Z.ltb_spec (Z.of_N n) 0); [lia|]. rewrite N2Z.id. reflexivity. Qed.
Lemma lenN_concat_rep {A} n (l : list A) : lenN (concat (repN n l)) = n * lenN l.
Proof. unfold repN. rewrite <- (N2Nat.id n) at 2. induction (N.to_nat n) as [|k IH]; cbn [repeat concat]; [reflexivity|]. rewrite lenN_app, IH, Nat2N.inj_succ. lia. Qed.
Lemma Forall2_rep {A C} (R : A -> C -> Prop) n a b : R a b -> Forall2 R (repN n a) (repN n b).
Proof. intros H. unfold repN. induction (N.to_nat n); cbn [repeat]; constructor; assumption. Qed.
Lemma Forall_rep {A} (R : A -> Prop) n a : R a -> Forall R (repN n a).
Proof. intros H. unfold repN. induction (N.to_nat n); cbn [repeat]; constructor; assumption. Qed.
Lemma lenN_rep {A} n (a : A) : lenN (repN n a) = n.
Proof. unfold repN, lenN. rewrite repeat_length. apply N2Nat.id. Qed.

(** No padding at the end of a type: its dump is its whole image. *)
Lemma whole_image e v : wf e -> plain e -> sizeof e <= max_size -> valid e v -> (forall l, places e <> l ++ [Pad]) ->
  exists out, conv (fun f => do_dump f e v) (Ok out) /\ image e v out.
Proof.
  intros Hw Hp Hs Hv Hn. destruct (get_parts Hw Hp Hv) as (out & pad & pre & v1 & P). exists out. split; [eapply dump_conv; eauto|].
  destruct pad as [|b pad]; [rewrite <- (app_nil_r out); apply (pt_image P)|]. exfalso.
  assert (L : exists k, lenN (b :: pad) = k + 1) by (exists (lenN pad); unfold lenN; cbn [length]; lia). destruct L as (k & L).
  pose proof (pt_atoms P) as E. rewrite L, repN_add in E. apply (f_equal (map of_atom)) in E. rewrite <- (proj1 places_atoms) in E.
  rewrite !map_app in E. change (map of_atom (repN 1 APad)) with [Pad] in E. rewrite app_assoc in E. exact (Hn _ E).
Qed.
(** The dump of a container is its image. *)
Lemma cont_image k s e V bs : wf (TCont k s e) -> plain (TCont k s e) -> s <= max_size -> image (TCont k s e) V bs ->
  conv (fun f => do_dump f (TCont k s e) V) (Ok bs).
Proof.
  intros Hw Hp Hs Hi. assert (Hv := proj1 image_valid _ _ _ Hi).
  destruct (@whole_image (TCont k s e) V Hw Hp Hs Hv) as (out & D & I).
  - intros l. cbn [places]. destruct l as [|x [|y l]]; discriminate.
  - rewrite (proj1 image_fun _ Hw _ _ _ Hi I). exact D.
Qed.
Lemma conv_of_size k s e n v d out r : n < two64 ->
  conv (fun f => do_dump f e v) (Ok out) ->
  conv (fun f => do_load f (TCont k s e) d (le_bytes 8 n ++ concat (repN n out))) r ->
  conv (fun f => of_size f k s e (Z.of_N n) v d) r.
Proof.
  intros Hn [a A] [b B]. exists (a + b)%nat. intros f Hf. unfold of_size. rewrite A by lia. cbn [bind]. rewrite pack_Q_ok by assumption. cbn [bind]. rewrite str_times_ok. cbn [bind]. apply B. lia.
Qed.

(** of_size gives a vector of that many elements equal to the given one, if the marshalled element is whole (no padding is left
    out at its end). Missing: the other elements (C80_padding_refuted). *)
Theorem C80_vector_partial s e n v d out : let t := TCont KVec s e in
  wf t -> plain t -> s <= max_size -> sizeof e <= max_size -> valid e v -> fresh t d ->
  conv (fun f => do_dump f e v) (Ok out) -> image e v out ->
  n * sizeof e <= max_size -> 8 + n * lenN out <= max_size ->
  exists d' cap ms, conv (fun f => of_size f KVec s e (Z.of_N n) v d) (Ok d') /\
    d' = put_obj s (VecObj cap (concat ms)) /\ lenN ms = n /\ Forall (fun m => same e m v) ms.
Proof.
  intros t Hw Hp Hs He Hv Hd D I Hm Lo. assert (Hwe : wf e) by apply Hw. assert (H1 : 1 <= sizeof e) by apply Hw.
  set (V := put_obj s (VecObj (n * sizeof e) (concat (repN n v)))).
  assert (IV : image t V (le_bytes 8 n ++ concat (repN n out))).
  { exists (n * sizeof e), (repN n v), (repN n out). split; [reflexivity|]. split; [rewrite lenN_concat_rep, (proj1 valid_len e Hwe _ Hv); apply N.le_refl|]. split; [exact Hm|].
    split; [apply Forall2_rep, I|]. rewrite lenN_rep. reflexivity. }
  assert (L8 : lenN (le_bytes 8 n) = 8) by reflexivity.
  assert (Ln : n < two64) by (assert (max_size < two64) by reflexivity; nia).
  assert (VV := proj1 image_valid _ _ _ IV).
  destruct (@C01_dump_load_roundtrip t V Hw Hp Hs VV) as (out' & D' & R).
  assert (E : out' = le_bytes 8 n ++ concat (repN n out)).
  { pose proof (cont_image Hw Hp Hs IV) as [a A]. destruct D' as [b B]. specialize (A (a + b)%nat ltac:(lia)). specialize (B (a + b)%nat ltac:(lia)). pose proof (eq_trans (eq_sym B) A) as X. injection X. auto. }
  subst out'. destruct (R ltac:(rewrite lenN_app, lenN_concat_rep, L8; exact Lo) d Hd) as (d' & Ld & S).
  destruct S as (ca & cb & xs & ys & -> & E2 & F & _).
  assert (EY : concat ys = concat (repN n v)) by (unfold V in E2; injection E2; congruence).
  exists (put_obj s (VecObj ca (concat xs))), ca, xs. split; [eapply conv_of_size; eassumption|]. split; [reflexivity|].
  assert (U : forall m l, Forall (fun y => lenN y = sizeof e) l -> concat l = concat (repN m v) -> l = repN m v).
  { clear - Hv Hwe H1. assert (Lv := proj1 valid_len e Hwe _ Hv). intros m. unfold repN. induction (N.to_nat m) as [|k IH]; intros l Fl El; cbn [repeat concat] in *.
    - destruct l as [|y l]; [reflexivity|]. apply Forall_inv in Fl. cbn [concat] in El. apply app_eq_nil in El as [-> _]. unfold lenN in Fl; cbn [length] in Fl. lia.
    - destruct l as [|y l]; cbn [concat] in El; [symmetry in El; apply app_eq_nil in El as [-> _]; unfold lenN in Lv; cbn [length] in Lv; lia|].
      pose proof (Forall_inv Fl) as Ly. assert (Y : y = v /\ concat l = concat (repeat v k)).
      { apply app_inj_len; [|exact El]. unfold lenN in *. lia. }
      destruct Y as [-> Y]. f_equal. apply IH; [exact (Forall_inv_tail Fl)|exact Y]. }
  assert (EYS : ys = repN n v).
  { apply U; [|exact EY]. clear - F Hwe. induction F as [|x y xs ys S F IH]; constructor; [|exact IH]. apply (proj1 valid_len e Hwe). apply (same_valid S). }
  subst ys. split.
  - rewrite (F2_lenN F). apply lenN_rep.
  - clear - F. revert F. unfold repN. generalize (N.to_nat n). induction xs as [|x xs IH]; intros k F; [constructor|].
    destruct k as [|k]; inversion F; subst. constructor; [assumption|]. eapply IH. eassumption.
Qed.

(** The same for strings. *)
Theorem C80_string s c n b d : let t := TCont KStr s (TNum 1 c) in
  wf t -> s <= max_size -> fresh t d -> 8 + n <= max_size ->
  conv (fun f => of_size f KStr s (TNum 1 c) (Z.of_N n) [B b] d) (Ok (put_obj s (StrObj (repN n b)))).
Proof.
  intros t Hw Hs Hd Hn. set (V := put_obj s (StrObj (repN n b))). assert (Hp : plain t) by reflexivity.
  assert (C1 : concat (repN n [b]) = repN n b) by (unfold repN; induction (N.to_nat n) as [|k IH]; cbn [repeat concat app]; [reflexivity|f_equal; exact IH]).
  assert (IV : image t V (le_bytes 8 n ++ concat (repN n [b]))).
  { exists (repN n b). split; [reflexivity|]. split; [rewrite lenN_rep; lia|]. rewrite lenN_rep, C1. reflexivity. }
  assert (VV := proj1 image_valid _ _ _ IV). destruct (@C01_dump_load_roundtrip t V Hw Hp Hs VV) as (out' & D' & R).
  assert (E : out' = le_bytes 8 n ++ concat (repN n [b])).
  { pose proof (cont_image Hw Hp Hs IV) as [x A]. destruct D' as [y B]. specialize (A (x + y)%nat ltac:(lia)). specialize (B (x + y)%nat ltac:(lia)). pose proof (eq_trans (eq_sym B) A) as X. injection X. auto. }
  subst out'. destruct (R ltac:(rewrite lenN_app, lenN_concat_rep; change (lenN (le_bytes 8 n)) with 8; change (lenN [b]) with 1; lia) d Hd) as (d' & Ld & S).
  destruct S as (bs & -> & E2 & _). unfold V in E2. injection E2 as E2.
  destruct (@whole_image (TNum 1 c) [B b]) as (out & D & I).
  - cbn. split; [reflexivity|exact I].
  - reflexivity.
  - cbn. discriminate.
  - exists [b]. split; reflexivity.
  - intros l. cbn [places]. change (repN 1 Data) with [Data]. destruct l as [|x [|y l]]; discriminate.
  - destruct I as [_ I]. change [B b] with (map B [b]) in I. apply map_B_inj in I. subst out. unfold V. rewrite E2.
    eapply conv_of_size; [assert (max_size < two64) by reflexivity; lia|exact D|exact Ld].
Qed.

(** A size that is not a size is refused. *)
Theorem C80_bad_size k s e v d out z : (z < 0 \/ Z.of_N two64 <= z)%Z ->
  conv (fun f => do_dump f e v) (Ok out) -> exists x, (x = EArg \/ x = ERange) /\ conv (fun f => of_size f k s e z v d) (Throw x).
Proof.
  intros Hz [a A]. unfold of_size.
  assert (P : exists x, (x = EArg \/ x = ERange) /\ (head <- pack_Q z ;; body <- str_times out z ;; do_load 0 (TCont k s e) d (head ++ body)) = Throw x
     /\ forall f, (head <- pack_Q z ;; body <- str_times out z ;; do_load f (TCont k s e) d (head ++ body)) = Throw x).
  { unfold pack_Q, str_times. destruct (Z.leb_spec (Z.of_N two64) z); [exists ERange; cbn [bind]; auto|]. destruct (Z.leb_spec z (- Z.of_N two64)); [exists ERange; cbn [bind]; auto|].
    destruct (Z.ltb_spec z 0); [|lia]. exists EArg; cbn [bind]; auto. }
  destruct P as (x & Hx & _ & P). exists x. split; [exact Hx|]. exists a. intros f Hf. rewrite A by exact Hf. cbn [bind]. apply P.
Qed.

(** Types that do not end with padding are marshalled whole. *)
Theorem C80_no_padding e v : wf e -> plain e -> sizeof e <= max_size -> valid e v -> (forall l, places e <> l ++ [Pad]) ->
  exists out, conv (fun f => do_dump f e v) (Ok out) /\ image e v out.
Proof. apply whole_image. Qed.

Lemma plain_bytes_valid e bs : wf e -> plain e -> cont_free e = true -> lenN bs = sizeof e -> valid e (map B bs) /\ image e (map B bs) bs.
Proof.
  intros Hw Hp Hc L. assert (V : valid e (map B bs)).
  { apply hasc_valid; try assumption; [apply (proj1 cont_free_hasc); assumption|]. exists bs. auto. }
  split; [exact V|]. destruct (proj1 valid_image e _ V) as [x I]. pose proof (proj1 cont_free_image e Hw Hc _ _ I) as E. apply map_B_inj in E. subst x. exact I.
Qed.
(** If padding is left out of the marshalled element, of_size raises for every size but 0 (types without containers). *)
Theorem C80_padding_refuted s e n v d out : let t := TCont KVec s e in
  wf t -> plain t -> s <= max_size -> sizeof e <= max_size -> cont_free e = true -> valid e v -> valid t d ->
  conv (fun f => do_dump f e v) (Ok out) -> lenN out < sizeof e -> 1 <= n -> 8 + n * sizeof e <= max_size ->
  conv (fun f => of_size f KVec s e (Z.of_N n) v d) (Throw ERuntime).
Proof.
  intros t Hw Hp Hs He Hc Hv Hd D Lo Hn Hm. assert (Hwe : wf e) by apply Hw. assert (H1 : 1 <= sizeof e) by apply Hw. assert (Hpe : plain e) by exact Hp.
  set (x := concat (repN n out)). assert (Lx : lenN x = n * lenN out) by apply lenN_concat_rep.
  set (z := repN (n * sizeof e - lenN x) 0).
  assert (Lz : lenN z = n * sizeof e - lenN x) by apply lenN_rep.
  destruct (@bytes_chunks (sizeof e) n (map B (x ++ z))) as (ms & Lm & Em & Fm).
  { exists (x ++ z). split; [rewrite lenN_app, Lz; nia|reflexivity]. }
  assert (IM : exists bss, Forall2 (image e) ms bss /\ concat bss = x ++ z).
  { assert (G : forall ms, Forall (bytes (sizeof e)) ms -> exists bss, Forall2 (image e) ms bss /\ concat ms = map B (concat bss)).
    { induction 1 as [|m l (bs & Lb & ->) _ (bss & F & E)]; [exists []; split; [constructor|reflexivity]|].
      exists (bs :: bss). split; [constructor; [apply plain_bytes_valid; assumption|exact F]|]. cbn [concat]. rewrite E, map_app. reflexivity. }
    destruct (G ms Fm) as (bss & F & E). exists bss. split; [exact F|]. rewrite E in Em. apply map_B_inj in Em. symmetry; exact Em. }
  destruct IM as (bss & F & Eb).
  set (V := put_obj s (VecObj (n * sizeof e) (concat ms))).
  assert (IV : image t V (le_bytes 8 n ++ x ++ z)).
  { exists (n * sizeof e), ms, bss. split; [reflexivity|]. split.
    - rewrite <- Em. replace (lenN (map B (x ++ z))) with (lenN (x ++ z)) by (unfold lenN; rewrite map_length; reflexivity). rewrite lenN_app, Lz. nia.
    - split; [lia|]. split; [exact F|]. rewrite Lm, Eb. reflexivity. }
  assert (VV := proj1 image_valid _ _ _ IV). destruct (@C04_truncated_rejected t V Hw Hp Hs VV) as (out' & D' & R).
  assert (E : out' = le_bytes 8 n ++ x ++ z).
  { pose proof (cont_image Hw Hp Hs IV) as [a A]. destruct D' as [b B]. specialize (A (a + b)%nat ltac:(lia)). specialize (B (a + b)%nat ltac:(lia)). pose proof (eq_trans (eq_sym B) A) as X. injection X. auto. }
  subst out'. eapply conv_of_size; [assert (max_size < two64) by reflexivity; nia|exact D|]. apply (R ltac:(rewrite !lenN_app, Lz; change (lenN (le_bytes 8 n)) with 8; nia) d (le_bytes 8 n ++ x) z Hd).
  - intros X. rewrite X in Lz. change (lenN (@nil N)) with 0 in Lz. nia.
  - rewrite <- app_assoc. reflexivity.
Qed.
(** A point in which the second field is smaller: a vector of two of them cannot be built. *)
Definition padded : ty := TComp 8 (FCons (s_ "x") 0 (TNum 4 SInt) (FCons (s_ "y") 4 (TNum 1 SInt) FNil)).
Example padded_case : let v := map B [1; 2; 3; 4; 5; 6; 7; 8] in let d := put_obj 24 (VecObj 0 []) in
  wf (TCont KVec 24 padded) /\ plain (TCont KVec 24 padded) /\ valid padded v /\ valid (TCont KVec 24 padded) d /\
  do_dump 20 padded v = Ok [1; 2; 3; 4; 5] /\ of_size 30 KVec 24 padded 2 v d = Throw ERuntime.
Proof.
  cbv zeta. split; [vm_compute; repeat split; congruence|]. split; [reflexivity|]. split; [|split; [|split; [vm_compute; reflexivity|vm_compute; reflexivity]]].
  - exists [], (map B [1;2;3;4]), (map B [5;6;7;8]). split; [reflexivity|]. split; [exists []; split; reflexivity|]. split; [exists [1;2;3;4]; split; reflexivity|].
    exists [], [B 5], (map B [6;7;8]). split; [reflexivity|]. split; [exists []; split; reflexivity|]. split; [exists [5]; split; reflexivity|]. exists [6;7;8]. split; reflexivity.
  - exists 0, []. split; [reflexivity|]. split; [constructor|]. vm_compute. split; congruence.
Qed.
Example whole_case : let e := TComp 8 (FCons (s_ "x") 0 (TNum 1 SInt) (FCons (s_ "y") 4 (TNum 4 SInt) FNil)) in
  of_size 30 KVec 24 e 2 (map B [1; 2; 3; 4; 5; 6; 7; 8]) (put_obj 24 (VecObj 0 [])) = Ok (put_obj 24 (VecObj 16 (map B [1; 2; 3; 4; 5; 6; 7; 8; 1; 2; 3; 4; 5; 6; 7; 8]))).
Proof. vm_compute. reflexivity. Qed.
