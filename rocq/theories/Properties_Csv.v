(** * Properties_Csv: C35, csv output. *)
From Verif Require Import Base Types WellFormed Layout ValueOps ValueSpec InitProofs EltOps LoadSafe Visitor EndianSpec CompiledProofs Csv CsvSpec CsvProofs.
Local Open Scope N_scope.

Lemma Forall2_length {A B} (R : A -> B -> Prop) l l' : Forall2 R l l' -> length l = length l'.
Proof. induction 1; simpl; congruence. Qed.
Lemma F2_map {A B} (R : A -> B -> Prop) (f : A -> B) l : (forall x, In x l -> R x (f x)) -> Forall2 R l (map f l).
Proof. induction l; intros H; constructor; [apply H; left; reflexivity|apply IHl; intros; apply H; right; assumption]. Qed.

(** C35 (partial): for every type without pointers, opaques and containers (with numerics of native size and enums of 4 bytes) and
    every value, the header and the line have one column for each number and enum of the value, in the same order: the column of
    the header is the name of its access path, the one of the line is the text of the bytes found there.
    Missing: opaque fields and containers, for which the columns differ (see below), and pointers. *)
Theorem C35_same_columns_partial t base fl can bs :
  wf t -> swappable t = true -> cont_free t = true -> Forall (fun b => b < 256) bs -> lenN bs = sizeof t ->
  exists hs ls, csv_columns t base = Ok hs /\ conv (fun f => csv_line fl can f t (map B bs)) (Ok ls) /\
    Forall2 (fun x h => exists n, path_name (fst (fst x)) n /\ h = base ++ n) (leaves t [] 0) hs /\
    Forall2 (fun x s => col fl can (snd x) (slice (snd (fst x)) (sizeof (snd x)) bs) s) (leaves t [] 0) ls.
Proof.
  intros Hw Hs Hc H8 L. exists (map (colname base) (leaves t [] 0)), (map (leaf_text fl can bs) (leaves t [] 0)).
  split; [apply (proj1 (hvisit_ok base) t Hs Hc [base] [] 0); cbn; reflexivity|]. split; [apply line_ok; assumption|]. split.
  - apply F2_map. intros x _. exists (path_str (fst (fst x))). split; [apply path_str_name|reflexivity].
  - apply F2_map. intros x Hx. destruct (proj1 leaves_ok t Hw Hs [] 0 x Hx) as (_ & _ & H2 & H3 & H4). unfold leaf_text, col.
    destruct (snd x) as [| |n c|n vs| | | |] eqn:E; try contradiction; cbn [sizeof] in *.
    + apply num_text_col; [assumption|apply slice_is8; assumption|apply lenN_slice; lia].
    + subst n. apply enum_text_col; [apply slice_is8; assumption|apply lenN_slice; lia].
Qed.

(** The separator occurs as often in the text of a line as in the text of the header, when characters are written as numbers and
    the separator is a character that is no digit, sign, dot or bracket and is in no name, symbol and text of a float. *)
Lemma count_app c a b : count c (a ++ b) = (count c a + count c b)%nat.
Proof. apply count_occ_app. Qed.
Lemma count_free c s : ~ In c s -> count c s = 0%nat.
Proof. apply count_occ_not_In. Qed.
Lemma count_join c l : Forall (fun s => ~ In c s) l -> count c (join [c] l) = pred (length l).
Proof.
  induction 1 as [|x l Hx H IH]; [reflexivity|]. destruct l as [|y l]; [apply count_free; assumption|].
  change (join [c] (x :: y :: l)) with (x ++ [c] ++ join [c] (y :: l)). rewrite !count_app, IH, (count_free Hx).
  unfold count at 1. cbn [count_occ]. destruct (ascii_dec c c); [reflexivity|congruence].
Qed.
Definition sep_char (c : ascii) : Prop := ~ is_digit c /\ ~ In c (s_ "-.[]").
Lemma decimal_free c s n : sep_char c -> decimal s n -> ~ In c s.
Proof. intros [H _] (_ & F & _) Hi. rewrite Forall_forall in F. apply H, F, Hi. Qed.
Lemma decimalZ_free c s n : sep_char c -> decimalZ s n -> ~ In c s.
Proof.
  intros H [[_ D]|(_ & r & -> & D)]; [eapply decimal_free; eauto|]. intros [<-|Hi]; [|eapply decimal_free; eauto].
  destruct H as [_ H]. apply H. left. reflexivity.
Qed.
Lemma leaves_free c :
  (forall t, names_free c t -> forall p off x, In x (leaves t p off) -> (forall nm, In (SField nm) p -> ~ In c nm) ->
     (forall nm, In (SField nm) (fst (fst x)) -> ~ In c nm) /\ names_free c (snd x)) /\
  (forall fs, names_free_fields c fs -> forall p off x, In x (leaves_fields fs p off) -> (forall nm, In (SField nm) p -> ~ In c nm) ->
     (forall nm, In (SField nm) (fst (fst x)) -> ~ In c nm) /\ names_free c (snd x)).
Proof.
  apply ty_fields_ind; try (simpl; intros; contradiction).
  - intros n k _ p off x [<-|[]] Hp. split; [exact Hp|exact I].
  - intros n vs H p off x [<-|[]] Hp. split; [exact Hp|exact H].
  - intros sz d e IH H p off x Hx Hp. cbn [leaves] in Hx. apply in_concat in Hx as (l & Hl & Hx). apply in_map_iff in Hl as (i & <- & Hi).
    apply (IH H _ _ _ Hx). intros nm Hn. apply in_app_or in Hn as [Hn|[E|[]]]; [apply Hp; assumption|discriminate].
  - intros sz fs IH H p off x Hx Hp. apply (IH H _ _ _ Hx Hp).
  - intros nm o t IHt r IHr (H1 & H2 & H3) p off x Hx Hp. cbn [leaves_fields] in Hx. apply in_app_or in Hx as [Hx|Hx].
    + apply (IHt H2 _ _ _ Hx). intros nm' Hn. apply in_app_or in Hn as [Hn|[E|[]]]; [apply Hp; assumption|]. congruence.
    + apply (IHr H3 _ _ _ Hx Hp).
Qed.
Lemma path_free c p n : sep_char c -> (forall nm, In (SField nm) p -> ~ In c nm) -> path_name p n -> ~ In c n.
Proof.
  intros Hc Hp. induction 1 as [|x p a b Ha Hb IH]; [auto|]. intros Hi. apply in_app_or in Hi as [Hi|Hi].
  - destruct Ha as [nm|i d Hd].
    + destruct Hi as [<-|Hi]; [apply Hc; right; left; reflexivity|]. eapply Hp; [left; reflexivity|exact Hi].
    + destruct Hi as [<-|Hi]; [apply Hc; do 2 right; left; reflexivity|]. apply in_app_or in Hi as [Hi|[<-|[]]].
      * eapply decimal_free; eauto.
      * apply Hc. do 3 right. left. reflexivity.
  - apply IH; [|exact Hi]. intros. apply Hp. right. assumption.
Qed.
Theorem C35_same_separators_partial t base fl bs c :
  wf t -> swappable t = true -> cont_free t = true -> Forall (fun b => b < 256) bs -> lenN bs = sizeof t ->
  ~ is_digit c -> ~ In c (s_ "-.[]") -> ~ In c base -> names_free c t -> (forall x, ~ In c (fl x)) ->
  exists header line, csv_header [c] t base = Ok header /\ conv (fun f => csv_display fl true [c] f t (map B bs)) (Ok line) /\
    count c header = count c line.
Proof.
  intros Hw Hs Hc H8 L C1 C2 Hb Hn Hf. assert (HC : sep_char c) by (split; assumption).
  destruct (C35_same_columns_partial base fl true Hw Hs Hc H8 L) as (hs & ls & E1 & E2 & F1 & F2).
  exists (join [c] hs), (join [c] ls). split; [unfold csv_header; rewrite E1; reflexivity|]. split.
  { unfold csv_display. eapply conv_bind; [exact E2|apply conv_const]. }
  assert (Free := fun x Hx => proj1 (leaves_free c) t Hn [] 0 x Hx (fun _ H => match H with end)).
  rewrite !count_join.
  - f_equal. rewrite <- (Forall2_length F1). apply (Forall2_length F2).
  - revert Free F2. generalize (leaves t [] 0) as l. clear - HC Hf. intros l Hl F. induction F as [|x s l ls Hx F IH]; constructor.
    + assert (Fx := proj2 (Hl x (or_introl eq_refl))). unfold col in Hx. destruct (snd x) as [| |n k|n vs| | | |]; try contradiction.
      * unfold num_col in Hx. rewrite andb_false_r in Hx. destruct k.
        -- destruct Hx as (v & _ & Hx). eapply decimalZ_free; eauto.
        -- eapply decimal_free; eauto.
        -- subst s. apply Hf.
      * destruct Hx as (v & _ & [Hi|[_ Hd]]); [|eapply decimalZ_free; eauto]. eapply Fx; eauto.
    + apply IH. intros. apply Hl. right. assumption.
  - revert Free F1. generalize (leaves t [] 0) as l. clear - HC Hb. intros l Hl F. induction F as [|x s l hs Hx F IH]; constructor.
    + destruct Hx as (n & Hp & ->). intros Hi. apply in_app_or in Hi as [Hi|Hi]; [auto|].
      eapply path_free; [exact HC|apply (Hl x (or_introl eq_refl))|exact Hp|exact Hi].
    + apply IH. intros. apply Hl. right. assumption.
Qed.

(** ** A case that meets the hypotheses: struct { int8_t a; <1> uint16_t b[2][2]; <2> E e; struct { double d; } g; }. *)
Definition ex_csv_t : ty := TComp 24 (FCons (s_ "a") 0 (TNum 1 SInt) (FCons (s_ "b") 2 (TArray 8 2 (TArray 4 2 (TNum 2 UInt)))
  (FCons (s_ "e") 12 (TEnum 4 [(s_ "OFF", 0%Z); (s_ "ON", (-1)%Z)]) (FCons (s_ "g") 16 (TComp 8 (FCons (s_ "d") 0 (TNum 8 Float) FNil)) FNil)))).
Definition ex_csv_m : list N := [254; 0; 1; 0; 2; 1; 3; 0; 255; 255; 0; 0; 255; 255; 255; 255; 0; 0; 0; 0; 0; 0; 240; 63].
Example ex_csv_ok : wf ex_csv_t /\ swappable ex_csv_t = true /\ cont_free ex_csv_t = true /\ Forall (fun b => b < 256) ex_csv_m /\
  lenN ex_csv_m = sizeof ex_csv_t /\ names_free ","%char ex_csv_t.
Proof.
  split; [repeat split; unfold two64; simpl; lia|]. split; [reflexivity|]. split; [reflexivity|]. split; [repeat constructor|]. split; [reflexivity|].
  cbn. repeat split; try (intros [E|E]; [discriminate E|exact E]). intros k v [E|[E|[]]]; injection E as <- _; cbn; intuition discriminate.
Qed.
Example ex_csv_run : csv_header [","%char] ex_csv_t (s_ "x") = Ok (s_ "x.a,x.b[0][0],x.b[0][1],x.b[1][0],x.b[1][1],x.e,x.g.d") /\
  conv (fun f => csv_display (fun _ => s_ "1") true [","%char] f ex_csv_t (map B ex_csv_m)) (Ok (s_ "-2,1,258,3,65535,ON,1")).
Proof.
  split; [vm_compute; reflexivity|]. exists 10%nat. intros m Hm. replace m with (10 + (m - 10))%nat by lia. generalize (m - 10)%nat. intros k.
  vm_compute. reflexivity.
Qed.

(** ** Where the claim is false *)
(** An opaque field has a column in the header and none in the line: LineVisitor's method does not override the one that is
    called. All the columns after it are shifted. *)
Definition ex_opq_t : ty := TComp 8 (FCons (s_ "o") 0 (TOpaque 4) (FCons (s_ "n") 4 (TNum 4 SInt) FNil)).
Theorem C35_opaque_refuted fl : wf ex_opq_t /\ csv_columns ex_opq_t (s_ "x") = Ok [s_ "x.o"; s_ "x.n"] /\
  conv (fun f => csv_line fl true f ex_opq_t (map B [0; 0; 0; 0; 7; 0; 0; 0])) (Ok [s_ "7"]).
Proof.
  split; [repeat split; unfold two64; simpl; lia|]. split; [vm_compute; reflexivity|]. exists 10%nat. intros m Hm.
  replace m with (10 + (m - 10))%nat by lia. generalize (m - 10)%nat. intros k. vm_compute. reflexivity.
Qed.
(** A container has the columns of one element in the header and those of all its elements in the line. *)
Theorem C35_container_refuted fl : let t := TComp 28 (FCons (s_ "v") 0 (TCont KVec 24 (TNum 4 SInt)) (FCons (s_ "n") 24 (TNum 4 SInt) FNil)) in
  wf t /\ csv_columns t (s_ "x") = Ok [s_ "x.v"; s_ "x.n"] /\
  valid t (put_obj 24 (VecObj 8 (map B [1; 0; 0; 0; 2; 0; 0; 0])) ++ map B [7; 0; 0; 0]) /\
  conv (fun f => csv_line fl true f t (put_obj 24 (VecObj 8 (map B [1; 0; 0; 0; 2; 0; 0; 0])) ++ map B [7; 0; 0; 0])) (Ok [s_ "1"; s_ "2"; s_ "7"]) /\
  valid t (put_obj 24 (VecObj 0 []) ++ map B [7; 0; 0; 0]) /\
  conv (fun f => csv_line fl true f t (put_obj 24 (VecObj 0 []) ++ map B [7; 0; 0; 0])) (Ok [s_ "7"]).
Proof.
  cbv zeta. split; [repeat split; unfold two64; simpl; lia|]. split; [vm_compute; reflexivity|]. split; [|split; [|split]].
  - exists [], (put_obj 24 (VecObj 8 (map B [1; 0; 0; 0; 2; 0; 0; 0]))), (map B [7; 0; 0; 0]).
    split; [reflexivity|]. split; [exists []; auto|]. split.
    { exists 8, [map B [1; 0; 0; 0]; map B [2; 0; 0; 0]]. split; [reflexivity|]. split; [|split; vm_compute; discriminate].
      apply Forall_cons; [exists [1; 0; 0; 0]; auto|]. apply Forall_cons; [exists [2; 0; 0; 0]; auto|]. apply Forall_nil. }
    exists [], (map B [7; 0; 0; 0]), []. split; [reflexivity|]. split; [exists []; auto|]. split; [exists [7; 0; 0; 0]; auto|]. exists []; auto.
  - exists 10%nat. intros m Hm. replace m with (10 + (m - 10))%nat by lia. generalize (m - 10)%nat. intros k. vm_compute. reflexivity.
  - exists [], (put_obj 24 (VecObj 0 [])), (map B [7; 0; 0; 0]).
    split; [reflexivity|]. split; [exists []; auto|]. split.
    { exists 0, []. split; [reflexivity|]. split; [apply Forall_nil|split; vm_compute; discriminate]. }
    exists [], (map B [7; 0; 0; 0]), []. split; [reflexivity|]. split; [exists []; auto|]. split; [exists [7; 0; 0; 0]; auto|]. exists []; auto.
  - exists 10%nat. intros m Hm. replace m with (10 + (m - 10))%nat by lia. generalize (m - 10)%nat. intros k. vm_compute. reflexivity.
Qed.
(** Characters written as such can be the separator: 3 separators in the line, 1 in the header. *)
Theorem C35_char_separator_refuted fl : let t := TArray 2 2 (TNum 1 UInt) in
  csv_header [","%char] t (s_ "x") = Ok (s_ "x[0],x[1]") /\
  conv (fun f => csv_display fl false [","%char] f t (map B [44; 44])) (Ok (s_ ",,,")).
Proof.
  split; [vm_compute; reflexivity|]. exists 10%nat. intros m Hm. replace m with (10 + (m - 10))%nat by lia. generalize (m - 10)%nat. intros k.
  vm_compute. reflexivity.
Qed.
