(** * CsvProofs *)
From Coq Require Import Decimal DecimalString DecimalFacts DecimalN.
From Verif Require Import Base Types WellFormed Layout ValueOps ValueSpec InitProofs ValueAtoms WalkProofs EltOps LoadSafe Visitor VisitorProofs Endian EndianSpec EndianProofs
  Compiled CompiledSpec CompiledProofs Csv CsvSpec.
From Verif Require Registry.
Local Open Scope N_scope.

(** ** Decimal *)
Fixpoint uval (d : uint) (a : N) : N :=
  match d with
  | Nil => a | D0 d => uval d (10 * a) | D1 d => uval d (10 * a + 1) | D2 d => uval d (10 * a + 2) | D3 d => uval d (10 * a + 3)
  | D4 d => uval d (10 * a + 4) | D5 d => uval d (10 * a + 5) | D6 d => uval d (10 * a + 6) | D7 d => uval d (10 * a + 7)
  | D8 d => uval d (10 * a + 8) | D9 d => uval d (10 * a + 9)
  end.
Lemma uval_acc d : forall p, N.pos (Pos.of_uint_acc d p) = uval d (N.pos p).
Proof.
  induction d; intros p; cbn [Pos.of_uint_acc uval]; [reflexivity|..]; rewrite IHd; f_equal; lia.
Qed.
Lemma uval_of d : N.of_uint d = uval d 0.
Proof.
  unfold N.of_uint. induction d; cbn [Pos.of_uint uval]; [reflexivity|exact IHd|..]; rewrite uval_acc; reflexivity.
Qed.
Lemma read_string d : forall a, fold_left (fun a c => 10 * a + digit_val c) (list_ascii_of_string (NilEmpty.string_of_uint d)) a = uval d a.
Proof.
  induction d; intros a; cbn [NilEmpty.string_of_uint list_ascii_of_string fold_left uval]; [reflexivity|..]; rewrite IHd; f_equal;
    unfold digit_val; cbn; lia.
Qed.
Lemma digits_string d : Forall is_digit (list_ascii_of_string (NilEmpty.string_of_uint d)).
Proof. induction d; cbn [NilEmpty.string_of_uint list_ascii_of_string]; constructor; try assumption; unfold is_digit; cbn; lia. Qed.
Lemma decN_decimal n : decimal (decN n) n.
Proof.
  unfold decimal, decN, Registry.dec, s_.
  assert (Hn : N.to_uint n <> Nil).
  { intros Hk. assert (Y := DecimalN.Unsigned.of_to n). rewrite Hk in Y. simpl in Y. subst n. discriminate. }
  assert (E : NilZero.string_of_uint (N.to_uint n) = NilEmpty.string_of_uint (N.to_uint n)) by (destruct (N.to_uint n); [congruence|reflexivity..]).
  rewrite E. split; [|split].
  - destruct (N.to_uint n); [congruence|discriminate..].
  - apply digits_string.
  - unfold read_dec. rewrite read_string, <- uval_of. apply DecimalN.Unsigned.of_to.
Qed.
Lemma decZ_decimal z : decimalZ (decZ z) z.
Proof.
  unfold decZ, decimalZ. destruct (Z.ltb_spec z 0); [right|left]; (split; [assumption|]); [|apply decN_decimal].
  exists (decN (Z.to_N (- z))). split; [reflexivity|apply decN_decimal].
Qed.

(** ** Bytes *)
Lemma uint_le_val bs : Forall is8 bs -> uint_of bs = le_val bs.
Proof. induction 1 as [|b bs Hb H IH]; [reflexivity|]. unfold is8 in Hb. cbn [uint_of fold_right]. fold (uint_of bs). rewrite IH. cbn [le_val]. rewrite N.mod_small by assumption. lia. Qed.
Lemma le_val_bound bs n : Forall is8 bs -> lenN bs = n -> le_val bs < 2 ^ (8 * n).
Proof.
  intros H. revert n. induction H as [|b bs Hb H IH]; intros n L; [subst n; reflexivity|].
  rewrite lenN_cons in L. specialize (IH _ eq_refl). subst n. cbn [le_val]. unfold is8 in Hb. rewrite N.mod_small by assumption.
  replace (8 * (1 + lenN bs)) with (8 + 8 * lenN bs) by lia. rewrite N.pow_add_r. change (2 ^ 8) with 256. nia.
Qed.
Lemma signed_holds n bs : 1 <= n -> Forall is8 bs -> lenN bs = n -> holds_int n bs (signed n bs).
Proof.
  intros Hn H L. assert (K := le_val_bound H L). unfold holds_int, signed. rewrite uint_le_val by assumption.
  assert (E : (2 ^ (8 * Z.of_N n) = 2 * 2 ^ (8 * Z.of_N n - 1))%Z).
  { rewrite <- Z.pow_succ_r by lia. f_equal. lia. }
  assert (K' : (Z.of_N (le_val bs) < 2 ^ (8 * Z.of_N n))%Z).
  { apply N2Z.inj_lt in K. rewrite N2Z.inj_pow, N2Z.inj_mul in K. exact K. }
  set (P := (2 ^ (8 * Z.of_N n - 1))%Z) in *. assert (0 < P)%Z by (apply Z.pow_pos_nonneg; lia).
  destruct (Z.ltb_spec (Z.of_N (le_val bs)) P).
  - split; [lia|]. apply Z.mod_small. lia.
  - split; [lia|]. replace (Z.of_N (le_val bs) - 2 ^ (8 * Z.of_N n))%Z with (Z.of_N (le_val bs) + (-1) * 2 ^ (8 * Z.of_N n))%Z by lia.
    rewrite Z.mod_add by lia. apply Z.mod_small. lia.
Qed.
Lemma num_text_col fl can n c bs : 1 <= n -> Forall is8 bs -> lenN bs = n -> num_col fl can n c bs (num_text fl can n c bs).
Proof.
  intros Hn H L. unfold num_col, num_text. destruct c; [| |reflexivity]; destruct ((n =? 1) && negb can); try reflexivity.
  - exists (signed n bs). split; [apply signed_holds; assumption|apply decZ_decimal].
  - rewrite uint_le_val by assumption. apply decN_decimal.
Qed.
Lemma enum_get_spec vs v : match enum_get vs v with Some k => In (k, v) vs | None => forall k, ~ In (k, v) vs end.
Proof.
  induction vs as [|[k x] vs IH]; cbn [enum_get]; [auto|]. destruct (Z.eqb_spec x v) as [-> |Hn]; [left; reflexivity|].
  destruct (enum_get vs v) as [k'|]; [right; exact IH|]. intros k' [E|Hi]; [congruence|eapply IH; eauto].
Qed.
Lemma enum_text_col vs bs : Forall is8 bs -> lenN bs = 4 -> enum_col vs bs (enum_text vs bs).
Proof.
  intros H L. exists (signed 4 bs). split; [apply signed_holds; [lia|assumption..]|]. unfold enum_text.
  assert (K := enum_get_spec vs (signed 4 bs)). destruct (enum_get vs (signed 4 bs)) as [k|]; [left; exact K|right].
  split; [exact K|apply decZ_decimal].
Qed.

(** ** The header *)
Definition step_str (x : step) : str := match x with SField nm => "."%char :: nm | SElt i => "["%char :: decN i ++ ["]"%char] end.
Definition path_str (p : path) : str := concat (map step_str p).
Lemma path_str_name p : path_name p (path_str p).
Proof.
  induction p as [|x p IH]; [constructor|]. cbn [path_str map concat]. constructor; [|exact IH].
  destruct x; constructor. apply decN_decimal.
Qed.
Definition colname (base : str) (x : path * N * ty) : str := base ++ path_str (fst (fst x)).

Lemma upto_succ d : upto (d + 1) = upto d ++ [d].
Proof. unfold upto. rewrite N2Nat.inj_add, seq_app, map_app. f_equal. change (N.to_nat 1) with 1%nat. cbn [seq map Nat.add]. rewrite N2Nat.id. reflexivity. Qed.
Lemma upto_In d i : In i (upto d) -> i < d.
Proof. unfold upto. rewrite in_map_iff. intros (k & <- & Hk). apply in_seq in Hk. lia. Qed.
Lemma upto_len d : lenN (upto d) = d.
Proof. unfold upto, lenN. rewrite map_length, seq_length. lia. Qed.

(** The loop over the elements. *)
Fixpoint hloop (e : ty) (name : list str) (n : nat) (i : N) {struct n} : res (list str) :=
  match n with
  | O => Ok []
  | Datatypes.S k => a <- hvisit e (name ++ [s_ "["; decN i; s_ "]"]) ;; b <- hloop e name k (i + 1) ;; Ok (a ++ b)
  end.
Lemma hvisit_array s d e name : hvisit (TArray s d e) name = hloop e name (N.to_nat d) 0.
Proof.
  cbn [hvisit]. generalize 0 as i. induction (N.to_nat d) as [|n IH]; intros i; [reflexivity|]. cbn [hloop].
  destruct (hvisit e (name ++ [s_ "["; decN i; s_ "]"])); cbn [bind]; try reflexivity. rewrite IH. reflexivity.
Qed.

Lemma hvisit_ok base :
  (forall t, swappable t = true -> cont_free t = true -> forall name p off, concat name = base ++ path_str p ->
      hvisit t name = Ok (map (colname base) (leaves t p off))) /\
  (forall fs, swappable_fields fs = true -> cont_free_fields fs = true -> forall name p off, concat name = base ++ path_str p ++ ["."%char] ->
      hvisit_fields fs name = Ok (map (colname base) (leaves_fields fs p off))).
Proof.
  apply ty_fields_ind; try discriminate.
  - intros n c _ _ name p off E. cbn [hvisit leaves map]. unfold colname. cbn [fst]. rewrite E. reflexivity.
  - intros n vs _ _ name p off E. cbn [hvisit leaves map]. unfold colname. cbn [fst]. rewrite E. reflexivity.
  - intros s d e IH Hs Hc name p off E. rewrite hvisit_array. cbn [leaves]. rewrite concat_map, map_map.
    assert (G : forall n i, hloop e name n (N.of_nat i) =
      Ok (concat (map (fun x => map (colname base) (leaves e (p ++ [SElt x]) (off + x * sizeof e))) (map N.of_nat (seq i n))))).
    { induction n as [|n IHn]; intros i; [reflexivity|]. cbn [hloop seq map concat].
      rewrite (IH Hs Hc _ (p ++ [SElt (N.of_nat i)]) (off + N.of_nat i * sizeof e)).
      - cbn [bind]. replace (N.of_nat i + 1) with (N.of_nat (Datatypes.S i)) by lia. rewrite IHn. reflexivity.
      - rewrite concat_app, E. unfold path_str. rewrite map_app, concat_app, <- app_assoc. f_equal. f_equal. cbn.
        rewrite ?app_nil_r. reflexivity. }
    apply (G (N.to_nat d) 0%nat).
  - intros s fs IH Hs Hc name p off E. cbn [hvisit leaves]. apply IH; try assumption. rewrite concat_app, E. cbn. rewrite <- app_assoc. reflexivity.
  - intros _ _ name p off _. reflexivity.
  - intros nm o t IHt r IHr Hs Hc name p off E. cbn [swappable_fields cont_free_fields] in *.
    apply andb_true_iff in Hs as [Hs Hs'], Hc as [Hc Hc']. cbn [hvisit_fields leaves_fields].
    rewrite (IHt Hs Hc _ (p ++ [SField nm]) (off + o)).
    + cbn [bind]. rewrite (IHr Hs' Hc' _ p off) by assumption. cbn [bind]. rewrite map_app. reflexivity.
    + rewrite concat_app, E. unfold path_str. rewrite map_app, concat_app. cbn. rewrite ?app_nil_r, <- !app_assoc. reflexivity.
Qed.

(** ** The line *)
Section Line.
  Context (fl : list N -> str) (can : bool) (bs : list N).
  Definition leaf_text (x : path * N * ty) : str :=
    match snd x with
    | TNum n c => num_text fl can n c (slice (snd (fst x)) n bs)
    | TEnum n vs => enum_text vs (slice (snd (fst x)) n bs)
    | _ => []
    end.
  Lemma line_trav :
    (forall t, wf t -> swappable t = true -> cont_free t = true -> forall p off s, off + sizeof t <= lenN bs ->
        trav (line_visitor fl can) t (map B (slice off (sizeof t) bs)) s (map B (slice off (sizeof t) bs)) (s ++ map leaf_text (leaves t p off))) /\
    (forall fs cur sz, wf_fields fs cur sz -> swappable_fields fs = true -> cont_free_fields fs = true -> forall p off s, off + sz <= lenN bs ->
        trav_fields (line_visitor fl can) fs cur sz (map B (slice (off + cur) (sz - cur) bs)) s (map B (slice (off + cur) (sz - cur) bs))
          (s ++ map leaf_text (leaves_fields fs p off))).
  Proof.
    apply ty_fields_ind; try discriminate.
    - intros n c Hw Hs _ p off s Hl. cbn [trav sizeof leaves] in *. split.
      { unfold num_supported. cbn [swappable] in Hs. destruct c; cbn in Hs |- *; rewrite ?orb_false_r in Hs; rewrite <- Hs, ?orb_assoc; reflexivity. }
      exists (slice off n bs), (slice off n bs). assert (lenN (slice off n bs) = n) by (apply lenN_slice; lia). repeat split; assumption.
    - intros n vs Hw Hs _ p off s Hl. cbn [trav sizeof leaves swappable] in *. apply N.eqb_eq in Hs. split; [exact Hs|].
      exists (slice off n bs), (slice off n bs). assert (lenN (slice off n bs) = n) by (apply lenN_slice; lia). repeat split; assumption.
    - intros sz d e IH (_ & -> & _ & _ & He) Hs Hc p off s Hl. cbn [trav sizeof leaves] in *.
      assert (E : map B (slice off (d * sizeof e) bs) = concat (map (fun q => map B (slice (off + q * sizeof e) (sizeof e) bs)) (upto d))).
      { clear - Hl. induction d as [|d IHd] using N.peano_ind; [reflexivity|].
        rewrite <- N.add_1_r, upto_succ, map_app, concat_app, <- IHd by lia. cbn [map concat]. rewrite app_nil_r, <- map_app. f_equal.
        replace ((d + 1) * sizeof e) with (d * sizeof e + sizeof e) by lia. rewrite slice_add. reflexivity. }
      exists (map (fun q => map B (slice (off + q * sizeof e) (sizeof e) bs)) (upto d)),
             (map (fun q => map B (slice (off + q * sizeof e) (sizeof e) bs)) (upto d)).
      split; [unfold lenN; rewrite map_length; apply upto_len|]. split; [exact E|]. split; [exact E|].
      assert (Hi : forall i, In i (upto d) -> i < d) by apply upto_In. clear E. revert s Hi. generalize (upto d) as qs.
      induction qs as [|q qs IHq]; intros s Hi; cbn [map concat]; [rewrite app_nil_r; constructor|].
      rewrite map_app, app_assoc. econstructor; [|apply IHq; intros; apply Hi; right; assumption].
      apply IH; try assumption. assert (q < d) by (apply Hi; left; reflexivity). nia.
    - intros sz fs IH (_ & Hw) Hs Hc p off s Hl. cbn [trav sizeof leaves] in *.
      assert (K := IH 0 sz Hw Hs Hc p off s Hl). rewrite N.add_0_r, N.sub_0_r in K. exact K.
    - intros cur sz Hw _ _ p off s Hl. cbn [trav_fields leaves_fields map] in *. simpl in Hw. rewrite app_nil_r. repeat split.
      unfold lenN. rewrite map_length. apply lenN_slice. lia.
    - intros nm o t IHt r IHr cur sz (Ho & Hw & Hwr) Hs Hc p off s Hl. cbn [swappable_fields cont_free_fields] in *.
      apply andb_true_iff in Hs as [Hs Hs'], Hc as [Hc Hc']. assert (K := fields_end_ge Hwr).
      cbn [trav_fields leaves_fields]. rewrite map_app, app_assoc.
      assert (E : map B (slice (off + cur) (sz - cur) bs) = map B (slice (off + cur) (o - cur) bs) ++ map B (slice (off + o) (sizeof t) bs) ++
                    map B (slice (off + (o + sizeof t)) (sz - (o + sizeof t)) bs)).
      { rewrite <- !map_app. f_equal. replace (sz - cur) with ((o - cur) + (sizeof t + (sz - (o + sizeof t)))) by lia.
        rewrite !slice_add. f_equal. f_equal; f_equal; lia. }
      eexists _, _, _, _, _, _. split; [exact E|]. split; [exact E|]. split; [unfold lenN; rewrite map_length; apply lenN_slice; lia|].
      split; [apply (IHt Hw Hs Hc (p ++ [SField nm]) (off + o)); lia|apply IHr; assumption].
  Qed.
  Lemma line_ok t : wf t -> swappable t = true -> cont_free t = true -> lenN bs = sizeof t ->
    conv (fun f => csv_line fl can f t (map B bs)) (Ok (map leaf_text (leaves t [] 0))).
  Proof.
    intros Hw Hs Hc L. assert (K := proj1 line_trav t Hw Hs Hc [] 0 []). rewrite N.add_0_l, L in K. specialize (K (N.le_refl _)).
    replace (slice 0 (sizeof t) bs) with bs in K by (rewrite <- L; symmetry; unfold slice; rewrite dropN_0; apply takeN_all; lia).
    unfold csv_line, apply_visitor. apply conv_bind with (a := (map B bs, map leaf_text (leaves t [] 0))); [|apply conv_const].
    apply conv_bind with (a := (true, map B bs, map leaf_text (leaves t [] 0))); [|apply conv_const].
    assert (Q := proj1 (vvisit_ok (h := line_visitor fl can) (fun _ _ _ _ _ => eq_refl)) t Hw _ _ _ _ [] [] K). rewrite !app_nil_r in Q. exact Q.
  Qed.
End Line.

(** Facts on the leaves. *)
Lemma leaves_ok :
  (forall t, wf t -> swappable t = true -> forall p off x, In x (leaves t p off) ->
      (exists q, fst (fst x) = p ++ q) /\ off <= snd (fst x) /\ snd (fst x) + sizeof (snd x) <= off + sizeof t /\ 1 <= sizeof (snd x) /\
      match snd x with TNum _ _ => True | TEnum n _ => n = 4 | _ => False end) /\
  (forall fs cur sz, wf_fields fs cur sz -> swappable_fields fs = true -> forall p off x, In x (leaves_fields fs p off) ->
      (exists q, fst (fst x) = p ++ q) /\ off + cur <= snd (fst x) /\ snd (fst x) + sizeof (snd x) <= off + sz /\ 1 <= sizeof (snd x) /\
      match snd x with TNum _ _ => True | TEnum n _ => n = 4 | _ => False end).
Proof.
  apply ty_fields_ind; try (simpl; intros; contradiction || discriminate).
  - intros n c _ Hs p off x [<-|[]]. cbn [fst snd sizeof swappable] in *. split; [exists []; rewrite app_nil_r; reflexivity|].
    assert (1 <= n) by (destruct c; cbn in Hs; rewrite ?orb_true_iff, ?N.eqb_eq in Hs; intuition (subst; lia || discriminate)). repeat split; lia.
  - intros n c _ Hs p off x [<-|[]]. cbn [fst snd sizeof swappable] in *. split; [exists []; rewrite app_nil_r; reflexivity|].
    apply N.eqb_eq in Hs. subst n. repeat split; lia.
  - intros sz d e IH (_ & -> & _ & _ & He) Hs p off x Hx. cbn [leaves sizeof] in *. apply in_concat in Hx as (l & Hl & Hx).
    apply in_map_iff in Hl as (i & <- & Hi). apply upto_In in Hi. destruct (IH He Hs _ _ _ Hx) as ((q & Eq) & H1 & H2 & H3).
    split; [exists (SElt i :: q); rewrite Eq, <- app_assoc; reflexivity|]. assert (i * sizeof e + sizeof e <= d * sizeof e) by nia. repeat split; try tauto; lia.
  - intros sz fs IH (_ & Hw) Hs p off x Hx. cbn [leaves sizeof] in *. destruct (IH _ _ Hw Hs _ _ _ Hx) as (H1 & H2 & H3). repeat split; try tauto; lia.
  - intros nm o t IHt r IHr cur sz (Ho & Hw & Hwr) Hs p off x Hx. cbn [swappable_fields] in Hs. apply andb_true_iff in Hs as [Hs Hs'].
    assert (K := fields_end_ge Hwr). cbn [leaves_fields] in Hx. apply in_app_or in Hx as [Hx|Hx].
    + destruct (IHt Hw Hs _ _ _ Hx) as ((q & Eq) & H1 & H2 & H3). split; [exists (SField nm :: q); rewrite Eq, <- app_assoc; reflexivity|]. repeat split; try tauto; lia.
    + destruct (IHr _ _ Hwr Hs' _ _ _ Hx) as (H1 & H2 & H3). repeat split; try tauto; lia.
Qed.
