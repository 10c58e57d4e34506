(** * CompiledProofs: the compiled swap agrees with the in-place swap. *)
From Verif Require Import Base Types WellFormed Layout ValueOps ValueSpec InitProofs ValueAtoms ValueInst InitRun WalkProofs EltOps EltProofs
  LoadProofs Visitor Endian EndianSpec EndianProofs Compiled CompiledSpec.
Local Open Scope N_scope.

Definition seqN (k n : N) : list N := map (fun i => k + N.of_nat i) (seq 0 (N.to_nat n)).
Lemma seqN_len k n : lenN (seqN k n) = n.
Proof. unfold seqN, lenN. rewrite map_length, seq_length. lia. Qed.
Lemma seqN_0 k : seqN k 0 = [].
Proof. reflexivity. Qed.
Lemma seqN_add k a b : seqN k (a + b) = seqN k a ++ seqN (k + a) b.
Proof.
  unfold seqN. rewrite N2Nat.inj_add, seq_app, map_app. f_equal. rewrite Nat.add_0_l.
  replace (seq (N.to_nat a) (N.to_nat b)) with (map (fun i => (N.to_nat a + i)%nat) (seq 0 (N.to_nat b))).
  - rewrite map_map. apply map_ext. intros i. lia.
  - generalize (N.to_nat a) (N.to_nat b). intros x y.
    assert (G : forall z, map (fun i => (x + i)%nat) (seq z y) = seq (x + z) y).
    { induction y as [|y IH]; intros z; [reflexivity|]. simpl. f_equal. rewrite <- Nat.add_succ_r. apply IH. }
    rewrite G. f_equal. lia.
Qed.
Lemma seqN_1 k : seqN k 1 = [k].
Proof. unfold seqN. simpl. f_equal. lia. Qed.
Lemma seqN_shift a k n : map (N.add a) (seqN k n) = seqN (a + k) n.
Proof. unfold seqN. rewrite map_map. apply map_ext. intros. lia. Qed.
Lemma seqN_In k n x : In x (seqN k n) -> k <= x < k + n.
Proof. unfold seqN. intros H. apply in_map_iff in H as (i & <- & Hi). apply in_seq in Hi. lia. Qed.

(** ** Sources: the index of the input byte that goes to each output byte *)
Definition rep (d es : N) (l : list N) : list N := concat (map (fun q => map (N.add (q * es)) l) (seqN 0 d)).
Lemma rep_succ d es l : rep (d + 1) es l = rep d es l ++ map (N.add (d * es)) l.
Proof. unfold rep. rewrite seqN_add, seqN_1, map_app, concat_app. simpl. rewrite app_nil_r. reflexivity. Qed.
Lemma rep_0 es l : rep 0 es l = []. Proof. reflexivity. Qed.
Lemma map_add_0 l : map (N.add 0) l = l.
Proof. rewrite <- (map_id l) at 2. apply map_ext. intros; lia. Qed.
Lemma rep_1 es l : rep 1 es l = l.
Proof. change 1 with (0 + 1). rewrite rep_succ, rep_0. apply map_add_0. Qed.
Lemma rep_len d es l : lenN l = es -> lenN (rep d es l) = d * es.
Proof.
  intros L. induction d as [|d IH] using N.peano_ind; [reflexivity|].
  rewrite <- N.add_1_r, rep_succ, lenN_app, IH. unfold lenN in *. rewrite map_length. lia.
Qed.
Lemma rep_add a b es l : rep (a + b) es l = rep a es l ++ map (N.add (a * es)) (rep b es l).
Proof.
  induction b as [|b IH] using N.peano_ind; [rewrite N.add_0_r, rep_0, app_nil_r; reflexivity|].
  rewrite <- N.add_1_r, N.add_assoc, !rep_succ, IH, map_app, <- app_assoc, map_map. f_equal. f_equal. apply map_ext. intros x. lia.
Qed.
Lemma rep_rep d d0 es l : rep d (d0 * es) (rep d0 es l) = rep (d0 * d) es l.
Proof.
  induction d as [|d IH] using N.peano_ind; [rewrite N.mul_0_r; reflexivity|].
  rewrite <- N.add_1_r, rep_succ, IH. replace (d0 * (d + 1)) with (d0 * d + d0) by lia. rewrite rep_add. f_equal. f_equal. f_equal. lia.
Qed.
Lemma rep_seqN d n k : rep d n (seqN k n) = seqN k (n * d).
Proof.
  induction d as [|d IH] using N.peano_ind; [rewrite N.mul_0_r; reflexivity|].
  rewrite <- N.add_1_r, rep_succ, IH, seqN_shift. replace (n * (d + 1)) with (n * d + n) by lia. rewrite seqN_add. f_equal. f_equal. lia.
Qed.

Fixpoint srcs (t : ty) (k : N) : list N :=
  match t with
  | TNum n _ | TEnum n _ => rev (seqN k n)
  | TArray _ d e => rep d (sizeof e) (srcs e k)
  | TComp _ fs => srcs_fields fs k 0
  | _ => []
  end
with srcs_fields (fs : fields) (k cur : N) : list N :=
  match fs with
  | FNil => []
  | FCons _ off t r => seqN (k + cur) (off - cur) ++ srcs t (k + off) ++ srcs_fields r k (off + sizeof t)
  end.

Lemma fields_end_ge fs cur s : wf_fields fs cur s -> cur <= fields_end fs cur /\ fields_end fs cur <= s.
Proof.
  revert cur. induction fs as [|nm off t r IH]; intros cur; simpl; [lia|]. intros (H1 & _ & H2). apply IH in H2. lia.
Qed.
(** No container, pointer or opaque inside, numerics and enums of supported sizes, no inner trailing padding. *)
Definition okt t := wf t /\ swappable t = true /\ cont_free t = true /\ tight t.
Lemma srcs_len :
  (forall t, okt t -> forall k, lenN (srcs t k) = sizeof t) /\
  (forall fs, swappable_fields fs = true -> cont_free_fields fs = true -> tight_fields fs -> forall k cur s, wf_fields fs cur s ->
      lenN (srcs_fields fs k cur) = fields_end fs cur - cur).
Proof.
  unfold okt. apply ty_fields_ind; try (simpl; intros; intuition discriminate).
  - intros n c _ k. cbn [srcs sizeof]. unfold lenN. rewrite rev_length. apply seqN_len.
  - intros n c _ k. cbn [srcs sizeof]. unfold lenN. rewrite rev_length. apply seqN_len.
  - intros s d e IH ((_ & -> & _ & _ & He) & H2 & H3 & _ & H4) k. cbn [srcs sizeof]. apply rep_len. apply IH. auto.
  - intros s fs IH ((_ & Hw) & H2 & H3 & H4 & H5) k. cbn [srcs sizeof]. rewrite (IH H2 H3 H5 k 0 s Hw). lia.
  - intros. cbn [srcs_fields fields_end]. rewrite N.sub_diag. reflexivity.
  - intros nm off t IHt r IHr H1 H2 (H3 & H4) k cur s (Ho & Hw & Hwr). simpl in H1, H2. apply andb_true_iff in H1 as [H1 H1'], H2 as [H2 H2'].
    cbn [srcs_fields fields_end]. rewrite !lenN_app, seqN_len, IHt by auto. rewrite (IHr H1' H2' H4 k _ s Hwr).
    assert (K := fields_end_ge Hwr). lia.
Qed.
Lemma rep_shift a d es l : map (N.add a) (rep d es l) = rep d es (map (N.add a) l).
Proof.
  unfold rep. rewrite concat_map, map_map. f_equal. apply map_ext. intros q. rewrite !map_map. apply map_ext. intros; lia.
Qed.
Lemma srcs_shift :
  (forall t a k, srcs t (a + k) = map (N.add a) (srcs t k)) /\
  (forall fs a k cur, srcs_fields fs (a + k) cur = map (N.add a) (srcs_fields fs k cur)).
Proof.
  apply ty_fields_ind; try reflexivity.
  - intros n c a k. cbn [srcs]. rewrite map_rev, seqN_shift. reflexivity.
  - intros n c a k. cbn [srcs]. rewrite map_rev, seqN_shift. reflexivity.
  - intros s d e IH a k. cbn [srcs]. rewrite IH, rep_shift. reflexivity.
  - intros s fs IH a k. cbn [srcs]. apply IH.
  - intros nm off t IHt r IHr a k cur. cbn [srcs_fields]. rewrite !map_app, seqN_shift, <- IHt, <- IHr. rewrite !N.add_assoc. reflexivity.
Qed.
Lemma srcs_range :
  (forall t, okt t -> forall k x, In x (srcs t k) -> k <= x < k + sizeof t) /\
  (forall fs, swappable_fields fs = true -> cont_free_fields fs = true -> tight_fields fs -> forall k cur s x, wf_fields fs cur s ->
      In x (srcs_fields fs k cur) -> k + cur <= x < k + fields_end fs cur).
Proof.
  unfold okt. apply ty_fields_ind; try (simpl; intros; intuition discriminate).
  - intros n c _ k x H. cbn [srcs sizeof] in *. apply in_rev in H. apply seqN_In. exact H.
  - intros n c _ k x H. cbn [srcs sizeof] in *. apply in_rev in H. apply seqN_In. exact H.
  - intros s d e IH ((_ & -> & _ & _ & He) & H2 & H3 & _ & H4) k x H. cbn [srcs sizeof] in *. unfold rep in H.
    apply in_concat in H as (l & Hl & Hx). apply in_map_iff in Hl as (q & <- & Hq). apply in_map_iff in Hx as (y & <- & Hy).
    apply seqN_In in Hq. apply IH in Hy; auto. nia.
  - intros s fs IH ((_ & Hw) & H2 & H3 & H4 & H5) k x H. cbn [srcs sizeof] in *. apply (IH H2 H3 H5 k 0 s x Hw) in H. lia.
  - intros nm off t IHt r IHr H1 H2 (H3 & H4) k cur s x (Ho & Hw & Hwr) H. simpl in H1, H2.
    apply andb_true_iff in H1 as [H1 H1'], H2 as [H2 H2'].
    cbn [srcs_fields fields_end] in *. assert (K := fields_end_ge Hwr). apply in_app_or in H as [H|H]; [apply seqN_In in H; lia|].
    apply in_app_or in H as [H|H].
    + apply IHt in H; auto. lia.
    + apply (IHr H1' H2' H4 k _ s x Hwr) in H. lia.
Qed.

(** ** Programs: a code with the sources of the bytes it outputs *)
Definition lim : N := 9223372036854775808.
Inductive prog : N -> list N -> list N -> Prop :=
| p_nil i : prog i [] []
| p_skip i c s n : prog i c s -> n < lim -> prog i (c ++ [CSKIP; n]) (s ++ seqN (i + lenN s) n)
| p_idx i c s j : prog i c s -> j < lim -> prog i (c ++ [j]) (s ++ [j])
| p_swap4 i c s : prog i c s -> prog i (c ++ [CSWAP4]) (s ++ rev (seqN (i + lenN s) 4))
| p_swap8 i c s : prog i c s -> prog i (c ++ [CSWAP8]) (s ++ rev (seqN (i + lenN s) 8))
| p_arr i c s d es b l : prog i c s -> prog (i + lenN s) b l -> lenN l = es -> 1 <= d -> d < lim -> 1 <= es -> es < lim ->
    prog i (c ++ [CARRAY; d; es] ++ b ++ [CEND]) (s ++ rep d es l).

Lemma app_snoc2 {A} (a b : list A) x y z w : a ++ [x; y] = b ++ [z; w] -> a = b /\ x = z /\ y = w.
Proof.
  intros H. change [x; y] with ([x] ++ [y]) in H. change [z; w] with ([z] ++ [w]) in H. rewrite !app_assoc in H.
  apply app_inj_tail in H as [H ->]. apply app_inj_tail in H as [-> ->]. auto.
Qed.
Lemma prog_last i c s : prog i c s -> forall c' x, c = c' ++ [x] -> x <> CSKIP.
Proof.
  intros H. destruct H; intros c' x E.
  - destruct c'; discriminate.
  - change [CSKIP; n] with ([CSKIP] ++ [n]) in E. rewrite app_assoc in E. apply app_inj_tail in E as [_ <-]. unfold lim, CSKIP in *. lia.
  - apply app_inj_tail in E as [_ <-]. unfold lim, CSKIP in *. lia.
  - apply app_inj_tail in E as [_ <-]. discriminate.
  - apply app_inj_tail in E as [_ <-]. discriminate.
  - rewrite !app_assoc in E. apply app_inj_tail in E as [_ <-]. discriminate.
Qed.
Lemma prog_inv_skip i c s : prog i c s -> forall c' n, c = c' ++ [CSKIP; n] -> exists s', prog i c' s' /\ n < lim /\ s = s' ++ seqN (i + lenN s') n.
Proof.
  intros H. destruct H as [i|i c s m Hp Hm|i c s j Hp Hj|i c s Hp|i c s Hp|i c s d es b l Hp Hb Hl Hd1 Hd2 He1 He2]; intros c' n E.
  - destruct c'; discriminate.
  - apply app_snoc2 in E as (-> & _ & ->). exists s. auto.
  - change [CSKIP; n] with ([CSKIP] ++ [n]) in E. rewrite app_assoc in E. apply app_inj_tail in E as [-> _].
    exfalso. apply (prog_last Hp (c' := c') (x := CSKIP) eq_refl). reflexivity.
  - change [CSKIP; n] with ([CSKIP] ++ [n]) in E. rewrite app_assoc in E. apply app_inj_tail in E as [-> _].
    exfalso. apply (prog_last Hp (c' := c') (x := CSKIP) eq_refl). reflexivity.
  - change [CSKIP; n] with ([CSKIP] ++ [n]) in E. rewrite app_assoc in E. apply app_inj_tail in E as [-> _].
    exfalso. apply (prog_last Hp (c' := c') (x := CSKIP) eq_refl). reflexivity.
  - change [CSKIP; n] with ([CSKIP] ++ [n]) in E. rewrite !app_assoc in E. apply app_inj_tail in E as [E _].
    exfalso. destruct b as [|w b'] using rev_ind.
    + rewrite app_nil_r in E. change [CARRAY; d; es] with ([CARRAY; d] ++ [es]) in E. rewrite app_assoc in E.
      apply app_inj_tail in E as [_ ->]. unfold lim, CSKIP in *. lia.
    + rewrite app_assoc in E. apply app_inj_tail in E as [_ ->]. apply (prog_last Hb (c' := b') (x := CSKIP) eq_refl). reflexivity.
Qed.

(** ** Compilation *)
Definition ctx (pre : list N) : Prop := pre = [] \/ exists p d es, pre = p ++ [CARRAY; d; es] /\ d < lim /\ es < lim.
Definition big : N := 2147483648.
Lemma int_arg_small n : n < big -> int_arg n = n.
Proof.
  unfold big, int_arg. intros H. rewrite N.mod_small by lia. destruct (N.ltb_spec n 2147483648); [reflexivity|lia].
Qed.
Lemma cskip_ok pre i body s n : ctx pre -> prog i body s -> n < big -> i + lenN s + n < big ->
  exists body', cskip n (pre ++ body) = pre ++ body' /\ prog i body' (s ++ seqN (i + lenN s) n).
Proof.
  intros Hc Hp Hn Hb. unfold cskip. rewrite (int_arg_small Hn).
  assert (Hnl : n < lim) by (unfold lim, big in *; lia).
  assert (Happ : exists body', (pre ++ body) ++ [CSKIP; n] = pre ++ body' /\ prog i body' (s ++ seqN (i + lenN s) n)).
  { exists (body ++ [CSKIP; n]). rewrite app_assoc. split; [reflexivity|]. constructor; assumption. }
  destruct body as [|w body _] using rev_ind.
  - rewrite app_nil_r in *. destruct Hc as [->|(p & d & es & -> & Hd & He)]; [exact Happ|].
    replace (rev (p ++ [CARRAY; d; es])) with (es :: d :: CARRAY :: rev p) by (rewrite rev_app_distr; reflexivity).
    destruct (N.eqb_spec d CSKIP) as [E|_]; [unfold lim, CSKIP in *; lia|]. exact Happ.
  - destruct body as [|f body _] using rev_ind.
    + simpl app in *. rewrite rev_app_distr. simpl rev. destruct Hc as [->|(p & d & es & -> & Hd & He)]; [exact Happ|].
      replace ([w] ++ rev (p ++ [CARRAY; d; es])) with (w :: es :: d :: CARRAY :: rev p) by (rewrite rev_app_distr; reflexivity).
      destruct (N.eqb_spec es CSKIP) as [E|_]; [unfold lim, CSKIP in *; lia|]. exact Happ.
    + replace (rev (pre ++ (body ++ [f]) ++ [w])) with (w :: f :: rev (pre ++ body)).
      2:{ rewrite (app_assoc pre), (app_assoc pre), !rev_app_distr. reflexivity. }
      destruct (N.eqb_spec f CSKIP) as [->|_]; [|exact Happ].
      rewrite <- app_assoc in Hp. change ([CSKIP] ++ [w]) with [CSKIP; w] in Hp.
      destruct (prog_inv_skip Hp (c' := body) (n := w) eq_refl) as (s' & Hp' & Hw & ->).
      rewrite lenN_app, seqN_len in Hb. rewrite wadd_small by (unfold big, two64 in *; lia).
      exists (body ++ [CSKIP; w + n]). split.
      * cbn [rev]. rewrite rev_involutive, <- !app_assoc. reflexivity.
      * rewrite lenN_app, seqN_len, <- app_assoc, N.add_assoc, <- seqN_add. constructor; [assumption|]. unfold lim, big in *. lia.
Qed.

Lemma mul_nth_app a d x n r : (n * d < two64) -> mul_nth (length a + 1) d (a ++ x :: n :: r) = Ok (a ++ x :: n * d :: r).
Proof.
  intros Hs. induction a as [|y a IH]; [simpl; rewrite wmul_small by assumption; reflexivity|]. cbn [length app Nat.add mul_nth]. rewrite IH. reflexivity.
Qed.

Lemma prog_idxs i c s l : prog i c s -> Forall (fun j => j < lim) l -> prog i (c ++ l) (s ++ l).
Proof.
  intros Hp H. revert c s Hp. induction H as [|j l Hj Hl IH]; intros c s Hp; [rewrite !app_nil_r; assumption|].
  change (j :: l) with ([j] ++ l). rewrite !app_assoc. apply IH. constructor; assumption.
Qed.

Lemma skipn_app_len {A} (a b : list A) : skipn (length a) (a ++ b) = b.
Proof. rewrite skipn_app, skipn_all, Nat.sub_diag. reflexivity. Qed.

Lemma cvisit_ok :
  (forall t, okt t -> forall i pre body s, ctx pre -> prog i body s -> i + lenN s + sizeof t < big ->
     exists idx' body', cvisit t (i + lenN s, pre ++ body) = Ok (idx', pre ++ body') /\ prog i body' (s ++ srcs t (i + lenN s)) /\
       (is_array t = true -> exists a n X, body' = body ++ a :: n :: X /\
          forall d, 1 <= d -> i + lenN s + sizeof t * d < big -> n * d < two64 /\
             prog i (body ++ a :: n * d :: X) (s ++ rep d (sizeof t) (srcs t (i + lenN s))))) /\
  (forall fs, swappable_fields fs = true -> cont_free_fields fs = true -> tight_fields fs -> forall sz i pre body s base cur,
     wf_fields fs cur sz -> base + cur = i + lenN s -> ctx pre -> prog i body s -> base + sz < big ->
     exists idx' body', cvisit_fields fs base (base + cur, pre ++ body) = Ok (idx', pre ++ body') /\ prog i body' (s ++ srcs_fields fs base cur)).
Proof.
  unfold okt. apply ty_fields_ind; try (simpl; intros; intuition discriminate).
  - intros n c (_ & Hs & _) i pre body s Hc Hp Hb. apply swappable_num in Hs as [_ Hi]. cbn [sizeof] in Hb. cbn [srcs].
    assert (Hl : forall x, x < big -> x < lim) by (unfold big, lim; intros; lia).
    assert (Hw : forall x, x < 8 -> i + lenN s + x < two64) by (unfold big, two64 in *; intros; lia).
    destruct Hi as [<-|[<-|[<-|[<-|[]]]]]; cbn [cvisit].
    + destruct (@cskip_ok pre i body s 1 Hc Hp) as (body' & E & P); [unfold big; lia|assumption|].
      rewrite E. eexists _, body'. split; [reflexivity|]. split; [|discriminate]. rewrite seqN_1 in *. exact P.
    + rewrite wadd_small by (apply Hw; lia). exists (i + lenN s), (body ++ [i + lenN s + 1; i + lenN s]). rewrite <- app_assoc. split; [reflexivity|].
      split; [|discriminate]. change (seqN (i + lenN s) 2) with (seqN (i + lenN s) (1 + 1)). rewrite seqN_add, !seqN_1. cbn [app rev].
      apply prog_idxs; [assumption|]. repeat constructor; apply Hl; lia.
    + exists (i + lenN s), (body ++ [CSWAP4]). rewrite <- app_assoc. split; [reflexivity|]. split; [|discriminate]. constructor. assumption.
    + exists (i + lenN s), (body ++ [CSWAP8]). rewrite <- app_assoc. split; [reflexivity|]. split; [|discriminate]. constructor. assumption.
  - intros n vs (_ & Hs & _) i pre body s Hc Hp Hb. simpl in Hs. apply N.eqb_eq in Hs. subst n. cbn [sizeof] in Hb. cbn [srcs cvisit].
    assert (Hl : forall x, x < big -> x < lim) by (unfold big, lim; intros; lia).
    rewrite !wadd_small by (unfold big, two64 in *; lia). rewrite N.add_0_r.
    exists (i + lenN s), (body ++ [i + lenN s + 3; i + lenN s + 2; i + lenN s + 1; i + lenN s]). rewrite <- app_assoc. split; [reflexivity|].
    split; [|discriminate].
    replace (rev (seqN (i + lenN s) 4)) with ([i + lenN s + 3; i + lenN s + 2; i + lenN s + 1; i + lenN s]).
    2:{ change 4 with (1 + (1 + (1 + 1))). rewrite !seqN_add, !seqN_1. cbn [app rev]. rewrite <- !N.add_assoc. reflexivity. }
    apply prog_idxs; [assumption|]. repeat constructor; apply Hl; lia.
  - intros sz d e IH ((_ & -> & _ & He1 & He) & Hs & Hf & Hd & Ht) i pre body s Hc Hp Hb. cbn [sizeof] in *. cbn [srcs is_array].
    assert (Hok : wf e /\ swappable e = true /\ cont_free e = true /\ tight e) by auto.
    assert (Lsrc := fun k => proj1 srcs_len e Hok k).
    assert (Hbe : i + lenN s + sizeof e < big) by nia.
    cbn [cvisit]. destruct (is_array e) eqn:Ea.
    + destruct (IH Hok i pre body s Hc Hp Hbe) as (idx' & body' & E & P & A). destruct (A eq_refl) as (a & n & X & -> & M).
      rewrite E. cbn [bind]. destruct (M d Hd) as [Hnd Pd]; [nia|]. rewrite app_assoc, mul_nth_app by assumption. cbn [bind].
      exists idx', (body ++ a :: n * d :: X). rewrite <- app_assoc. split; [reflexivity|]. split; [exact Pd|].
      intros _. exists a, (n * d), X. split; [reflexivity|]. intros d' Hd' Hb'.
      destruct (M (d * d')) as [Hm Pm]; [nia|nia|]. rewrite <- N.mul_assoc. split; [assumption|].
      rewrite rep_rep. assumption.
    + rewrite <- app_assoc. set (pre' := pre ++ body ++ [CARRAY; d; sizeof e]).
      assert (Hdl : d < lim) by (unfold big, lim in *; nia). assert (Hel : sizeof e < lim) by (unfold big, lim in *; nia).
      assert (Hc' : ctx pre') by (right; exists (pre ++ body), d, (sizeof e); unfold pre'; rewrite app_assoc; auto).
      destruct (IH Hok (i + lenN s) pre' [] [] Hc' (p_nil _)) as (idx' & code & E & P & _); [rewrite lenN_nil; lia|].
      rewrite lenN_nil, !N.add_0_r, app_nil_r in E. rewrite E. cbn [bind]. rewrite skipn_app_len.
      rewrite lenN_nil, N.add_0_r in P. simpl app in P. set (l := srcs e (i + lenN s)) in *.
      assert (Ll : lenN l = sizeof e) by apply Lsrc.
      assert (Main : exists body', (pre' ++ code) ++ [CEND] = pre ++ body' /\ prog i body' (s ++ rep d (sizeof e) l) /\
         (true = true -> exists a n X, body' = body ++ a :: n :: X /\ forall d0, 1 <= d0 -> i + lenN s + d * sizeof e * d0 < big ->
            n * d0 < two64 /\ prog i (body ++ a :: n * d0 :: X) (s ++ rep d0 (d * sizeof e) (rep d (sizeof e) l)))).
      { exists (body ++ [CARRAY; d; sizeof e] ++ code ++ [CEND]). unfold pre'. rewrite <- !app_assoc. split; [reflexivity|]. split.
        - apply p_arr; assumption.
        - intros _. exists CARRAY, d, (sizeof e :: code ++ [CEND]). split; [reflexivity|]. intros d' Hd' Hb'.
          split; [unfold big, two64 in *; nia|]. rewrite rep_rep.
          change (CARRAY :: d * d' :: sizeof e :: code ++ [CEND]) with ([CARRAY; d * d'; sizeof e] ++ code ++ [CEND]).
          apply p_arr; auto; unfold big, lim in *; nia. }
      destruct Main as (body1 & E1 & P1 & A1).
      destruct code as [|f [|n [|]]]; try (rewrite E1; exists idx', body1; split; [reflexivity|split; assumption]).
      destruct (N.eqb_spec f CSKIP) as [->|_]; [|rewrite E1; exists idx', body1; split; [reflexivity|split; assumption]].
      clear E1 P1 A1 body1.
      destruct (prog_inv_skip P (c' := []) (n := n) eq_refl) as (s' & Ps & Hn & El).
      assert (s' = []).
      { clear - Ps. remember [] as c. destruct Ps; try reflexivity; try (destruct c; discriminate). }
      subst s'. simpl app in El. rewrite lenN_nil, N.add_0_r in El. assert (n = sizeof e) by (rewrite <- Ll, El, seqN_len; reflexivity).
      assert (Hnd : n * d < two64) by (unfold big, two64 in *; nia). rewrite wmul_small by assumption.
      exists idx', (body ++ [CSKIP; n * d]). rewrite <- !app_assoc. split; [reflexivity|]. subst n. rewrite El, rep_seqN. split.
      * constructor; [assumption|]. unfold big, lim in *. nia.
      * intros _. exists CSKIP, (sizeof e * d), []. split; [reflexivity|]. intros d' Hd' Hb'.
        split; [unfold big, two64 in *; nia|]. rewrite <- (rep_seqN d), rep_rep, rep_seqN, N.mul_assoc. constructor; [assumption|]. unfold big, lim in *. nia.
  - intros sz fs IH ((_ & Hw) & Hs & Hf & He & Ht) i pre body s Hc Hp Hb. cbn [sizeof] in Hb. cbn [cvisit srcs].
    destruct (IH Hs Hf Ht sz i pre body s (i + lenN s) 0 Hw) as (idx' & body' & E & P); try assumption; [lia|].
    rewrite N.add_0_r in E. exists idx', body'. split; [exact E|]. split; [exact P|discriminate].
  - intros _ _ _ sz i pre body s base cur _ Hi Hc Hp _. exists (base + cur), body. split; [reflexivity|]. simpl. rewrite app_nil_r. assumption.
  - intros nm off t IHt r IHr H1 H2 (H3 & H4) sz i pre body s base cur (Ho & Hw & Hwr) Hi Hc Hp Hb. simpl in H1, H2.
    apply andb_true_iff in H1 as [H1 H1'], H2 as [H2 H2']. assert (K := fields_end_ge Hwr).
    assert (Hok : wf t /\ swappable t = true /\ cont_free t = true /\ tight t) by auto.
    cbn [cvisit_fields srcs_fields]. rewrite (wadd_small (a := base) (b := off)) by (unfold big, two64 in *; lia).
    destruct (N.ltb_spec (base + off) (base + cur)); [lia|].
    assert (Hskip : exists body1, (if base + cur <? base + off then cskip (wsub (base + off) (base + cur)) (pre ++ body) else pre ++ body) = pre ++ body1 /\
               prog i body1 (s ++ seqN (base + cur) (off - cur))).
    { destruct (N.ltb_spec (base + cur) (base + off)) as [Hlt|Hge].
      - rewrite wsub_small by (unfold big, two64 in *; lia). replace (base + off - (base + cur)) with (off - cur) by lia. rewrite Hi.
        apply cskip_ok; try assumption; lia.
      - exists body. split; [reflexivity|]. replace (off - cur) with 0 by lia. rewrite seqN_0, app_nil_r. assumption. }
    destruct Hskip as (body1 & -> & P1).
    assert (L1 : i + lenN (s ++ seqN (base + cur) (off - cur)) = base + off) by (rewrite lenN_app, seqN_len; lia).
    destruct (IHt Hok i pre body1 (s ++ seqN (base + cur) (off - cur)) Hc P1) as (idx2 & body2 & E2 & P2 & _); [rewrite L1; lia|].
    rewrite L1 in E2, P2. rewrite E2. cbn [bind]. rewrite wadd_small by (unfold big, two64 in *; lia).
    assert (Ls := proj1 srcs_len t Hok (base + off)).
    destruct (IHr H1' H2' H4 sz i pre body2 ((s ++ seqN (base + cur) (off - cur)) ++ srcs t (base + off)) base (off + sizeof t) Hwr) as (idx3 & body3 & E3 & P3);
      try assumption; [rewrite lenN_app; lia|].
    rewrite N.add_assoc in E3. rewrite E3. exists idx3, body3. split; [reflexivity|]. rewrite <- !app_assoc in P3. exact P3.
Qed.

(** ** Execution *)
Definition gather (inp : list N) (io : N) (s : list N) : list N := map (fun j => nth (N.to_nat (io + j)) inp 0) s.
Lemma gather_app inp io a b : gather inp io (a ++ b) = gather inp io a ++ gather inp io b.
Proof. apply map_app. Qed.
Lemma gather_len inp io s : lenN (gather inp io s) = lenN s.
Proof. unfold gather, lenN. rewrite map_length. reflexivity. Qed.
Lemma gather_shift inp io a s : gather inp io (map (N.add a) s) = gather inp (io + a) s.
Proof. unfold gather. rewrite map_map. apply map_ext. intros j. rewrite N.add_assoc. reflexivity. Qed.
Lemma nth_dropN {A} (l : list A) a b d : nth b (dropN a l) d = nth (N.to_nat a + b) l d.
Proof.
  unfold dropN. generalize (N.to_nat a). intros n. revert l. induction n as [|n IH]; intros [|x l]; try reflexivity.
  - simpl. destruct b; reflexivity.
  - simpl. apply IH.
Qed.
Lemma gather_seqN inp io k n : io + k + n <= lenN inp -> gather inp io (seqN k n) = slice (io + k) n inp.
Proof.
  intros H. unfold slice, takeN.
  assert (G : forall m (l : list N), (m <= length l)%nat -> map (fun i => nth i l 0) (seq 0 m) = firstn m l).
  { clear. induction m as [|m IH]; intros l Hl; [reflexivity|]. destruct l as [|x l]; [simpl in Hl; lia|].
    cbn [seq map firstn nth]. f_equal. rewrite <- (IH l) by (simpl in Hl; lia). rewrite <- seq_shift, map_map. reflexivity. }
  rewrite <- G by (unfold dropN, lenN in *; rewrite skipn_length; lia).
  unfold gather, seqN. rewrite map_map. apply map_ext. intros i. rewrite nth_dropN. f_equal. lia.
Qed.
Lemma slice_is8 off n l : Forall is8 l -> Forall is8 (slice off n l).
Proof.
  intros H. unfold slice, takeN, dropN. rewrite <- (firstn_skipn (N.to_nat off) l) in H. apply Forall_app in H as [_ H].
  rewrite <- (firstn_skipn (N.to_nat n) (skipn (N.to_nat off) l)) in H. apply Forall_app in H as [H _]. exact H.
Qed.

Lemma cwrite_ok o done old bs : lenN bs <= lenN old -> o = lenN done -> cwrite o bs (done ++ old) = Ok (done ++ bs ++ dropN (lenN bs) old).
Proof.
  intros H ->. unfold cwrite. rewrite lenN_app. destruct (N.ltb_spec (lenN done + lenN old) (lenN done + lenN bs)); [lia|].
  rewrite takeN_app_exact by reflexivity. rewrite dropN_app_ge by lia. do 4 f_equal. lia.
Qed.
Lemma cread_ok off n m : off + n <= lenN m -> cread off n m = Ok (slice off n m).
Proof. intros H. unfold cread. destruct (N.ltb_spec (lenN m) (off + n)); [lia|reflexivity]. Qed.

Lemma conv_succ {A} (g : nat -> res A) r : conv (fun f => g (S f)) r -> conv g r.
Proof. intros [n H]. exists (S n). intros [|m] Hm; [lia|]. apply H. lia. Qed.

Section Exec.
  Variable inp : list N.
  Hypothesis H8 : Forall is8 inp.
  Hypothesis Hlen : lenN inp < lim.

  Lemma prog_run i c s : prog i c s ->
    forall io done old rest r, lenN done = io + i -> lenN done + lenN old <= lenN inp -> lenN s <= lenN old ->
    Forall (fun j => io + j < lenN inp) s ->
    conv (fun f => crun f false (io + i + lenN s) io rest inp (done ++ gather inp io s ++ dropN (lenN s) old)) r ->
    conv (fun f => crun f false (io + i) io (c ++ rest) inp (done ++ old)) r.
  Proof.
    assert (Hlt : lenN inp < two64) by (unfold lim, two64 in *; lia).
    induction 1 as [i|i c s n Hp IH Hn|i c s j Hp IH Hj|i c s Hp IH|i c s Hp IH|i c s d es b l Hp IH Hb IHb Hl Hd1 Hd2 He1 He2];
      intros io done old rest r Ld Lo Ls Hr C.
    - rewrite lenN_nil, N.add_0_r in C. exact C.
    - rewrite <- app_assoc. rewrite lenN_app, seqN_len in Ls, C. apply Forall_app in Hr as [Hr1 Hr2].
      apply IH; try assumption; [lia|]. apply conv_succ. cbn [crun app]. change (CSKIP =? CSKIP) with true. cbn iota.
      rewrite cread_ok by lia. cbn [bind].
      rewrite gather_app in C. rewrite gather_seqN in C by lia.
      assert (Ln : lenN (slice (io + i + lenN s) n inp) = n) by (apply lenN_slice; lia).
      rewrite app_assoc, cwrite_ok by (rewrite ?lenN_app, ?gather_len, ?lenN_dropN; lia). cbn [bind]. rewrite Ln, dropN_dropN.
      rewrite wadd_small by lia. replace (io + (i + lenN s)) with (io + i + lenN s) in C by lia.
      rewrite N.add_assoc, <- !app_assoc in C. rewrite <- !app_assoc. exact C.
    - rewrite <- app_assoc. rewrite lenN_app in Ls, C. change (lenN [j]) with 1 in *. apply Forall_app in Hr as [Hr1 Hr2].
      assert (Hj' : io + j < lenN inp) by (inversion Hr2; assumption).
      apply IH; try assumption; [lia|]. apply conv_succ. cbn [crun app].
      destruct (N.eqb_spec j CSKIP); [unfold lim, CSKIP in *; lia|]. destruct (N.eqb_spec j CSWAP4); [unfold lim, CSWAP4 in *; lia|].
      destruct (N.eqb_spec j CSWAP8); [unfold lim, CSWAP8 in *; lia|]. destruct (N.eqb_spec j CARRAY); [unfold lim, CARRAY in *; lia|].
      destruct (N.eqb_spec j CEND); [unfold lim, CEND in *; lia|].
      rewrite (wadd_small (a := io) (b := j)) by lia. rewrite cread_ok by lia. cbn [bind].
      rewrite gather_app in C.
      replace [j] with (seqN j 1) in C by apply seqN_1. rewrite gather_seqN in C by lia.
      assert (Ln : lenN (slice (io + j) 1 inp) = 1) by (apply lenN_slice; lia).
      rewrite app_assoc, cwrite_ok by (rewrite ?lenN_app, ?gather_len, ?lenN_dropN; lia). cbn [bind]. rewrite Ln, dropN_dropN.
      rewrite wadd_small by lia. rewrite N.add_assoc, <- !app_assoc in C. rewrite <- !app_assoc. exact C.
    - rewrite <- app_assoc. assert (L4 : lenN (rev (seqN (i + lenN s) 4)) = 4) by (unfold lenN; rewrite rev_length; apply seqN_len).
      rewrite lenN_app, L4 in Ls, C. apply Forall_app in Hr as [Hr1 Hr2].
      apply IH; try assumption; [lia|]. apply conv_succ. cbn [crun app]. change (CSWAP4 =? CSKIP) with false. change (CSWAP4 =? CSWAP4) with true. cbn iota.
      rewrite cread_ok by lia. cbn [bind].
      rewrite gather_app in C. unfold gather in C at 2. rewrite map_rev in C. fold (gather inp io (seqN (i + lenN s) 4)) in C. rewrite gather_seqN in C by lia.
      assert (Ln : lenN (slice (io + i + lenN s) 4 inp) = 4) by (apply lenN_slice; lia).
      rewrite swap_word_rev; [|simpl; auto|assumption|apply slice_is8; assumption].
      assert (Lr : lenN (rev (slice (io + i + lenN s) 4 inp)) = 4) by (unfold lenN in *; rewrite rev_length; assumption).
      rewrite app_assoc, cwrite_ok by (rewrite ?lenN_app, ?gather_len, ?lenN_dropN; lia). cbn [bind]. rewrite Lr, dropN_dropN.
      rewrite wadd_small by lia. replace (io + (i + lenN s)) with (io + i + lenN s) in C by lia.
      rewrite N.add_assoc, <- !app_assoc in C. rewrite <- !app_assoc. exact C.
    - rewrite <- app_assoc. assert (L4 : lenN (rev (seqN (i + lenN s) 8)) = 8) by (unfold lenN; rewrite rev_length; apply seqN_len).
      rewrite lenN_app, L4 in Ls, C. apply Forall_app in Hr as [Hr1 Hr2].
      apply IH; try assumption; [lia|]. apply conv_succ. cbn [crun app]. change (CSWAP8 =? CSKIP) with false. change (CSWAP8 =? CSWAP4) with false.
      change (CSWAP8 =? CSWAP8) with true. cbn iota.
      rewrite cread_ok by lia. cbn [bind].
      rewrite gather_app in C. unfold gather in C at 2. rewrite map_rev in C. fold (gather inp io (seqN (i + lenN s) 8)) in C. rewrite gather_seqN in C by lia.
      assert (Ln : lenN (slice (io + i + lenN s) 8 inp) = 8) by (apply lenN_slice; lia).
      rewrite swap_word_rev; [|simpl; auto|assumption|apply slice_is8; assumption].
      assert (Lr : lenN (rev (slice (io + i + lenN s) 8 inp)) = 8) by (unfold lenN in *; rewrite rev_length; assumption).
      rewrite app_assoc, cwrite_ok by (rewrite ?lenN_app, ?gather_len, ?lenN_dropN; lia). cbn [bind]. rewrite Lr, dropN_dropN.
      rewrite wadd_small by lia. replace (io + (i + lenN s)) with (io + i + lenN s) in C by lia.
      rewrite N.add_assoc, <- !app_assoc in C. rewrite <- !app_assoc. exact C.
    - rewrite <- !app_assoc. rewrite lenN_app, (rep_len _ Hl) in Ls, C. apply Forall_app in Hr as [Hr1 Hr2].
      apply IH; try assumption; [lia|]. apply conv_succ.
      set (D := done ++ gather inp io s). set (O := dropN (lenN s) old).
      assert (LD : lenN D = io + i + lenN s) by (unfold D; rewrite lenN_app, gather_len; lia).
      assert (LO : lenN O = lenN old - lenN s) by (unfold O; apply lenN_dropN).
      fold O.
      assert (Loop : forall m q e, q + N.of_nat m = d -> (1 <= m)%nat \/ e = Some (CEND :: rest) ->
        conv2 (fun a f => aloop (fun o i x => crun a false o i (b ++ [CEND] ++ rest) inp x) f d es io q (io + i + lenN s + q * es) e
                 (D ++ gather inp io (rep q es l) ++ dropN (q * es) O))
              (Ok (io + i + lenN s + d * es, CEND :: rest, D ++ gather inp io (rep d es l) ++ dropN (d * es) O))).
      { induction m as [|m IHm]; intros q e Hq He.
        - destruct He as [He| ->]; [lia|]. assert (q = d) by lia. subst q. exists 1%nat. intros a [|f] _ Hf; [lia|]. cbn [aloop].
          destruct (N.ltb_spec d d); [lia|]. reflexivity.
        - destruct (IHm (q + 1) (Some (CEND :: rest))) as [n2 C2]; [lia|auto|].
          assert (Hqe : q * es + es <= d * es) by nia.
          assert (Hqr : Forall (fun j => io + es * q + j < lenN inp) l).
          { apply Forall_forall. intros x Hx. rewrite Forall_forall in Hr2. assert (Hin : In (q * es + x) (rep d es l)).
            { unfold rep. apply in_concat. exists (map (N.add (q * es)) l). split; [|apply in_map; assumption].
              apply in_map_iff. exists q. split; [reflexivity|]. replace d with (q + (1 + N.of_nat m)) by lia. rewrite seqN_add.
              apply in_or_app. right. rewrite seqN_add, seqN_1. left. lia. }
            apply Hr2 in Hin. lia. }
          assert (Lg : lenN (gather inp io (rep q es l)) = q * es) by (rewrite gather_len; apply rep_len; assumption).
          assert (Cb := IHb (io + es * q) (D ++ gather inp io (rep q es l)) (dropN (q * es) O) (CEND :: rest)
             (Ok (io + i + lenN s + (q + 1) * es, CEND :: rest, D ++ gather inp io (rep (q + 1) es l) ++ dropN ((q + 1) * es) O))).
          destruct Cb as [n1 C1].
          { rewrite lenN_app, Lg, LD. lia. }
          { rewrite lenN_app, Lg, lenN_dropN, LD, LO. nia. }
          { rewrite lenN_dropN, LO. nia. }
          { assumption. }
          { exists 1%nat. intros [|f] Hf; [lia|]. cbn [crun]. change (CEND =? CSKIP) with false. change (CEND =? CSWAP4) with false.
            change (CEND =? CSWAP8) with false. change (CEND =? CARRAY) with false. change (CEND =? CEND) with true. cbn iota.
            rewrite Hl, dropN_dropN, rep_succ, gather_app, gather_shift, <- !app_assoc.
            replace (io + q * es) with (io + es * q) by lia. replace (q * es + es) with ((q + 1) * es) by lia.
            do 3 f_equal. lia. }
          exists (S (Nat.max n1 n2)). intros a [|f] Ha Hf; [lia|]. cbn [aloop].
          destruct (N.ltb_spec q d); [|lia]. rewrite wmul_small by (unfold two64, lim in *; nia). rewrite wadd_small by (unfold two64, lim in *; nia).
          replace (io + i + lenN s + q * es) with (io + es * q + (i + lenN s)) by lia.
          rewrite (app_assoc D). rewrite C1 by lia. cbn [bind].
          rewrite C2 by lia. reflexivity. }
      specialize (Loop (N.to_nat d) 0 None). rewrite N.mul_0_l, N.add_0_r, dropN_0, rep_0 in Loop. cbn [gather map app] in Loop.
      destruct Loop as [n1 C1]; [lia|left; lia|]. destruct C as [n2 C2].
      exists (Nat.max n1 n2). intros f Hf. cbn [crun app]. change (CARRAY =? CSKIP) with false. change (CARRAY =? CSWAP4) with false.
      change (CARRAY =? CSWAP8) with false. change (CARRAY =? CARRAY) with true. cbn iota.
      rewrite (app_assoc done). fold D. rewrite C1 by lia. cbn [bind].
      rewrite gather_app, <- dropN_dropN in C2. fold O in C2. rewrite <- !app_assoc, (app_assoc done) in C2. fold D in C2. rewrite N.add_assoc in C2. apply C2. lia.
  Qed.
End Exec.

(** ** The sources are those of the in-place swap *)
Lemma slice_add {A} a n m (l : list A) : slice a (n + m) l = slice a n l ++ slice (a + n) m l.
Proof.
  unfold slice. rewrite <- (dropN_dropN n a l). generalize (dropN a l). intros x. unfold takeN, dropN. rewrite N2Nat.inj_add.
  generalize (N.to_nat n) (N.to_nat m). intros p q. revert x. induction p as [|p IH]; intros x; [reflexivity|].
  destruct x as [|y x]; simpl; [rewrite firstn_nil; reflexivity|]. f_equal. apply IH.
Qed.
Lemma srcs_swapped :
  (forall t, okt t -> forall inp k, k + sizeof t <= lenN inp -> swapped t (map B (slice k (sizeof t) inp)) (map B (gather inp 0 (srcs t k)))) /\
  (forall fs, swappable_fields fs = true -> cont_free_fields fs = true -> tight_fields fs -> forall inp k cur s, wf_fields fs cur s ->
      k + s <= lenN inp ->
      swapped_fields fs cur s (map B (slice (k + cur) (s - cur) inp))
        (map B (gather inp 0 (srcs_fields fs k cur) ++ slice (k + fields_end fs cur) (s - fields_end fs cur) inp))).
Proof.
  unfold okt. apply ty_fields_ind; try (simpl; intros; intuition discriminate).
  - intros n c _ inp k Hk. cbn [sizeof] in *. exists (slice k n inp). split; [apply lenN_slice; lia|]. split; [reflexivity|].
    cbn [srcs]. unfold gather. rewrite map_rev. fold (gather inp 0 (seqN k n)). rewrite gather_seqN by lia. reflexivity.
  - intros n c _ inp k Hk. cbn [sizeof] in *. exists (slice k n inp). split; [apply lenN_slice; lia|]. split; [reflexivity|].
    cbn [srcs]. unfold gather. rewrite map_rev. fold (gather inp 0 (seqN k n)). rewrite gather_seqN by lia. reflexivity.
  - intros sz d e IH ((_ & -> & _ & _ & He) & Hs & Hf & _ & Ht) inp k Hk. cbn [sizeof srcs] in *.
    assert (Hok : wf e /\ swappable e = true /\ cont_free e = true /\ tight e) by auto.
    exists (map (fun q => map B (slice (k + q * sizeof e) (sizeof e) inp)) (seqN 0 d)),
           (map (fun q => map B (gather inp 0 (map (N.add (q * sizeof e)) (srcs e k)))) (seqN 0 d)).
    split; [unfold lenN; rewrite map_length; apply seqN_len|]. split; [|split].
    + clear - Hk. induction d as [|d IHd] using N.peano_ind; [reflexivity|].
      rewrite <- N.add_1_r, seqN_add, seqN_1, map_app, concat_app, <- IHd by lia. cbn [map concat]. rewrite app_nil_r, <- map_app. f_equal.
      replace ((d + 1) * sizeof e) with (d * sizeof e + sizeof e) by lia. rewrite slice_add, N.add_0_l. reflexivity.
    + unfold rep, gather. rewrite !concat_map, !map_map. reflexivity.
    + assert (G : forall qs, Forall (fun q => q < d) qs ->
         Forall2 (swapped e) (map (fun q => map B (slice (k + q * sizeof e) (sizeof e) inp)) qs)
           (map (fun q => map B (gather inp 0 (map (N.add (q * sizeof e)) (srcs e k)))) qs)).
      { induction 1 as [|q qs Hq _ IHq]; [constructor|]. cbn [map]. constructor; [|exact IHq].
        rewrite <- (proj1 srcs_shift). rewrite (N.add_comm (q * sizeof e)). apply IH; [assumption|]. nia. }
      apply G. apply Forall_forall. intros q Hq. apply seqN_In in Hq. lia.
  - intros sz fs IH ((_ & Hw) & Hs & Hf & He & Ht) inp k Hk. cbn [sizeof srcs swapped] in *.
    assert (K := IH Hs Hf Ht inp k 0 sz Hw Hk). rewrite He, N.sub_diag, N.add_0_r, N.sub_0_r in K.
    change (slice (k + sz) 0 inp) with (@nil N) in K. rewrite app_nil_r in K. exact K.
  - intros _ _ _ inp k cur s Hw Hk. simpl in Hw. cbn [swapped_fields srcs_fields fields_end gather map app]. split; [|reflexivity].
    unfold lenN. rewrite map_length. apply lenN_slice. lia.
  - intros nm off t IHt r IHr H1 H2 (H3 & H4) inp k cur s (Ho & Hw & Hwr) Hk. simpl in H1, H2.
    apply andb_true_iff in H1 as [H1 H1'], H2 as [H2 H2']. assert (K := fields_end_ge Hwr).
    assert (Hok : wf t /\ swappable t = true /\ cont_free t = true /\ tight t) by auto.
    cbn [swapped_fields srcs_fields fields_end].
    exists (map B (slice (k + cur) (off - cur) inp)), (map B (slice (k + off) (sizeof t) inp)),
      (map B (slice (k + (off + sizeof t)) (s - (off + sizeof t)) inp)), (map B (gather inp 0 (srcs t (k + off)))),
      (map B (gather inp 0 (srcs_fields r k (off + sizeof t)) ++ slice (k + fields_end r (off + sizeof t)) (s - fields_end r (off + sizeof t)) inp)).
    split.
    { rewrite <- !map_app. f_equal. replace (s - cur) with ((off - cur) + (sizeof t + (s - (off + sizeof t)))) by lia.
      rewrite !slice_add. f_equal. f_equal; f_equal; lia. }
    split.
    { rewrite !gather_app, gather_seqN by lia. rewrite N.add_0_l, <- !app_assoc, !map_app. reflexivity. }
    split; [unfold lenN; rewrite map_length; apply lenN_slice; lia|]. split; [apply IHt; [assumption|lia]|].
    apply IHr; assumption.
Qed.
