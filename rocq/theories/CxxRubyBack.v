(** * CxxRubyBack: Typelib names to C++ names, template arguments, namespaces. *)
From Verif Require Import Base CxxRubySpec CxxRuby CxxRubyProofs CxxRubyConv.
Local Open Scope char_scope.

Ltac wrs := rewrite ?wr_end, ?wr_sub, ?wr_nil, ?wr_type, ?wr_num.
Definition only (l : str) (g : str) : Prop := g = l.
Lemma wr_spelled l dc :
  (forall p, cxx dc (only l) (wr l dc p) p) /\
  (forall a, a = ANil \/ cxx_args dc (only l) (wr_args l dc a) a).
Proof.
  apply cpath_mind.
  - intros id a [-> |C]; [(wrs; cbn [brackets]); rewrite app_nil_r; constructor|]. wrs.
    replace (brackets a (wr_args l dc a)) with ("<" :: wr_args l dc a ++ [">"]) by (destruct a; [inversion C|reflexivity|reflexivity]).
    apply (@cx_tmpl dc (only l) id []); [constructor|exact C].
  - intros id a [-> |C] q IH; wrs; [cbn [brackets app]; constructor; exact IH|].
    replace (brackets a (wr_args l dc a)) with ("<" :: wr_args l dc a ++ [">"]) by (destruct a; [inversion C|reflexivity|reflexivity]).
    cbn [app]. rewrite <- app_assoc. cbn [app]. apply (@cx_tmpl_sub dc (only l) id [] _ a []); [constructor|exact C|constructor|exact IH].
  - left. reflexivity.
  - intros p IH a [-> |C]; right; wrs.
    + cbn [comma]. apply (@cx_last dc (only l) [] l _ []); [constructor|reflexivity|exact IH|constructor].
    + replace (comma a (wr_args l dc a)) with ("," :: wr_args l dc a) by (destruct a; [inversion C|reflexivity|reflexivity]).
      apply (@cx_more dc (only l) [] l _ []); [constructor|reflexivity|exact IH|constructor|exact C].
  - intros i a [-> |C]; right; wrs.
    + cbn [comma]. apply (@cx_last_num dc (only l) [] _ []); constructor.
    + replace (comma a (wr_args l dc a)) with ("," :: wr_args l dc a) by (destruct a; [inversion C|reflexivity|reflexivity]).
      apply (@cx_more_num dc (only l) [] _ []); [constructor|constructor|exact C].
Qed.
Lemma cxx_weaken dc (r1 r2 : str -> Prop) : (forall g, r1 g -> r2 g) ->
  (forall s p, cxx dc r1 s p -> cxx dc r2 s p) /\ (forall s a, cxx_args dc r1 s a -> cxx_args dc r2 s a).
Proof. intros H. apply cxx_mind; intros; constructor; auto. Qed.
Lemma cxx_name_spells p : spells (cxx_name p) p.
Proof.
  exists [], [], (cxx_name p), []. rewrite app_nil_r. split; [reflexivity|]. split; [constructor|]. split; [left; reflexivity|].
  split; [|constructor]. apply (proj1 (@cxx_weaken (s_ "::") (only []) (fun g => g = [] \/ g = s_ "::") (fun g H => or_introl H))).
  apply (proj1 (wr_spelled [] (s_ "::"))).
Qed.

(** The text of the tokens. *)
Lemma tkp_text l dc :
  (forall acc p ts, tkp dc (only l) acc p ts -> concat ts = acc ++ wr l dc p) /\
  (forall a ts, tka dc (only l) a ts -> concat ts = wr_args l dc a).
Proof.
  apply tkp_mind.
  - intros acc id. cbn. rewrite !app_nil_r. reflexivity.
  - intros acc id a ts T IH. (wrs; cbn [concat]). rewrite (tka_some T), concat_app, IH. cbn [concat app]. rewrite <- ?app_assoc. reflexivity.
  - intros acc id p ts T IH. rewrite IH. (wrs; cbn [brackets app]). rewrite <- ?app_assoc. reflexivity.
  - intros acc id a ts p ts' T IH T' IH'. (wrs; cbn [concat]). rewrite (tka_some T), concat_app, IH. cbn [concat app]. rewrite IH', <- ?app_assoc. cbn [app]. rewrite <- ?app_assoc. reflexivity.
  - intros g p ts -> T IH. (wrs; cbn [comma]). rewrite app_nil_r. exact IH.
  - intros i. cbn. reflexivity.
  - intros g p ts a ts' -> T IH T' IH'. rewrite concat_app, IH. (wrs; cbn [concat app]). rewrite IH', <- app_assoc. do 3 f_equal. destruct T'; reflexivity.
  - intros i a ts' T' IH'. (wrs; cbn [concat app]). rewrite IH'. do 2 f_equal. destruct T'; reflexivity.
Qed.
Lemma only_slash_ok g : only ["/"] g -> wordy g /\ (g = [] \/ starts g).
Proof. intros ->. split; [apply wordy_slash|right; apply starts_slash_]. Qed.
Lemma only_slash_wordy g : only ["/"] g -> wordy g.
Proof. intros ->. apply wordy_slash. Qed.
Lemma tl_tokens p : well_named p -> tkp ["/"] (only ["/"]) ["/"] p (template_tokenizer (tl_name p)).
Proof.
  intros W. assert (S : spelling ["/"] (only ["/"]) (tl_name p) p).
  { exists [], ["/"], (wr ["/"] ["/"] p), []. rewrite app_nil_r. split; [reflexivity|]. split; [constructor|]. split; [reflexivity|].
    split; [apply (proj1 (wr_spelled _ _))|constructor]. }
  destruct (@tok_spelling ["/"] (only ["/"]) wordy_slash starts_slash_ only_slash_ok _ _ S W) as (g & ts & -> & T & ->). exact T.
Qed.

(** ** parse_template *)
Lemma join0_text ts : join0 (map Some ts) = concat ts.
Proof. unfold join0. rewrite map_map, map_id. reflexivity. Qed.
Lemma tkargs_names a l : tkargs ["/"] (only ["/"]) a l -> map join0 (map (map Some) l) = arg_names a.
Proof.
  induction 1 as [|g p ts a l R T L IH|i a l L IH]; [reflexivity|..]; cbn [map arg_names]; rewrite IH; f_equal.
  - rewrite join0_text, (proj1 (tkp_text _ _) _ _ _ T), R. reflexivity.
  - cbn. apply app_nil_r.
Qed.
Lemma tkp_with_args dc root acc p a ts : no_args p -> tkp dc root acc (with_args p a) ts -> forall l,
  (a = ANil /\ ts = [acc ++ wr l dc p]) \/ exists ts', tka dc root a ts' /\ ts = (acc ++ wr l dc p) :: ["<"] :: ts' ++ [[">"]].
Proof.
  revert acc ts. induction p as [id b|id b q IH]; cbn [no_args with_args]; intros acc ts N T l.
  - subst b. (wrs; cbn [brackets]). rewrite app_nil_r. inversion T; subst; [left; auto|right; eauto].
  - destruct N as [-> N]. inversion T; subst; [|exfalso; match goal with H : tka _ _ ANil _ |- _ => inversion H end].
    match goal with H : tkp _ _ _ (with_args q a) ts |- _ => destruct (IH _ _ N H l) as [[E ->]|(ts' & T' & ->)] end; [left|right]; (wrs; cbn [brackets app]); rewrite <- ?app_assoc; auto.
    exists ts'. split; [exact T'|]. reflexivity.
Qed.
Lemma well_with_args p a : well_named (with_args p a) -> args_named a.
Proof. induction p as [id b|id b q IH]; cbn; [tauto|]. intros (_ & _ & H). exact (IH H). Qed.
Lemma parse_template_ok p a : no_args p -> well_named (with_args p a) -> parse_template (tl_name (with_args p a)) = (Some (tl_name p), arg_names a).
Proof.
  intros N W. assert (T := tl_tokens W). unfold parse_template.
  destruct (tkp_with_args N T ["/"]) as [[-> ->]|(ts' & T' & ->)]; [reflexivity|]. cbn [map].
  destruct (@collect_brackets ["/"] (only ["/"]) wordy_slash only_slash_wordy a ts' [] T' (well_with_args W)) as (l & L & _ & E).
  rewrite map_app. cbn [map]. unfold str in *. rewrite E. cbn [fst]. f_equal. exact (tkargs_names L).
Qed.

(** ** typelib_to_cxx *)
Definition g1 := gsub ["/"] (s_ "::").
Lemma g1_app a b : g1 (a ++ b) = g1 a ++ g1 b.
Proof.
  unfold g1, gsub. induction a as [|c a IH]; [reflexivity|]. cbn [app gsub_]. cbn [prefixb]. rewrite !andb_true_r.
  destruct (Ascii.eqb "/" c); cbn [length Nat.sub]; rewrite IH; reflexivity.
Qed.
Lemma g1_free a : noc "/" a -> g1 a = a.
Proof. apply gsub_all. Qed.
Definition conv_tok (t : str) : str := if existsb punctb t || bol_digit true t then t else g1 t.
Lemma wordy_no_punct t : wordy t -> existsb punctb t = false.
Proof. induction 1 as [|c t H _ IH]; [reflexivity|]. cbn [existsb]. rewrite H. exact IH. Qed.
Lemma bol_digit_free s : noc "010" s -> bol_digit false s = false.
Proof.
  induction s as [|c s IH]; intros H; [reflexivity|]. cbn [bol_digit]. destruct (Ascii.eqb_spec c "010") as [-> |]; [exfalso; apply H; left; reflexivity|].
  apply IH. intros I. apply H. right. exact I.
Qed.
Lemma conv_word w : wordy w -> noc "010" w -> starts_slash w = true -> conv_tok w = g1 w.
Proof.
  intros A B C. unfold conv_tok. rewrite wordy_no_punct by exact A. destruct w as [|c w]; [discriminate|]. cbn in C. apply Ascii.eqb_eq in C. subst c.
  cbn [bol_digit]. rewrite bol_digit_free; [reflexivity|]. intros I. apply B. right. exact I.
Qed.
Lemma conv_number i : number i -> conv_tok i = i.
Proof.
  intros [S _]. unfold conv_tok. destruct (_ || _); [reflexivity|]. apply g1_free. apply solid_noc; [inl|exact S].
Qed.
Definition wacc (acc : str) : Prop := wordy acc /\ noc "010" acc /\ starts_slash acc = true.
Lemma wacc_slash : wacc ["/"].
Proof. split; [apply wordy_slash|]. split; [intros [E|[]]; discriminate|reflexivity]. Qed.
Lemma conv_acc acc id : wacc acc -> ident id -> conv_tok (acc ++ id) = g1 acc ++ id.
Proof.
  intros (W & N & S) I. rewrite conv_word; [|apply wordy_app; [exact W|apply ident_wordy, I]|apply noc_app; [exact N|apply ident_noc; [inl|exact I]]|apply starts_slash_app, S].
  rewrite g1_app. f_equal. apply g1_free. apply ident_noc; [inl|exact I].
Qed.
Lemma conv_tokens :
  (forall acc p ts, tkp ["/"] (only ["/"]) acc p ts -> wacc acc -> well_named p -> tkp (s_ "::") (only (s_ "::")) (g1 acc) p (map conv_tok ts)) /\
  (forall a ts, tka ["/"] (only ["/"]) a ts -> args_named a -> tka (s_ "::") (only (s_ "::")) a (map conv_tok ts)).
Proof.
  apply tkp_mind.
  - intros acc id A [I _]. cbn [map]. rewrite conv_acc by assumption. constructor.
  - intros acc id a ts T IH A [I N]. cbn [map]. rewrite map_app, conv_acc by assumption. cbn [map].
    apply (@tk_tmpl (s_ "::") (only (s_ "::")) (g1 acc) id a (map conv_tok ts)). exact (IH N).
  - intros acc id p ts T IH A (I & _ & W). constructor. replace (g1 acc ++ id ++ s_ "::") with (g1 (acc ++ id ++ ["/"])).
    + apply IH; [|exact W]. destruct A as (A & B & C). split; [apply wordy_app; [exact A|]; apply wordy_app; [apply ident_wordy, I|apply wordy_slash]|].
      split; [apply noc_app; [exact B|]; apply noc_app; [apply ident_noc; [inl|exact I]|intros [E|[]]; discriminate]|apply starts_slash_app, C].
    + rewrite !g1_app. f_equal. f_equal. apply g1_free, ident_noc; [inl|exact I].
  - intros acc id a ts p ts' T IH T' IH' A (I & N & W). cbn [map]. rewrite map_app, conv_acc by assumption. cbn [map].
    apply (@tk_tmpl_sub (s_ "::") (only (s_ "::")) (g1 acc) id a (map conv_tok ts)); [exact (IH N)|exact (IH' wacc_slash W)].
  - intros g p ts -> T IH [W _]. apply (@tk_last _ _ (s_ "::")); [reflexivity|]. exact (IH wacc_slash W).
  - intros i [N _]. cbn [map]. rewrite conv_number by exact N. constructor.
  - intros g p ts a ts' -> T IH T' IH' [W N]. rewrite map_app. cbn [map].
    apply (@tk_more (s_ "::") (only (s_ "::")) (s_ "::")); [reflexivity|exact (IH wacc_slash W)|exact (IH' N)].
  - intros i a ts' T' IH' [Ni N]. cbn [map]. rewrite conv_number by exact Ni. constructor. exact (IH' N).
Qed.
Lemma concat_conv p : well_named p -> concat (map conv_tok (template_tokenizer (tl_name p))) = s_ "::" ++ wr (s_ "::") (s_ "::") p.
Proof. intros W. exact (proj1 (tkp_text _ _) _ _ _ (proj1 conv_tokens _ _ _ (tl_tokens W) wacc_slash W)). Qed.

(** Writing with a different text in front of the first argument. *)
Section Write2.
Variables l1 l2 dc : str.
Fixpoint wr2 (p : cpath) : str :=
  match p with
  | PEnd id a => id ++ brackets a (wr2_first a)
  | PSub id a q => id ++ brackets a (wr2_first a) ++ dc ++ wr2 q
  end
with wr2_first (a : cargs) : str :=
  match a with ANil => [] | AType p r => l1 ++ wr2 p ++ wr2_more r | ANum i r => i ++ wr2_more r end
with wr2_more (a : cargs) : str :=
  match a with ANil => [] | AType p r => "," :: l2 ++ wr2 p ++ wr2_more r | ANum i r => "," :: i ++ wr2_more r end.
End Write2.
Lemma wr2_end l1 l2 dc id a : wr2 l1 l2 dc (PEnd id a) = id ++ brackets a (wr2_first l1 l2 dc a). Proof. reflexivity. Qed.
Lemma wr2_sub l1 l2 dc id a q : wr2 l1 l2 dc (PSub id a q) = id ++ brackets a (wr2_first l1 l2 dc a) ++ dc ++ wr2 l1 l2 dc q. Proof. reflexivity. Qed.
Lemma wr2_ftype l1 l2 dc p r : wr2_first l1 l2 dc (AType p r) = l1 ++ wr2 l1 l2 dc p ++ wr2_more l1 l2 dc r. Proof. reflexivity. Qed.
Lemma wr2_fnum l1 l2 dc i r : wr2_first l1 l2 dc (ANum i r) = i ++ wr2_more l1 l2 dc r. Proof. reflexivity. Qed.
Lemma wr2_mtype l1 l2 dc p r : wr2_more l1 l2 dc (AType p r) = "," :: l2 ++ wr2 l1 l2 dc p ++ wr2_more l1 l2 dc r. Proof. reflexivity. Qed.
Lemma wr2_mnum l1 l2 dc i r : wr2_more l1 l2 dc (ANum i r) = "," :: i ++ wr2_more l1 l2 dc r. Proof. reflexivity. Qed.
Ltac wrs2 := rewrite ?wr2_end, ?wr2_sub, ?wr2_ftype, ?wr2_fnum, ?wr2_mtype, ?wr2_mnum.
Lemma wr2_wr l dc : (forall p, wr2 l l dc p = wr l dc p) /\ (forall a, wr2_first l l dc a = wr_args l dc a /\ wr2_more l l dc a = comma a (wr_args l dc a)).
Proof.
  apply cpath_mind.
  - intros id a [E _]. (wrs; wrs2). rewrite E. reflexivity.
  - intros id a [E _] q IH. (wrs; wrs2). rewrite E, IH. reflexivity.
  - split; reflexivity.
  - intros p IH a [_ E]. (wrs; wrs2; cbn [comma]). rewrite IH, E. split; reflexivity.
  - intros i a [_ E]. (wrs; wrs2; cbn [comma]). rewrite E. split; reflexivity.
Qed.
Definition gA := gsub (s_ "<::") ["<"].
Definition gB := gsub (s_ ",::") [","].
Lemma gA_free a b : noc "<" a -> gA (a ++ b) = a ++ gA b. Proof. apply gsub_free. Qed.
Lemma gB_free a b : noc "," a -> gB (a ++ b) = a ++ gB b. Proof. apply gsub_free. Qed.
Lemma gA_cons c b : c <> "<" -> gA (c :: b) = c :: gA b.
Proof. intros H. apply (@gA_free [c]). intros [E|[]]. congruence. Qed.
Lemma gB_cons c b : c <> "," -> gB (c :: b) = c :: gB b.
Proof. intros H. apply (@gB_free [c]). intros [E|[]]. congruence. Qed.
Lemma gA_hit b : gA ("<" :: s_ "::" ++ b) = "<" :: gA b. Proof. exact (gsub_hit "<" (s_ "::") ["<"] b). Qed.
Lemma gB_hit b : gB ("," :: s_ "::" ++ b) = "," :: gB b. Proof. exact (gsub_hit "," (s_ "::") [","] b). Qed.
Lemma solid_first_noc c i : In c ("010" :: s_ "<,>/:\") -> solid i -> exists d r, i = d :: r /\ d <> c.
Proof.
  intros I S. assert (N := solid_noc I S). destruct S as (_ & (d & r & -> & _) & _). exists d, r. split; [reflexivity|]. intros ->. apply N. left. reflexivity.
Qed.
Lemma gA_number i b : solid i -> gA ("<" :: i ++ b) = "<" :: i ++ gA b.
Proof.
  intros S. destruct (@solid_first_noc ":" i ltac:(inl) S) as (d & r & E & D).
  unfold gA, gsub. cbn [gsub_]. replace (prefixb (s_ "<::") ("<" :: i ++ b)) with false.
  - f_equal. apply gsub_free. apply solid_noc; [inl|exact S].
  - symmetry. rewrite E. cbn [s_ list_ascii_of_string prefixb app]. destruct (Ascii.eqb_spec ":" d); [congruence|]. apply andb_false_r.
Qed.
Lemma gB_number i b : solid i -> gB ("," :: i ++ b) = "," :: i ++ gB b.
Proof.
  intros S. destruct (@solid_first_noc ":" i ltac:(inl) S) as (d & r & E & D).
  unfold gB, gsub. cbn [gsub_]. replace (prefixb (s_ ",::") ("," :: i ++ b)) with false.
  - f_equal. apply gsub_free. apply solid_noc; [inl|exact S].
  - symmetry. rewrite E. cbn [s_ list_ascii_of_string prefixb app]. destruct (Ascii.eqb_spec ":" d); [congruence|]. apply andb_false_r.
Qed.
Lemma noc_dc c : c <> ":" -> noc c (s_ "::").
Proof. intros H [E|[E|[]]]; congruence. Qed.
Definition cc := s_ "::".
Lemma gA_wr :
  (forall p, well_named p -> forall b, gA (wr2 cc cc cc p ++ b) = wr2 [] cc cc p ++ gA b) /\
  (forall a, args_named a -> (a = ANil \/ forall b, gA ("<" :: wr2_first cc cc cc a ++ b) = "<" :: wr2_first [] cc cc a ++ gA b) /\
     forall b, gA (wr2_more cc cc cc a ++ b) = wr2_more [] cc cc a ++ gA b).
Proof.
  assert (Ncc : noc "<" cc) by (apply noc_dc; discriminate).
  assert (Br : forall a b, (a = ANil \/ forall b, gA ("<" :: wr2_first cc cc cc a ++ b) = "<" :: wr2_first [] cc cc a ++ gA b) ->
     gA (brackets a (wr2_first cc cc cc a) ++ b) = brackets a (wr2_first [] cc cc a) ++ gA b).
  { intros a b [-> |H]; [reflexivity|]. assert (E : a = ANil \/ forall s, brackets a s = "<" :: s ++ [">"]) by (destruct a; auto).
    destruct E as [-> |E]; [reflexivity|]. rewrite !E. cbn [app]. rewrite <- ?app_assoc. cbn [app]. rewrite H, gA_cons by discriminate. reflexivity. }
  apply cpath_mind.
  - intros id a IH [I N] b. destruct (IH N) as [F _]. wrs2. rewrite <- ?app_assoc. rewrite gA_free by (apply ident_noc; [inl|exact I]). rewrite Br by exact F. reflexivity.
  - intros id a IH q IHq (I & N & W) b. destruct (IH N) as [F _]. wrs2. rewrite <- ?app_assoc. rewrite gA_free by (apply ident_noc; [inl|exact I]).
    rewrite Br by exact F. rewrite gA_free by exact Ncc. rewrite IHq by exact W. reflexivity.
  - intros _. split; [left; reflexivity|reflexivity].
  - intros p IH a IHa [W N]. destruct (IHa N) as [_ M]. split.
    + right. intros b. wrs2. rewrite <- ?app_assoc. unfold cc at 1. rewrite gA_hit. rewrite IH by exact W. rewrite M. reflexivity.
    + intros b. (wrs2; cbn [app]). rewrite <- ?app_assoc. rewrite gA_cons by discriminate. rewrite gA_free by exact Ncc. rewrite IH by exact W. rewrite M. reflexivity.
  - intros i a IHa [[S _] N]. destruct (IHa N) as [_ M]. split.
    + right. intros b. wrs2. rewrite <- ?app_assoc. rewrite gA_number by exact S. rewrite M. reflexivity.
    + intros b. (wrs2; cbn [app]). rewrite <- ?app_assoc. rewrite gA_cons by discriminate. rewrite gA_free by (apply solid_noc; [inl|exact S]). rewrite M. reflexivity.
Qed.
Lemma gB_wr :
  (forall p, well_named p -> forall b, gB (wr2 [] cc cc p ++ b) = wr2 [] [] cc p ++ gB b) /\
  (forall a, args_named a -> (forall b, gB (wr2_first [] cc cc a ++ b) = wr2_first [] [] cc a ++ gB b) /\
     forall b, gB (wr2_more [] cc cc a ++ b) = wr2_more [] [] cc a ++ gB b).
Proof.
  assert (Ncc : noc "," cc) by (apply noc_dc; discriminate).
  assert (Br : forall a b, (forall b, gB (wr2_first [] cc cc a ++ b) = wr2_first [] [] cc a ++ gB b) ->
     gB (brackets a (wr2_first [] cc cc a) ++ b) = brackets a (wr2_first [] [] cc a) ++ gB b).
  { intros a b H. assert (E : a = ANil \/ forall s, brackets a s = "<" :: s ++ [">"]) by (destruct a; auto).
    destruct E as [-> |E]; [reflexivity|]. rewrite !E. cbn [app]. rewrite <- ?app_assoc. cbn [app]. rewrite gB_cons, H, gB_cons by discriminate. reflexivity. }
  apply cpath_mind.
  - intros id a IH [I N] b. destruct (IH N) as [F _]. wrs2. rewrite <- ?app_assoc. rewrite gB_free by (apply ident_noc; [inl|exact I]). rewrite Br by exact F. reflexivity.
  - intros id a IH q IHq (I & N & W) b. destruct (IH N) as [F _]. wrs2. rewrite <- ?app_assoc. rewrite gB_free by (apply ident_noc; [inl|exact I]).
    rewrite Br by exact F. rewrite gB_free by exact Ncc. rewrite IHq by exact W. reflexivity.
  - intros _. split; reflexivity.
  - intros p IH a IHa [W N]. destruct (IHa N) as [_ M]. split.
    + intros b. (wrs2; cbn [app]). rewrite <- ?app_assoc. rewrite IH by exact W. rewrite M. reflexivity.
    + intros b. (wrs2; cbn [app]). rewrite <- ?app_assoc. unfold cc at 1. rewrite gB_hit. rewrite IH by exact W. rewrite M. reflexivity.
  - intros i a IHa [[S _] N]. destruct (IHa N) as [_ M]. split.
    + intros b. wrs2. rewrite <- ?app_assoc. rewrite gB_free by (apply solid_noc; [inl|exact S]). rewrite M. reflexivity.
    + intros b. (wrs2; cbn [app]). rewrite <- ?app_assoc. rewrite gB_number by exact S. rewrite M. reflexivity.
Qed.
Lemma prefixb_in c p : In c p -> forall s, prefixb p s = true -> In c s.
Proof.
  induction p as [|d p IH]; [contradiction|]. intros I [|e s] H; [discriminate|]. cbn [prefixb] in H. apply andb_true_iff in H. destruct H as [E H].
  apply Ascii.eqb_eq in E. subst e. destruct I as [-> |I]; [left; reflexivity|right; apply IH; assumption].
Qed.
Lemma gsub_absent c pat rep s : In c pat -> noc c s -> gsub pat rep s = s.
Proof.
  intros I. unfold gsub. induction s as [|d s IH]; [reflexivity|]. intros N. cbn [gsub_].
  destruct (prefixb pat (d :: s)) eqn:P; [exfalso; exact (N (prefixb_in I P))|]. f_equal. apply IH. intros J. apply N. right. exact J.
Qed.
Lemma wr_noc c l dc : In c ("010" :: s_ "<,>/:\") -> c <> "<" -> c <> ">" -> c <> "," -> noc c l -> noc c dc ->
  (forall p, well_named p -> noc c (wr l dc p)) /\ (forall a, args_named a -> noc c (wr_args l dc a)).
Proof.
  intros I A B C Nl Nd. 
  assert (Br : forall a s, noc c s -> noc c (brackets a s)).
  { intros a s H. destruct a; [intros []|..]; (cbn [brackets]; apply noc_cons; [exact A|]; apply noc_app; [exact H|]; apply noc_cons; [exact B|intros []]). }
  assert (Co : forall a s, noc c s -> noc c (comma a s)).
  { intros a s H. destruct a; [intros []|..]; (cbn [comma]; apply noc_cons; [exact C|exact H]). }
  apply cpath_mind; cbn [well_named args_named].
  - intros id a IH [J N]. wrs. apply noc_app; [apply ident_noc; assumption|]. apply Br. auto.
  - intros id a IH q IHq (J & N & W). wrs. apply noc_app; [apply ident_noc; assumption|]. apply noc_app; [apply Br; auto|]. apply noc_app; auto.
  - intros _ [].
  - intros p IH a IHa [W N]. wrs. apply noc_app; [exact Nl|]. apply noc_app; auto.
  - intros i a IHa [[S _] N]. wrs. apply noc_app; [apply solid_noc; assumption|]. auto.
Qed.
Lemma typelib_to_cxx_ok p : well_named p -> typelib_to_cxx (tl_name p) = CxxRubySpec.cxx_name p.
Proof.
  intros W. unfold typelib_to_cxx. fold g1. change (map _ (template_tokenizer (tl_name p))) with (map conv_tok (template_tokenizer (tl_name p))).
  rewrite concat_conv by exact W. fold gA gB. fold cc. rewrite <- (proj1 (wr2_wr cc cc)).
  rewrite gA_free by (apply noc_dc; discriminate). rewrite <- (app_nil_r (wr2 cc cc cc p)). rewrite (proj1 gA_wr) by exact W.
  rewrite gB_free by (apply noc_dc; discriminate). rewrite (proj1 gB_wr) by exact W.
  change (gB (gA [])) with (@nil ascii). rewrite app_nil_r, (proj1 (wr2_wr [] cc)).
  rewrite (@gsub_absent "\").
  - reflexivity.
  - cbn. tauto.
  - apply noc_app; [apply noc_dc; discriminate|]. apply (proj1 (@wr_noc "\" [] cc ltac:(inl) ltac:(discriminate) ltac:(discriminate) ltac:(discriminate) ltac:(intros []) ltac:(apply noc_dc; discriminate))). exact W.
Qed.

(** ** Namespaces *)
Definition unmarked (s : str) : Prop := Forall (fun c => markb c = false) s.
Lemma solid_unmarked s : solid s -> unmarked s.
Proof.
  intros [F _]. revert F. apply Forall_impl. intros c N. unfold markb. destruct (existsb _ _) eqn:E; [|reflexivity]. apply existsb_in in E. exfalso. apply N. cbn in E |- *. tauto.
Qed.
Lemma sfn_word w : unmarked w -> forall k ns cur b, sfn k ns cur (w ++ b) = sfn k ns (cur ++ w) b.
Proof.
  induction 1 as [|c w H _ IH]; intros k ns cur b; [rewrite app_nil_r; reflexivity|]. cbn [app sfn]. rewrite H, IH, <- app_assoc. reflexivity.
Qed.
Notation W1 := (wr ["/"] ["/"]).
Notation A1 := (wr_args ["/"] ["/"]).
Lemma sfn_inner :
  (forall p, well_named p -> forall k ns cur b, (k > 0)%Z -> exists ns' cur', ns' ++ cur' = ns ++ cur ++ W1 p /\ sfn k ns cur (W1 p ++ b) = sfn k ns' cur' b) /\
  (forall a, args_named a -> forall k ns cur b, (k > 0)%Z -> exists ns' cur', ns' ++ cur' = ns ++ cur ++ A1 a /\ sfn k ns cur (A1 a ++ b) = sfn k ns' cur' b).
Proof.
  assert (Br : forall a, (forall k ns cur b, (k > 0)%Z -> exists ns' cur', ns' ++ cur' = ns ++ cur ++ A1 a /\ sfn k ns cur (A1 a ++ b) = sfn k ns' cur' b) ->
     forall k ns cur b, (k >= 0)%Z -> exists ns' cur', ns' ++ cur' = ns ++ cur ++ brackets a (A1 a) /\ sfn k ns cur (brackets a (A1 a) ++ b) = sfn k ns' cur' b).
  { intros a H k ns cur b K. assert (E : a = ANil \/ brackets a (A1 a) = "<" :: A1 a ++ [">"]) by (destruct a; auto).
    destruct E as [-> | ->]; [exists ns, cur; rewrite app_nil_r; auto|]. cbn [app]. rewrite <- app_assoc. cbn [sfn]. change (markb "<") with true. change (Ascii.eqb "<" "/") with false. change (Ascii.eqb "<" "<") with true. cbn iota.
    destruct (H (k + 1)%Z (ns ++ cur ++ ["<"]) [] ([">"] ++ b) ltac:(lia)) as (ns' & cur' & E & ->).
    exists (ns' ++ cur' ++ [">"]), []. split.
    - rewrite app_nil_r, app_assoc, E, <- ?app_assoc. reflexivity.
    - cbn [app sfn]. change (markb ">") with true. change (Ascii.eqb ">" "/") with false. change (Ascii.eqb ">" "<") with false. cbn iota. replace (k + 1 - 1)%Z with k by lia. reflexivity. }
  assert (Slash : forall k ns cur b, (k > 0)%Z -> sfn k ns cur ("/" :: b) = sfn k (ns ++ cur ++ ["/"]) [] b).
  { intros k ns cur b K. cbn [sfn]. change (markb "/") with true. change (Ascii.eqb "/" "/") with true. cbn iota. replace (k =? 0)%Z with false by lia. reflexivity. }
  assert (Comma : forall k ns cur b, sfn k ns cur ("," :: b) = sfn k ns (cur ++ [","]) b) by reflexivity.
  assert (Co : forall a, (forall k ns cur b, (k > 0)%Z -> exists ns' cur', ns' ++ cur' = ns ++ cur ++ A1 a /\ sfn k ns cur (A1 a ++ b) = sfn k ns' cur' b) ->
     forall k ns cur b, (k > 0)%Z -> exists ns' cur', ns' ++ cur' = ns ++ cur ++ comma a (A1 a) /\ sfn k ns cur (comma a (A1 a) ++ b) = sfn k ns' cur' b).
  { intros a H k ns cur b K. assert (E : a = ANil \/ comma a (A1 a) = "," :: A1 a) by (destruct a; auto).
    destruct E as [-> | ->]; [exists ns, cur; rewrite app_nil_r; auto|]. cbn [app]. rewrite Comma. destruct (H k ns (cur ++ [","]) b K) as (ns' & cur' & E & ->).
    exists ns', cur'. split; [|reflexivity]. rewrite E, <- app_assoc. reflexivity. }
  apply cpath_mind; cbn [well_named args_named].
  - intros id a IH [[I _] N] k ns cur b K. wrs. rewrite <- ?app_assoc, sfn_word by (apply solid_unmarked, I).
    destruct (Br a (IH N) k ns (cur ++ id) b ltac:(lia)) as (ns' & cur' & E & ->). exists ns', cur'. split; [rewrite E, <- ?app_assoc; reflexivity|reflexivity].
  - intros id a IH q IHq ([I _] & N & W) k ns cur b K. wrs. rewrite <- ?app_assoc, sfn_word by (apply solid_unmarked, I).
    destruct (Br a (IH N) k ns (cur ++ id) (["/"] ++ W1 q ++ b) ltac:(lia)) as (ns' & cur' & E & ->). cbn [app]. rewrite Slash by exact K.
    destruct (IHq W k (ns' ++ cur' ++ ["/"]) [] b K) as (n2 & c2 & E2 & ->). exists n2, c2. split; [|reflexivity]. rewrite E2, <- ?app_assoc. cbn [app].
    rewrite app_assoc, E, <- ?app_assoc. reflexivity.
  - intros _ k ns cur b K. wrs. exists ns, cur. rewrite app_nil_r. auto.
  - intros p IH a IHa [W N] k ns cur b K. wrs. cbn [app]. rewrite <- ?app_assoc. rewrite Slash by exact K.
    destruct (IH W k (ns ++ cur ++ ["/"]) [] (comma a (A1 a) ++ b) K) as (n1 & c1 & E1 & ->).
    destruct (Co a (IHa N) k n1 c1 b K) as (n2 & c2 & E2 & ->). exists n2, c2. split; [|reflexivity]. rewrite E2, app_assoc, E1, <- ?app_assoc. reflexivity.
  - intros i a IHa [[I _] N] k ns cur b K. wrs. rewrite <- app_assoc, sfn_word by (apply solid_unmarked, I).
    destruct (Co a (IHa N) k ns (cur ++ i) b K) as (n2 & c2 & E2 & ->). exists n2, c2. split; [|reflexivity]. rewrite E2, <- ?app_assoc. reflexivity.
Qed.
(** The arguments of a component: the brackets end a marker. *)
Lemma sfn_brackets a : args_named a -> a <> ANil -> forall ns cur b, sfn 0 ns cur (brackets a (A1 a) ++ b) = sfn 0 (ns ++ cur ++ brackets a (A1 a)) [] b.
Proof.
  intros N Ha ns cur b. replace (brackets a (A1 a)) with ("<" :: A1 a ++ [">"]) by (destruct a; [contradiction|reflexivity|reflexivity]).
  cbn [app]. rewrite <- app_assoc. cbn [sfn]. change (markb "<") with true. change (Ascii.eqb "<" "/") with false. change (Ascii.eqb "<" "<") with true. cbn iota.
  destruct (proj2 sfn_inner a N (0 + 1)%Z (ns ++ cur ++ ["<"]) [] ([">"] ++ b) ltac:(lia)) as (ns' & cur' & E & ->).
  cbn [app sfn]. change (markb ">") with true. change (Ascii.eqb ">" "/") with false. change (Ascii.eqb ">" "<") with false. cbn iota. change (0 + 1 - 1)%Z with 0%Z.
  f_equal. rewrite app_assoc, E, <- ?app_assoc. reflexivity.
Qed.
Lemma ident_ne id : ident id -> id <> [].
Proof. intros [(_ & (c & r & -> & _) & _) _]. discriminate. Qed.
Lemma split_first_end id a : well_named (PEnd id a) -> split_first_namespace (tl_name (PEnd id a)) = Ok (["/"], W1 (PEnd id a)).
Proof.
  intros [I N]. unfold split_first_namespace, tl_name. wrs. rewrite sfn_word by (apply solid_unmarked, I).
  destruct a; [cbn [brackets sfn app]; assert (H := ident_ne I); destruct id; [contradiction|]; cbn [app]; rewrite app_nil_r; reflexivity|..];
    (rewrite <- (app_nil_r (brackets _ _)) at 1; rewrite sfn_brackets by (auto; discriminate); cbn [sfn app tl]; reflexivity).
Qed.
Lemma split_first_sub id a q : well_named (PSub id a q) ->
  split_first_namespace (tl_name (PSub id a q)) = Ok (tl_name (PEnd id a) ++ ["/"], W1 q).
Proof.
  intros (I & N & W). unfold split_first_namespace, tl_name. wrs. rewrite sfn_word by (apply solid_unmarked, I).
  assert (Hq : exists c r, W1 q = c :: r). { destruct q as [i ?|i ? ?]; wrs; destruct W as [J _]; apply ident_ne in J; destruct i; [contradiction|cbn; eauto|contradiction|cbn; eauto]. }
  destruct Hq as (c & r & Eq).
  destruct a; [cbn [brackets app sfn]; change (markb "/") with true; change (Ascii.eqb "/" "/") with true; cbn iota; change (0 =? 0)%Z with true; cbn iota; rewrite Eq, app_nil_r; cbn [app]; reflexivity|..];
  (rewrite sfn_brackets by (auto; discriminate); cbn [app sfn]; change (markb "/") with true; change (Ascii.eqb "/" "/") with true; cbn iota; change (0 =? 0)%Z with true; cbn iota; rewrite Eq; cbn [app]; rewrite <- ?app_assoc; reflexivity).
Qed.

Lemma sln_word w : unmarked w -> forall k base b, sln k base (w ++ b) = sln k (base ++ w) b.
Proof.
  induction 1 as [|c w H _ IH]; intros k base b; [rewrite app_nil_r; reflexivity|]. cbn [app sln]. rewrite H, IH, <- app_assoc. reflexivity.
Qed.
Lemma unmarked_rev w : unmarked w -> unmarked (rev w). Proof. apply Forall_rev. Qed.
Lemma sln_brackets_ a : (forall k base b, (k < 0)%Z -> sln k base (rev (A1 a) ++ b) = sln k (base ++ rev (A1 a)) b) ->
  forall k base b, (k <= 0)%Z -> sln k base (rev (brackets a (A1 a)) ++ b) = sln k (base ++ rev (brackets a (A1 a))) b.
Proof.
  intros H k base b K. assert (E : a = ANil \/ brackets a (A1 a) = "<" :: A1 a ++ [">"]) by (destruct a; auto).
  destruct E as [-> | ->]; [cbn; rewrite app_nil_r; reflexivity|]. cbn [rev]. rewrite rev_app_distr. cbn [rev app]. cbn [sln]. change (markb ">") with true. change (Ascii.eqb ">" "/") with false. change (Ascii.eqb ">" "<") with false. cbn iota.
  rewrite <- app_assoc. rewrite H by lia. cbn [app sln]. change (markb "<") with true. change (Ascii.eqb "<" "/") with false. change (Ascii.eqb "<" "<") with true. cbn iota.
  replace (k - 1 + 1)%Z with k by lia. rewrite <- ?app_assoc. reflexivity.
Qed.
Lemma sln_inner :
  (forall p, well_named p -> forall k base b, (k < 0)%Z -> sln k base (rev (W1 p) ++ b) = sln k (base ++ rev (W1 p)) b) /\
  (forall a, args_named a -> forall k base b, (k < 0)%Z -> sln k base (rev (A1 a) ++ b) = sln k (base ++ rev (A1 a)) b).
Proof.
  assert (Slash : forall k base b, (k < 0)%Z -> sln k base ("/" :: b) = sln k (base ++ ["/"]) b).
  { intros k base b K. cbn [sln]. change (markb "/") with true. change (Ascii.eqb "/" "/") with true. cbn iota. replace (k =? 0)%Z with false by lia. reflexivity. }
  assert (Co : forall a, (forall k base b, (k < 0)%Z -> sln k base (rev (A1 a) ++ b) = sln k (base ++ rev (A1 a)) b) ->
     forall k base b, (k < 0)%Z -> sln k base (rev (comma a (A1 a)) ++ b) = sln k (base ++ rev (comma a (A1 a))) b).
  { intros a H k base b K. assert (E : a = ANil \/ comma a (A1 a) = "," :: A1 a) by (destruct a; auto).
    destruct E as [-> | ->]; [cbn; rewrite app_nil_r; reflexivity|]. cbn [rev]. rewrite <- app_assoc, H by exact K. cbn [app sln]. change (markb ",") with false. cbn iota.
    rewrite <- ?app_assoc. reflexivity. }
  apply cpath_mind; cbn [well_named args_named].
  - intros id a IH [[I _] N] k base b K. wrs. rewrite rev_app_distr, <- app_assoc. rewrite sln_brackets_ by (auto; lia). rewrite sln_word by (apply unmarked_rev, solid_unmarked, I).
    rewrite <- ?app_assoc. reflexivity.
  - intros id a IH q IHq ([I _] & N & W) k base b K. wrs. cbn [app]. rewrite !rev_app_distr. cbn [rev]. rewrite <- ?app_assoc. rewrite IHq by assumption. cbn [app]. rewrite Slash by exact K.
    rewrite sln_brackets_ by (auto; lia). rewrite sln_word by (apply unmarked_rev, solid_unmarked, I). rewrite <- ?app_assoc. reflexivity.
  - intros _ k base b K. wrs. cbn. rewrite app_nil_r. reflexivity.
  - intros p IH a IHa [W N] k base b K. wrs. cbn [app rev]. rewrite rev_app_distr, <- ?app_assoc. rewrite Co by auto. rewrite IH by assumption. cbn [app]. rewrite Slash by exact K.
    rewrite <- ?app_assoc. reflexivity.
  - intros i a IHa [[I _] N] k base b K. wrs. rewrite rev_app_distr, <- app_assoc. rewrite Co by auto. rewrite sln_word by (apply unmarked_rev, solid_unmarked, I). rewrite <- ?app_assoc. reflexivity.
Qed.
Lemma ns_last p : tl_name p = ns_of p ++ last_of p.
Proof.
  unfold tl_name. induction p as [id a|id a q IH]; [reflexivity|]. (wrs; cbn [ns_of last_of app]). f_equal. rewrite <- ?app_assoc. f_equal. f_equal. exact IH.
Qed.
Lemma ns_ends p : exists r, ns_of p = r ++ ["/"].
Proof. induction p as [id a|id a q [r IH]]; [exists []; reflexivity|]. cbn [ns_of]. rewrite IH. exists ("/" :: id ++ brackets a (A1 a) ++ r). cbn [app]. rewrite <- ?app_assoc. reflexivity. Qed.
Lemma last_pass p : well_named p -> forall base b, sln 0 base (rev (last_of p) ++ b) = sln 0 (base ++ rev (last_of p)) b.
Proof.
  induction p as [id a|id a q IH]; cbn [well_named last_of]; [|intros (_ & _ & W); apply IH, W]. intros [[I _] N] base b.
  rewrite rev_app_distr, <- app_assoc. rewrite sln_brackets_ by (try (apply (proj2 sln_inner); exact N); lia). rewrite sln_word by (apply unmarked_rev, solid_unmarked, I).
  rewrite <- ?app_assoc. reflexivity.
Qed.
Lemma split_last_ok p : well_named p -> split_last_namespace (tl_name p) = (ns_of p, last_of p).
Proof.
  intros W. unfold split_last_namespace. rewrite ns_last, rev_app_distr, last_pass by exact W. destruct (ns_ends p) as [r E]. rewrite E, rev_app_distr.
  cbn [rev app sln]. change (markb "/") with true. change (Ascii.eqb "/" "/") with true. cbn iota. change (0 =? 0)%Z with true. cbn iota.
  cbn [rev]. rewrite !rev_involutive. reflexivity.
Qed.
