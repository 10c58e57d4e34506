(** * CxxRubyConv: C++ names to Typelib names. *)
From Verif Require Import Base CxxRubySpec CxxRuby CxxRubyProofs.
Local Open Scope char_scope.

(** ** gsub *)
Lemma gsub_free c0 pat rep a b : ~ In c0 a -> gsub (c0 :: pat) rep (a ++ b) = a ++ gsub (c0 :: pat) rep b.
Proof.
  unfold gsub. induction a as [|c a IH]; intros H; [reflexivity|]. cbn [app gsub_]. 
  replace (prefixb (c0 :: pat) (c :: a ++ b)) with false.
  - rewrite IH; [reflexivity|]. intros I. apply H. right. exact I.
  - cbn [prefixb]. destruct (Ascii.eqb_spec c0 c) as [-> |]; [|reflexivity]. exfalso. apply H. left. reflexivity.
Qed.
Lemma gsub_all c0 pat rep a : ~ In c0 a -> gsub (c0 :: pat) rep a = a.
Proof. intros H. rewrite <- (app_nil_r a), gsub_free by exact H. reflexivity. Qed.
Lemma gsub_skip pat rep a b : gsub_ pat rep (length a) (a ++ b) = gsub_ pat rep 0 b.
Proof. induction a as [|c a IH]; [reflexivity|]. exact IH. Qed.
Lemma prefixb_app p s : prefixb p (p ++ s) = true.
Proof. induction p as [|c p IH]; [reflexivity|]. cbn [app prefixb]. rewrite Ascii.eqb_refl. exact IH. Qed.
Lemma gsub_hit c0 pat rep b : gsub (c0 :: pat) rep ((c0 :: pat) ++ b) = rep ++ gsub (c0 :: pat) rep b.
Proof.
  unfold gsub. pose proof (prefixb_app (c0 :: pat) b) as P. cbn [app] in P |- *. cbn [gsub_]. rewrite P.
  f_equal. cbn [length]. rewrite Nat.sub_succ, Nat.sub_0_r. apply gsub_skip.
Qed.

Definition noc (c : ascii) (s : str) : Prop := ~ In c s.
Lemma noc_app c a b : noc c a -> noc c b -> noc c (a ++ b).
Proof. unfold noc. rewrite in_app_iff. tauto. Qed.
Lemma noc_cons c d b : c <> d -> noc c b -> noc c (d :: b).
Proof. unfold noc. cbn. intuition congruence. Qed.
Lemma solid_noc c s : In c ("010" :: s_ "<,>/:\") -> solid s -> noc c s.
Proof. intros I [F _] J. rewrite Forall_forall in F. exact (F c J I). Qed.
Lemma blanks_noc c x : ~ blank c -> blanks x -> noc c x.
Proof. intros N B I. unfold blanks in B. rewrite Forall_forall in B. exact (N (B c I)). Qed.
Ltac nblank := let H := fresh in intros H; cbn in H; repeat destruct H as [H|H]; try contradiction; discriminate.
Ltac inl := cbn; tauto.
Lemma ident_noc c s : In c ("010" :: s_ "<,>/:\") -> ident s -> noc c s.
Proof. intros I [S _]. exact (solid_noc I S). Qed.

Definition g2 := gsub (s_ "::") ["/"].
Lemma g2_free a b : noc ":" a -> g2 (a ++ b) = a ++ g2 b.
Proof. apply gsub_free. Qed.
Lemma g2_cons c b : c <> ":" -> g2 (c :: b) = c :: g2 b.
Proof. intros H. apply (@g2_free [c]). intros [E|[]]. congruence. Qed.
Lemma g2_hit b : g2 (s_ "::" ++ b) = "/" :: g2 b.
Proof. exact (gsub_hit ":" [":"] ["/"] b). Qed.
Definition root2 (g : str) : Prop := g = [] \/ g = s_ "::".
Definition root1 (g : str) : Prop := g = [] \/ g = ["/"].
Lemma g2_root g b : root2 g -> exists g', root1 g' /\ g2 (g ++ b) = g' ++ g2 b.
Proof. intros [-> | ->]; [exists []; split; [left|]; reflexivity|]. exists ["/"]. split; [right; reflexivity|]. exact (g2_hit b). Qed.

Lemma g2_cxx :
  (forall s p, cxx (s_ "::") root2 s p -> well_named p -> exists s', cxx ["/"] root1 s' p /\ forall b, g2 (s ++ b) = s' ++ g2 b) /\
  (forall s a, cxx_args (s_ "::") root2 s a -> args_named a -> exists s', cxx_args ["/"] root1 s' a /\ forall b, g2 (s ++ b) = s' ++ g2 b).
Proof.
  assert (NB : ~ blank ":") by nblank.
  apply cxx_mind.
  - intros id [I _]. exists id. split; [constructor|]. intros b. apply g2_free. apply ident_noc; [inl|exact I].
  - intros id x s a B C IH [I A]. destruct (IH A) as (s' & C' & E). exists (id ++ x ++ "<" :: s' ++ [">"]). split; [constructor; assumption|].
    intros b. rewrite <- ?app_assoc. cbn [app]. rewrite <- ?app_assoc. rewrite g2_free by (apply ident_noc; [inl|exact I]).
    rewrite g2_free by (apply blanks_noc; assumption). rewrite g2_cons, E by discriminate. cbn [app]. rewrite g2_cons by discriminate. reflexivity.
  - intros id s p C IH (I & _ & W). destruct (IH W) as (s' & C' & E). exists (id ++ ["/"] ++ s'). split; [constructor; assumption|].
    intros b. rewrite <- ?app_assoc. rewrite g2_free by (apply ident_noc; [inl|exact I]). rewrite g2_hit, E. reflexivity.
  - intros id x s a y s1 p B C IH By C1 IH1 (I & A & W). destruct (IH A) as (s' & C' & E). destruct (IH1 W) as (s1' & C1' & E1).
    exists (id ++ x ++ "<" :: s' ++ ">" :: y ++ ["/"] ++ s1'). split; [constructor; assumption|].
    intros b. rewrite <- ?app_assoc. cbn [app]. rewrite <- ?app_assoc. cbn [app]. rewrite <- ?app_assoc.
    rewrite g2_free by (apply ident_noc; [inl|exact I]).
    rewrite g2_free by (apply blanks_noc; assumption). rewrite g2_cons, E by discriminate. cbn [app]. rewrite g2_cons by discriminate.
    rewrite g2_free by (apply blanks_noc; assumption). rewrite g2_hit, E1. reflexivity.
  - intros x g s y p Bx R C IH By [W _]. destruct (IH W) as (s' & C' & E).
    assert (G := fun b => g2_root (g := g) b R).
    destruct R as [-> | ->].
    + exists (x ++ [] ++ s' ++ y). split; [constructor; auto; left; reflexivity|]. intros b. rewrite <- ?app_assoc. cbn [app].
      rewrite g2_free by (apply blanks_noc; assumption). rewrite E. rewrite g2_free by (apply blanks_noc; assumption). reflexivity.
    + exists (x ++ ["/"] ++ s' ++ y). split; [constructor; auto; right; reflexivity|]. intros b. rewrite <- ?app_assoc.
      rewrite g2_free by (apply blanks_noc; assumption). rewrite g2_hit, E. rewrite g2_free by (apply blanks_noc; assumption). reflexivity.
  - intros x i y Bx By [[I _] _]. exists (x ++ i ++ y). split; [constructor; assumption|]. intros b. rewrite <- ?app_assoc.
    rewrite g2_free by (apply blanks_noc; assumption). rewrite g2_free by (apply solid_noc; [inl|exact I]). rewrite g2_free by (apply blanks_noc; assumption). reflexivity.
  - intros x g s y p r a Bx R C IH By C1 IH1 [W A]. destruct (IH W) as (s' & C' & E). destruct (IH1 A) as (r' & C1' & E1).
    destruct R as [-> | ->].
    + exists (x ++ [] ++ s' ++ y ++ "," :: r'). split; [constructor; auto; left; reflexivity|]. intros b. rewrite <- ?app_assoc. cbn [app].
      rewrite g2_free by (apply blanks_noc; assumption). rewrite E. rewrite g2_free by (apply blanks_noc; assumption).
      rewrite g2_cons, E1 by discriminate. reflexivity.
    + exists (x ++ ["/"] ++ s' ++ y ++ "," :: r'). split; [constructor; auto; right; reflexivity|]. intros b. rewrite <- ?app_assoc.
      rewrite g2_free by (apply blanks_noc; assumption). rewrite g2_hit, E. rewrite g2_free by (apply blanks_noc; assumption).
      cbn [app]. rewrite g2_cons, E1 by discriminate. reflexivity.
  - intros x i y r a Bx By C1 IH1 [[I _] A]. destruct (IH1 A) as (r' & C1' & E1). exists (x ++ i ++ y ++ "," :: r').
    split; [constructor; assumption|]. intros b. rewrite <- ?app_assoc.
    rewrite g2_free by (apply blanks_noc; assumption). rewrite g2_free by (apply solid_noc; [inl|exact I]). rewrite g2_free by (apply blanks_noc; assumption).
    cbn [app]. rewrite g2_cons, E1 by discriminate. reflexivity.
Qed.
Lemma g2_spells s p : spells s p -> well_named p -> spelling ["/"] root1 (g2 s) p.
Proof.
  assert (NB : ~ blank ":") by nblank.
  intros (x & g & s' & y & -> & Bx & R & C & By) W. destruct (proj1 g2_cxx _ _ C W) as (s1 & C1 & E1).
  destruct R as [-> | ->].
  - exists x, [], s1, y. split; [|repeat split; auto; left; reflexivity]. rewrite g2_free by (apply blanks_noc; assumption).
    cbn [app]. rewrite E1. f_equal. f_equal. apply gsub_all. apply blanks_noc; assumption.
  - exists x, ["/"], s1, y. split; [|repeat split; auto; right; reflexivity]. rewrite g2_free by (apply blanks_noc; assumption).
    rewrite g2_hit, E1. cbn [app]. f_equal. f_equal. f_equal. apply gsub_all. apply blanks_noc; assumption.
Qed.
Lemma wordy_slash : wordy ["/"]. Proof. repeat constructor. Qed.
Lemma starts_slash_ : starts ["/"]. Proof. exists "/", []. split; [reflexivity|]. nblank. Qed.
Lemma root1_ok g : root1 g -> wordy g /\ (g = [] \/ starts g).
Proof. intros [-> | ->]; [split; [constructor|auto]|]. split; [apply wordy_slash|right; apply starts_slash_]. Qed.

(** Joining closing brackets does not change the tokens. *)
Lemma tok_g3 n : forall s cur, (length s <= n)%nat -> tok cur (gsub (s_ "> >") (s_ ">>") s) = tok cur s.
Proof.
  unfold gsub. induction n as [|n IH]; intros s cur L; [destruct s; [reflexivity|cbn in L; lia]|].
  destruct s as [|c r]; [reflexivity|]. cbn [gsub_]. destruct (prefixb _ _) eqn:P.
  - cbn [s_ list_ascii_of_string prefixb] in P. destruct r as [|c1 [|c2 r]]; [rewrite andb_false_r in P; discriminate|rewrite ?andb_false_r in P; discriminate|]. apply andb_true_iff in P. destruct P as [P0 P]. apply andb_true_iff in P. destruct P as [P1 P].
    apply andb_true_iff in P. destruct P as [P2 _]. apply Ascii.eqb_eq in P0, P1, P2. subst.
    change (length (s_ "> >") - 1)%nat with 2%nat. cbn [gsub_ app s_ list_ascii_of_string]. cbn [tok]. 
    change (punctb ">") with true. change (punctb " ") with false. cbn iota. rewrite IH by (cbn in L; lia). reflexivity.
  - cbn [tok]. destruct (punctb c); [f_equal; f_equal|]; apply IH; cbn in L; lia.
Qed.

(** ** The arguments *)
Section Collect.
Variable dc : str.
Variable root : str -> Prop.
Scheme tkp_m := Minimality for tkp Sort Prop with tka_m := Minimality for tka Sort Prop.
Combined Scheme tkp_mind from tkp_m, tka_m.
Definition plain_tok (t : str) : Prop := is_tok (Some t) "<" = false /\ is_tok (Some t) ">" = false /\ is_tok (Some t) "," = false.
Lemma plain_of t : t <> ["<"] -> t <> [">"] -> t <> [","] -> plain_tok t.
Proof.
  intros A B C. unfold plain_tok, is_tok. destruct t as [|c [|d r]]; auto.
  repeat split; apply Ascii.eqb_neq; congruence.
Qed.
Lemma wordy_plain t : wordy t -> plain_tok t.
Proof. intros W. apply plain_of; intros ->; inversion W; discriminate. Qed.
Hypothesis Wdc : wordy dc.
Hypothesis Wroot : forall g, root g -> wordy g.
Lemma ident_wordy id : ident id -> wordy id. Proof. intros [H _]. apply solid_wordy, H. Qed.
Lemma number_wordy id : number id -> wordy id. Proof. intros [H _]. apply solid_wordy, H. Qed.

Lemma collect_plain k A cur t r : plain_tok t -> collect k A cur (Some t :: r) = collect k A (cur ++ [Some t]) r.
Proof. intros (a & b & c). cbn [collect]. rewrite a, b, c. reflexivity. Qed.
Lemma collect_open k A cur t r : (k > 0)%Z -> collect k A cur (Some ["<"] :: t :: r) = collect (k + 1) A (cur ++ [Some ["<"]; t]) r.
Proof. intros H. cbn [collect]. change (is_tok (Some ["<"]) "<") with true. cbn iota. replace (k + 1 >? 1)%Z with true by lia. reflexivity. Qed.
Lemma collect_close k A cur r : (k > 1)%Z -> collect k A cur (Some [">"] :: r) = collect (k - 1) A (cur ++ [Some [">"]]) r.
Proof.
  intros H. cbn [collect]. change (is_tok (Some [">"]) "<") with false. change (is_tok (Some [">"]) ">") with true. cbn iota.
  replace (k - 1 =? 0)%Z with false by lia. reflexivity.
Qed.
Lemma collect_comma k A cur t r : (k > 1)%Z -> collect k A cur (Some [","] :: t :: r) = collect k A (cur ++ [Some [","]; t]) r.
Proof.
  intros H. cbn [collect]. change (is_tok (Some [","]) "<") with false. change (is_tok (Some [","]) ">") with false. change (is_tok (Some [","]) ",") with true. cbn iota.
  replace (k =? 1)%Z with false by lia. reflexivity.
Qed.
Lemma collect_end A cur r : collect 1 A cur (Some [">"] :: r) = (A ++ [cur], r).
Proof. reflexivity. Qed.
Lemma collect_comma1 A cur r : collect 1 A cur (Some [","] :: r) = collect 1 (A ++ [cur]) [] r.
Proof. reflexivity. Qed.

(** Inside of brackets all the tokens of a name go to the current argument. *)
Lemma collect_inner :
  (forall acc p ts, tkp dc root acc p ts -> wordy acc -> well_named p -> exists t r, ts = t :: r /\ wordy t /\
     forall k A cur rest, (k > 0)%Z -> collect k A cur (map Some r ++ rest) = collect k A (cur ++ map Some r) rest) /\
  (forall a ts, tka dc root a ts -> args_named a -> exists t r, ts = t :: r /\ wordy t /\
     forall k A cur rest, (k > 1)%Z -> collect k A cur (map Some r ++ rest) = collect k A (cur ++ map Some r) rest).
Proof.
  apply tkp_mind.
  - intros acc id Wa [I _]. exists (acc ++ id), []. split; [reflexivity|]. split; [apply wordy_app; [exact Wa|apply ident_wordy, I]|].
    intros. cbn [map app]. rewrite app_nil_r. reflexivity.
  - intros acc id a ts T IH Wa [I A]. destruct (IH A) as (t & r & -> & Wt & E). exists (acc ++ id), (["<"] :: (t :: r) ++ [[">"]]).
    split; [reflexivity|]. split; [apply wordy_app; [exact Wa|apply ident_wordy, I]|]. intros k B cur rest K.
    cbn [map app]. rewrite map_app. cbn [map]. rewrite <- ?app_assoc. cbn [app]. rewrite collect_open by exact K. rewrite E by lia.
    rewrite collect_close by lia. replace (k + 1 - 1)%Z with k by lia. rewrite <- ?app_assoc. reflexivity.
  - intros acc id p ts T IH Wa (I & _ & W). apply IH; [|exact W]. apply wordy_app; [exact Wa|]. apply wordy_app; [apply ident_wordy, I|exact Wdc].
  - intros acc id a ts p ts' T IH T' IH' Wa (I & A & W). destruct (IH A) as (t & r & -> & Wt & E). destruct (IH' Wdc W) as (t' & r' & -> & Wt' & E').
    exists (acc ++ id), (["<"] :: (t :: r) ++ [">"] :: t' :: r').
    split; [reflexivity|]. split; [apply wordy_app; [exact Wa|apply ident_wordy, I]|]. intros k B cur rest K.
    cbn [map app]. rewrite map_app. cbn [map]. rewrite <- ?app_assoc. cbn [app]. rewrite collect_open by exact K. rewrite E by lia.
    rewrite collect_close by lia. replace (k + 1 - 1)%Z with k by lia. rewrite collect_plain by (apply wordy_plain, Wt').
    rewrite E' by exact K. rewrite <- ?app_assoc. reflexivity.
  - intros g p ts R T IH [W _]. destruct (IH (Wroot R) W) as (t & r & -> & Wt & E). exists t, r. split; [reflexivity|]. split; [exact Wt|].
    intros. apply E. lia.
  - intros i [N _]. exists i, []. split; [reflexivity|]. split; [apply number_wordy, N|]. intros. cbn [map app]. rewrite app_nil_r. reflexivity.
  - intros g p ts a ts' R T IH T' IH' [W A]. destruct (IH (Wroot R) W) as (t & r & -> & Wt & E). destruct (IH' A) as (t' & r' & -> & Wt' & E').
    exists t, (r ++ [","] :: t' :: r'). split; [reflexivity|]. split; [exact Wt|]. intros k B cur rest K. rewrite map_app. cbn [map]. rewrite <- ?app_assoc. cbn [app].
    rewrite E by lia. rewrite collect_comma by exact K. rewrite E' by exact K. rewrite <- ?app_assoc. reflexivity.
  - intros i a ts' T' IH' [N A]. destruct (IH' A) as (t' & r' & -> & Wt' & E').
    exists i, ([","] :: t' :: r'). split; [reflexivity|]. split; [apply number_wordy, N|]. intros k B cur rest K. cbn [map app].
    rewrite collect_comma by exact K. rewrite E' by exact K. rewrite <- ?app_assoc. reflexivity.
Qed.
(** The tokens of each argument. *)
Inductive tkargs : cargs -> list (list str) -> Prop :=
| tkargs_nil : tkargs ANil []
| tkargs_type g p ts a l : root g -> tkp dc root g p ts -> tkargs a l -> tkargs (AType p a) (ts :: l)
| tkargs_num i a l : tkargs a l -> tkargs (ANum i a) ([i] :: l).
Lemma collect_path g p ts k A cur rest : root g -> tkp dc root g p ts -> well_named p -> (k > 0)%Z ->
  collect k A cur (map Some ts ++ rest) = collect k A (cur ++ map Some ts) rest.
Proof.
  intros R T W K. destruct (proj1 collect_inner _ _ _ T (Wroot R) W) as (t & r & -> & Wt & E). cbn [map app].
  rewrite collect_plain by (apply wordy_plain, Wt). rewrite E by exact K. rewrite <- app_assoc. reflexivity.
Qed.
Lemma collect_args a ts : tka dc root a ts -> args_named a -> exists l, tkargs a l /\ (forall x, In x l -> (length x <= length ts)%nat) /\
  forall A rest, collect 1 A [] (map Some ts ++ Some [">"] :: rest) = (A ++ map (map Some) l, rest).
Proof.
  induction 1 as [g p ts R T|i|g p ts a ts' R T T' IH|i a ts' T' IH].
  - intros [W _]. exists [ts]. split; [econstructor; [exact R|exact T|constructor]|]. split; [intros x [<- |[]]; lia|].
    intros A rest. rewrite (collect_path _ _ _ R T W) by lia. rewrite collect_end. reflexivity.
  - intros [N _]. exists [[i]]. split; [repeat constructor|]. split; [intros x [<- |[]]; cbn; lia|].
    intros A rest. cbn [map app]. rewrite collect_plain by (apply wordy_plain, number_wordy, N). rewrite collect_end. reflexivity.
  - intros [W N]. destruct (IH N) as (l & L & Len & E). exists (ts :: l). split; [econstructor; eauto|].
    split; [intros x [<- |I]; rewrite app_length; cbn; [lia|apply Len in I; lia]|].
    intros A rest. rewrite map_app. cbn [map]. rewrite <- app_assoc. cbn [app]. rewrite (collect_path _ _ _ R T W) by lia.
    rewrite collect_comma1, E. cbn [map app]. rewrite <- app_assoc. reflexivity.
  - intros [Ni N]. destruct (IH N) as (l & L & Len & E). exists ([i] :: l). split; [constructor; exact L|].
    split; [intros x [<- |I]; cbn; [lia|apply Len in I; lia]|].
    intros A rest. cbn [map app]. rewrite collect_plain by (apply wordy_plain, number_wordy, Ni).
    rewrite collect_comma1, E. cbn [map app]. rewrite <- app_assoc. reflexivity.
Qed.
Lemma collect_brackets a ts (rest : list token) : tka dc root a ts -> args_named a -> exists l, tkargs a l /\ (forall x, In x l -> (length x <= length ts)%nat) /\
  collect_template_arguments (Some ["<"] :: map Some ts ++ Some [">"] :: rest) = (map (map Some) l, rest).
Proof.
  intros T N. destruct (collect_args T N) as (l & L & Len & E). exists l. split; [exact L|]. split; [exact Len|].
  exact (E [] rest).
Qed.
End Collect.

(** ** Conversion of tokens *)
Definition lead (acc : str) : str := if starts_slash acc then acc else "/" :: acc.
Definition acc_ok (acc : str) : Prop :=
  starts_slash acc = true \/ (noc "010" acc /\ (acc = [] \/ exists c r, acc = c :: r /\ c <> "/" /\ numc c = false)).
Lemma bol_num_free s : noc "010" s -> bol_num false s = false.
Proof.
  induction s as [|c s IH]; intros H; [reflexivity|]. cbn [bol_num]. destruct (Ascii.eqb_spec c "010") as [-> |]; [exfalso; apply H; left; reflexivity|].
  apply IH. intros I. apply H. right. exact I.
Qed.
Lemma bol_num_head c s : noc "010" (c :: s) -> bol_num true (c :: s) = numc c.
Proof.
  intros H. cbn [bol_num]. destruct (Ascii.eqb_spec c "010") as [-> |]; [exfalso; apply H; left; reflexivity|].
  rewrite bol_num_free by (intros I; apply H; right; exact I). rewrite orb_false_r. reflexivity.
Qed.
Lemma numc_iff c : numc c = true <-> In c (s_ "+-0123456789").
Proof. unfold numc. rewrite existsb_in. cbn. tauto. Qed.
Lemma ident_slash id : ident id -> with_slash id = "/" :: id.
Proof.
  intros [S N]. assert (S' := S). destruct S' as (F & (c & r & -> & B) & _). unfold with_slash.
  replace (starts_slash (c :: r)) with false.
  - rewrite bol_num_head by (apply solid_noc; [inl|exact S]). destruct (numc c) eqn:E; [|reflexivity].
    exfalso. apply N. exists c, r. split; [reflexivity|]. apply numc_iff, E.
  - symmetry. cbn. apply Ascii.eqb_neq. intros ->. inversion F as [|? ? H]; subst. apply H. inl.
Qed.
Lemma number_slash i : number i -> with_slash i = i.
Proof.
  intros [S (c & r & -> & I)]. unfold with_slash. rewrite bol_num_head by (apply solid_noc; [inl|exact S]).
  rewrite (proj2 (numc_iff c) I), andb_false_r. reflexivity.
Qed.
Lemma slash_slash s : starts_slash s = true -> with_slash s = s.
Proof. intros H. unfold with_slash. rewrite H. reflexivity. Qed.
Lemma starts_slash_app a b : starts_slash a = true -> starts_slash (a ++ b) = true.
Proof. destruct a; [discriminate|]. auto. Qed.
Lemma ident_first id : ident id -> exists c r, id = c :: r /\ c <> "/" /\ numc c = false.
Proof.
  intros [S N]. assert (S' := S). destruct S' as (F & (c & r & -> & B) & _). exists c, r. split; [reflexivity|]. split.
  - intros ->. inversion F as [|? ? H]; subst. apply H. inl.
  - destruct (numc c) eqn:E; [|reflexivity]. exfalso. apply N. exists c, r. split; [reflexivity|]. apply numc_iff, E.
Qed.
Lemma plain_slash s : noc "010" s -> (exists c r, s = c :: r /\ c <> "/" /\ numc c = false) -> with_slash s = "/" :: s /\ starts_slash s = false.
Proof.
  intros H (c & r & -> & A & B). unfold with_slash. rewrite bol_num_head, B by exact H.
  assert (E : starts_slash (c :: r) = false) by (cbn; apply Ascii.eqb_neq; exact A). rewrite E. split; reflexivity.
Qed.
Lemma word_slash acc id : acc_ok acc -> ident id -> with_slash (acc ++ id) = lead acc ++ id.
Proof.
  intros [H|[H H']] I; [rewrite slash_slash by (apply starts_slash_app, H); unfold lead; rewrite H; reflexivity|].
  destruct (@plain_slash (acc ++ id)) as [E _]; [apply noc_app; [exact H|apply ident_noc; [inl|exact I]]|..].
  - destruct H' as [-> |(c & r & -> & A & B)]; [apply ident_first, I|]. exists c, (r ++ id). auto.
  - rewrite E. unfold lead. destruct H' as [-> |H']; [reflexivity|]. destruct (@plain_slash acc H H') as [_ ->]. reflexivity.
Qed.
Lemma acc_next acc id : acc_ok acc -> ident id -> acc_ok (acc ++ id ++ ["/"]) /\ lead (acc ++ id ++ ["/"]) = lead acc ++ id ++ ["/"].
Proof.
  intros [H|[H H']] I.
  - assert (E := starts_slash_app (id ++ ["/"]) H). split; [left; exact E|]. unfold lead. rewrite E, H. reflexivity.
  - assert (N : noc "010" (acc ++ id ++ ["/"])).
    { apply noc_app; [exact H|]. apply noc_app; [apply ident_noc; [inl|exact I]|]. intros [X|[]]. discriminate. }
    assert (C : exists c r, acc ++ id ++ ["/"] = c :: r /\ c <> "/" /\ numc c = false).
    { destruct H' as [-> |(c & r & -> & A & B)]; [|exists c, (r ++ id ++ ["/"]); auto]. destruct (ident_first I) as (c & r & -> & A & B). exists c, (r ++ ["/"]). auto. }
    split; [right; auto|]. unfold lead. destruct (plain_slash N C) as [_ ->]. destruct H' as [-> |H']; [reflexivity|]. destruct (@plain_slash acc H H') as [_ ->]. reflexivity.
Qed.
Lemma set_last_app l x f : set_last (l ++ [x]) f = Ok (l ++ [f x]).
Proof. induction l as [|y l IH]; [reflexivity|]. cbn [app set_last]. destruct (l ++ [x]) eqn:E; [destruct l; discriminate|]. rewrite <- E in *. rewrite IH. reflexivity. Qed.
Lemma join_arg_names a : join_comma (arg_names a) = wr_args ["/"] ["/"] a.
Proof.
  induction a as [|p a IH|i a IH]; [reflexivity|..].
  - cbn [arg_names wr_args]. destruct a; [cbn [arg_names join_comma comma]; rewrite app_nil_r; reflexivity|..];
    cbn [comma]; rewrite <- IH; unfold tl_name; cbn [arg_names join_comma app]; reflexivity.
  - cbn [arg_names wr_args]. destruct a; [cbn [arg_names join_comma comma]; rewrite app_nil_r; reflexivity|..];
    cbn [comma]; rewrite <- IH; cbn [arg_names join_comma app]; reflexivity.
Qed.
Lemma tka_some dc root a ts : tka dc root a ts -> forall s, brackets a s = "<" :: s ++ [">"].
Proof. destruct 1; reflexivity. Qed.
Lemma root1_acc g : root1 g -> acc_ok g /\ lead g = ["/"].
Proof. intros [-> | ->]; split; try reflexivity; [right; split; [intros []|left; reflexivity]|left; reflexivity]. Qed.
Lemma is_open : is_tok (Some ["<"]) "<" = true. Proof. reflexivity. Qed.
Lemma tcx_word n result (t : str) (r : list token) : plain_tok t -> tcx (S n) result (Some t :: r) = tcx n (result ++ [with_slash t]) r.
Proof. intros (A & _). cbn [tcx]. rewrite A. reflexivity. Qed.
Lemma tcx_nil n result : tcx (S n) result [] = Ok (with_slash (concat result)).
Proof. reflexivity. Qed.
Lemma tcx_open n result (r : list token) targs rest args : collect_template_arguments (Some ["<"] :: r) = (targs, rest) -> map_res (tcx n []) targs = Ok args ->
  forall l x, result = l ++ [x] -> tcx (S n) result (Some ["<"] :: r) = tcx n (l ++ [x ++ "<" :: join_comma args ++ [">"]]) rest.
Proof. intros E M l x ->. cbn [tcx]. rewrite is_open. assert (Q := set_last_app l x (fun x => x ++ "<" :: join_comma args ++ [">"])).
  unfold str in *. rewrite E, M. cbn [bind]. rewrite Q. reflexivity. Qed.
Lemma concat_snoc (l : list str) x : concat (l ++ [x]) = concat l ++ x.
Proof. rewrite concat_app. cbn [concat]. rewrite app_nil_r. reflexivity. Qed.
Lemma root1_wordy g : root1 g -> wordy g.
Proof. intros H. apply root1_ok in H. apply H. Qed.
Lemma tcx_ok n : forall acc p ts, tkp ["/"] root1 acc p ts -> wordy acc -> acc_ok acc -> well_named p -> forall result, (length ts < n)%nat ->
  tcx n result (map Some ts) = Ok (with_slash (concat result ++ lead acc ++ wr ["/"] ["/"] p)).
Proof.
  induction n as [n IHn] using (well_founded_induction lt_wf).
  assert (Args : forall m a l, (m < n)%nat -> tkargs ["/"] root1 a l -> args_named a -> (forall x, In x l -> (length x < m)%nat) ->
            map_res (tcx m []) (map (map Some) l) = Ok (arg_names a)).
  { intros m a l Mn. induction 1 as [|g p ts a l R T L IH|i a l L IH]; intros N Len; [reflexivity|..]; cbn [map map_res arg_names].
    - destruct N as [W N]. destruct (root1_acc R) as [Ag Lg].
      rewrite (IHn m Mn _ _ _ T (root1_wordy R) Ag W []) by (apply Len; left; reflexivity). cbn [concat app bind].
      rewrite IH by (auto; intros; apply Len; right; assumption). cbn [bind]. rewrite Lg. rewrite slash_slash by reflexivity. reflexivity.
    - destruct N as [Ni N]. assert (Lm : (1 < m)%nat) by (apply (Len [i]); left; reflexivity).
      assert (E : tcx m [] [Some i] = Ok i).
      { destruct m as [|[|m]]; [lia|lia|]. rewrite tcx_word by (apply wordy_plain, number_wordy, Ni). rewrite tcx_nil. cbn [app concat].
        rewrite app_nil_r, !(number_slash Ni). reflexivity. }
      rewrite E. cbn [bind]. rewrite IH by (auto; intros; apply Len; right; assumption). reflexivity. }
  intros acc p ts T. induction T as [acc id|acc id a ts T|acc id p ts T IH|acc id a ts p ts' T T' IH']; intros Wa Aa W result Len.
  - destruct W as [I _]. destruct n as [|[|n]]; [cbn in Len; lia|cbn in Len; lia|]. cbn [map].
    rewrite tcx_word by (apply wordy_plain, wordy_app; [exact Wa|apply ident_wordy, I]). rewrite tcx_nil, concat_snoc, (word_slash Aa I).
    cbn [wr brackets]. rewrite app_nil_r. reflexivity.
  - destruct W as [I N]. cbn [length] in Len. rewrite app_length in Len. cbn [length] in Len. destruct n as [|[|[|n]]]; try lia.
    cbn [map]. rewrite tcx_word by (apply wordy_plain, wordy_app; [exact Wa|apply ident_wordy, I]). rewrite map_app. cbn [map].
    destruct (@collect_brackets ["/"] root1 wordy_slash root1_wordy a ts [] T N) as (l & L & Ll & E).
    rewrite (@tcx_open _ _ _ _ _ (arg_names a) E (Args (S n) _ _ ltac:(lia) L N ltac:(intros x Ix; apply Ll in Ix; lia)) _ _ eq_refl).
    rewrite tcx_nil, concat_snoc, (word_slash Aa I). cbn [wr]. rewrite (tka_some T), join_arg_names.
    rewrite <- !app_assoc. reflexivity.
  - destruct W as (I & _ & W). destruct (acc_next Aa I) as [An Ln].
    rewrite IH; auto; [|apply wordy_app; [exact Wa|]; apply wordy_app; [apply ident_wordy, I|apply wordy_slash]].
    rewrite Ln. cbn [wr brackets app]. rewrite <- !app_assoc. reflexivity.
  - destruct W as (I & N & W). cbn [length] in Len. rewrite app_length in Len. cbn [length] in Len. destruct n as [|[|[|n]]]; try lia.
    cbn [map]. rewrite tcx_word by (apply wordy_plain, wordy_app; [exact Wa|apply ident_wordy, I]). rewrite map_app. cbn [map].
    destruct (@collect_brackets ["/"] root1 wordy_slash root1_wordy a ts (map Some ts') T N) as (l & L & Ll & E).
    rewrite (@tcx_open _ _ _ _ _ (arg_names a) E (Args (S n) _ _ ltac:(lia) L N ltac:(intros x Ix; apply Ll in Ix; lia)) _ _ eq_refl).
    rewrite (IHn (S n) ltac:(lia) _ _ _ T' wordy_slash (or_introl eq_refl) W) by lia.
    rewrite concat_snoc, (word_slash Aa I). cbn [wr]. rewrite (tka_some T), join_arg_names.
    rewrite <- !app_assoc. cbn [app]. rewrite <- !app_assoc. reflexivity.
Qed.

Lemma cxx_to_typelib_ok s p : spells s p -> well_named p -> cxx_to_typelib s = Ok (tl_name p).
Proof.
  intros S W. destruct (@tok_spelling ["/"] root1 wordy_slash starts_slash_ root1_ok _ _ (g2_spells S W) W) as (g & ts & R & T & E).
  unfold cxx_to_typelib. fold g2. unfold template_tokenizer in *. rewrite (@tok_g3 (length (g2 s))) by lia. rewrite E. 
  destruct (root1_acc R) as [Ag Lg]. rewrite (@tcx_ok _ _ _ _ T (root1_wordy R) Ag W) by (rewrite map_length; lia).
  cbn [concat app]. rewrite Lg. rewrite slash_slash by reflexivity. reflexivity.
Qed.
