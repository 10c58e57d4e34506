(** * NameConvBack: typelibToCxxName along the grammar of names. *)
From Verif Require Import Base Names NamesSpec NamesProofs NameConv NameConvSpec NameConvProofs NameConvPath.
Local Open Scope char_scope.

Notation Q1 := (rep 0 ["/"] [":"; ":"]).
Notation Q2 := (rep 0 ["<"; ":"; ":"] ["<"]).
Notation Q3 := (rep 0 [","; ":"; ":"] [","]).
Lemma back_pipeline n : typelibToCxxName n = Ok (let s3 := Q3 (Q2 (Q1 n)) in if (2 <? length s3)%nat && str_eqb (substr s3 0 2) (s_ "::") then skipn 2 s3 else s3).
Proof. unfold typelibToCxxName. rewrite replace_rep by discriminate. cbn [bind]. rewrite replace_rep by discriminate. cbn [bind]. rewrite replace_rep by discriminate. reflexivity. Qed.
Lemma q1_app a b : Q1 (a ++ b) = Q1 a ++ Q1 b.
Proof. apply rep_app; [lia|]. intros a1 s1 s2 b1 _ _ E N1 N2. destruct s1 as [|u [|v s1]]; [congruence| |discriminate]. destruct s2; [congruence|discriminate]. Qed.
Lemma q1_cons c s : Q1 (c :: s) = (if ceqb c "/" then [":"; ":"] else [c]) ++ Q1 s.
Proof. change (c :: s) with ([c] ++ s). rewrite q1_app. f_equal. cbn. rewrite andb_true_r. unfold ceqb. rewrite Ascii.eqb_sym. destruct (c =? "/"); reflexivity. Qed.
Lemma rep_app_l from to a b l : stops l a -> ~ In l from -> rep 0 from to (a ++ b) = rep 0 from to a ++ rep 0 from to b.
Proof.
  intros [m ->] N. apply rep_app; [lia|]. intros a1 s1 s2 b1 Ea _ Ef N1 _. apply N. rewrite Ef. apply in_or_app. left. destruct (exists_last N1) as (s & z & ->). rewrite app_assoc in Ea. apply app_inj_tail in Ea. destruct Ea as [_ ->]. apply in_or_app. right. left. reflexivity.
Qed.
Lemma rep3_cons x y z to c s : c <> x -> rep 0 [x; y; z] to (c :: s) = c :: rep 0 [x; y; z] to s.
Proof. intros N. cbn [rep has_prefix]. unfold ceqb. destruct (Ascii.eqb_spec x c); [congruence|reflexivity]. Qed.
Lemma rep3_keep x y z to h s : h <> y -> rep 0 [x; y; z] to (x :: h :: s) = x :: rep 0 [x; y; z] to (h :: s).
Proof. intros N. cbn [rep has_prefix]. unfold ceqb. destruct (Ascii.eqb_spec y h); [congruence|]. cbn [andb]. rewrite andb_false_r. reflexivity. Qed.
Lemma rep3_hit x y z to s : rep 0 [x; y; z] to (x :: y :: z :: s) = to ++ rep 0 [x; y; z] to s.
Proof. cbn [rep has_prefix]. unfold ceqb. rewrite !Ascii.eqb_refl. cbn [andb length Nat.sub]. destruct s; reflexivity. Qed.

Definition back (p c t : str) : Prop := exists h l u u2, hok h /\ lok l /\ Q1 t = p ++ u /\ Q2 u = u2 /\ Q3 u2 = c /\ ends h l u /\ ends h l u2.
Definition prefix_ok (p : str) : Prop := p = [] \/ p = [":"; ":"].
Lemma lok_not l from : lok l -> (forall z, In z from -> In z (s_ ": ,</[")) -> ~ In l from.
Proof. intros H K X. exact (H (K l X)). Qed.
Ltac sub := let z := fresh in let H := fresh in intros z H; cbn in *; tauto.
Lemma plain_back p h l s : plain s -> ends h l s -> hok h -> lok l -> forall t, Q1 t = p ++ s -> back p s t.
Proof.
  intros Pl E Hh Hl t Et. exists h, l, s, s. split; [exact Hh|]. split; [exact Hl|]. split; [exact Et|]. split; [|split; [|auto]].
  - apply (@rep_none _ _ _ "<"); [discriminate|cbn; tauto|]. apply plain_not; [exact Pl|cbn; tauto].
  - apply (@rep_none _ _ _ ","); [discriminate|cbn; tauto|]. apply plain_not; [exact Pl|cbn; tauto].
Qed.
Lemma plain_q1 s : plain s -> Q1 s = s.
Proof. intros Pl. apply (@rep_none _ _ _ "/"); [discriminate|cbn; tauto|]. apply plain_not; [exact Pl|cbn; tauto]. Qed.
Lemma word_back w k : cxx_word w -> back [":"; ":"] (w ++ repeat "*" k) (sep :: w ++ repeat "*" k).
Proof.
  intros H. destruct (cxx_word_conv k H) as (h & l & Hh & _ & Hl & _ & St & Pl). apply (plain_back Pl (en_0 St) Hh Hl). unfold sep. rewrite q1_cons. change (ceqb "/" "/") with true. cbv iota. rewrite plain_q1 by exact Pl. reflexivity.
Qed.
Lemma int_back i : integer i -> back [] i i.
Proof.
  intros H. assert (C := int_conv H). destruct H as [Ni Fi]. assert (Pl : plain i). { eapply Forall_impl; [|exact Fi]. cbn beta. intros c [-> |Hc]; [cbn; intuition discriminate|]. apply digit_num in Hc. destruct Hc as [_ Hc]. cbn in *. tauto. }
  destruct C as (h & l & c1 & c2 & c3 & c5 & c6 & Hh & Hl & St & _). apply (plain_back Pl (en_0 St) Hh Hl). apply plain_q1. exact Pl.
Qed.
Lemma tmpl_back w p a ta : cxx_word w -> prefix_ok p -> back p a ta -> back [":"; ":"] (w ++ "<" :: a ++ [">"]) (sep :: w ++ "<" :: ta ++ [">"]).
Proof.
  intros Hw Hp (h & l & u & u2 & Hh & Hl & E1 & E2 & E3 & Nu & Nu2). destruct (cxx_word_conv 0 Hw) as (hw & lw & Hhw & _ & Hlw & _ & W & Pl). cbn [repeat] in *. rewrite app_nil_r in *. assert (Ew := en_0 W).
  exists hw, ">", (w ++ "<" :: p ++ u ++ [">"]), (w ++ "<" :: u2 ++ [">"]). split; [exact Hhw|]. split; [unfold lok; cbn; intuition discriminate|]. split; [|split; [|split; [|split]]].
  - unfold sep. rewrite q1_cons. change (ceqb "/" "/") with true. cbv iota. rewrite q1_app, plain_q1 by exact Pl. rewrite q1_cons. change (ceqb "<" "/") with false. cbv iota. rewrite q1_app, E1. rewrite <- !app_assoc. reflexivity.
  - rewrite (@rep_app_l _ _ _ _ lw) by (try exact (proj2 Ew); apply (lok_not Hlw); sub). f_equal; [apply (@rep_none _ _ _ "<"); [discriminate|cbn; tauto|]; apply plain_not; [exact Pl|cbn; tauto]|].
    assert (Eu : Q2 (u ++ [">"]) = u2 ++ [">"]) by (rewrite (@rep_app_l _ _ _ _ l) by (try exact (proj2 Nu); apply (lok_not Hl); sub); rewrite E2; reflexivity).
    destruct Hp as [-> | ->]; cbn [app]; [|rewrite rep3_hit, Eu; reflexivity]. destruct Nu as [[m Em] _]. rewrite Em in *. cbn [app] in *. rewrite rep3_keep, Eu by (intros ->; apply Hh; cbn; tauto). reflexivity.
  - rewrite (@rep_app_l _ _ _ _ lw) by (try exact (proj2 Ew); apply (lok_not Hlw); sub). f_equal; [apply (@rep_none _ _ _ ","); [discriminate|cbn; tauto|]; apply plain_not; [exact Pl|cbn; tauto]|].
    rewrite rep3_cons by discriminate. f_equal. rewrite (@rep_app_l _ _ _ _ l) by (try exact (proj2 Nu2); apply (lok_not Hl); sub). rewrite E3. reflexivity.
  - rewrite (app_assoc p u). apply (@ends_one hw lw w ("<" :: (p ++ u)) ">" Ew).
  - apply (@ends_one hw lw w ("<" :: u2) ">" Ew).
Qed.
Lemma path_back p c t c' t' : back p c t -> back [":"; ":"] c' t' -> back p (c ++ ":" :: ":" :: c') (t ++ t').
Proof.
  intros (h & l & u & u2 & Hh & Hl & E1 & E2 & E3 & Nu & Nu2) (h' & l' & v & v2 & Hh' & Hl' & F1 & F2 & F3 & Nv & Nv2). exists h, l', (u ++ ":" :: ":" :: v), (u2 ++ ":" :: ":" :: v2). split; [exact Hh|]. split; [exact Hl'|]. split; [|split; [|split; [|split]]].
  - rewrite q1_app, E1, F1, <- app_assoc. reflexivity.
  - rewrite (@rep_app_l _ _ _ _ l) by (try exact (proj2 Nu); apply (lok_not Hl); sub). rewrite E2, !rep3_cons, F2 by discriminate. reflexivity.
  - rewrite (@rep_app_l _ _ _ _ l) by (try exact (proj2 Nu2); apply (lok_not Hl); sub). rewrite E3, !rep3_cons, F3 by discriminate. reflexivity.
  - apply (@ends_mid h l u v h' l' [":"; ":"] Nu Nv).
  - apply (@ends_mid h l u2 v2 h' l' [":"; ":"] Nu2 Nv2).
Qed.
Lemma comma_back p c t q a ta : prefix_ok q -> back p c t -> back q a ta -> back p (c ++ "," :: a) (t ++ "," :: ta).
Proof.
  intros Hq (h & l & u & u2 & Hh & Hl & E1 & E2 & E3 & Nu & Nu2) (h' & l' & v & v2 & Hh' & Hl' & F1 & F2 & F3 & Nv & Nv2). exists h, l', (u ++ "," :: q ++ v), (u2 ++ "," :: q ++ v2). split; [exact Hh|]. split; [exact Hl'|]. split; [|split; [|split; [|split]]].
  - rewrite q1_app, E1, q1_cons, F1, <- app_assoc. reflexivity.
  - rewrite (@rep_app_l _ _ _ _ l) by (try exact (proj2 Nu); apply (lok_not Hl); sub). rewrite E2, rep3_cons by discriminate. do 2 f_equal. destruct Hq as [-> | ->]; cbn [app]; [exact F2|]. rewrite !rep3_cons, F2 by discriminate. reflexivity.
  - rewrite (@rep_app_l _ _ _ _ l) by (try exact (proj2 Nu2); apply (lok_not Hl); sub). rewrite E3. f_equal. destruct Hq as [-> | ->]; cbn [app]; [|rewrite rep3_hit, F3; reflexivity].
    destruct Nv2 as [[m Em] _]. rewrite Em in *. rewrite rep3_keep, F3 by (intros ->; apply Hh'; cbn; tauto). reflexivity.
  - apply (@ends_mid h l u v h' l' ("," :: q) Nu Nv).
  - apply (@ends_mid h l u2 v2 h' l' ("," :: q) Nu2 Nv2).
Qed.
Lemma dims_back p c t d : back p c t -> g_dims d -> back p (c ++ d) (t ++ d).
Proof.
  intros (h & l & u & u2 & Hh & Hl & E1 & E2 & E3 & Nu & Nu2) Hd. destruct (dims_all Hd) as [Fd Ed]. destruct Ed as [-> |Ed]; [rewrite !app_nil_r; exists h, l, u, u2; auto 10|].
  assert (Nd : forall z, In z (s_ ":/<>, ") -> ~ In z d). { intros z Hz Hi. rewrite Forall_forall in Fd. apply Fd in Hi. destruct Hi as [-> |[-> |Hi]]; [cbn in Hz; intuition discriminate|cbn in Hz; intuition discriminate|]. apply digit_num in Hi. cbn in Hz, Hi. tauto. }
  exists h, "]", (u ++ d), (u2 ++ d). split; [exact Hh|]. split; [unfold lok; cbn; intuition discriminate|]. split; [|split; [|split; [|split]]].
  - rewrite q1_app, E1, <- app_assoc. do 2 f_equal. apply (@rep_none _ _ _ "/"); [discriminate|cbn; tauto|apply Nd; cbn; tauto].
  - rewrite (@rep_app_l _ _ _ _ l) by (try exact (proj2 Nu); apply (lok_not Hl); sub). rewrite E2. f_equal. apply (@rep_none _ _ _ "<"); [discriminate|cbn; tauto|apply Nd; cbn; tauto].
  - rewrite (@rep_app_l _ _ _ _ l) by (try exact (proj2 Nu2); apply (lok_not Hl); sub). rewrite E3. f_equal. apply (@rep_none _ _ _ ","); [discriminate|cbn; tauto|apply Nd; cbn; tauto].
  - exact (ends_app Nu Ed).
  - exact (ends_app Nu2 Ed).
Qed.
Definition compact_comma : str -> str -> Prop := fun x _ => x = [].
Lemma cxx_back : (forall c t, cxx_elem compact_comma false c t -> back [":"; ":"] c t) /\ (forall c t, cxx_path compact_comma false c t -> back [":"; ":"] c t) /\
  (forall c t, cxx_args compact_comma false c t -> exists p, prefix_ok p /\ back p c t).
Proof.
  assert (Sp : forall x, space false x -> x = []) by (intros x [H|[H _]]; [exact H|discriminate]). apply cxx_mutind.
  - intros w H. assert (X := word_back 0 H). cbn [repeat] in X. rewrite app_nil_r in X. exact X.
  - intros w a ta x Hw _ (p & Hp & IH) Hx _. rewrite (Sp x Hx). apply (tmpl_back Hw Hp IH).
  - auto.
  - intros w k H. apply word_back. exact H.
  - intros c t c' t' _ IH _ IH'. apply path_back; assumption.
  - intros c t x d _ IH Hd Hx _. rewrite (Sp x Hx). exists [":"; ":"]. split; [right; reflexivity|]. apply dims_back; assumption.
  - intros i H. exists []. split; [left; reflexivity|]. apply int_back. exact H.
  - intros c t x a ta _ IH _ (q & Hq & IH') ->. exists [":"; ":"]. split; [right; reflexivity|]. apply (comma_back Hq IH IH').
  - intros i x a ta Hi _ (q & Hq & IH) ->. exists []. split; [left; reflexivity|]. apply (comma_back Hq (int_back Hi) IH).
Qed.
Lemma compact_back c t : compact c t -> typelibToCxxName t = Ok c.
Proof.
  intros [c0 t0 x d Hp Hd Hx _]. assert (Ex : x = []) by (destruct Hx as [H|[H _]]; [exact H|discriminate]). subst x. cbn [app]. apply (proj1 (proj2 cxx_back)) in Hp. destruct (dims_back Hp Hd) as (h & l & u & u2 & Hh & Hl & E1 & E2 & E3 & Nu & Nu2).
  rewrite back_pipeline, E1. cbn [app]. rewrite !rep3_cons by discriminate. rewrite E2, E3. cbv zeta. destruct (c0 ++ d) as [|y r] eqn:Ec.
  - exfalso. destruct Nu2 as [[m Em] _]. rewrite Em, rep3_cons in E3 by (intros ->; apply Hh; cbn; tauto). discriminate.
  - reflexivity.
Qed.
(** A stricter style is another style. *)
Lemma cxx_style (k k' : str -> str -> Prop) b b' : (forall x a, k x a -> k' x a) -> (b = true -> b' = true) ->
  (forall c t, cxx_elem k b c t -> cxx_elem k' b' c t) /\ (forall c t, cxx_path k b c t -> cxx_path k' b' c t) /\ (forall c t, cxx_args k b c t -> cxx_args k' b' c t).
Proof.
  intros Hk Hb. assert (Sp : forall x, space b x -> space b' x) by (intros x [H|[H E]]; [left; exact H|right; auto]). apply cxx_mutind; intros.
  - apply ce_word; assumption.
  - apply ce_tmpl; auto.
  - apply cp_one; assumption.
  - apply cp_ptr; assumption.
  - apply cp_cons; assumption.
  - apply ca_last; auto.
  - apply ca_last_int; assumption.
  - apply ca_path; auto.
  - apply ca_int; auto.
Qed.
Lemma name_style (k k' : str -> str -> Prop) b b' : (forall x a, k x a -> k' x a) -> (b = true -> b' = true) -> forall c t, cxx_name k b c t -> cxx_name k' b' c t.
Proof. intros Hk Hb c t [c0 t0 x d Hp Hd Hx Hx']. apply cn; [apply (proj1 (proj2 (cxx_style Hk Hb))); exact Hp|exact Hd|destruct Hx as [H|[H E]]; [left; exact H|right; auto]|exact Hx']. Qed.
(** The type names are those of the grammar of names. *)
Lemma cxx_grammar k b : (forall c t, cxx_elem k b c t -> g_elem t) /\ (forall c t, cxx_path k b c t -> g_path t) /\ (forall c t, cxx_args k b c t -> g_args t).
Proof.
  apply cxx_mutind; intros.
  - apply ge_word. destruct H; assumption.
  - apply ge_tmpl; [destruct H; assumption|assumption].
  - apply gp_one; assumption.
  - apply gp_ptr. destruct H; assumption.
  - apply gp_cons; assumption.
  - apply ga_last; assumption.
  - apply ga_last_int; assumption.
  - apply ga_path; assumption.
  - apply ga_int; assumption.
Qed.
