(** * NameConvPath: the conversions along the grammar of names. *)
From Verif Require Import Base Names NamesSpec NamesProofs NameConv NameConvSpec NameConvProofs.
Local Open Scope char_scope.

Scheme cxx_elem_mind := Minimality for cxx_elem Sort Prop
  with cxx_path_mind := Minimality for cxx_path Sort Prop
  with cxx_args_mind := Minimality for cxx_args Sort Prop.
Combined Scheme cxx_mutind from cxx_elem_mind, cxx_path_mind, cxx_args_mind.

Notation P1 := (rep 0 [":"; ":"] ["/"]).
Notation P2 := (rep 0 [" "; "["] ["["]).
Notation P3 := (rep 0 [">"; " "] [">"]).
Notation P4 := (rep 0 ["<"; " "] ["<"]).
Notation P5 := (rep 0 [","; " "] [","; "/"]).
Definition starts (y : ascii) (b : str) : Prop := exists m, b = y :: m.
Definition stops (x : ascii) (a : str) : Prop := exists m, a = m ++ [x].
Lemma rep2_app x y to a b : ~ stops x a \/ ~ starts y b -> rep 0 [x; y] to (a ++ b) = rep 0 [x; y] to a ++ rep 0 [x; y] to b.
Proof.
  intros H. apply rep_app; [lia|]. intros a1 s1 s2 b1 Ea Eb Ef N1 N2. destruct s1 as [|u s1]; [congruence|]. cbn in Ef. injection Ef as <- Ef. destruct s1 as [|v s1].
  - cbn in Ef. subst s2. destruct H as [H|H]; apply H; [exists a1; exact Ea|exists b1; exact Eb].
  - cbn in Ef. injection Ef as <- Ef. symmetry in Ef. apply app_eq_nil in Ef. destruct Ef; congruence.
Qed.
Lemma rep2_cons x y to c s : c <> x -> rep 0 [x; y] to (c :: s) = c :: rep 0 [x; y] to s.
Proof. intros N. cbn [rep has_prefix]. unfold ceqb. destruct (Ascii.eqb_spec x c); [congruence|reflexivity]. Qed.
Lemma rep2_keep x y to h s : h <> y -> rep 0 [x; y] to (x :: h :: s) = x :: rep 0 [x; y] to (h :: s).
Proof. intros N. cbn [rep has_prefix]. unfold ceqb. destruct (Ascii.eqb_spec y h); [congruence|]. rewrite andb_false_r. reflexivity. Qed.
Lemma rep2_hit x y to s : rep 0 [x; y] to (x :: y :: s) = to ++ rep 0 [x; y] to s.
Proof. cbn [rep has_prefix]. unfold ceqb. rewrite !Ascii.eqb_refl. cbn [andb length Nat.sub]. destruct s; reflexivity. Qed.
Lemma rep_none from to s z : from <> [] -> In z from -> ~ In z s -> rep 0 from to s = s.
Proof. intros Hf Hi Hn. apply (rep_absent to Hf). intros a b E. apply Hn. rewrite E. apply in_or_app. right. apply in_or_app. left. exact Hi. Qed.
Lemma ang_app a b a' : ~ stops "<" a -> ang a = Some a' -> ang (a ++ b) = option_map (app a') (ang b).
Proof.
  revert a'. induction a as [|c a IH]; intros a' N E; [injection E as <-; cbn; destruct (ang b); reflexivity|]. assert (N' : a <> [] -> ~ stops "<" a) by (intros _ [m ->]; apply N; exists (c :: m); reflexivity).
  cbn [app ang] in *. unfold ceqb in *. destruct (Ascii.eqb_spec c "<") as [-> |Ec].
  - destruct a as [|d a]; [destruct N; exists []; reflexivity|]. destruct (ang (d :: a)) as [x|] eqn:Ex; [|discriminate]. injection E as <-. cbn [app]. change (d :: a ++ b) with ((d :: a) ++ b). rewrite (IH x (N' ltac:(discriminate)) eq_refl).
    destruct (ang b); cbn [option_map]; [|reflexivity]. f_equal. destruct (d =? "/")%char; reflexivity.
  - destruct (ang a) as [x|] eqn:Ex; [|discriminate]. injection E as <-. destruct a as [|d a]; [injection Ex as <-; cbn; destruct (ang b); reflexivity|]. rewrite (IH x (N' ltac:(discriminate)) eq_refl). destruct (ang b); reflexivity.
Qed.
Lemma ang_lt h s : h <> "/" -> ang ("<" :: h :: s) = option_map (fun x => "<" :: "/" :: x) (ang (h :: s)).
Proof. intros N. change (ang ("<" :: h :: s)) with (option_map (fun x => "<" :: (if ceqb h "/" then x else "/" :: x)) (ang (h :: s))). unfold ceqb. destruct (Ascii.eqb_spec h "/"); [congruence|reflexivity]. Qed.
Lemma sl_app a b : ~ stops "/" a -> sl (a ++ b) = sl a ++ sl b.
Proof.
  induction a as [|c a IH]; intros N; [reflexivity|]. destruct a as [|d a].
  - cbn [app sl]. unfold ceqb. destruct (Ascii.eqb_spec c "/") as [-> |Ec]; [destruct N; exists []; reflexivity|reflexivity].
  - assert (E : sl ((d :: a) ++ b) = sl (d :: a) ++ sl b) by (apply IH; intros [m Em]; apply N; exists (c :: m); rewrite Em; reflexivity).
    change ((c :: d :: a) ++ b) with (c :: d :: (a ++ b)). change ((d :: a) ++ b) with (d :: (a ++ b)) in E. cbn [sl] in *. destruct (ceqb c "/"); [|cbn [app]; rewrite E; reflexivity]. destruct (num d); [exact E|cbn [app]; rewrite E; reflexivity].
Qed.
Lemma stops_app x a b : b <> [] -> stops x (a ++ b) -> stops x b.
Proof. intros Nb [m E]. destruct (exists_last Nb) as (b' & z & ->). rewrite app_assoc in E. apply app_inj_tail in E. destruct E as [_ ->]. exists b'. reflexivity. Qed.
Lemma stops_last x m y : stops x (m ++ [y]) -> x = y.
Proof. intros [n E]. apply app_inj_tail in E. destruct E; congruence. Qed.

(** ** The pass through all stages *)
Definition hok (h : ascii) : Prop := ~ In h (s_ ":/ [<>,").
Definition lok (l : ascii) : Prop := ~ In l (s_ ": ,</[").
Definition ends (h l : ascii) (x : str) : Prop := starts h x /\ stops l x.
Record stages (h l : ascii) (c c1 c2 c3 c5 c6 : str) : Prop := {
  st_1 : P1 c = c1; st_2 : P2 c1 = c2; st_3 : P3 c2 = c3; st_4 : P4 c3 = c3; st_5 : P5 c3 = c5; st_6 : ang c5 = Some c6;
  en_0 : ends h l c; en_1 : ends h l c1; en_2 : ends h l c2; en_3 : ends h l c3; en_5 : ends h l c5; en_6 : ends h l c6
}.
Definition conv (c t : str) : Prop := exists h l c1 c2 c3 c5 c6, hok h /\ lok l /\ stages h l c c1 c2 c3 c5 c6 /\ sl ("/" :: c6) = t.
Lemma ends_app h l a b h' l' : ends h l a -> ends h' l' b -> ends h l' (a ++ b).
Proof. intros [(m & ->) _] [_ (n & ->)]. split; [exists (m ++ n ++ [l']); reflexivity|exists ((h :: m) ++ n); rewrite app_assoc; reflexivity]. Qed.
Lemma ends_mid h l a b h' l' z : ends h l a -> ends h' l' b -> ends h l' (a ++ z ++ b).
Proof. intros [(m & ->) _] [_ (n & ->)]. split; [exists (m ++ z ++ n ++ [l']); reflexivity|exists ((h :: m) ++ z ++ n); rewrite <- !app_assoc; reflexivity]. Qed.
Lemma ends_not_stop h l a x : ends h l a -> x <> l -> ~ stops x a.
Proof. intros [_ (m & ->)] N S. apply stops_last in S. congruence. Qed.
Lemma ends_not_start h l a x : ends h l a -> x <> h -> ~ starts x a.
Proof. intros [(m & ->) _] N [k E]. injection E as -> ->. congruence. Qed.
(** Strings that all stages leave alone. *)
Definition plain (s : str) : Prop := Forall (fun c => ~ In c (s_ ":/[<>,")) s.
Lemma plain_not s z : plain s -> In z (s_ ":/[<>,") -> ~ In z s.
Proof. intros H Hz Hi. unfold plain in H. rewrite Forall_forall in H. exact (H z Hi Hz). Qed.
Lemma plain_stages h l s : plain s -> ends h l s -> stages h l s s s s s s.
Proof.
  intros H E. constructor; try exact E.
  - apply (@rep_none _ _ _ ":"); [discriminate|cbn; tauto|]. apply plain_not; [exact H|cbn; tauto].
  - apply (@rep_none _ _ _ "["); [discriminate|cbn; tauto|]. apply plain_not; [exact H|cbn; tauto].
  - apply (@rep_none _ _ _ ">"); [discriminate|cbn; tauto|]. apply plain_not; [exact H|cbn; tauto].
  - apply (@rep_none _ _ _ "<"); [discriminate|cbn; tauto|]. apply plain_not; [exact H|cbn; tauto].
  - apply (@rep_none _ _ _ ","); [discriminate|cbn; tauto|]. apply plain_not; [exact H|cbn; tauto].
  - rewrite <- (app_nil_r s). rewrite ang_pre; [reflexivity|]. apply plain_not; [exact H|cbn; tauto].
Qed.
Lemma word_char_plain c : word_char c -> ~ In c (s_ ":/[<>,") /\ c <> "*".
Proof. unfold word_char, letters, digits. cbn. intros H. decompose [or] H; subst; try contradiction; split; try discriminate; intros X; decompose [or] X; try discriminate; contradiction. Qed.
Lemma digit_num c : digit c -> num c = true /\ ~ In c (s_ ":/ [<>,").
Proof. unfold digit, digits. cbn. intros H. decompose [or] H; subst; try contradiction; split; try reflexivity; intros X; decompose [or] X; try discriminate; contradiction. Qed.
Lemma num_digit c : num c = true -> digit c \/ c = "-".
Proof.
  destruct c as [[] [] [] [] [] [] [] []]; vm_compute; intros H; try discriminate H; tauto.
Qed.
Lemma cxx_word_conv w k : cxx_word w -> exists h l, hok h /\ num h = false /\ lok l /\ l <> ">" /\ stages h l (w ++ repeat "*" k) (w ++ repeat "*" k) (w ++ repeat "*" k) (w ++ repeat "*" k) (w ++ repeat "*" k) (w ++ repeat "*" k) /\ plain (w ++ repeat "*" k).
Proof.
  intros ((Wn & Wc) & (h & r & -> & Hd & Hs) & (r' & l & El & Ls)). rewrite Forall_forall in Wc. assert (Hh := Wc h (or_introl eq_refl)). assert (Hl : word_char l) by (apply Wc; rewrite El; apply in_or_app; right; left; reflexivity).
  assert (Pl : plain ((h :: r) ++ repeat "*" k)). { apply Forall_app. split; [apply Forall_forall; intros c Hc; apply word_char_plain; apply Wc; exact Hc|]. apply Forall_forall. intros c Hc. apply repeat_spec in Hc. subst c. cbn. intuition discriminate. }
  exists h, (match k with 0 => l | _ => "*" end). apply word_char_plain in Hh. destruct Hh as [Hh _]. apply word_char_plain in Hl. destruct Hl as [Hl _].
  assert (E : ends h (match k with 0 => l | _ => "*" end) ((h :: r) ++ repeat "*" k)).
  { split; [exists (r ++ repeat "*" k); reflexivity|]. destruct k; [exists r'; cbn [repeat]; rewrite app_nil_r; exact El|]. exists ((h :: r) ++ repeat "*" k). rewrite <- app_assoc. f_equal. replace (S k) with (k + 1)%nat by lia. rewrite repeat_app. reflexivity. }
  split; [unfold hok; cbn in *; intuition congruence|]. split; [destruct (num h) eqn:En; [|reflexivity]; apply num_digit in En; destruct En as [En| ->]; [contradiction|cbn in Hh; tauto || (specialize (Wc "-" (or_introl eq_refl)); unfold word_char, letters, digits in Wc; cbn in Wc; decompose [or] Wc; discriminate || contradiction)]|].
  split; [destruct k; [unfold lok; cbn in *; intuition congruence|unfold lok; cbn; intuition discriminate]|]. split; [destruct k; [intros ->; apply Hl; cbn; tauto|discriminate]|]. split; [apply plain_stages; assumption|assumption].
Qed.
Ltac notin := unfold lok, hok; cbn; intuition discriminate.
Ltac neq_l H := let X := fresh in intros X; subst; apply H; cbn; tauto.
Lemma plain_sl s : plain s -> sl s = s.
Proof. intros H. rewrite <- (app_nil_r s) at 1. rewrite sl_pre; [cbn; apply app_nil_r|]. apply plain_not; [exact H|cbn; tauto]. Qed.
Lemma sl_slash_head h r : num h = false -> sl ("/" :: h :: r) = "/" :: sl (h :: r).
Proof. intros E. cbn [sl]. change (ceqb "/" "/") with true. cbv iota. rewrite E. reflexivity. Qed.
Lemma word_conv w k : cxx_word w -> conv (w ++ repeat "*" k) (sep :: w ++ repeat "*" k).
Proof.
  intros H. destruct (cxx_word_conv k H) as (h & l & Hh & Hn & Hl & _ & St & Pl). exists h, l. do 5 eexists. split; [exact Hh|]. split; [exact Hl|]. split; [exact St|].
  destruct (en_0 St) as [[m Em] _]. rewrite Em in *. rewrite sl_slash_head by exact Hn. rewrite plain_sl by exact Pl. reflexivity.
Qed.
Lemma ends_pre h l w z b h' l' : ends h l w -> ends h' l' b -> ends h l' (w ++ z :: b).
Proof. apply (@ends_mid h l w b h' l' [z]). Qed.
Lemma ends_one h l w z y : ends h l w -> ends h y (w ++ z ++ [y]).
Proof. intros E. eapply ends_mid; [exact E|]. split; [exists []; reflexivity|exists []; reflexivity]. Qed.
(** A word, and arguments between brackets. *)
Lemma tmpl_conv w a ta x : cxx_word w -> conv a ta -> x = [] \/ x = [" "] -> (x = [] \/ exists b, a = b ++ [">"]) -> conv (w ++ "<" :: a ++ x ++ [">"]) (sep :: w ++ "<" :: ta ++ [">"]).
Proof.
  intros Hw (ha & la & a1 & a2 & a3 & a5 & a6 & Hha & Hla & A & Ea) Hx Hx'. destruct (cxx_word_conv 0 Hw) as (h & l & Hh & Hn & Hl & Lg & W & Pl). cbn [repeat] in *. rewrite app_nil_r in *.
  destruct A as [S1 S2 S3 S4 S5 S6 N0 N1 N2 N3 N5 N6]. assert (Ew := en_0 W).
  assert (La : forall z, In z (s_ ": ,</[") -> z <> la) by (intros z Hz ->; exact (Hla Hz)). assert (Lw : forall z, In z (s_ ": ,</[") -> z <> l) by (intros z Hz ->; exact (Hl Hz)). assert (Ha : forall z, In z (s_ ":/ [<>,") -> z <> ha) by (intros z Hz ->; exact (Hha Hz)).
  exists h, ">", (w ++ "<" :: a1 ++ x ++ [">"]), (w ++ "<" :: a2 ++ x ++ [">"]), (w ++ "<" :: a3 ++ [">"]), (w ++ "<" :: a5 ++ [">"]), (w ++ "<" :: "/" :: a6 ++ [">"]).
  split; [exact Hh|]. split; [notin|]. split; [|].
  - constructor.
    + rewrite rep2_app by (left; eapply ends_not_stop; [exact Ew|apply Lw; cbn; tauto]). rewrite (st_1 W). f_equal. rewrite rep2_cons by discriminate. f_equal.
      rewrite rep2_app by (left; eapply ends_not_stop; [exact N0|apply La; cbn; tauto]). rewrite S1. f_equal. destruct Hx as [-> | ->]; reflexivity.
    + rewrite rep2_app by (left; eapply ends_not_stop; [exact Ew|apply Lw; cbn; tauto]). rewrite (st_2 W). f_equal. rewrite rep2_cons by discriminate. f_equal.
      rewrite rep2_app by (left; eapply ends_not_stop; [exact N1|apply La; cbn; tauto]). rewrite S2. f_equal. destruct Hx as [-> | ->]; reflexivity.
    + rewrite rep2_app by (left; eapply ends_not_stop; [exact Ew|congruence]). rewrite (st_3 W). f_equal. rewrite rep2_cons by discriminate. f_equal.
      destruct Hx as [-> | ->]; [cbn [app]; rewrite rep2_app by (right; intros [m E]; discriminate); rewrite S3; reflexivity|]. destruct Hx' as [X|[b Eb]]; [discriminate|].
      assert (Ela : la = ">"). { destruct N0 as [_ [m Em]]. rewrite Eb in Em. apply app_inj_tail in Em. destruct Em; congruence. } destruct N2 as [_ [m Em]]. subst la. rewrite Em. rewrite <- app_assoc. cbn [app].
      rewrite rep2_app by (right; intros [k E]; discriminate). rewrite rep2_hit. cbn [app].
      assert (Q : P3 (m ++ [">"]) = P3 m ++ [">"]) by (rewrite rep2_app by (right; intros [k E]; discriminate); reflexivity). rewrite Em in S3. rewrite <- S3, Q, <- app_assoc. reflexivity.
    + rewrite rep2_app by (left; eapply ends_not_stop; [exact Ew|apply Lw; cbn; tauto]). rewrite (st_4 W). f_equal. destruct N3 as [[m Em] L3]. rewrite Em. cbn [app]. rewrite rep2_keep by (intros ->; apply Hha; cbn; tauto). f_equal.
      change (ha :: m ++ [">"]) with ((ha :: m) ++ [">"]). rewrite <- Em. rewrite rep2_app by (right; intros [k E]; discriminate). rewrite S4. reflexivity.
    + rewrite rep2_app by (left; eapply ends_not_stop; [exact Ew|apply Lw; cbn; tauto]). rewrite (st_5 W). f_equal. rewrite rep2_cons by discriminate. f_equal. rewrite rep2_app by (right; intros [k E]; discriminate). rewrite S5. reflexivity.
    + rewrite ang_pre by (apply plain_not; [exact Pl|cbn; tauto]). destruct N5 as [[m Em] L5]. rewrite Em. cbn [app]. rewrite ang_lt by (intros ->; destruct (Ha "/"); [cbn; tauto|reflexivity]). change (ha :: m ++ [">"]) with ((ha :: m) ++ [">"]). rewrite <- Em.
      rewrite (@ang_app a5 [">"] a6); [reflexivity|eapply ends_not_stop; [split; [exists m; exact Em|exact L5]|apply La; cbn; tauto]|exact S6].
    + rewrite (app_assoc a x). apply (@ends_one h l w ("<" :: (a ++ x)) ">" Ew).
    + rewrite (app_assoc a1 x). apply (@ends_one h l w ("<" :: (a1 ++ x)) ">" Ew).
    + rewrite (app_assoc a2 x). apply (@ends_one h l w ("<" :: (a2 ++ x)) ">" Ew).
    + apply (@ends_one h l w ("<" :: a3) ">" Ew).
    + apply (@ends_one h l w ("<" :: a5) ">" Ew).
    + apply (@ends_one h l w ("<" :: "/" :: a6) ">" Ew).
  - destruct Ew as [[m Em] Lw']. rewrite Em in *. cbn [app]. rewrite sl_slash_head by exact Hn. unfold sep. f_equal. change (h :: m ++ "<" :: "/" :: a6 ++ [">"]) with ((h :: m) ++ "<" :: "/" :: a6 ++ [">"]). rewrite sl_pre by (apply plain_not; [exact Pl|cbn; tauto]). cbn [app]. f_equal. f_equal.
    change (sl ("<" :: "/" :: a6 ++ [">"])) with ("<" :: sl (("/" :: a6) ++ [">"])). rewrite sl_app; [rewrite Ea; reflexivity|]. intros X. change ("/" :: a6) with (["/"] ++ a6) in X. destruct N6 as [[k Ek] L6]. apply stops_app in X; [|rewrite Ek; discriminate].
    destruct L6 as [j Ej]. rewrite Ej in X. apply stops_last in X. exact (La "/" ltac:(cbn; tauto) X).
Qed.
(** Two components. *)
Lemma path_conv c t c' t' : conv c t -> conv c' t' -> conv (c ++ ":" :: ":" :: c') (t ++ t').
Proof.
  intros (h & l & c1 & c2 & c3 & c5 & c6 & Hh & Hl & [S1 S2 S3 S4 S5 S6 N0 N1 N2 N3 N5 N6] & Et) (h' & l' & d1 & d2 & d3 & d5 & d6 & Hh' & Hl' & [T1 T2 T3 T4 T5 T6 M0 M1 M2 M3 M5 M6] & Et').
  assert (Ll : forall z, In z (s_ ": ,</[") -> z <> l) by (intros z Hz ->; exact (Hl Hz)).
  exists h, l', (c1 ++ "/" :: d1), (c2 ++ "/" :: d2), (c3 ++ "/" :: d3), (c5 ++ "/" :: d5), (c6 ++ "/" :: d6). split; [exact Hh|]. split; [exact Hl'|]. split.
  - constructor.
    + rewrite rep2_app by (left; eapply ends_not_stop; [exact N0|apply Ll; cbn; tauto]). rewrite S1, rep2_hit, T1. reflexivity.
    + rewrite rep2_app by (right; intros [k E]; discriminate). rewrite S2, rep2_cons, T2 by discriminate. reflexivity.
    + rewrite rep2_app by (right; intros [k E]; discriminate). rewrite S3, rep2_cons, T3 by discriminate. reflexivity.
    + rewrite rep2_app by (right; intros [k E]; discriminate). rewrite S4, rep2_cons, T4 by discriminate. reflexivity.
    + rewrite rep2_app by (right; intros [k E]; discriminate). rewrite S5, rep2_cons, T5 by discriminate. reflexivity.
    + rewrite (@ang_app c5 _ c6); [|eapply ends_not_stop; [exact N5|apply Ll; cbn; tauto]|exact S6]. cbn [ang]. change (ceqb "/" "<") with false. cbv iota. rewrite T6. reflexivity.
    + apply (@ends_mid h l c c' h' l' [":"; ":"] N0 M0).
    + exact (ends_pre "/" N1 M1).
    + exact (ends_pre "/" N2 M2).
    + exact (ends_pre "/" N3 M3).
    + exact (ends_pre "/" N5 M5).
    + exact (ends_pre "/" N6 M6).
  - change ("/" :: c6 ++ "/" :: d6) with (("/" :: c6) ++ "/" :: d6). rewrite sl_app; [rewrite Et, Et'; reflexivity|]. intros X. change ("/" :: c6) with (["/"] ++ c6) in X. destruct N6 as [[k Ek] [j Ej]]. apply stops_app in X; [|rewrite Ek; discriminate].
    rewrite Ej in X. apply stops_last in X. exact (Ll "/" ltac:(cbn; tauto) X).
Qed.
Lemma num_spec c : num c = true <-> digit c \/ c = "-".
Proof. split; [apply num_digit|]. intros [H| ->]; [apply digit_num; exact H|reflexivity]. Qed.
(** Arguments. *)
Lemma comma_conv c t x a ta : conv c t -> conv a ta -> x = [" "] \/ (x = [] /\ numeric a) -> conv (c ++ "," :: x ++ a) (t ++ "," :: ta).
Proof.
  intros (h & l & c1 & c2 & c3 & c5 & c6 & Hh & Hl & [S1 S2 S3 S4 S5 S6 N0 N1 N2 N3 N5 N6] & Et) (h' & l' & d1 & d2 & d3 & d5 & d6 & Hh' & Hl' & [T1 T2 T3 T4 T5 T6 M0 M1 M2 M3 M5 M6] & Et') Hx.
  assert (Ll : forall z, In z (s_ ": ,</[") -> z <> l) by (intros z Hz ->; exact (Hl Hz)). assert (Hs : forall z, In z (s_ ":/ [<>,") -> z <> h') by (intros z Hz ->; exact (Hh' Hz)).
  assert (X0 : x = [" "] \/ x = []) by tauto. set (y := match x with [] => [] | _ => ["/"] end : str).
  exists h, l', (c1 ++ "," :: x ++ d1), (c2 ++ "," :: x ++ d2), (c3 ++ "," :: x ++ d3), (c5 ++ "," :: y ++ d5), (c6 ++ "," :: y ++ d6). split; [exact Hh|]. split; [exact Hl'|]. split.
  - constructor.
    + rewrite rep2_app by (right; intros [k E]; discriminate). rewrite S1, rep2_cons by discriminate. do 2 f_equal. destruct X0 as [-> | ->]; cbn [app]; [rewrite rep2_cons by discriminate|]; rewrite T1; reflexivity.
    + rewrite rep2_app by (right; intros [k E]; discriminate). rewrite S2, rep2_cons by discriminate. do 2 f_equal. destruct X0 as [-> | ->]; cbn [app]; [|exact T2].
      destruct M1 as [[m Em] _]. rewrite Em, rep2_keep, <- Em, T2 by (intros E; destruct (Hs "["); [cbn; tauto|congruence]). reflexivity.
    + rewrite rep2_app by (right; intros [k E]; discriminate). rewrite S3, rep2_cons by discriminate. do 2 f_equal. destruct X0 as [-> | ->]; cbn [app]; [rewrite rep2_cons by discriminate|]; rewrite T3; reflexivity.
    + rewrite rep2_app by (right; intros [k E]; discriminate). rewrite S4, rep2_cons by discriminate. do 2 f_equal. destruct X0 as [-> | ->]; cbn [app]; [rewrite rep2_cons by discriminate|]; rewrite T4; reflexivity.
    + rewrite rep2_app by (right; intros [k E]; discriminate). rewrite S5. f_equal. destruct X0 as [-> | ->]; cbn [app y]; [rewrite rep2_hit, T5; reflexivity|].
      destruct M3 as [[m Em] _]. rewrite Em, rep2_keep, <- Em, T5 by (intros E; destruct (Hs " "); [cbn; tauto|congruence]). reflexivity.
    + rewrite (@ang_app c5 _ c6); [|eapply ends_not_stop; [exact N5|apply Ll; cbn; tauto]|exact S6]. cbn [ang]. change (ceqb "," "<") with false. cbv iota. destruct X0 as [-> | ->]; cbn [app y ang]; [change (ceqb "/" "<") with false; cbv iota|]; rewrite T6; reflexivity.
    + apply (@ends_mid h l c a h' l' ("," :: x) N0 M0).
    + apply (@ends_mid h l c1 d1 h' l' ("," :: x) N1 M1).
    + apply (@ends_mid h l c2 d2 h' l' ("," :: x) N2 M2).
    + apply (@ends_mid h l c3 d3 h' l' ("," :: x) N3 M3).
    + apply (@ends_mid h l c5 d5 h' l' ("," :: y) N5 M5).
    + apply (@ends_mid h l c6 d6 h' l' ("," :: y) N6 M6).
  - change ("/" :: c6 ++ "," :: y ++ d6) with (("/" :: c6) ++ "," :: y ++ d6). rewrite sl_app.
    + rewrite Et. f_equal. change (sl ("," :: y ++ d6)) with ("," :: sl (y ++ d6)). f_equal. destruct Hx as [-> |[-> [z [r [Er Hz]]]]]; cbn [app y]; [exact Et'|]. rewrite <- Et'. destruct M0 as [[m Em] _]. rewrite Em in Er. injection Er as -> ->. destruct M6 as [[m6 E6] _]. rewrite E6.
      apply num_spec in Hz. cbn [sl]. change (ceqb "/" "/") with true. cbv iota. rewrite Hz. reflexivity.
    + intros X. change ("/" :: c6) with (["/"] ++ c6) in X. destruct N6 as [[k Ek] [j Ej]]. apply stops_app in X; [|rewrite Ek; discriminate].
      rewrite Ej in X. apply stops_last in X. exact (Ll "/" ltac:(cbn; tauto) X).
Qed.
Lemma int_conv i : integer i -> conv i i.
Proof.
  intros [Ni Fi]. assert (Pl : plain i). { eapply Forall_impl; [|exact Fi]. cbn beta. intros c [-> |Hc]; [notin|]. apply digit_num in Hc. destruct Hc as [_ Hc]. cbn in *. tauto. }
  destruct (exists_last Ni) as (r & l & El). destruct i as [|h m]; [congruence|]. rewrite Forall_forall in Fi. assert (Hh := Fi h (or_introl eq_refl)). assert (Hl : In l (h :: m)) by (rewrite El; apply in_or_app; right; left; reflexivity). apply Fi in Hl.
  exists h, l, (h :: m), (h :: m), (h :: m), (h :: m), (h :: m). split; [destruct Hh as [-> |Hh]; [notin|apply digit_num in Hh; apply Hh]|]. split; [destruct Hl as [-> |Hl]; [notin|apply digit_num in Hl; destruct Hl as [_ Hl]; unfold lok; cbn in *; tauto]|].
  split; [apply plain_stages; [exact Pl|split; [exists m; reflexivity|exists r; exact El]]|]. assert (En : num h = true) by (apply num_spec; tauto). change (sl ("/" :: h :: m)) with (if num h then sl (h :: m) else "/" :: sl (h :: m)). rewrite En. apply plain_sl. exact Pl.
Qed.
Lemma dims_all d : g_dims d -> Forall (fun c => c = "[" \/ c = "]" \/ digit c) d /\ (d = [] \/ ends "[" "]" d).
Proof.
  induction 1 as [|n d Hn Hd H [IH1 IH2]]; [split; [constructor|auto]|]. split.
  - constructor; [auto|]. apply Forall_app. split; [eapply Forall_impl; [|exact Hd]; cbn beta; auto|]. constructor; auto.
  - right. split; [exists (n ++ "]" :: d); reflexivity|]. destruct IH2 as [-> |[_ [m ->]]]; [exists ("[" :: n); reflexivity|]. exists ("[" :: n ++ "]" :: m). cbn [app]. rewrite <- app_assoc. reflexivity.
Qed.
Lemma dims_conv c t x d : conv c t -> g_dims d -> x = [] \/ x = [" "] -> (x = [] \/ d <> []) -> conv (c ++ x ++ d) (t ++ d).
Proof.
  intros (h & l & c1 & c2 & c3 & c5 & c6 & Hh & Hl & [S1 S2 S3 S4 S5 S6 N0 N1 N2 N3 N5 N6] & Et) Hd Hx Hx'. destruct (dims_all Hd) as [Fd Ed]. destruct Ed as [-> |Ed].
  - destruct Hx' as [-> |X]; [|congruence]. cbn [app]. rewrite !app_nil_r. exists h, l, c1, c2, c3, c5, c6. split; [exact Hh|]. split; [exact Hl|]. split; [constructor; assumption|exact Et].
  - assert (Nd : forall z, In z (s_ ":/<>, ") -> ~ In z d). { intros z Hz Hi. rewrite Forall_forall in Fd. apply Fd in Hi. destruct Hi as [-> |[-> |Hi]]; [cbn in Hz; intuition discriminate|cbn in Hz; intuition discriminate|]. apply digit_num in Hi. cbn in Hz, Hi. tauto. }
    assert (Ll : forall z, In z (s_ ": ,</[") -> z <> l) by (intros z Hz ->; exact (Hl Hz)).
    exists h, "]", (c1 ++ x ++ d), (c2 ++ d), (c3 ++ d), (c5 ++ d), (c6 ++ d). split; [exact Hh|]. split; [notin|]. assert (Xd : forall z, In z (s_ ":/<>,") -> ~ In z (x ++ d)) by (intros z Hz Hi; apply in_app_or in Hi; destruct Hi as [Hi|Hi]; [destruct Hx as [-> | ->]; cbn in Hi, Hz; intuition congruence|revert Hi; apply Nd; cbn in *; tauto]).
    assert (Sd : forall z, z <> "[" -> ~ starts z d) by (intros z Hz; eapply ends_not_start; [exact Ed|exact Hz]).
    split.
    + constructor.
      * rewrite rep2_app by (left; eapply ends_not_stop; [exact N0|apply Ll; cbn; tauto]). rewrite S1. f_equal. apply (@rep_none _ _ _ ":"); [discriminate|cbn; tauto|apply Xd; cbn; tauto].
      * rewrite rep2_app by (left; eapply ends_not_stop; [exact N1|apply Ll; cbn; tauto]). rewrite S2. f_equal. assert (Q : P2 d = d) by (apply (@rep_none _ _ _ " "); [discriminate|cbn; tauto|apply Nd; cbn; tauto]).
        destruct Hx as [-> | ->]; [exact Q|]. cbn [app]. destruct Ed as [[m ->] _]. rewrite rep2_hit. cbn [app]. rewrite rep2_cons in Q by discriminate. exact Q.
      * rewrite rep2_app by (right; apply Sd; discriminate). rewrite S3. f_equal. apply (@rep_none _ _ _ ">"); [discriminate|cbn; tauto|apply Nd; cbn; tauto].
      * rewrite rep2_app by (right; apply Sd; discriminate). rewrite S4. f_equal. apply (@rep_none _ _ _ "<"); [discriminate|cbn; tauto|apply Nd; cbn; tauto].
      * rewrite rep2_app by (right; apply Sd; discriminate). rewrite S5. f_equal. apply (@rep_none _ _ _ ","); [discriminate|cbn; tauto|apply Nd; cbn; tauto].
      * rewrite (@ang_app c5 _ c6); [|eapply ends_not_stop; [exact N5|apply Ll; cbn; tauto]|exact S6]. rewrite <- (app_nil_r d) at 1. rewrite ang_pre by (apply Nd; cbn; tauto). cbn [ang option_map]. rewrite app_nil_r. reflexivity.
      * exact (ends_mid x N0 Ed).
      * exact (ends_mid x N1 Ed).
      * exact (ends_app N2 Ed).
      * exact (ends_app N3 Ed).
      * exact (ends_app N5 Ed).
      * exact (ends_app N6 Ed).
    + change ("/" :: c6 ++ d) with (("/" :: c6) ++ d). rewrite sl_app; [rewrite Et|].
      * f_equal. rewrite <- (app_nil_r d) at 1. rewrite sl_pre by (apply Nd; cbn; tauto). apply app_nil_r.
      * intros X. change ("/" :: c6) with (["/"] ++ c6) in X. destruct N6 as [[k Ek] [j Ej]]. apply stops_app in X; [|rewrite Ek; discriminate]. rewrite Ej in X. apply stops_last in X. exact (Ll "/" ltac:(cbn; tauto) X).
Qed.
Definition clang_comma : str -> str -> Prop := fun x a => x = [" "] \/ (x = [] /\ numeric a).
Lemma cxx_conv : (forall c t, cxx_elem clang_comma true c t -> conv c t) /\ (forall c t, cxx_path clang_comma true c t -> conv c t) /\ (forall c t, cxx_args clang_comma true c t -> conv c t).
Proof.
  assert (Sp : forall x, space true x -> x = [] \/ x = [" "]) by (intros x [H|[_ H]]; auto).
  apply cxx_mutind.
  - intros w H. assert (X := word_conv 0 H). cbn [repeat] in X. rewrite app_nil_r in X. exact X.
  - intros w a ta x Hw _ IH Hx Hx'. apply tmpl_conv; auto.
  - auto.
  - intros w k H. apply word_conv. exact H.
  - intros c t c' t' _ IH _ IH'. apply path_conv; assumption.
  - intros c t x d _ IH Hd Hx Hx'. apply dims_conv; auto.
  - intros i H. apply int_conv. exact H.
  - intros c t x a ta _ IH _ IH' Hx. apply comma_conv; assumption.
  - intros i x a ta Hi _ IH Hx. apply comma_conv; [apply int_conv; exact Hi|exact IH|exact Hx].
Qed.
Lemma path_head comma spaces : (forall c t, cxx_elem comma spaces c t -> exists h r, c = h :: r /\ num h = false) /\ (forall c t, cxx_path comma spaces c t -> exists h r, c = h :: r /\ num h = false) /\ (forall c t, cxx_args comma spaces c t -> True).
Proof.
  assert (W : forall w, cxx_word w -> exists h r, w = h :: r /\ num h = false). { intros w Hw. destruct (cxx_word_conv 0 Hw) as (h & l & _ & Hn & _ & _ & St & _). cbn [repeat] in St. rewrite app_nil_r in St. destruct (en_0 St) as [[m ->] _]. eauto. }
  apply cxx_mutind; auto.
  - intros w a ta x Hw _ _ _ _. destruct (W w Hw) as (h & r & -> & E). cbn [app]. eauto.
  - intros w k Hw. destruct (W w Hw) as (h & r & -> & E). cbn [app]. eauto.
  - intros c t c' t' _ (h & r & -> & E) _ _. cbn [app]. eauto.
Qed.
Lemma printed_conv c t : printed c t -> (2 < length t)%nat -> not_renamed t -> cxxToTypelibName c = Ok t.
Proof.
  intros [c0 t0 x d Hp Hd Hx Hx'] Hlen Hr. destruct (proj1 (proj2 (path_head clang_comma true)) _ _ Hp) as (h0 & r0 & E0 & En). apply (proj1 (proj2 cxx_conv)) in Hp.
  destruct (@dims_conv c0 t0 x d Hp Hd) as (h & l & c1 & c2 & c3 & c5 & c6 & Hh & _ & [S1 S2 S3 S4 S5 S6 N0 _ _ _ _ N6] & Et); [destruct Hx as [Hx|[_ Hx]]; auto|exact Hx'|].
  assert (Eh : h = h0). { destruct N0 as [[m Em] _]. rewrite E0 in Em. cbn in Em. congruence. } subst h0. destruct N6 as [[m6 E6] _]. rewrite E6, sl_slash_head in Et by exact En.
  assert (Es : exists r, sl (h :: m6) = h :: r). { cbn [sl]. unfold ceqb. destruct (Ascii.eqb_spec h "/") as [X|_]; [|eauto]. destruct Hh. rewrite X. cbn. tauto. } destruct Es as [r Er]. rewrite Er in Et.
  assert (Pp := @pipeline (c0 ++ x ++ d) ltac:(rewrite E0; discriminate)). unfold s_ in Pp. cbn [list_ascii_of_string] in Pp. rewrite Pp. clear Pp. rewrite S1, S2, S3, S4, S5, S6, E6, Er.
  rewrite <- Et in *. unfold ceqb. destruct (Ascii.eqb_spec h "/") as [X|_]; [destruct Hh; rewrite X; cbn; tauto|]. destruct (Nat.ltb_spec 1 (length (h :: r))) as [L|L]; [|cbn [length] in *; lia]. cbn [negb andb]. cbv zeta. rewrite not_renamed_same by exact Hr. reflexivity.
Qed.
