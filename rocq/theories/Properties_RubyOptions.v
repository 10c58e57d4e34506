(** * Properties_RubyOptions: the options given from Ruby reach the importers and the exporters (C84). *)
From Verif Require Import Base Names Graph GraphProofs Registry Smap SmapProofs Config Properties_Config RubyOptionsSpec RubyOptions.
From Verif Require RubyMeta.
Local Open Scope nat_scope.

(** ** The loops of the code, named. *)
Definition add_sub (k : fval) (w : fval) (hc : list config * config) : res (list config * config) :=
  y <- setup w (fst hc) config0 ;; n <- c_string k ;; Ok (fst y ++ [snd y], insert_child (snd hc) n (length (fst y))).
Fixpoint subs (k : fval) (vs : list fval) (hc : list config * config) : res (list config * config) :=
  match vs with [] => Ok hc | w :: ws => x <- add_sub k w hc ;; subs k ws x end.
Definition entry (e : fval) (hc : list config * config) : res (list config * config) :=
  match e with
  | FArr (k :: FStr s :: _) => n <- c_string k ;; Ok (fst hc, set_ (snd hc) n (RubyMeta.c_str s))
  | FArr (k :: FArr vs :: _) => match vs with FArr _ :: _ => subs k vs hc | _ => c' <- insert_values k vs (snd hc) ;; Ok (fst hc, c') end
  | _ => UB UOob
  end.
Fixpoint entries (l : list fval) (hc : list config * config) : res (list config * config) :=
  match l with [] => Ok hc | e :: r => x <- entry e hc ;; entries r x end.
Lemma setup_subs k : forall l h c,
  (fix subs (vs : list fval) (h : list config) (c : config) {struct vs} : res (list config * config) :=
     match vs with
     | [] => Ok (h, c)
     | w :: ws => y <- setup w h config0 ;; n <- c_string k ;; subs ws (fst y ++ [snd y]) (insert_child c n (length (fst y)))
     end) l h c = subs k l (h, c).
Proof.
  induction l as [|w ws IH]; intros h c; [reflexivity|]. cbn [subs]. unfold add_sub at 1. cbn [fst snd].
  destruct (setup w h config0) as [[h1 c1]| | |]; try reflexivity. cbn [bind fst snd]. destruct (c_string k); try reflexivity. cbn [bind]. apply IH.
Qed.
Lemma setup_entries l h c : setup (FArr l) h c = entries l (h, c).
Proof.
  cbn [setup]. revert h c. induction l as [|e r IH]; intros h c; [reflexivity|]. cbn [entries].
  match goal with |- bind ?a _ = bind ?b _ => assert (E : a = b) end.
  { destruct e as [s|[|k [|[s|[|[s|w0] vs]] z]]]; try reflexivity. exact (setup_subs k (FArr w0 :: vs) h c). }
  rewrite E. destruct (entry e (h, c)) as [[h1 c1]| | |]; try reflexivity. cbn [bind fst snd]. apply IH.
Qed.
Lemma c_str_text s : text s -> RubyMeta.c_str s = s.
Proof.
  induction s as [|a s IH]; intros T; [reflexivity|]. cbn [RubyMeta.c_str]. destruct (Ascii.eqb a Ascii.zero) eqn:E.
  - apply Ascii.eqb_eq in E. subst. exfalso. apply T. left. reflexivity.
  - f_equal. apply IH. intros H. apply T. right. exact H.
Qed.

(** ** Formatting *)
Section Fmt.
Variable inspect : rval -> str.
Fixpoint format_entries (o : options) : res (list fval) :=
  match o with [] => Ok [] | (k, x) :: r => y <- format_value inspect x ;; ys <- format_entries r ;; Ok (FArr [FStr k; y] :: ys) end.
Lemma format_hash o : format_options inspect o = (l <- format_entries o ;; Ok (FArr l)).
Proof.
  reflexivity.
Qed.
Lemma format_texts ss : format_value inspect (Arr (map Scalar ss)) = Ok (FArr (map FStr ss)).
Proof. destruct ss as [|s ss]; [reflexivity|]. cbn [format_value map]. rewrite map_map. reflexivity. Qed.
Fixpoint format_children (l : list rval) : res (list fval) :=
  match l with
  | [] => Ok []
  | x :: r => y <- match x with Hsh _ => format_value inspect x | _ => Throw ENotFound end ;; ys <- format_children r ;; Ok (y :: ys)
  end.
Lemma format_children_sets os : forall fs, Forall2 (fun o f => format_options inspect o = Ok f) os fs -> format_children (map Hsh os) = Ok fs.
Proof.
  induction os as [|o os IH]; intros fs F; inversion F; subst; [reflexivity|]. cbn [map format_children].
  unfold format_options in H1. rewrite H1. cbn [bind]. rewrite (IH l') by assumption. reflexivity.
Qed.
Lemma format_sets os fs : Forall2 (fun o f => format_options inspect o = Ok f) os fs -> format_value inspect (Arr (map Hsh os)) = Ok (FArr fs).
Proof.
  intros F. destruct os as [|o os]; [inversion F; reflexivity|].
  change (format_value inspect (Arr (map Hsh (o :: os)))) with (ys <- format_children (map Hsh (o :: os)) ;; Ok (FArr ys)).
  rewrite (format_children_sets F). reflexivity.
Qed.

(** ** The heap only grows *)
Lemma says_mono h h2 : forall c o, says h c o -> says (h ++ h2) c o.
Proof.
  fix F 3. intros c o [c0 o0 A B C]. constructor; [exact A|exact B|]. intros n. specialize (C n).
  induction C as [|i sub is_ subs_ (c' & E & S) C IH]; constructor; [|exact IH].
  exists c'. split; [|apply F, S]. rewrite nth_error_app1; [exact E|]. apply nth_error_Some. rewrite E. discriminate.
Qed.
Definition child_says h (i : nat) (sub : options) : Prop := exists c', nth_error h i = Some c' /\ says h c' sub.
Lemma children_mono h h2 is_ os : Forall2 (child_says h) is_ os -> Forall2 (child_says (h ++ h2)) is_ os.
Proof.
  induction 1 as [|i sub is_ subs_ (c' & E & S) C IH]; constructor; [|exact IH].
  exists c'. split; [|apply says_mono, S]. rewrite nth_error_app1; [exact E|]. apply nth_error_Some. rewrite E. discriminate.
Qed.

(** ** Values by name *)
Lemma value_of_cons n k v o : value_of n ((k, v) :: o) = if seqb k n then Some v else value_of n o.
Proof.
  unfold value_of. cbn [find fst]. destruct (list_eq_dec Ascii.ascii_dec k n) as [-> |N]; [rewrite seqb_refl; reflexivity|].
  rewrite seqb_false by assumption. reflexivity.
Qed.
Lemma value_of_none n o : ~ In n (map fst o) -> value_of n o = None.
Proof.
  induction o as [|[k v] o IH]; intros H; [reflexivity|]. rewrite value_of_cons, seqb_false; [apply IH|]; intros X; apply H; [right; exact X|left; exact X].
Qed.
Lemma texts_map ss : value_texts (Arr (map Scalar ss)) = ss.
Proof. cbn [value_texts]. induction ss; [reflexivity|]. cbn. f_equal. assumption. Qed.
Lemma texts_sets os : value_texts (Arr (map Hsh os)) = [].
Proof. cbn [value_texts]. induction os; [reflexivity|]. assumption. Qed.
Lemma sets_map os : value_sets (Arr (map Hsh os)) = os.
Proof. cbn [value_sets]. induction os; [reflexivity|]. cbn. f_equal. assumption. Qed.
Lemma sets_texts ss : value_sets (Arr (map Scalar ss)) = [].
Proof. cbn [value_sets]. induction ss; [reflexivity|]. assumption. Qed.

(** What an entry does, as calls on the configuration object. *)
Definition does (h : list config) (o : options) (e : res (list config * config)) (c : config) : Prop :=
  exists ops h2 ids, e = Ok (h ++ h2, fold_left step ops c) /\
    (forall f n, (forall k, In k (map fst o) -> f k = []) -> fold_left values_step ops f n = f n ++ texts_given n o) /\
    (forall g n, fold_left kids_step ops g n = g n ++ ids n) /\
    (forall n, Forall2 (child_says (h ++ h2)) (ids n) (sets_given n o)).
(** [goes o]: the options are formatted and read back into any heap. *)
Definition goes (o : options) : Prop :=
  exists l, format_entries o = Ok l /\ forall h c, does h o (entries l (h, c)) c.
Lemma goes_says o : goes o -> exists l, format_options inspect o = Ok (FArr l) /\ forall h, exists h2 c, setup (FArr l) h config0 = Ok (h ++ h2, c) /\ says (h ++ h2) c o.
Proof.
  intros (l & E & D). exists l. rewrite format_hash, E. split; [reflexivity|]. intros h. destruct (D h config0) as (ops & h2 & ids & R & V & K & S).
  exists h2, (run ops). rewrite setup_entries, R. split; [reflexivity|].
  assert (Hv : forall n, values ops n = texts_given n o). { intros n. unfold values. rewrite V by reflexivity. reflexivity. }
  assert (Hk : forall n, kids ops n = ids n). { intros n. unfold kids. rewrite K. reflexivity. }
  constructor.
  - intros n d. rewrite C49_strings, Hv. reflexivity.
  - intros n. destruct (C49_children ops n) as (_ & _ & X & _). rewrite X, Hv, Hk. specialize (S n). inversion S as [E1 E2|? ? ? ? ? ? E1 E2]; [tauto|]. split; intros _; right; discriminate.
  - intros n. destruct (C49_children ops n) as (X & _). rewrite X, Hk. apply S.
Qed.
(** The list of sets of a key *)
Lemma subs_does k (T : text k) : forall os fs, Forall2 (fun o f => format_options inspect o = Ok f /\ forall h, exists h2 c, setup f h config0 = Ok (h ++ h2, c) /\ says (h ++ h2) c o) os fs ->
  forall h c, exists h2 is_, subs (FStr k) fs (h, c) = Ok (h ++ h2, fold_left step (map (InsertChild k) is_) c) /\ Forall2 (child_says (h ++ h2)) is_ os.
Proof.
  induction 1 as [|o f os fs (_ & G) F IH]; intros h c.
  - exists [], []. rewrite app_nil_r. split; [reflexivity|constructor].
  - destruct (G h) as (h1 & c1 & E & S). cbn [subs]. unfold add_sub. cbn [fst snd]. rewrite E. cbn [bind fst snd c_string]. rewrite (c_str_text T).
    destruct (IH ((h ++ h1) ++ [c1]) (insert_child c k (length (h ++ h1)))) as (h2 & is_ & R & Q).
    exists (h1 ++ [c1] ++ h2), (length (h ++ h1) :: is_). rewrite !app_assoc.  split; [exact R|].
    constructor; [|exact Q]. exists c1. split.
    + rewrite nth_error_app1 by (rewrite !app_length; cbn; lia). rewrite nth_error_app2 by lia. rewrite Nat.sub_diag. reflexivity.
    + rewrite <- app_assoc. apply says_mono, S.
Qed.
Lemma fold_set_children k is_ : forall f, fold_left values_step (map (InsertChild k) is_) f = f.
Proof. induction is_; intros f; [reflexivity|]. cbn [map fold_left values_step]. apply IHis_. Qed.
Lemma fold_kids_children k is_ : forall g n, fold_left kids_step (map (InsertChild k) is_) g n = g n ++ if seqb k n then is_ else [].
Proof.
  induction is_ as [|i is_ IH]; intros g n; cbn [map fold_left kids_step]; [destruct (seqb k n); rewrite app_nil_r; reflexivity|].
  rewrite IH, at_seqb. destruct (seqb k n) eqn:E; [apply seqb_eq in E; subst; rewrite <- app_assoc|]; reflexivity.
Qed.
Lemma fold_insert_values k ss : forall f n, fold_left values_step (map (Insert k) ss) f n = f n ++ if seqb k n then ss else [].
Proof.
  induction ss as [|i ss IH]; intros g n; cbn [map fold_left values_step]; [destruct (seqb k n); rewrite app_nil_r; reflexivity|].
  rewrite IH, at_seqb. destruct (seqb k n) eqn:E; [apply seqb_eq in E; subst; rewrite <- app_assoc|]; reflexivity.
Qed.
Lemma fold_kids_insert k ss : forall g, fold_left kids_step (map (Insert k) ss) g = g.
Proof. induction ss; intros g; [reflexivity|]. cbn [map fold_left kids_step]. apply IHss. Qed.
Lemma insert_values_does k ss : text k -> Forall text ss -> forall c, insert_values (FStr k) (map FStr ss) c = Ok (fold_left step (map (Insert k) ss) c).
Proof.
  intros T. induction 1 as [|s ss Ts F IH]; intros c; [reflexivity|]. cbn [map insert_values c_string bind fold_left step]. rewrite (c_str_text T), (c_str_text Ts). apply IH.
Qed.
Definition value_goes (v : rval) : Prop :=
  (exists s, v = Scalar s /\ text s) \/ (exists ss, v = Arr (map Scalar ss) /\ Forall text ss) \/ (exists os, v = Arr (map Hsh os) /\ Forall goes os).
Lemma entry_does k v : text k -> value_goes v -> exists y, format_value inspect v = Ok y /\
  forall h c, exists ops h2 ids, entry (FArr [FStr k; y]) (h, c) = Ok (h ++ h2, fold_left step ops c) /\
    (forall f n, f k = [] -> fold_left values_step ops f n = f n ++ if seqb k n then value_texts v else []) /\
    (forall g n, fold_left kids_step ops g n = g n ++ ids n) /\
    (forall n, Forall2 (child_says (h ++ h2)) (ids n) (if seqb k n then value_sets v else [])).
Proof.
  intros T [(s & -> & Ts)|[(ss & -> & Ts)|(os & -> & G)]].
  - exists (FStr s). split; [reflexivity|]. intros h c. exists [Set_ k s], [], (fun _ => []). cbn [entry fst snd c_string bind]. rewrite (c_str_text T), (c_str_text Ts), app_nil_r.
    split; [reflexivity|]. split; [|split].
    + intros f n E. cbn [fold_left values_step value_texts]. rewrite at_seqb. destruct (seqb k n) eqn:X; [apply seqb_eq in X; subst; rewrite E; reflexivity|rewrite app_nil_r; reflexivity].
    + intros g n. cbn. rewrite app_nil_r. reflexivity.
    + intros n. cbn [value_sets]. destruct (seqb k n); constructor.
  - exists (FArr (map FStr ss)). split; [apply format_texts|]. intros h c. exists (map (Insert k) ss), [], (fun _ => []). rewrite app_nil_r.
    assert (E : entry (FArr [FStr k; FArr (map FStr ss)]) (h, c) = (c' <- insert_values (FStr k) (map FStr ss) c ;; Ok (h, c'))) by (destruct ss; reflexivity).
    rewrite E, insert_values_does by assumption. split; [reflexivity|]. rewrite texts_map, sets_texts. split; [intros; apply fold_insert_values|]. split.
    + intros g n. rewrite fold_kids_insert, app_nil_r. reflexivity.
    + intros n. destruct (seqb k n); constructor.
  - assert (X : exists fs, Forall2 (fun o f => format_options inspect o = Ok f /\ forall h, exists h2 c, setup f h config0 = Ok (h ++ h2, c) /\ says (h ++ h2) c o) os fs /\ Forall (fun f => exists l, f = FArr l) fs).
    { induction G as [|o os G0 G IH]; [exists []; split; constructor|]. destruct IH as (fs & F & L). destruct (goes_says G0) as (l & E & S).
      exists (FArr l :: fs). split; constructor; try assumption; [split; assumption|eexists; reflexivity]. }
    destruct X as (fs & F & L). exists (FArr fs). split.
    + apply format_sets. eapply Forall2_impl; [|exact F]. cbn. tauto.
    + intros h c. destruct (subs_does T F h c) as (h2 & is_ & R & Q). exists (map (InsertChild k) is_), h2, (fun n => if seqb k n then is_ else []).
      assert (E : entry (FArr [FStr k; FArr fs]) (h, c) = subs (FStr k) fs (h, c)). { destruct L as [|f fs (l & ->) L]; reflexivity. }
      rewrite E. split; [exact R|]. rewrite texts_sets, sets_map. split; [|split].
      * intros f n _. rewrite fold_set_children. destruct (seqb k n); rewrite app_nil_r; reflexivity.
      * intros g n. apply fold_kids_children.
      * intros n. destruct (seqb k n); [exact Q|constructor].
Qed.
Lemma entries_does o : NoDup (map fst o) -> (forall k v, In (k, v) o -> text k /\ value_goes v) -> goes o.
Proof.
  induction o as [|[k v] o IH]; intros N H.
  - exists []. split; [reflexivity|]. intros h c. exists [], [], (fun _ => []). rewrite app_nil_r. split; [reflexivity|]. split; [intros; cbn; rewrite app_nil_r; reflexivity|]. split; [intros; cbn; rewrite app_nil_r; reflexivity|constructor].
  - cbn [map fst] in N. inversion N as [|? ? Nk No]; subst. destruct (H k v) as [T G]; [left; reflexivity|]. destruct IH as (l & E & D); [assumption|intros; apply H; right; assumption|].
    destruct (entry_does T G) as (y & Ey & Dy). exists (FArr [FStr k; y] :: l). split; [cbn [format_entries]; rewrite Ey; cbn [bind]; rewrite E; reflexivity|].
    intros h c. destruct (Dy h c) as (ops1 & h1 & ids1 & R1 & V1 & K1 & S1). destruct (D (h ++ h1) (fold_left step ops1 c)) as (ops2 & h2 & ids2 & R2 & V2 & K2 & S2).
    exists (ops1 ++ ops2), (h1 ++ h2), (fun n => ids1 n ++ ids2 n). rewrite app_assoc. split; [|split; [|split]].
    + cbn [entries]. rewrite R1. cbn [bind]. rewrite R2, fold_left_app. reflexivity.
    + intros f n F. rewrite fold_left_app. assert (Fk : f k = []) by (apply F; left; reflexivity). rewrite V2.
      * rewrite V1 by assumption. rewrite <- app_assoc. f_equal. unfold texts_given. rewrite value_of_cons. destruct (seqb k n) eqn:X; [|reflexivity].
        apply seqb_eq in X. subst n. rewrite value_of_none by assumption. rewrite app_nil_r. reflexivity.
      * intros k' I. rewrite V1 by assumption. rewrite seqb_false by (intros ->; contradiction). rewrite (F k') by (right; assumption). reflexivity.
    + intros g n. rewrite fold_left_app, K2, K1, <- app_assoc. reflexivity.
    + intros n. unfold sets_given. rewrite value_of_cons. specialize (S1 n). specialize (S2 n). unfold sets_given in S2. apply children_mono with (h2 := h2) in S1.
      destruct (seqb k n) eqn:X.
      * apply seqb_eq in X. subst n. rewrite value_of_none in S2 by assumption. inversion S2. rewrite app_nil_r. exact S1.
      * inversion S1. exact S2.
Qed.
Lemma plain_goes : forall o, plain o -> goes o.
Proof.
  fix F 2. intros o [o0 N H]. apply entries_does; [exact N|]. intros k v I. destruct (H k v I) as [T [A|[A|(os & E & G)]]]; (split; [exact T|]); [left; exact A|right; left; exact A|].
  right; right. exists os. split; [exact E|]. clear - F G. induction G as [|o os P G IH]; constructor; [apply F, P|exact IH].
Qed.
End Fmt.

(** Options that are scalars, lists of scalars and lists of Hashes of such options reach the importer or exporter: reading
    any name of the configuration object, or of a child at any depth, gives exactly what was given, in order. *)
Theorem C84_options_partial inspect o : plain o -> exists h c, configuration inspect o = Ok (h, c) /\ says h c o.
Proof.
  intros P. destruct (goes_says (plain_goes inspect P)) as (l & E & S). destruct (S []) as (h & c & E2 & Q). exists h, c. unfold configuration. rewrite E. cbn [bind]. split; [exact E2|exact Q].
Qed.
(** In particular true and false arrive as booleans, with any default. *)
Theorem C84_booleans inspect o k (b d : bool) : plain o -> In (k, Scalar (if b then s_ "true" else s_ "false")) o ->
  exists h c, configuration inspect o = Ok (h, c) /\ get_one convert_bool c k d = Ok b.
Proof.
  intros P I. destruct (C84_options_partial inspect P) as (h & c & E & S). exists h, c. split; [exact E|]. destruct P as [o N _]. destruct S as [c o A _ _].
  assert (G : texts_given k o = [if b then s_ "true" else s_ "false"]).
  { unfold texts_given. clear - N I. induction o as [|[k' v] o IH]; [contradiction|]. rewrite value_of_cons. cbn [map fst] in N. inversion N; subst. destruct I as [X|X].
    - injection X as -> ->. rewrite seqb_refl. reflexivity.
    - rewrite seqb_false; [apply IH; assumption|]. intros ->. apply H1. apply (in_map fst) in X. exact X. }
  unfold get_one, get_list. rewrite A, G. destruct b; reflexivity.
Qed.

(** Refuted: an option whose value is a Hash with something in it. Behind any options that work, it makes the extension read
    a String as an Array, whatever is in the Hash. *)
Lemma format_entries_app inspect o1 o2 : format_entries inspect (o1 ++ o2) = (l1 <- format_entries inspect o1 ;; l2 <- format_entries inspect o2 ;; Ok (l1 ++ l2)).
Proof.
  induction o1 as [|[k v] o1 IH]; cbn [app format_entries bind]; [destruct (format_entries inspect o2); reflexivity|]. destruct (format_value inspect v); try reflexivity. cbn [bind]. rewrite IH.
  destruct (format_entries inspect o1); try reflexivity. cbn [bind]. destruct (format_entries inspect o2); reflexivity.
Qed.
Lemma entries_app l1 l2 : forall hc, entries (l1 ++ l2) hc = (x <- entries l1 hc ;; entries l2 x).
Proof. induction l1 as [|e l1 IH]; intros hc; [reflexivity|]. cbn [app entries]. destruct (entry e hc); try reflexivity. cbn [bind]. apply IH. Qed.
Theorem C84_nested_hash_refuted inspect o1 k sub o2 : plain o1 -> plain sub -> sub <> [] -> plain o2 -> configuration inspect (o1 ++ (k, Hsh sub) :: o2) = UB UOob.
Proof.
  intros P1 Ps Ns P2. destruct (plain_goes inspect P1) as (l1 & E1 & D1). destruct (plain_goes inspect P2) as (l2 & E2 & _). destruct (plain_goes inspect Ps) as (ls & Es & _).
  unfold configuration. rewrite format_hash, format_entries_app, E1. cbn [bind format_entries].
  change (format_value inspect (Hsh sub)) with (format_options inspect sub). rewrite format_hash, Es. cbn [bind]. rewrite E2. cbn [bind].
  rewrite setup_entries, entries_app. destruct (D1 [] config0) as (ops & h2 & ids & R & _). rewrite R. cbn [bind entries].
  destruct sub as [|[k0 v0] sub]; [contradiction|]. cbn [format_entries] in Es. destruct (format_value inspect v0) as [y| | |]; try discriminate. cbn [bind] in Es.
  destruct (format_entries inspect sub) as [ys| | |]; try discriminate. injection Es as <-. reflexivity.
Qed.
(** Refuted: a name that is given with an empty list, an empty Hash, does not exist for the importer. *)
Theorem C84_empty_refuted inspect : exists h c, configuration inspect [(s_ "define", Arr []); (s_ "include", Hsh [])] = Ok (h, c) /\
  exists_ c (s_ "define") = false /\ exists_ c (s_ "include") = false.
Proof. exists [], config0. repeat split; reflexivity. Qed.
(** Refuted: of keys that are the same text (a symbol and a string), the list is lost or stays according to their order. *)
Theorem C84_same_key_refuted inspect :
  (exists h c, configuration inspect [(s_ "define", Arr [Scalar (s_ "A")]); (s_ "define", Scalar (s_ "B"))] = Ok (h, c) /\ get_strings c (s_ "define") [] = [s_ "B"]) /\
  (exists h c, configuration inspect [(s_ "define", Scalar (s_ "B")); (s_ "define", Arr [Scalar (s_ "A")])] = Ok (h, c) /\ get_strings c (s_ "define") [] = [s_ "B"; s_ "A"]).
Proof. split; do 2 eexists; (split; [reflexivity|reflexivity]). Qed.
(** Refuted: in a list that does not start with a Hash, a Hash arrives as the text Ruby shows for it; a list that starts with a
    Hash and has something else behind it is refused with NoMethodError; a text is cut at a NUL. *)
Theorem C84_mixed_list_refuted inspect sub :
  (exists h c, configuration inspect [(s_ "a", Arr [Scalar (s_ "x"); Hsh sub])] = Ok (h, c) /\ children c (s_ "a") = [] /\ get_strings c (s_ "a") [] = [s_ "x"; RubyMeta.c_str (inspect (Hsh sub))]) /\
  (plain sub -> configuration inspect [(s_ "a", Arr [Hsh sub; Scalar (s_ "x")])] = Throw ENotFound) /\
  (exists h c, configuration inspect [(s_ "a", Scalar (s_ "x" ++ Ascii.zero :: s_ "y"))] = Ok (h, c) /\ get_strings c (s_ "a") [] = [s_ "x"]).
Proof.
  split; [do 2 eexists; repeat split; reflexivity|]. split; [|do 2 eexists; split; reflexivity].
  intros P. destruct (plain_goes inspect P) as (l & E & _). unfold configuration. rewrite format_hash. cbn [format_entries].
  change (format_value inspect (Arr [Hsh sub; Scalar (s_ "x")])) with (ys <- format_children inspect [Hsh sub; Scalar (s_ "x")] ;; Ok (FArr ys)).
  cbn [format_children]. change (format_value inspect (Hsh sub)) with (format_options inspect sub). rewrite format_hash, E. reflexivity.
Qed.

(** A case of the hypotheses: :define => ['A=1', 'B'], :debug => true, :opaques => [{:name => 'x', :sub => [{}, {:n => 3}]}] *)
Definition case_options : options :=
  [(s_ "define", Arr [Scalar (s_ "A=1"); Scalar (s_ "B")]); (s_ "debug", Scalar (s_ "true"));
   (s_ "opaques", Arr [Hsh [(s_ "name", Scalar (s_ "x")); (s_ "sub", Arr [Hsh []; Hsh [(s_ "n", Scalar (s_ "3"))]])]])].
Ltac no_nul := let H := fresh in intros H; cbn in H; repeat (destruct H as [H|H]; [discriminate|]); exact H.
Ltac nodup := repeat constructor; cbn; intuition discriminate.
Example C84_case : plain case_options.
Proof.
  constructor; [nodup|]. intros k v [E|[E|[E|[]]]]; injection E as <- <-; (split; [no_nul|]).
  - right; left. exists [s_ "A=1"; s_ "B"]. split; [reflexivity|]. repeat constructor; no_nul.
  - left. eexists. split; [reflexivity|no_nul].
  - right; right. eexists [_]. split; [reflexivity|]. constructor; [|constructor]. constructor; [nodup|]. intros k v [E|[E|[]]]; injection E as <- <-; (split; [no_nul|]).
    + left. eexists. split; [reflexivity|no_nul].
    + right; right. eexists [_; _]. split; [reflexivity|]. constructor; [|constructor; [|constructor]].
      * constructor; [constructor|intros ? ? []].
      * constructor; [nodup|]. intros k v [E|[]]; injection E as <- <-. split; [no_nul|]. left. eexists. split; [reflexivity|no_nul].
Qed.
Example C84_case_runs inspect : exists h c, configuration inspect case_options = Ok (h, c) /\ get_strings c (s_ "define") [] = [s_ "A=1"; s_ "B"] /\
  children c (s_ "opaques") = [2] /\ length h = 3 /\ option_map (fun c' => children c' (s_ "sub")) (nth_error h 2) = Some [0; 1].
Proof. do 2 eexists. repeat split; reflexivity. Qed.
Print Assumptions C84_options_partial. Print Assumptions C84_booleans. Print Assumptions C84_nested_hash_refuted. Print Assumptions C84_empty_refuted. Print Assumptions C84_same_key_refuted. Print Assumptions C84_mixed_list_refuted.
