(** * Properties_NameConv: from C++ names to type names and back (C43). *)
From Verif Require Import Base Names NamesSpec NamesProofs Properties_Names NameConv NameConvSpec NameConvProofs NameConvPath NameConvBack.
Local Open Scope char_scope.

(** The name of a C++ type, as clang prints it, becomes the type name with the same components and arguments. *)
Theorem C43_to_typelib c t : printed c t -> (2 < length t)%nat -> not_renamed t -> cxxToTypelibName c = Ok t.
Proof. apply printed_conv. Qed.
(** Type names become C++ names with the same components and arguments, without spaces. *)
Theorem C43_to_cxx c t : compact c t -> typelibToCxxName t = Ok c.
Proof. apply compact_back. Qed.
(** Full statement: for every type name t, cxxToTypelibName of typelibToCxxName t is t. Proved when the template arguments
    that are not the first of their list are numbers, t is not one letter, and t contains no name that is renamed; it does
    not hold for the others (C43_round_trip_refuted). *)
Theorem C43_round_trip_partial c t : compact_num c t -> (2 < length t)%nat -> not_renamed t ->
  exists n, typelibToCxxName t = Ok n /\ cxxToTypelibName n = Ok t.
Proof.
  intros H L R. exists c. split; [apply compact_back; revert H; apply name_style; [intros x a [A _]; exact A|auto]|].
  apply printed_conv; [|exact L|exact R]. revert H. apply name_style; [intros x a A; right; exact A|auto].
Qed.
(** In the other direction: the C++ name comes back. *)
Theorem C43_cxx_round_trip_partial c t : compact_num c t -> (2 < length t)%nat -> not_renamed t ->
  exists n, cxxToTypelibName c = Ok n /\ typelibToCxxName n = Ok c.
Proof.
  intros H L R. exists t. split; [|apply compact_back; revert H; apply name_style; [intros x a [A _]; exact A|auto]].
  apply printed_conv; [|exact L|exact R]. revert H. apply name_style; [intros x a A; right; exact A|auto].
Qed.
(** The names made from C++ names are valid names. *)
Theorem C43_valid c t absolute : printed c t -> (2 < length t)%nat -> not_renamed t -> exists n, cxxToTypelibName c = Ok n /\ isValidTypename n absolute = true.
Proof.
  intros H L R. exists t. split; [apply printed_conv; assumption|]. destruct H as [c0 t0 x d Hp Hd _ _]. apply C20_grammar_accepted_partial; [|exact Hd]. apply (proj1 (proj2 (cxx_grammar _ _)) _ _ Hp).
Qed.
(** C++ names with the same type name differ only by spaces. *)
Definition nosp (s : str) : str := filter (fun c => negb (Ascii.eqb c " ")) s.
Lemma nosp_app a b : nosp (a ++ b) = nosp a ++ nosp b.
Proof. apply filter_app. Qed.
Lemma cxx_compact (k : str -> str -> Prop) b : (forall x a, k x a -> nosp x = []) ->
  (forall c t, cxx_elem k b c t -> exists c0, cxx_elem compact_comma false c0 t /\ nosp c0 = nosp c) /\
  (forall c t, cxx_path k b c t -> exists c0, cxx_path compact_comma false c0 t /\ nosp c0 = nosp c) /\
  (forall c t, cxx_args k b c t -> exists c0, cxx_args compact_comma false c0 t /\ nosp c0 = nosp c).
Proof.
  intros Hk. assert (Sp : forall x, space b x -> nosp x = []) by (intros x [-> |[_ ->]]; reflexivity). apply cxx_mutind.
  - intros w H. exists w. split; [constructor; exact H|reflexivity].
  - intros w a ta x H _ (a0 & A & E) Hx _. exists (w ++ "<" :: a0 ++ [] ++ [">"]). split; [apply ce_tmpl; auto; left; reflexivity|]. change ("<" :: a0 ++ [] ++ [">"]) with (["<"] ++ a0 ++ [] ++ [">"]). change ("<" :: a ++ x ++ [">"]) with (["<"] ++ a ++ x ++ [">"]). rewrite !nosp_app, E, (Sp x Hx). reflexivity.
  - intros c t _ (c0 & A & E). exists c0. split; [apply cp_one; exact A|exact E].
  - intros w n H. exists (w ++ repeat "*" n). split; [apply cp_ptr; exact H|reflexivity].
  - intros c t c' t' _ (c0 & A & E) _ (c1 & A' & E'). exists (c0 ++ ":" :: ":" :: c1). split; [apply cp_cons; assumption|]. change (":" :: ":" :: c1) with ([":"; ":"] ++ c1). change (":" :: ":" :: c') with ([":"; ":"] ++ c'). rewrite !nosp_app, E, E'. reflexivity.
  - intros c t x d _ (c0 & A & E) Hd Hx _. exists (c0 ++ [] ++ d). split; [apply ca_last; auto; left; reflexivity|]. rewrite !nosp_app, E, (Sp x Hx). reflexivity.
  - intros i H. exists i. split; [apply ca_last_int; exact H|reflexivity].
  - intros c t x a ta _ (c0 & A & E) _ (a0 & A' & E') Hx. exists (c0 ++ "," :: [] ++ a0). split; [apply ca_path; auto; reflexivity|]. change ("," :: [] ++ a0) with ([","] ++ [] ++ a0). change ("," :: x ++ a) with ([","] ++ x ++ a). rewrite !nosp_app, E, E', (Hk x a Hx). reflexivity.
  - intros i x a ta Hi _ (a0 & A' & E') Hx. exists (i ++ "," :: [] ++ a0). split; [apply ca_int; auto; reflexivity|]. change ("," :: [] ++ a0) with ([","] ++ [] ++ a0). change ("," :: x ++ a) with ([","] ++ x ++ a). rewrite !nosp_app, E', (Hk x a Hx). reflexivity.
Qed.
Theorem C43_injective c t c' t' : printed c t -> printed c' t' -> (2 < length t)%nat -> (2 < length t')%nat -> not_renamed t -> not_renamed t' ->
  cxxToTypelibName c = cxxToTypelibName c' -> nosp c = nosp c'.
Proof.
  intros H H' L L' R R' E. rewrite (printed_conv H L R), (printed_conv H' L' R') in E. injection E as <-.
  assert (K : forall c t, printed c t -> exists c0, compact c0 t /\ nosp c0 = nosp c).
  { clear. intros c t [c0 t0 x d Hp Hd Hx _]. assert (Q : forall x a, clang_comma x a -> nosp x = []) by (intros y a [-> |[-> _]]; reflexivity). destruct (proj1 (proj2 (@cxx_compact clang_comma true Q)) _ _ Hp) as (c1 & A & E).
    exists (c1 ++ [] ++ d). split; [apply cn; auto; left; reflexivity|]. rewrite !nosp_app, E. destruct Hx as [-> |[_ ->]]; reflexivity. }
  destruct (K _ _ H) as (c1 & A & <-). destruct (K _ _ H') as (c2 & A' & <-). apply compact_back in A, A'. congruence.
Qed.
(** Both conversions always end; typelibToCxxName never fails, cxxToTypelibName only with an exception, and not for
    non-empty names without '<'. *)
Theorem C43_total s : (exists c, typelibToCxxName s = Ok c) /\ ((exists t, cxxToTypelibName s = Ok t) \/ cxxToTypelibName s = Throw ERuntime) /\
  (s <> [] -> ~ In "<" s -> exists t, cxxToTypelibName s = Ok t).
Proof.
  split; [rewrite back_pipeline; eauto|].
  assert (Rn : forall t, exists r, isTypeRenamed t = Ok r).
  { intros t. unfold isTypeRenamed. assert (G : forall l b t, (forall x y, In (x, y) l -> x <> []) -> exists r, rename_loop l b t = Ok r).
    { induction l as [|[x y] l IH]; intros b u Hl; [cbn; eauto|]. cbn [rename_loop]. assert (Hl' : forall x y, In (x, y) l -> x <> []) by (intros x' y' Hi; apply (Hl x' y'); right; exact Hi). destruct b; [apply IH; exact Hl'|].
      unfold replaceAll. rewrite replace_rep by (apply (Hl x y); left; reflexivity). cbn [bind]. apply IH. exact Hl'. }
    apply G. intros x y Hi. cbn in Hi. decompose [or] Hi; try contradiction; match goal with E : (_, _) = _ |- _ => injection E as <- <- end; discriminate. }
  assert (Ne : forall x to u k, x <> [] -> to <> [] -> u <> [] -> (k < length u)%nat -> rep k x to u <> []).
  { intros x to u k Hx Hto. revert k. induction u as [|c u IH]; intros k Hu Hk; [congruence|]. cbn [rep]. destruct k as [|k]; [destruct (has_prefix x (c :: u)); [|discriminate]; intros X; apply app_eq_nil in X; tauto|]. apply IH; [intros ->; cbn in Hk; lia|cbn in Hk; lia]. }
  assert (Rp : forall x to u, x <> [] -> to <> [] -> u <> [] -> rep 0 x to u <> []) by (intros x to u Hx Hto Hu; apply Ne; auto; destruct u; [congruence|cbn; lia]).
  assert (Na : forall u v, u <> [] -> ang u = Some v -> v <> []). { intros [|c u] v Hu E; [congruence|]. cbn [ang] in E. destruct (ceqb c "<"); [destruct u; [discriminate|]|]; destruct (ang _); try discriminate; injection E as <-; discriminate. }
  assert (Ns : forall u, u <> [] -> sl u <> []). { induction u as [|c u IH]; intros Hu; [congruence|]. cbn [sl]. destruct (ceqb c "/"); [|discriminate]. destruct u as [|d u]; [discriminate|]. destruct (num d); [apply IH; discriminate|discriminate]. }
  destruct s as [|c s]; [split; [right; reflexivity|congruence]|]. assert (N5 : rep 0 (s_ ", ") (s_ ",/") (rep 0 (s_ "< ") (s_ "<") (rep 0 (s_ "> ") (s_ ">") (rep 0 (s_ " [") (s_ "[") (rep 0 (s_ "::") (s_ "/") (c :: s))))) <> []) by (do 5 (apply Rp; try discriminate)).
  assert (T : forall s6, s6 <> [] -> exists t, match sl s6 with [] => Throw ERuntime | c :: r => let s8 := if negb (ceqb c "/") && (1 <? length (c :: r))%nat then "/" :: c :: r else c :: r in '(b, s9) <- isTypeRenamed s8 ;; Ok (if b then s9 else s8) end = Ok t).
  { intros s6 H6. destruct (sl s6) as [|d r] eqn:E6; [destruct (Ns s6 H6 E6)|]. cbv zeta. match goal with |- context [isTypeRenamed ?u] => destruct (Rn u) as [[b s9] ->] end. cbn [bind]. eauto. }
  rewrite pipeline by discriminate. split.
  - match goal with |- context [ang ?u] => destruct (ang u) as [s6|] eqn:E6 end; [left; apply T; exact (Na _ _ N5 E6)|right; reflexivity].
  - intros _ Nl. assert (Nr : forall x to u, ~ In "<" to -> ~ In "<" u -> forall k, ~ In "<" (rep k x to u)).
    { intros x to u Hto. induction u as [|d u IH]; intros Hu k; [intros []|]. cbn [rep]. assert (Hu' : ~ In "<" u) by (intros X; apply Hu; right; exact X). destruct k; [|apply IH; exact Hu']. destruct (has_prefix x (d :: u)); intros X.
      - apply in_app_or in X. destruct X as [X|X]; [contradiction|exact (IH Hu' _ X)].
      - destruct X as [X|X]; [apply Hu; left; exact X|exact (IH Hu' _ X)]. }
    assert (L3 : ~ In "<" (rep 0 (s_ "> ") (s_ ">") (rep 0 (s_ " [") (s_ "[") (rep 0 (s_ "::") (s_ "/") (c :: s))))) by (do 3 (apply Nr; [cbn; intuition discriminate|]); exact Nl).
    assert (E4 : rep 0 (s_ "< ") (s_ "<") (rep 0 (s_ "> ") (s_ ">") (rep 0 (s_ " [") (s_ "[") (rep 0 (s_ "::") (s_ "/") (c :: s)))) = rep 0 (s_ "> ") (s_ ">") (rep 0 (s_ " [") (s_ "[") (rep 0 (s_ "::") (s_ "/") (c :: s)))) by (apply (@rep_none _ _ _ "<"); [discriminate|left; reflexivity|exact L3]).
    rewrite E4 in *. assert (L5 := Nr (s_ ", ") (s_ ",/") _ ltac:(cbn; intuition discriminate) L3 0%nat). match goal with |- context [ang ?u] => assert (E6 : ang u = Some u) by (rewrite <- (app_nil_r u) at 1; rewrite ang_pre by exact L5; cbn; f_equal; apply app_nil_r) end.
    rewrite E6. apply T. exact N5.
Qed.

(** ** Names that do not come back *)
(** Two types as arguments; one letter; names that are renamed. *)
Theorem C43_round_trip_refuted :
  (typelibToCxxName (s_ "/a/M</b/K,/b/V>") = Ok (s_ "a::M<b::K,b::V>") /\ cxxToTypelibName (s_ "a::M<b::K,b::V>") = Ok (s_ "/a/M</b/K,b/V>")) /\
  (typelibToCxxName (s_ "/T") = Ok (s_ "T") /\ cxxToTypelibName (s_ "T") = Ok (s_ "T")) /\
  (typelibToCxxName (s_ "/std/basic_string</char>") = Ok (s_ "std::basic_string<char>") /\ cxxToTypelibName (s_ "std::basic_string<char>") = Ok (s_ "/std/string</char>")).
Proof. split; [|split]; split; vm_compute; reflexivity. Qed.
(** A name with an inline namespace is renamed once only: the string of libc++ does not get the name of std::string. A
    pointer keeps the space that clang prints. *)
Theorem C43_rename_once_refuted : cxxToTypelibName (s_ "std::__1::basic_string<char>") = Ok (s_ "/std/basic_string</char>") /\
  cxxToTypelibName (s_ "std::basic_string<char>") = Ok (s_ "/std/string</char>") /\ cxxToTypelibName (s_ "int *") = Ok (s_ "/int *").
Proof. split; [|split]; vm_compute; reflexivity. Qed.

(** ** The hypotheses are met. *)
Lemma word_intro w : (match w with c :: _ => negb (isdigit c || ceqb c " ") | [] => false end && negb (ceqb (last w " ") " ") && forallb (fun c => isalnum c || ceqb c "_" || ceqb c " ") w)%bool = true -> cxx_word w.
Proof.
  rewrite !andb_true_iff, !negb_true_iff. intros ((A & B) & C). destruct w as [|c r]; [discriminate|]. apply negb_true_iff, orb_false_iff in A. destruct A as [A1 A2]. split; [split; [discriminate|]|split].
  - apply Forall_forall. intros x Hx. rewrite forallb_forall in C. apply C in Hx. clear -Hx. destruct x as [[] [] [] [] [] [] [] []]; vm_compute in Hx; try discriminate Hx; unfold word_char, letters, digits; cbn; tauto.
  - exists c, r. split; [reflexivity|]. split; [intros X; destruct (digit_num X) as [Y _]; unfold num in Y; rewrite A1 in Y; cbn [orb] in Y; unfold ceqb in Y; apply Ascii.eqb_eq in Y; subst c; cbn in X; intuition discriminate|]. intros ->. discriminate.
  - destruct (exists_last (l := c :: r)) as (m & z & E); [discriminate|]. exists m, z. split; [exact E|]. intros ->. rewrite E, last_last in B. discriminate.
Qed.
Lemma case_absent x s : contains_str s x = false -> absent x s.
Proof.
  intros H a b ->. revert H. induction a as [|c a IH]; cbn [app]; intros H.
  - assert (P : has_prefix x (x ++ b) = true) by (apply has_prefix_app; exists b; reflexivity). destruct (x ++ b); cbn [contains_str] in H; rewrite P in H; discriminate.
  - cbn [contains_str] in H. apply orb_false_iff in H. apply IH. apply H.
Qed.
Lemma word_elem comma b w : (match w with c :: _ => negb (isdigit c || ceqb c " ") | [] => false end && negb (ceqb (last w " ") " ") && forallb (fun c => isalnum c || ceqb c "_" || ceqb c " ") w)%bool = true -> cxx_elem comma b w (sep :: w).
Proof. intros H. apply ce_word, word_intro. exact H. Qed.
Lemma case_vec (comma : str -> str -> Prop) b x : comma x (s_ "3") -> cxx_path comma b (s_ "base::Vec<double," ++ x ++ s_ "3>") (s_ "/base/Vec</double,3>").
Proof.
  intros Hx. assert (I3 : integer (s_ "3")) by (split; [discriminate|repeat constructor; right; cbn; tauto]).
  assert (A : cxx_args comma b (s_ "double" ++ "," :: x ++ s_ "3") ((sep :: s_ "double") ++ "," :: s_ "3")) by (apply ca_path; [apply cp_one, word_elem; reflexivity|apply ca_last_int; exact I3|exact Hx]).
  assert (T := @ce_tmpl comma b (s_ "Vec") _ _ [] (@word_intro (s_ "Vec") eq_refl) A (or_introl eq_refl) (or_introl eq_refl)).
  assert (P := @cp_cons comma b (s_ "base") _ _ _ (@word_elem comma b (s_ "base") eq_refl) (cp_one T)). revert P. cbn. rewrite <- app_assoc. cbn. auto.
Qed.
Example C43_case_printed : printed (s_ "std::map<base::Vec<double, 3>, unsigned int [4]>::Iter [2]") (s_ "/std/map</base/Vec</double,3>,/unsigned int[4]>/Iter[2]") /\
  not_renamed (s_ "/std/map</base/Vec</double,3>,/unsigned int[4]>/Iter[2]").
Proof.
  assert (D : forall n, digit n -> g_dims ["["; n; "]"]) by (intros n Hn; apply (@gd_cons [n] []); [discriminate|constructor; [exact Hn|constructor]|constructor]). split.
  - assert (V := @case_vec clang_comma true [" "] (or_introl eq_refl)).
    assert (U : cxx_args clang_comma true (s_ "unsigned int" ++ [" "] ++ s_ "[4]") ((sep :: s_ "unsigned int") ++ s_ "[4]")).
    { apply ca_last; [apply cp_one, word_elem; vm_compute; reflexivity|apply (D "4"); cbn; tauto|right; auto|right; discriminate]. }
    assert (A := @ca_path clang_comma true _ _ [" "] _ _ V U (or_introl eq_refl)).
    assert (T : forall a ta, cxx_args clang_comma true a ta -> cxx_elem clang_comma true (s_ "map" ++ "<" :: a ++ [] ++ [">"]) (sep :: s_ "map" ++ "<" :: ta ++ [">"])) by (intros a ta Ha; apply ce_tmpl; [apply word_intro; vm_compute; reflexivity|exact Ha|left; reflexivity|left; reflexivity]).
    apply T in A. clear T V U. assert (I : cxx_path clang_comma true (s_ "Iter") (s_ "/Iter")) by (apply cp_one; apply (@word_elem _ _ (s_ "Iter")); vm_compute; reflexivity).
    assert (S : cxx_elem clang_comma true (s_ "std") (s_ "/std")) by (apply (@word_elem _ _ (s_ "std")); vm_compute; reflexivity).
    assert (P := cp_cons S (cp_cons A I)). clear A I S. assert (N : forall c t, cxx_path clang_comma true c t -> cxx_name clang_comma true (c ++ [" "] ++ s_ "[2]") (t ++ s_ "[2]")) by (intros c t Hc; apply cn; [exact Hc|apply (D "2"); cbn; tauto|right; auto|right; discriminate]).
    apply N in P. clear N D. cbn in P. exact P.
  - repeat split; apply case_absent; vm_compute; reflexivity.
Qed.
Example C43_case_compact : compact_num (s_ "base::Vec<double,3>") (s_ "/base/Vec</double,3>") /\ not_renamed (s_ "/base/Vec</double,3>") /\ typelibToCxxName (s_ "/base/Vec</double,3>") = Ok (s_ "base::Vec<double,3>").
Proof.
  assert (N : numeric (s_ "3")) by (exists "3", []; split; [reflexivity|left; cbn; tauto]).
  assert (C : compact_num (s_ "base::Vec<double,3>") (s_ "/base/Vec</double,3>")) by exact (@cn _ false _ _ [] [] (@case_vec (fun x a => x = [] /\ numeric a) false [] (conj eq_refl N)) gd_nil (or_introl eq_refl) (or_introl eq_refl)).
  split; [exact C|]. split; [repeat split; apply case_absent; vm_compute; reflexivity|]. vm_compute. reflexivity.
Qed.
Print Assumptions C43_to_typelib. Print Assumptions C43_to_cxx. Print Assumptions C43_round_trip_partial. Print Assumptions C43_cxx_round_trip_partial. Print Assumptions C43_valid. Print Assumptions C43_injective. Print Assumptions C43_total.
Print Assumptions C43_round_trip_refuted. Print Assumptions C43_rename_once_refuted.
