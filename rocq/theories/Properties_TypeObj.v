(** * Properties_TypeObj: C26 (Enum), C27 (Compound), C37 (MetaData), C38 (config_set). *)
From Coq Require Import Sorted Permutation.
From Verif Require Import Base Types.
From Verif Require Import Names Graph GraphProofs Registry RegistryOps Smap SmapProofs TypeObj TypeObjSpec TypeObjProofs.
Local Open Scope N_scope.

(** ** C26. [enum_hist i h e]: [e] is the Enum built with the initial value [i] after the calls add(name, value) of the history
    [h]; calls that throw are part of the history. *)
Inductive enum_hist (i : Z) : list (str * Z) -> enum_t -> Prop :=
| eh_new e : enum_new i = Ok e -> enum_hist i [] e
| eh_add h e n v : enum_hist i h e -> is_int v -> enum_hist i (h ++ [(n, v)]) (fst (enum_add e n v)).
Lemma hist_run i h e : enum_hist i h e -> e = enum_run (En (i - 1) []) h /\ enum_new i = Ok (En (i - 1) []) /\ Forall (fun p => is_int (snd p)) h.
Proof.
  induction 1 as [e E|h e n v H (IH & E & F) Hv].
  - unfold enum_new in *. destruct (in_int (i - 1)); inversion E; subst. auto.
  - rewrite run_app, <- IH. repeat split; auto. apply Forall_app. auto.
Qed.
(** A symbol has the value of the first add call for it; get throws SymbolNotFound exactly if there was none. *)
Theorem C26_value i h e n : enum_hist i h e ->
  (exists v, first_def n h v /\ enum_value e n = Ok v) \/ (~ In n (map fst h) /\ enum_value e n = Throw ESymbolNotFound).
Proof.
  intros H. apply hist_run in H as (-> & _). unfold enum_value. destruct (enum_inv (i - 1) h) as [_ F]. specialize (F n).
  destruct (m_find n _) as [v|]; [left; exists v; auto|right; auto].
Qed.
(** get(value) returns a symbol that has the value, the first one in alphabetical order, and throws ValueNotFound exactly if
    there is none. *)
Theorem C26_symbol i h e v : enum_hist i h e ->
  (exists n, first_def n h v /\ enum_symbol e v = Ok n /\ forall n', first_def n' h v -> n' = n \/ str_lt n n') \/
  ((forall n, ~ first_def n h v) /\ enum_symbol e v = Throw EValueNotFound).
Proof.
  intros H. apply hist_run in H as (-> & _). unfold enum_symbol. destruct (enum_inv (i - 1) h) as [S _]. assert (K := first_with_spec v S).
  destruct (first_with v _) as [n|].
  - left. destruct K as [K1 K2]. exists n. split; [eapply enum_find; eauto|]. split; [reflexivity|]. intros n' Hn. apply enum_find with (last := (i - 1)%Z) in Hn. apply K2 in Hn.
    destruct (slt n n') eqn:E; [right; apply slt_spec, E|left; apply slt_total; assumption].
  - right. split; [|reflexivity]. intros n Hn. apply enum_find with (last := (i - 1)%Z) in Hn. eapply K; eauto.
Qed.
(** add throws AlreadyExists exactly if the symbol was first added with another value, and the object is then unchanged. *)
Theorem C26_add i h e n v : enum_hist i h e ->
  (exists w, first_def n h w /\ w <> v /\ enum_add e n v = (e, Throw EAlreadyExists)) \/
  ((forall w, first_def n h w -> w = v) /\ exists e', enum_add e n v = (e', Ok tt)).
Proof.
  intros H. apply hist_run in H as (-> & _). set (e := enum_run _ h). unfold enum_add. destruct (m_find n (en_values e)) as [w|] eqn:E.
  - assert (Hw : first_def n h w) by (eapply enum_find; exact E). destruct (Z.eqb_spec w v) as [-> |Hn].
    + right. split; [intros; eapply first_def_fun; eauto|eauto].
    + left. exists w. split; [assumption|]. split; [assumption|]. f_equal. destruct e as [l m] eqn:Ee. cbn in *. f_equal.
      apply sorted_ext; [apply m_insert_sorted|..]; try (assert (S := proj1 (enum_inv (i - 1) h)); fold e in S; rewrite Ee in S; exact S).
      intros k. rewrite m_find_insert by (assert (S := proj1 (enum_inv (i - 1) h)); fold e in S; rewrite Ee in S; exact S). destruct (seqb n k) eqn:Ek; [|reflexivity]. apply seqb_eq in Ek. subst k. rewrite E. reflexivity.
  - right. split; [|eauto]. intros w Hw. eapply enum_find with (last := (i - 1)%Z) in Hw. fold e in Hw. congruence.
Qed.
(** names() are all the symbols, once each, in alphabetical order. *)
Theorem C26_names i h e : enum_hist i h e -> alphabetical (enum_names e) /\ NoDup (enum_names e) /\ forall n, In n (enum_names e) <-> In n (map fst h).
Proof.
  intros H. apply hist_run in H as (-> & _). unfold enum_names. destruct (enum_inv (i - 1) h) as [S F]. assert (K := sorted_keys S).
  split; [apply ssorted_alpha, K|]. split; [apply ssorted_NoDup, K|]. intros n. specialize (F n). rewrite (first_def_In n h). destruct (m_find n _) as [v|] eqn:E.
  - split; [eauto|]. intros _. destruct (in_dec (list_eq_dec ascii_dec) n (map fst (en_values (enum_run (En (i - 1) []) h)))) as [X|X]; [exact X|].
    apply m_find_None in X. congruence.
  - apply m_find_None in E. split; [tauto|]. intros (v & Hv). exfalso. apply F, first_def_In. eauto.
Qed.
(** getNextValue() is the initial value before any add, then one more than the value of the last add that did not throw (even if
    it added nothing); overflow of int, for that value INT_MAX, is undefined. *)
Theorem C26_next i h e : enum_hist i h e ->
  exists last, enum_next e = (if (last <? 2147483647)%Z then Ok (last + 1)%Z else UB UOther) /\
    ((h = [] /\ last = i - 1)%Z \/ (exists a n b, h = a ++ (n, last) :: b /\ first_def n (a ++ [(n, last)]) last /\
        forall b1 m w b2, b = b1 ++ (m, w) :: b2 -> exists u, first_def m (a ++ (n, last) :: b1) u /\ u <> w)).
Proof.
  intros H. exists (en_last e). destruct (hist_run H) as (_ & E & _).
  assert (R : is_int (en_last e) /\ ((h = [] /\ en_last e = i - 1)%Z \/ (exists a n b, h = a ++ (n, en_last e) :: b /\ first_def n (a ++ [(n, en_last e)]) (en_last e) /\
        forall b1 m w b2, b = b1 ++ (m, w) :: b2 -> exists u, first_def m (a ++ (n, en_last e) :: b1) u /\ u <> w))).
  { clear E. induction H as [e E|h e n v H IH Hv].
    - unfold enum_new, in_int in E. destruct ((-2147483648 <=? i - 1)%Z && (i - 1 <=? 2147483647)%Z) eqn:B; inversion E; subst. simpl. split; [unfold is_int; lia|auto].
    - destruct (C26_add n v H) as [(w & Hw & Hn & ->)|(Hw & e' & Ea)].
      + simpl. destruct IH as [I1 IH]. split; [exact I1|]. right. destruct IH as [[-> _]|(a & n' & b & -> & F & G)].
        * destruct Hw as (a & b & X & _). destruct a; discriminate.
        * exists a, n', (b ++ [(n, v)]). split; [rewrite <- app_assoc; reflexivity|]. split; [exact F|]. intros b1 m x b2 Eb.
          destruct (exists_last (l := (m, x) :: b2)) as (b2' & q & Eq); [discriminate|]. rewrite Eq, app_assoc in Eb. apply app_inj_tail in Eb as [-> <-].
          destruct b2' as [|y b2'].
          -- simpl in Eq. inversion Eq; subst. rewrite app_nil_r in Hw. exists w. auto.
          -- simpl in Eq. inversion Eq; subst. apply (G b1 m x b2'). reflexivity.
      + rewrite Ea. simpl. assert (L : en_last e' = v).
        { clear - Ea. unfold enum_add in Ea. destruct (m_find n (en_values e)) as [w|]; [destruct (w =? v)%Z|]; inversion Ea; reflexivity. }
        rewrite L. split; [exact Hv|]. right. exists h, n, []. split; [reflexivity|]. split; [|intros [|] ? ? ? X; discriminate].
        apply first_def_app. destruct (in_dec (list_eq_dec ascii_dec) n (map fst h)) as [Hi|Hi]; [left|right; auto].
        apply first_def_In in Hi as (w & Hw'). rewrite <- (Hw _ Hw'). exact Hw'. }
  destruct R as [R1 R2]. split; [|exact R2]. unfold enum_next, in_int, is_int in *. destruct (Z.ltb_spec (en_last e) 2147483647).
  - destruct (Z.leb_spec (-2147483648) (en_last e + 1)), (Z.leb_spec (en_last e + 1) 2147483647); simpl; try lia. reflexivity.
  - destruct (Z.leb_spec (en_last e + 1) 2147483647); [lia|]. rewrite andb_false_r. reflexivity.
Qed.
Example C26_example : let h := [(s_ "B", 5%Z); (s_ "A", 5%Z); (s_ "C", (-1)%Z); (s_ "B", 6%Z)] in
  exists e, enum_hist 0 h e /\ enum_symbol e 5 = Ok (s_ "A") /\ enum_value e (s_ "B") = Ok 5%Z /\ enum_next e = Ok 0%Z /\ enum_names e = [s_ "A"; s_ "B"; s_ "C"].
Proof.
  cbv zeta. eexists. split.
  - change [(s_ "B", 5%Z); (s_ "A", 5%Z); (s_ "C", (-1)%Z); (s_ "B", 6%Z)] with (((([] ++ [(s_ "B", 5%Z)]) ++ [(s_ "A", 5%Z)]) ++ [(s_ "C", (-1)%Z)]) ++ [(s_ "B", 6%Z)]).
    repeat (apply eh_add; [|unfold is_int; lia]). apply eh_new. reflexivity.
  - repeat split; vm_compute; reflexivity.
Qed.

(** ** C27. [comp_hist h c]: [c] is a new compound after the calls addField(name, type, offset) of [h]. *)
Inductive comp_hist : list (str * ty * N) -> comp_t -> Prop :=
| ch_new : comp_hist [] comp_new
| ch_add h c n t o : comp_hist h c -> comp_hist (h ++ [(n, t, o)]) (comp_add c n t o).
Lemma ch_run h c : comp_hist h c -> c = comp_run comp_new h.
Proof. induction 1 as [|h c n t o H IH]; [reflexivity|]. rewrite comp_run_app, <- IH. reflexivity. Qed.
(** The size is the largest end of a field (0 without fields), when no end is beyond the range of size_t. *)
Theorem C27_size h c : comp_hist h c -> Forall (fun x => snd x + sizeof (snd (fst x)) < two64) h ->
  (forall n t o, In (n, t, o) h -> o + sizeof t <= c_size c) /\ (h = [] /\ c_size c = 0 \/ exists n t o, In (n, t, o) h /\ c_size c = o + sizeof t).
Proof.
  intros H F. apply ch_run in H. subst c. rewrite comp_size by assumption. change (c_size comp_new) with 0. set (l := map _ h).
  destruct (fold_max_ge l 0) as (_ & G & E). split.
  - intros n t o Hi. rewrite Forall_forall in G. apply G. apply in_map_iff. exists (n, t, o). auto.
  - destruct h as [|x h]; [left; auto|right]. destruct E as [E|E].
    + destruct x as [[n t] o]. exists n, t, o. split; [left; reflexivity|]. rewrite Forall_forall in G. specialize (G (o + sizeof t) (or_introl eq_refl)). rewrite E in G |- *. lia.
    + apply in_map_iff in E as ([[n t] o] & E & Hi). exists n, t, o. auto.
Qed.
(** The fields are those of the calls, in order; getField gives the first one with the name. *)
Theorem C27_fields h c : comp_hist h c -> map (fun f => (fl_name f, fl_type f, fl_off f)) (c_fields c) = h.
Proof.
  intros H. apply ch_run in H. subst c. rewrite comp_fields. simpl. rewrite map_map. simpl. rewrite <- map_id. apply map_ext. intros [[n t] o]. reflexivity.
Qed.
Theorem C27_getField h c n : comp_hist h c ->
  (exists a t o b, h = a ++ (n, t, o) :: b /\ Forall (fun x => fst (fst x) <> n) a /\ comp_getField c n = Some (Fld n t o)) \/
  (Forall (fun x => fst (fst x) <> n) h /\ comp_getField c n = None).
Proof.
  intros H. assert (E := C27_fields H). unfold comp_getField. assert (K := find_fld_spec n (c_fields c)). destruct (find_fld n (c_fields c)) as [[n' t o]|].
  - left. destruct K as (a & b & Ef & En & Fa). simpl in En. subst n'. exists (map (fun f => (fl_name f, fl_type f, fl_off f)) a), t, o, (map (fun f => (fl_name f, fl_type f, fl_off f)) b).
    split; [rewrite <- E, Ef, map_app; reflexivity|]. split; [|reflexivity]. apply Forall_forall. intros x Hx. apply in_map_iff in Hx as (f & <- & Hf). simpl. rewrite Forall_forall in Fa. auto.
  - right. split; [|reflexivity]. apply Forall_forall. intros x Hx. rewrite <- E in Hx. apply in_map_iff in Hx as (f & <- & Hf). simpl. rewrite Forall_forall in K. auto.
Qed.
(** getTrailingPadding is the distance from the largest end of a field to the end of the type, for a compound of at most 2^31 - 1
    bytes up to there and any size set later; it is the size if there is no field. *)
Theorem C27_trailing h c s : comp_hist h c -> Forall (fun x => snd x + sizeof (snd (fst x)) < 2147483648) h -> c_size c <= s -> s < 4294967296 ->
  comp_trailing (comp_setSize c s) = s - c_size c.
Proof.
  intros H F Hs Hm. assert (R := ch_run H). assert (F2 : Forall (fun x => snd x + sizeof (snd (fst x)) < two64) h).
  { eapply Forall_impl; [|exact F]. simpl. intros. unfold two64. lia. }
  unfold comp_trailing. cbn [comp_setSize c_fields c_size]. destruct (c_fields c) as [|f l] eqn:Ef.
  - assert (h = []) by (rewrite <- (C27_fields H), Ef; reflexivity). subst h. subst c. simpl. rewrite N.mod_small by assumption. lia.
  - rewrite max_end_spec; [|rewrite <- Ef, R, comp_fields; apply Forall_forall; intros x Hx; apply in_map_iff in Hx as (y & <- & Hy); rewrite Forall_forall in F; apply (F _ Hy)|lia].
    change (Z.to_N 0) with 0. rewrite <- Ef. assert (E : c_size c = fold_left N.max (map end_of (c_fields c)) 0).
    { rewrite R, comp_size by assumption. change (c_size comp_new) with 0. f_equal. rewrite comp_fields. simpl. rewrite map_map. reflexivity. }
    rewrite <- E. rewrite Z.mod_small by lia. lia.
Qed.
(** normalizeFieldOrder sorts the fields by offset, then by name, keeps all of them, and does not change what getField finds when
    names are distinct. *)
Theorem C27_normalize c : Permutation (c_fields (comp_normalize c)) (c_fields c) /\ c_size (comp_normalize c) = c_size c /\
  StronglySorted (fun a b => fl_off a < fl_off b \/ fl_off a = fl_off b /\ (fl_name a = fl_name b \/ str_lt (fl_name a) (fl_name b))) (c_fields (comp_normalize c)) /\
  (NoDup (map fl_name (c_fields c)) -> forall n, comp_getField (comp_normalize c) n = comp_getField c n).
Proof.
  split; [apply fld_sort_perm|]. split; [reflexivity|]. split; [apply fld_sort_sorted|]. intros D n. symmetry. apply find_fld_perm; [symmetry; apply fld_sort_perm|exact D].
Qed.
Example C27_example : let h := [(s_ "a", TNum 4 SInt, 0); (s_ "b", TNum 2 SInt, 8); (s_ "c", TNum 1 SInt, 4)] in
  exists c, comp_hist h c /\ c_size c = 10 /\ comp_trailing (comp_setSize c 12) = 2 /\ map fl_name (c_fields (comp_normalize c)) = [s_ "a"; s_ "c"; s_ "b"].
Proof.
  cbv zeta. eexists. split.
  - change [(s_ "a", TNum 4 SInt, 0); (s_ "b", TNum 2 SInt, 8); (s_ "c", TNum 1 SInt, 4)] with ((([] ++ [(s_ "a", TNum 4 SInt, 0)]) ++ [(s_ "b", TNum 2 SInt, 8)]) ++ [(s_ "c", TNum 1 SInt, 4)]).
    repeat apply ch_add. apply ch_new.
  - repeat split; vm_compute; reflexivity.
Qed.
(** The offsets go through int: with a field that ends beyond 2^31 the trailing padding is wrong. Here there is none. *)
Theorem C27_large_refuted : exists c, comp_hist [(s_ "a", TNum 4 SInt, 0); (s_ "b", TNum 4 SInt, 2147483648)] c /\ c_size c = 2147483652 /\ comp_trailing c = 2147483648.
Proof.
  eexists. split.
  - change [(s_ "a", TNum 4 SInt, 0); (s_ "b", TNum 4 SInt, 2147483648)] with (([] ++ [(s_ "a", TNum 4 SInt, 0)]) ++ [(s_ "b", TNum 4 SInt, 2147483648)]).
    repeat apply ch_add. apply ch_new.
  - split; vm_compute; reflexivity.
Qed.

(** ** C37. [md_reach m]: a MetaData object after any sequence of calls. The values of a key are a set. *)
Theorem C37_values m k : md_reach m -> alphabetical (md_get m k) /\ NoDup (md_get m k).
Proof. intros H. apply md_reach_ok in H. assert (K := md_get_sorted k H). split; [apply ssorted_alpha, K|apply ssorted_NoDup, K]. Qed.
Theorem C37_set m k v k' : md_reach m -> md_get (md_set m k v) k = [v] /\ md_include (md_set m k v) k = true /\
  (k' <> k -> md_get (md_set m k v) k' = md_get m k' /\ md_include (md_set m k v) k' = md_include m k').
Proof.
  intros H. apply md_reach_ok in H as [S _]. assert (S' := m_erase_sorted k S). unfold md_set, md_add, md_clear, md_get, md_include. rewrite !m_find_set by assumption.
  rewrite !m_find_erase, !seqb_refl. repeat split; [rewrite seqb_false by auto; rewrite ?seqb_refl; reflexivity..|].
  rewrite seqb_false by auto. reflexivity.
Qed.
Theorem C37_add m k v k' : md_reach m -> (forall x, In x (md_get (md_add m k v) k) <-> x = v \/ In x (md_get m k)) /\ md_include (md_add m k v) k = true /\
  (k' <> k -> md_get (md_add m k v) k' = md_get m k' /\ md_include (md_add m k v) k' = md_include m k').
Proof.
  intros H. apply md_reach_ok in H as [S _]. unfold md_add. split; [|split].
  - intros x. unfold md_get at 1. rewrite m_find_set, seqb_refl by assumption. apply set_insert_In.
  - unfold md_include. rewrite m_find_set, seqb_refl by assumption. reflexivity.
  - intros Hn. unfold md_get at 1, md_include. rewrite !m_find_set by assumption. rewrite seqb_false by auto. split; reflexivity.
Qed.
Theorem C37_addAll m k vs k' : md_reach m -> (forall x, In x (md_get (md_addAll m k vs) k) <-> In x vs \/ In x (md_get m k)) /\ md_include (md_addAll m k vs) k = true /\
  (k' <> k -> md_get (md_addAll m k vs) k' = md_get m k' /\ md_include (md_addAll m k vs) k' = md_include m k').
Proof.
  intros H. apply md_reach_ok in H as [S _]. split; [|split].
  - intros x. rewrite md_get_addAll, seqb_refl by assumption. rewrite fold_set_insert_In. tauto.
  - rewrite md_include_addAll, seqb_refl by assumption. reflexivity.
  - intros Hn. rewrite md_get_addAll, md_include_addAll by assumption. rewrite seqb_false by auto. split; reflexivity.
Qed.
Theorem C37_clear m k k' : md_get (md_clear m k) k = [] /\ md_include (md_clear m k) k = false /\
  (k' <> k -> md_get (md_clear m k) k' = md_get m k' /\ md_include (md_clear m k) k' = md_include m k').
Proof.
  unfold md_clear, md_get, md_include. rewrite !m_find_erase, seqb_refl. repeat split; rewrite seqb_false by auto; reflexivity.
Qed.
(** merge gives the union, key by key; merging again, or an object with itself, changes nothing. *)
Theorem C37_merge m o k : md_reach m -> md_reach o ->
  (forall v, In v (md_get (md_merge m o) k) <-> In v (md_get m k) \/ In v (md_get o k)) /\ md_include (md_merge m o) k = md_include m k || md_include o k.
Proof. intros H H'. apply md_merge_spec; [apply md_reach_ok, H|apply (md_reach_ok H')]. Qed.
Theorem C37_merge_idempotent m o : md_reach m -> md_reach o -> md_merge (md_merge m o) o = md_merge m o /\ md_merge m m = m.
Proof.
  intros H H'. assert (R := mr_merge H H'). split; apply md_ext; try apply md_reach_ok; auto using mr_merge; intros k.
  - rewrite !(proj2 (C37_merge k R H')), !(proj2 (C37_merge k H H')). destruct (md_include m k), (md_include o k); reflexivity.
  - intros v. rewrite (proj1 (C37_merge k R H')), (proj1 (C37_merge k H H')). tauto.
  - rewrite (proj2 (C37_merge k H H)). apply orb_diag.
  - intros v. rewrite (proj1 (C37_merge k H H)). tauto.
Qed.
(** merge is commutative. *)
Theorem C37_merge_comm m o : md_reach m -> md_reach o -> md_merge m o = md_merge o m.
Proof.
  intros H H'. apply md_ext; try apply md_reach_ok; auto using mr_merge; intros k.
  - rewrite (proj2 (C37_merge k H H')), (proj2 (C37_merge k H' H)). apply orb_comm.
  - intros v. rewrite (proj1 (C37_merge k H H')), (proj1 (C37_merge k H' H)). tauto.
Qed.
Example C37_example : let m := md_add (md_add (md_set [] (s_ "doc") (s_ "y")) (s_ "doc") (s_ "x")) (s_ "a") (s_ "1") in
  md_reach m /\ md_get m (s_ "doc") = [s_ "x"; s_ "y"] /\ md_get (md_merge m [(s_ "doc", [s_ "z"])]) (s_ "doc") = [s_ "x"; s_ "y"; s_ "z"].
Proof.
  cbv zeta. split; [|split; vm_compute; reflexivity].
  apply (mr_op (MAdd _ _)), (mr_op (MAdd _ _)), (mr_op (MSet _ _)), mr_new.
Qed.
(** include "tests whether there is at least one value" (typemodel.hh:27): not so after adding an empty set. *)
Theorem C37_include_refuted : md_reach (md_addAll [] (s_ "k") []) /\ md_include (md_addAll [] (s_ "k") []) (s_ "k") = true /\ md_get (md_addAll [] (s_ "k") []) (s_ "k") = [].
Proof. split; [apply (mr_op (MAddAll _ _)), mr_new|split; reflexivity]. Qed.

(** ** C38. [cs_reach s]: a config_set after any sequence of calls. *)
Section C38.
  Context {C : Type}.
  Inductive cs_reach : cset C -> Prop :=
  | cr_new : cs_reach cs_empty
  | cr_insert s n v : cs_reach s -> cs_reach (cs_insert s n v)
  | cr_insertAll s n vs : cs_reach s -> cs_reach (cs_insertAll s n vs)
  | cr_child s n c : cs_reach s -> cs_reach (cs_insertChild s n c)
  | cr_erase s n : cs_reach s -> cs_reach (cs_erase s n)
  | cr_set s n v : cs_reach s -> cs_reach (cs_set s n v)
  | cr_setAll s n vs : cs_reach s -> cs_reach (cs_setAll s n vs).
  Lemma cs_reach_ok s : cs_reach s -> cs_ok s.
  Proof.
    induction 1; auto using cs_insert_ok, cs_insertAll_ok, cs_erase_ok.
    - split; constructor.
    - destruct IHcs_reach. split; [assumption|apply mm_insert_sorted; assumption].
    - apply cs_insert_ok, cs_erase_ok, IHcs_reach.
    - apply cs_insertAll_ok, cs_erase_ok, IHcs_reach.
  Qed.
  (** The values of [n]: what get gives with an empty default. *)
  Notation vals s n := (cs_getList 0 s n []).
  Lemma vals_ok (s : cset C) n : cs_ok s -> vals s n = values_of n (cs_values s).
  Proof. intros H. rewrite cs_getList_0 by assumption. destruct (values_of n (cs_values s)); reflexivity. Qed.
  Theorem C38_get_default s n d : cs_reach s -> cs_getList 0 s n d = match vals s n with [] => d | l => l end.
  Proof. intros H. apply cs_reach_ok in H. rewrite vals_ok, cs_getList_0 by assumption. reflexivity. Qed.
  (** insert appends to the values of the key, and only of this key. *)
  Theorem C38_insert s n v n' : cs_reach s -> vals (cs_insert s n v) n = vals s n ++ [v] /\ (n' <> n -> vals (cs_insert s n v) n' = vals s n').
  Proof.
    intros H. apply cs_reach_ok in H. rewrite !vals_ok by auto using cs_insert_ok. simpl. rewrite !values_insert by apply H. rewrite seqb_refl. split; [reflexivity|].
    intros Hn. rewrite seqb_false by auto. reflexivity.
  Qed.
  Theorem C38_insertAll s n vs n' : cs_reach s -> vals (cs_insertAll s n vs) n = vals s n ++ vs /\ (n' <> n -> vals (cs_insertAll s n vs) n' = vals s n').
  Proof.
    intros H. apply cs_reach_ok in H. rewrite !vals_ok by auto using cs_insertAll_ok. rewrite !values_insertAll by assumption. rewrite seqb_refl. split; [reflexivity|].
    intros Hn. rewrite seqb_false by auto. reflexivity.
  Qed.
  (** set replaces all the values of the key, erase removes them; other keys and the children are unaffected. *)
  Theorem C38_set s n v n' : cs_reach s -> vals (cs_set s n v) n = [v] /\ (n' <> n -> vals (cs_set s n v) n' = vals s n') /\
    cs_childrenOf (cs_set s n v) n' = cs_childrenOf s n'.
  Proof.
    intros H. apply cs_reach_ok in H. unfold cs_set. rewrite !vals_ok by auto using cs_insert_ok, cs_erase_ok. simpl. rewrite !values_insert by (apply cs_erase_ok, H).
    rewrite !values_erase, !seqb_refl. split; [reflexivity|]. split; [|reflexivity]. intros Hn. rewrite seqb_false by auto. reflexivity.
  Qed.
  Theorem C38_setAll s n vs n' : cs_reach s -> vals (cs_setAll s n vs) n = vs /\ (n' <> n -> vals (cs_setAll s n vs) n' = vals s n').
  Proof.
    intros H. apply cs_reach_ok in H. assert (H' := cs_erase_ok n H). unfold cs_setAll. rewrite !vals_ok by auto using cs_insertAll_ok. rewrite !values_insertAll by assumption. simpl.
    rewrite !values_erase, !seqb_refl. split; [reflexivity|]. intros Hn. rewrite seqb_false by auto. reflexivity.
  Qed.
  Theorem C38_erase s n n' : cs_reach s -> vals (cs_erase s n) n = [] /\ (n' <> n -> vals (cs_erase s n) n' = vals s n') /\ cs_childrenOf (cs_erase s n) n' = cs_childrenOf s n'.
  Proof.
    intros H. apply cs_reach_ok in H. rewrite !vals_ok by auto using cs_erase_ok. simpl. rewrite !values_erase, seqb_refl. split; [reflexivity|]. split; [|reflexivity].
    intros Hn. rewrite seqb_false by auto. reflexivity.
  Qed.
  (** Children: added at the end of those of the name; child gives the first one. *)
  Theorem C38_children s n c n' : cs_reach s -> cs_childrenOf (cs_insertChild s n c) n = cs_childrenOf s n ++ [c] /\
    (n' <> n -> cs_childrenOf (cs_insertChild s n c) n' = cs_childrenOf s n') /\ vals (cs_insertChild s n c) n' = vals s n' /\
    cs_child (cs_insertChild s n c) n = Some (match cs_child s n with Some x => x | None => c end).
  Proof.
    intros H. assert (K := cs_reach_ok H). assert (E : cs_childrenOf (cs_insertChild s n c) n = cs_childrenOf s n ++ [c]).
    { unfold cs_childrenOf. fold (values_of n (cs_children (cs_insertChild s n c))). fold (values_of n (cs_children s)). simpl.
      rewrite values_insert, seqb_refl by apply K. reflexivity. }
    split; [exact E|]. split; [|split].
    - intros Hn. unfold cs_childrenOf. fold (values_of n' (cs_children (cs_insertChild s n c))). fold (values_of n' (cs_children s)). simpl.
      rewrite values_insert by apply K. rewrite seqb_false by auto. reflexivity.
    - reflexivity.
    - unfold cs_child. rewrite E. destruct (cs_childrenOf s n); reflexivity.
  Qed.
  (** exists: a value or a child with the name. *)
  Theorem C38_exists s n : cs_reach s -> cs_exists s n = true <-> vals s n <> [] \/ cs_childrenOf s n <> [].
  Proof.
    intros H. apply cs_reach_ok in H. rewrite vals_ok by assumption.
    assert (G : forall A (m : smap A), m_find n m = None <-> values_of n m = []).
    { intros A m. unfold values_of. induction m as [|[k x] m IH]; simpl; [tauto|]. destruct (seqb k n); simpl; [split; discriminate|exact IH]. }
    unfold cs_exists, cs_childrenOf. fold (values_of n (cs_children s)). rewrite <- !G.
    destruct (m_find n (cs_values s)), (m_find n (cs_children s)); split; intros; try discriminate; auto; try (left; discriminate); try (right; discriminate). tauto.
  Qed.
End C38.
Example C38_example : let s := cs_insert (cs_set (cs_insert (cs_insert (@cs_empty unit) (s_ "k") (s_ "1")) (s_ "k") (s_ "2")) (s_ "a") (s_ "x")) (s_ "k") (s_ "3") in
  cs_reach s /\ cs_getList 0 s (s_ "k") [] = [s_ "1"; s_ "2"; s_ "3"] /\ cs_get 0 s (s_ "k") (s_ "z") = s_ "1" /\ cs_get 0 s (s_ "none") (s_ "z") = s_ "z".
Proof.
  cbv zeta. split; [|repeat split; vm_compute; reflexivity]. apply cr_insert, cr_set, cr_insert, cr_insert, cr_new.
Qed.
(** get depends on which element multimap::find returns: C++ allows it to be any of those with the key, and then values are lost. *)
Theorem C38_find_unspecified_refuted : let s := cs_insert (cs_insert (@cs_empty unit) (s_ "k") (s_ "1")) (s_ "k") (s_ "2") in
  cs_getList 1 s (s_ "k") [] = [s_ "2"].
Proof. vm_compute. reflexivity. Qed.
