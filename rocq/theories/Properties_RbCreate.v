(** * Properties_RbCreate: C72, building types from Ruby. *)
From Verif Require Import Base Types NamesSpec Names NamesProofs Graph GraphSpec GraphProofs Registry RegistrySpec RegistryProofs RegistryOps RegistryMain RegistryAlias
  World TypeBuilder TypeBuilderProofs Smap SmapProofs TypeObj TypeObjSpec TypeObjProofs Tlb RbCreateSpec RbCreate RbCreateProofs.
From Verif Require Import Graph.
Local Open Scope nat_scope.

Lemma get_has r n : has r n = match get r n with Some _ => true | None => false end.
Proof. unfold has, get. destruct (find_ n (r_current r)); reflexivity. Qed.
Lemma int_size_zero z : int_range z -> int_size z = 0%N -> z = 0%Z.
Proof.
  unfold int_range, int_size. intros H E. destruct (Z_lt_le_dec z 0).
  - replace (z mod 18446744073709551616)%Z with (z + 18446744073709551616)%Z in E; [lia|]. apply Z.mod_unique_pos with (q := (-1)%Z); lia.
  - rewrite Z.mod_small in E by lia. lia.
Qed.
(** ** Compounds *)
(** Partial: nothing makes the result a sensible compound when offsets or a size are given (refuted below).
    When create_compound succeeds: the fields are the given ones in the given order, at the offsets of the specification (int to
    size_t); the size is the given one or, if that is 0, the largest end of a field; the name designates the new type; no other type or
    absolute name changes. *)
Theorem C72_compound_partial s r name given size s' r' t : world s r -> plain name -> Forall (fun g => snd (fst g) < s_next s) given ->
  create_compound s r name given size = (s', r', Ok t) ->
  exists offsets fs sz,
    placed (fun x => o_size (s_heap s x)) given offsets /\ Forall int_range offsets /\ int_range size /\
    s_heap s' t = Obj name sz (OComp fs) /\
    map (fun f => (f_name f, f_type f)) fs = map fst given /\ map f_off fs = map (fun z => Z.to_N (z mod 2 ^ 64)) offsets /\
    (size <> 0%Z -> sz = Z.to_N (size mod 2 ^ 64)) /\
    (size = 0%Z -> Forall (fun z => 0 <= z)%Z offsets -> (forall f, In f fs -> o_size (s_heap s (f_type f)) < 2 ^ 63)%N ->
       (forall f, In f fs -> f_off f + o_size (s_heap s (f_type f)) <= sz)%N /\
       (sz = 0%N \/ exists f, In f fs /\ sz = (f_off f + o_size (s_heap s (f_type f)))%N)) /\
    get r name = None /\ (forall k, absolute k -> get r' k = if seqb name k then Some t else get r k) /\
    (forall x, x <> t -> s_heap s' x = s_heap s x) /\ ~ registered r t /\ world s' r'.
Proof.
  intros W Hp Hg E. unfold create_compound in E. set (H := s_heap s) in *. set (l := fill_offsets H 0 given) in *.
  destruct (add_fields_spec H l 0 []) as [[Hi Ef]|[_ Ef]]; rewrite Ef in E; [|discriminate]. cbn [app] in E.
  destruct (num2int_spec size) as [[Hs Es]|[_ Es]]; rewrite Es in E; [|discriminate].
  set (o := Obj name _ _) in E.
  assert (Ft : map f_type (map mk_fld l) = map (fun g => snd (fst g)) given).
  { transitivity (map snd (map fst l)); [rewrite !map_map; reflexivity|]. unfold l. rewrite (fill_fst H given 0), map_map. reflexivity. }
  assert (C : constructed s o). { split; [|exact I]. cbn [o o_kind]. rewrite Ft. intros d Hd. apply in_map_iff in Hd as (g & <- & Hd). rewrite Forall_forall in Hg. apply Hg. assumption. }
  destruct (@register_spec s r o s' r' (Ok t) W C I Hp E) as (Es' & W' & [(Hv & Hn & Ht & G)|(_ & X & _)]); [|discriminate]. injection Ht as ->.
  exists (offs H given), (map mk_fld l), (o_size o). split; [apply fill_placed|]. split.
  { unfold offs. fold l. apply Forall_map. assumption. }
  split; [assumption|]. split; [rewrite Es'; cbn [alloc s_heap]; rewrite upd_same; reflexivity|]. split.
  { transitivity (map fst l); [|apply fill_fst]. rewrite map_map. apply map_ext. intros [[n x] z]. reflexivity. }
  split; [unfold offs; fold l; rewrite !map_map; reflexivity|]. split.
  { intros Hz. cbn [o o_size]. unfold final_size. destruct (N.eqb_spec (int_size size) 0) as [X|_]; [|reflexivity]. exfalso. apply (int_size_zero Hs) in X. contradiction. }
  split.
  { intros -> Hnn Hsz. assert (Eo : o_size o = fold_left (grow H) l 0%N) by reflexivity. rewrite Eo, fold_grow.
    assert (K : forall x, In x l -> In (mk_fld x) (map mk_fld l) /\ wadd (int_size (snd x)) (o_size (H (snd (fst x)))) = (f_off (mk_fld x) + o_size (H (f_type (mk_fld x))))%N).
    { intros x Hx. split; [apply in_map; assumption|]. cbn [mk_fld f_off f_type]. unfold wadd, two64. apply N.mod_small. assert (Y := Hsz (mk_fld x) (in_map _ _ _ Hx)). cbn [mk_fld f_type] in Y.
      rewrite Forall_forall in Hi. specialize (Hi x Hx). rewrite Forall_forall in Hnn. assert (Nx : (0 <= snd x)%Z) by (apply Hnn; apply in_map; assumption).
      unfold int_range, int_size in *. rewrite Z.mod_small by lia. lia. }
    destruct (fold_max_spec (map (fun x => wadd (int_size (snd x)) (o_size (H (snd (fst x))))) l) 0) as (_ & B & D). split.
    - intros f Hf. apply in_map_iff in Hf as (x & <- & Hx). destruct (K x Hx) as [_ <-]. apply B. apply in_map_iff. exists x. auto.
    - destruct D as [D|D]; [left; assumption|]. right. apply in_map_iff in D as (x & D & Hx). exists (mk_fld x). destruct (K x Hx) as [K1 K2]. split; [assumption|]. rewrite <- D. exact K2. }
  split; [assumption|]. split; [exact G|]. split; [intros x Hx; rewrite Es'; cbn [alloc s_heap]; apply upd_other; assumption|].
  split; [|assumption]. intros X. destruct (world_facts W) as [[_ R _ _] _]. specialize (R _ X). lia.
Qed.
(** create_compound succeeds exactly when the offsets and the size are ints, and the name is valid and not taken; otherwise it raises
    ArgumentError or RangeError and the registry is as before. *)
Theorem C72_compound_accepted s r name given size s' r' out offsets : world s r -> plain name -> Forall (fun g => snd (fst g) < s_next s) given ->
  placed (fun x => o_size (s_heap s x)) given offsets -> create_compound s r name given size = (s', r', out) ->
  ((exists t, out = Ok t) <-> Forall int_range offsets /\ int_range size /\ isValidTypename name true = true /\ get r name = None) /\
  ((exists t, out = Ok t) \/ (out = Throw EArg \/ out = Throw ERange) /\ r' = r).
Proof.
  intros W Hp Hg P E. unfold create_compound in E. set (H := s_heap s) in *. set (l := fill_offsets H 0 given) in *.
  assert (Po : offsets = map snd l) by (apply (placed_fun P), fill_placed). 
  assert (F : Forall int_range offsets <-> Forall (fun x => int_range (snd x)) l) by (rewrite Po; apply Forall_map).
  destruct (add_fields_spec H l 0 []) as [[Hi Ef]|[Hi Ef]]; rewrite Ef in E.
  2:{ injection E as <- <- <-. split; [|right; auto]. split; [intros (t & X); discriminate|intros (X & _); tauto]. }
  cbn [app] in E. destruct (num2int_spec size) as [[Hs Es]|[Hs Es]]; rewrite Es in E.
  2:{ injection E as <- <- <-. split; [|right; auto]. split; [intros (t & X); discriminate|intros (_ & X & _); tauto]. }
  set (o := Obj name _ _) in E.
  assert (Ft : map f_type (map mk_fld l) = map (fun g => snd (fst g)) given).
  { transitivity (map snd (map fst l)); [rewrite !map_map; reflexivity|]. unfold l. rewrite (fill_fst H given 0), map_map. reflexivity. }
  assert (C : constructed s o). { split; [|exact I]. cbn [o o_kind]. rewrite Ft. intros d Hd. apply in_map_iff in Hd as (g & <- & Hd). rewrite Forall_forall in Hg. apply Hg. assumption. }
  destruct (@register_spec s r o s' r' out W C I Hp E) as (_ & _ & [(Hv & Hn & -> & _)|(Hor & -> & ->)]).
  - split; [|left; eauto]. split; [intros _; tauto|eauto].
  - split; [|right; auto]. split; [intros (t & X); discriminate|]. intros (_ & _ & V & N). exfalso. destruct Hor as [Hor|Hor]; [cbn [o o_name] in Hor; congruence|apply Hor; exact N].
Qed.
(** Without offsets and without size, the fields are laid out one after the other: each byte of the compound is in exactly one field. *)
Lemma consecutive H l : forall c, (0 <= c)%Z -> Forall (fun g : given_field => snd g = None) l -> Forall (fun x => int_range (snd x)) (fill_offsets H c l) ->
  (forall g, In g l -> o_size (H (snd (fst g))) < 2 ^ 63)%N ->
  exists e, (Z.to_N c <= e)%N /\ fold_left (grow H) (fill_offsets H c l) (Z.to_N c) = e /\
   (forall b, (Z.to_N c <= b < e)%N <-> exists i f, nth_error (map mk_fld (fill_offsets H c l)) i = Some f /\ occupies (fun t => o_size (H t)) f b) /\
   (forall b i j f g, nth_error (map mk_fld (fill_offsets H c l)) i = Some f -> nth_error (map mk_fld (fill_offsets H c l)) j = Some g ->
      occupies (fun t => o_size (H t)) f b -> occupies (fun t => o_size (H t)) g b -> i = j).
Proof.
  induction l as [|[[n t] o] l IH]; intros c Hc Hn Hi Hs; cbn [fill_offsets].
  - exists (Z.to_N c). split; [lia|]. split; [reflexivity|]. split; [|intros b [|i] j f g X; discriminate]. intros b. split; [lia|]. intros (i & f & X & _). destruct i; discriminate.
  - inversion Hn as [|? ? No Hn']; subst. cbn [snd] in No. subst o. cbn [fill_offsets] in Hi. inversion Hi as [|? ? Ii Hi']; subst. cbn [snd] in Ii.
    destruct (IH (c + Z.of_N (o_size (H t)))%Z ltac:(lia) Hn' Hi' (fun g Hg => Hs g (or_intror Hg))) as (e & Le & Ee & A & B).
    assert (St := Hs (n, t, None) (or_introl eq_refl)). cbn [fst snd] in St.
    assert (Ec : int_size c = Z.to_N c) by (unfold int_size, int_range in *; rewrite Z.mod_small by lia; reflexivity).
    assert (Eg : grow H (Z.to_N c) (n, t, c) = Z.to_N (c + Z.of_N (o_size (H t)))).
    { unfold grow. cbn [fst snd]. rewrite Ec. unfold wadd, two64. unfold int_range in Ii. rewrite N.mod_small by lia. lia. }
    assert (Hf : forall b, occupies (fun x => o_size (H x)) (mk_fld (n, t, c)) b <-> (Z.to_N c <= b < Z.to_N (c + Z.of_N (o_size (H t))))%N).
    { intros b. unfold occupies, mk_fld. cbn [f_off f_type fst snd]. rewrite Ec. lia. }
    exists e. split; [lia|]. split; [cbn [fold_left]; rewrite Eg; exact Ee|]. split.
    + intros b. split.
      * intros Hb. destruct (N.lt_ge_cases b (Z.to_N (c + Z.of_N (o_size (H t))))) as [X|X].
        { exists 0, (mk_fld (n, t, c)). split; [reflexivity|]. apply Hf. lia. }
        { destruct (proj1 (A b)) as (i & f & X1 & X2); [lia|]. exists (S i), f. auto. }
      * intros (i & f & X & Y). destruct i as [|i].
        { injection X as <-. apply Hf in Y. lia. }
        { assert (Z := proj2 (A b) (ex_intro _ i (ex_intro _ f (conj X Y)))). lia. }
    + intros b i j f g X Y P Q. destruct i as [|i], j as [|j]; cbn [map nth_error] in X, Y.
      * reflexivity.
      * injection X as <-. apply Hf in P. assert (Z := proj2 (A b) (ex_intro _ j (ex_intro _ g (conj Y Q)))). lia.
      * injection Y as <-. apply Hf in Q. assert (Z := proj2 (A b) (ex_intro _ i (ex_intro _ f (conj X P)))). lia.
      * f_equal. eapply B; eassumption.
Qed.
Theorem C72_packed s r name given s' r' t : world s r -> plain name -> Forall (fun g => snd (fst g) < s_next s) given ->
  Forall (fun g => snd g = None) given -> (forall g, In g given -> o_size (s_heap s (snd (fst g))) < 2 ^ 63)%N ->
  create_compound s r name given 0 = (s', r', Ok t) ->
  exists fs sz, s_heap s' t = Obj name sz (OComp fs) /\
    (forall b, (b < sz)%N <-> exists i f, nth_error fs i = Some f /\ occupies (fun x => o_size (s_heap s x)) f b) /\
    (forall b i j f g, nth_error fs i = Some f -> nth_error fs j = Some g ->
       occupies (fun x => o_size (s_heap s x)) f b -> occupies (fun x => o_size (s_heap s x)) g b -> i = j).
Proof.
  intros W Hp Hg Hn Hs E. unfold create_compound in E. set (H := s_heap s) in *. set (l := fill_offsets H 0 given) in *.
  destruct (add_fields_spec H l 0 []) as [[Hi Ef]|[_ Ef]]; rewrite Ef in E; [|discriminate]. cbn [app] in E.
  change (num2int 0) with (Ok 0%Z) in E. cbv iota in E. set (o := Obj name _ _) in E.
  assert (Ft : map f_type (map mk_fld l) = map (fun g => snd (fst g)) given).
  { transitivity (map snd (map fst l)); [rewrite !map_map; reflexivity|]. unfold l. rewrite (fill_fst H given 0), map_map. reflexivity. }
  assert (C : constructed s o). { split; [|exact I]. cbn [o o_kind]. rewrite Ft. intros d Hd. apply in_map_iff in Hd as (g & <- & Hd). rewrite Forall_forall in Hg. apply Hg. assumption. }
  destruct (@register_spec s r o s' r' (Ok t) W C I Hp E) as (Es' & _ & [(_ & _ & Ht & _)|(_ & X & _)]); [|discriminate]. injection Ht as ->.
  destruct (@consecutive H given 0 ltac:(lia) Hn Hi Hs) as (e & _ & Ee & A & B). fold l in Ee, A, B.
  exists (map mk_fld l), e. split; [rewrite Es'; cbn [alloc s_heap]; rewrite upd_same; unfold o; rewrite <- Ee; reflexivity|].
  split; [|exact B]. intros b. rewrite <- (A b). cbn. lia.
Qed.

(** ** Enums *)
(** When create_enum succeeds: every symbol has the value of the specification, and the size is the given one, or that of an int. *)
Theorem C72_enum s r name given size s' r' t : world s r -> plain name -> create_enum s r name given size = (s', r', Ok t) ->
  exists values m sz,
    numbered given values /\ Forall int_range values /\ int_range size /\ consistent (combine (map fst given) values) /\
    s_heap s' t = Obj name sz (OEnum m) /\
    (forall n v, m_find n m = Some v <-> In (n, v) (combine (map fst given) values)) /\ alphabetical (map fst m) /\
    sz = (if (size =? 0)%Z then 4%N else Z.to_N (size mod 2 ^ 64)) /\
    get r name = None /\ (forall k, absolute k -> get r' k = if seqb name k then Some t else get r k) /\
    (forall x, x <> t -> s_heap s' x = s_heap s x) /\ ~ registered r t /\ world s' r'.
Proof.
  intros W Hp E. unfold create_enum in E. destruct given as [|g0 given0] eqn:Eg; [discriminate|]. rewrite <- Eg in *. clear Eg g0 given0.
  change (enum_new 0) with (Ok (En (-1) [])) in E. cbn [bind] in E. rewrite fill_values_combine in E.
  set (h := combine (map fst given) (vals_of given)) in *.
  destruct (@add_symbols_spec (-1) h []) as [(Fi & C0 & Ee)|(_ & ex & Ee & _)]; [intros n v w []| |]; cbn [app] in *.
  2:{ change (enum_run (En (-1) []) []) with (En (-1) []) in Ee. rewrite Ee in E. discriminate. }
  change (enum_run (En (-1) []) []) with (En (-1) []) in Ee. rewrite Ee in E. cbn [bind] in E.
  destruct (num2int_spec size) as [[Hs Es]|[_ Es]]; rewrite Es in E; [|discriminate]. cbn [bind] in E.
  set (o := Obj name _ _) in E. assert (C : constructed s o) by (split; [intros d []|exact I]).
  destruct (@register_spec s r o s' r' (Ok t) W C I Hp E) as (Es' & W' & [(Hv & Hn & Ht & G)|(_ & X & _)]); [|discriminate]. injection Ht as ->.
  exists (vals_of given), (en_values (enum_run (En (-1) []) h)), (o_size o). split; [apply fill_numbered|].
  assert (Hh : map snd h = vals_of given). { unfold h. rewrite <- fill_values_combine. reflexivity. }
  split; [rewrite <- Hh; apply Forall_map; assumption|]. split; [assumption|]. split; [assumption|].
  split; [rewrite Es'; cbn [alloc s_heap]; rewrite upd_same; reflexivity|]. split.
  { intros n v. rewrite enum_find. split; [apply first_def_in|apply consistent_first; assumption]. }
  split; [apply ssorted_alpha, sorted_keys, (enum_inv (-1) h)|]. split.
  { cbn [o o_size]. unfold final_size. destruct (Z.eqb_spec size 0) as [-> |Hz]; [reflexivity|]. destruct (N.eqb_spec (int_size size) 0) as [X|_]; [|reflexivity]. exfalso. apply (int_size_zero Hs) in X. contradiction. }
  split; [assumption|]. split; [exact G|]. split; [intros x Hx; rewrite Es'; cbn [alloc s_heap]; apply upd_other; assumption|].
  split; [|assumption]. intros X. destruct (world_facts W) as [[_ R _ _] _]. specialize (R _ X). lia.
Qed.
(** When it does not: what it raises. In particular a symbol with two values is not a Ruby exception: the C++ exception leaves the
    function. *)
Theorem C72_enum_accepted s r name given size s' r' out values : world s r -> plain name -> numbered given values ->
  create_enum s r name given size = (s', r', out) ->
  ((exists t, out = Ok t) <-> given <> [] /\ Forall int_range values /\ consistent (combine (map fst given) values) /\ int_range size /\
     isValidTypename name true = true /\ get r name = None) /\
  ((exists t, out = Ok t) \/ (out = Throw EArg \/ out = Throw ERange \/ out = Throw EAlreadyExists) /\ r' = r) /\
  (consistent (combine (map fst given) values) -> out <> Throw EAlreadyExists) /\
  (~ consistent (combine (map fst given) values) -> Forall int_range values -> out = Throw EAlreadyExists).
Proof.
  intros W Hp P E. assert (Ev : values = vals_of given) by (apply (numbered_fun P), fill_numbered). subst values. unfold create_enum in E.
  destruct given as [|g0 given0] eqn:Eg.
  { injection E as <- <- <-. split; [split; [intros (t & X); discriminate|intros (X & _); tauto]|]. split; [right; auto|]. split; [discriminate|]. intros X. exfalso. apply X. intros n v w []. }
  rewrite <- Eg in *. assert (Hne : given <> []) by congruence. clear Eg g0 given0.
  change (enum_new 0) with (Ok (En (-1) [])) in E. cbn [bind] in E. rewrite fill_values_combine in E.
  set (h := combine (map fst given) (vals_of given)) in *.
  assert (Hh : map snd h = vals_of given). { unfold h. rewrite <- fill_values_combine. reflexivity. }
  assert (HF : Forall int_range (vals_of given) <-> Forall (fun p => int_range (snd p)) h) by (rewrite <- Hh; apply Forall_map).
  destruct (@add_symbols_spec (-1) h []) as [(Fi & C0 & Ee)|(Hor & ex & Ee & Hx & Hy & Hz)]; [intros n v w []| |]; cbn [app] in *; change (enum_run (En (-1) []) []) with (En (-1) []) in Ee; rewrite Ee in E; cbn [bind] in E.
  2:{ injection E as <- <- <-. split; [split; [intros (t & X); discriminate|intros (_ & A & B & _); tauto]|]. split; [right; destruct Hx as [-> | ->]; auto|].
      split; [intros X; rewrite (Hy X); discriminate|intros _ X; rewrite (Hz (proj1 HF X)); reflexivity]. }
  destruct (num2int_spec size) as [[Hs Es]|[Hs Es]]; rewrite Es in E; cbn [bind] in E.
  2:{ injection E as <- <- <-. split; [split; [intros (t & X); discriminate|intros (_ & _ & _ & X & _); tauto]|]. split; [right; auto|]. split; [discriminate|contradiction]. }
  set (o := Obj name _ _) in E. assert (C : constructed s o) by (split; [intros d []|exact I]).
  destruct (@register_spec s r o s' r' out W C I Hp E) as (_ & _ & [(Hv & Hn & -> & _)|(Hor & -> & ->)]).
  - split; [split; [intros _; tauto|eauto]|]. split; [left; eauto|]. split; [discriminate|contradiction].
  - split; [split; [intros (t & X); discriminate|]|split; [right; auto|split; [discriminate|contradiction]]]. intros (_ & _ & _ & _ & V & N). exfalso. destruct Hor as [Hor|Hor]; [cbn [o o_name] in Hor; congruence|apply Hor; exact N].
Qed.

(** ** Numeric and opaque types *)
Theorem C72_numeric s r name size cat s' r' out : world s r -> plain name -> create_numeric s r name size cat = (s', r', out) ->
  (forall t, out = Ok t -> exists c, cat = Some c /\ s_heap s' t = Obj name (Z.to_N (size mod 2 ^ 64)) (ONum c) /\
     (forall k, absolute k -> get r' k = if seqb name k then Some t else get r k) /\ (forall x, x <> t -> s_heap s' x = s_heap s x) /\ ~ registered r t) /\
  ((exists t, out = Ok t) <-> cat <> None /\ int_range size /\ isValidTypename name true = true /\ get r name = None) /\
  ((exists t, out = Ok t) \/ (out = Throw EArg \/ out = Throw ERange) /\ r' = r).
Proof.
  intros W Hp E. unfold create_numeric in E. destruct cat as [c|].
  2:{ injection E as <- <- <-. split; [discriminate|]. split; [|right; auto]. split; [intros (t & X); discriminate|tauto]. }
  destruct (num2int_spec size) as [[Hs Es]|[Hs Es]]; rewrite Es in E.
  2:{ injection E as <- <- <-. split; [discriminate|]. split; [|right; auto]. split; [intros (t & X); discriminate|tauto]. }
  set (o := Obj name _ _) in E. assert (C : constructed s o) by (split; [intros d []|exact I]).
  destruct (@register_spec s r o s' r' out W C I Hp E) as (Es' & W' & [(Hv & Hn & -> & G)|(Hor & -> & ->)]).
  - split; [|split; [split; [split; [discriminate|auto]|eauto]|left; eauto]]. intros t X. injection X as <-. exists c. split; [reflexivity|]. split; [rewrite Es'; cbn [alloc s_heap]; rewrite upd_same; reflexivity|].
    split; [exact G|]. split; [intros x Hx; rewrite Es'; cbn [alloc s_heap]; apply upd_other; assumption|]. intros X. destruct (world_facts W) as [[_ R _ _] _]. specialize (R _ X). lia.
  - split; [discriminate|]. split; [|right; auto]. split; [intros (t & X); discriminate|]. intros (_ & _ & V & N). exfalso. destruct Hor as [Hor|Hor]; [cbn [o o_name] in Hor; congruence|apply Hor; exact N].
Qed.
Theorem C72_opaque s r name size s' r' out : world s r -> plain name -> create_opaque s r name size = (s', r', out) ->
  (forall t, out = Ok t -> s_heap s' t = Obj name (Z.to_N (size mod 2 ^ 64)) OOpaque /\
     (forall k, absolute k -> get r' k = if seqb name k then Some t else get r k) /\ (forall x, x <> t -> s_heap s' x = s_heap s x) /\ ~ registered r t) /\
  ((exists t, out = Ok t) <-> int_range size /\ isValidTypename name true = true /\ get r name = None) /\
  ((exists t, out = Ok t) \/ (out = Throw EArg \/ out = Throw ERange) /\ r' = r).
Proof.
  intros W Hp E. unfold create_opaque in E.
  destruct (num2int_spec size) as [[Hs Es]|[Hs Es]]; rewrite Es in E.
  2:{ injection E as <- <- <-. split; [discriminate|]. split; [|right; auto]. split; [intros (t & X); discriminate|tauto]. }
  set (o := Obj name _ _) in E. assert (C : constructed s o) by (split; [intros d []|exact I]).
  destruct (@register_spec s r o s' r' out W C I Hp E) as (Es' & W' & [(Hv & Hn & -> & G)|(Hor & -> & ->)]).
  - split; [|split; [split; [auto|eauto]|left; eauto]]. intros t X. injection X as <-. split; [rewrite Es'; cbn [alloc s_heap]; rewrite upd_same; reflexivity|].
    split; [exact G|]. split; [intros x Hx; rewrite Es'; cbn [alloc s_heap]; apply upd_other; assumption|]. intros X. destruct (world_facts W) as [[_ R _ _] _]. specialize (R _ X). lia.
  - split; [discriminate|]. split; [|right; auto]. split; [intros (t & X); discriminate|]. intros (_ & V & N). exfalso. destruct Hor as [Hor|Hor]; [cbn [o o_name] in Hor; congruence|apply Hor; exact N].
Qed.

(** ** Containers *)
(** An element type that is not a type of the registry is refused. *)
Theorem C72_container_foreign f kind element size st : get (i_reg st) (o_name (s_heap (i_store st) element)) <> Some element ->
  define_container f kind element size st = (st, Throw EArg).
Proof.
  intros N. unfold define_container, isIncluded. destruct (get (i_reg st) _) as [u|]; [|reflexivity]. destruct (Nat.eqb_spec u element) as [-> |_]; [congruence|reflexivity].
Qed.
(** A new vector type: the name designates a container of the element type, of the given size (24 if that is 0); the other types
    are unchanged, and no name moves. *)
Theorem C72_container_new f element size st st' t : world (i_store st) (i_reg st) -> element < s_next (i_store st) ->
  let vname := s_ "/std/vector<" ++ o_name (s_heap (i_store st) element) ++ s_ ">" in plain vname -> get (i_reg st) vname = None ->
  define_container f (s_ "/std/vector") element size st = (st', Ok t) ->
  s_heap (i_store st') t = Obj vname (if (size =? 0)%Z then 24%N else Z.to_N (size mod 2 ^ 64)) (OCont KVec element) /\
  get (i_reg st') vname = Some t /\ (forall k x, absolute k -> get (i_reg st) k = Some x -> get (i_reg st') k = Some x) /\
  (forall x, x <> t -> s_heap (i_store st') x = s_heap (i_store st) x) /\ ~ registered (i_reg st) t /\ get (i_reg st) (o_name (s_heap (i_store st) element)) = Some element.
Proof.
  intros W He vname Hp Hg E. unfold define_container in E. destruct (isIncluded (i_store st) (i_reg st) element) eqn:Ei; cbn [negb] in E; [|discriminate].
  assert (Inc : get (i_reg st) (o_name (s_heap (i_store st) element)) = Some element).
  { unfold isIncluded in Ei. destruct (get (i_reg st) (o_name (s_heap (i_store st) element))) as [u|]; [apply Nat.eqb_eq in Ei; rewrite Ei; reflexivity|discriminate Ei]. }
  destruct (createContainer f (s_ "/std/vector") element st) as [st1 [t1| | |]] eqn:Ec; try discriminate.
  assert (K : i_store st1 = alloc (i_store st) (Obj vname 24 (OCont KVec element)) /\ t1 = s_next (i_store st) /\ get (i_reg st1) vname = Some t1 /\
    (forall k x, absolute k -> get (i_reg st) k = Some x -> get (i_reg st1) k = Some x)).
  { unfold createContainer in Ec. change (seqb (s_ "/std/vector") (s_ "/std/vector")) with true in Ec. cbv iota in Ec. unfold vector_factory, bindM, m_name, get_reg in Ec.
    change (vector_fullName (o_name (s_heap (i_store st) element))) with vname in Ec.
    assert (Hf : has (i_reg st) vname = false) by (assert (X := get_has (i_reg st) vname); rewrite Hg in X; exact X). unfold m_has_build in Ec. rewrite Hf in Ec.
    destruct (getBaseType (i_reg st) (getFullName (i_reg st) vname)) as [[b|]| | |]; cbn [bind] in Ec; try discriminate.
    { unfold m_container in Ec. rewrite Hg in Ec. discriminate. }
    set (o := Obj vname 24 (OCont KVec element)) in *. unfold new_type in Ec.
    destruct (add f (s_heap (alloc (i_store st) o)) (i_reg st) (s_next (i_store st)) []) as [r1 [[]| | |]] eqn:Ea; try discriminate. injection Ec as <- <-. cbn [i_store i_reg].
    assert (C : constructed (i_store st) o). { split; [intros d [<- |[]]; assumption|reflexivity]. }
    destruct (world_facts (world_new W C)) as [[I _ _ _] _]. unfold add in Ea.
    assert (Ho : s_heap (alloc (i_store st) o) (s_next (i_store st)) = o) by (cbn [alloc s_heap]; apply upd_same).
    assert (Hp' : plain (o_name (s_heap (alloc (i_store st) o) (s_next (i_store st))))) by (rewrite Ho; exact Hp).
    destruct (add_effect I Hp' Ea) as (_ & M & _). destruct (add_ok I Hp' Ea) as (G & _). rewrite Ho in G. auto. }
  destruct K as (Ks & -> & Kg & Km).
  assert (Ho : s_heap (i_store st1) (s_next (i_store st)) = Obj vname 24 (OCont KVec element)) by (rewrite Ks; cbn [alloc s_heap]; apply upd_same).
  assert (Nr : ~ registered (i_reg st) (s_next (i_store st))). { intros X. destruct (world_facts W) as [[_ R _ _] _]. specialize (R _ X). lia. }
  destruct (num2int_spec size) as [[Hs Es]|[_ Es]]; rewrite Es in E; [|discriminate].
  destruct (Z.eqb_spec size 0) as [-> |Hz].
  - change (int_size 0 =? 0)%N with true in E. cbv iota in E. injection E as <- <-. repeat split; try assumption. intros x Hx. rewrite Ks. cbn [alloc s_heap]. apply upd_other. assumption.
  - destruct (N.eqb_spec (int_size size) 0) as [X|_]; [exfalso; apply (int_size_zero Hs) in X; contradiction|]. unfold m_setSize in E. rewrite Ho in E. cbn [o_name] in E. rewrite Kg in E. injection E as <- <-. cbn [i_store i_reg s_heap]. rewrite upd_same, Ho.
    repeat split; try assumption. intros x Hx. rewrite upd_other by assumption. rewrite Ks. cbn [alloc s_heap]. apply upd_other. assumption.
Qed.

(** ** What does not hold *)
Definition s_int : store := alloc (Store (fun _ => null_obj) 0) (Obj (s_ "/int") 4 (ONum SInt)).
Definition r_int : reg := fst (add 5 (s_heap s_int) reg0 0 []).
Lemma w_int : world s_int r_int.
Proof.
  eapply (@world_op _ _ (OpAdd 0 true []) 5 _ (Ok tt)); [eapply world_new; [apply world_init|split; [intros d []|exact Logic.I]]|cbn; lia|apply plain_iff; split; vm_compute; reflexivity|vm_compute; reflexivity|discriminate].
Qed.
Definition out_of (x : store * reg * res tid) : res tid := snd x.
Definition object_of (x : store * reg * res tid) : tobj := match x with (s, _, Ok t) => s_heap s t | _ => null_obj end.
(** A size that is too small for the fields is accepted: the field is outside of the compound. *)
Theorem C72_small_size_refuted : world s_int r_int /\ get r_int (s_ "/int") = Some 0 /\
  let x := create_compound s_int r_int (s_ "/C") [(s_ "a", 0, None)] 2 in out_of x = Ok 1 /\ object_of x = Obj (s_ "/C") 2 (OComp [Fld (s_ "a") 0 0]).
Proof. split; [exact w_int|]. vm_compute. auto. Qed.
(** So are negative sizes and offsets, which become huge ones, overlapping fields, and two fields with the same name. *)
Theorem C72_negative_refuted : let x := create_compound s_int r_int (s_ "/C") [(s_ "a", 0, Some (-4)%Z)] 0 in
  out_of x = Ok 1 /\ object_of x = Obj (s_ "/C") 0 (OComp [Fld (s_ "a") 18446744073709551612 0]).
Proof. vm_compute. auto. Qed.
Theorem C72_negative_size_refuted : out_of (create_numeric s_int r_int (s_ "/n") (-1) (Some SInt)) = Ok 1 /\
  object_of (create_numeric s_int r_int (s_ "/n") (-1) (Some SInt)) = Obj (s_ "/n") 18446744073709551615 (ONum SInt).
Proof. vm_compute. auto. Qed.
Theorem C72_overlap_refuted : let x := create_compound s_int r_int (s_ "/C") [(s_ "a", 0, Some 0%Z); (s_ "a", 0, Some 2%Z)] 0 in
  out_of x = Ok 1 /\ object_of x = Obj (s_ "/C") 6 (OComp [Fld (s_ "a") 0 0; Fld (s_ "a") 2 0]).
Proof. vm_compute. auto. Qed.
(** A field type that is not a type of the registry (but, for instance, of another one) is accepted, unlike in create_container: the
    registry then has a type whose dependencies it does not have. *)
Theorem C72_foreign_refuted : world s_int reg0 /\ ~ registered reg0 0 /\ let x := create_compound s_int reg0 (s_ "/C") [(s_ "a", 0, None)] 0 in
  out_of x = Ok 1 /\ get (snd (fst x)) (s_ "/C") = Some 1 /\ get (snd (fst x)) (s_ "/int") = None.
Proof.
  split; [eapply world_new; [apply world_init|split; [intros d []|exact Logic.I]]|]. split; [intros (n & _ & X); discriminate|]. vm_compute. auto.
Qed.
(** A symbol given twice with different values: a C++ exception leaves create_enum. *)
Theorem C72_enum_twice_refuted : out_of (create_enum s_int r_int (s_ "/E") [(s_ "A", Some 1%Z); (s_ "A", None)] 0) = Throw EAlreadyExists.
Proof. vm_compute. reflexivity. Qed.
(** create_container with a size, of a container that exists already, changes the size of that type under the compounds that hold it:
    here the compound has a field right after the vector, and the vector then covers it. *)
Definition md0 : metas := Metas (fun _ => []) (fun _ _ => []).
Definition st_vec : istate := fst (define_container 5 (s_ "/std/vector") 0 0 (IS s_int r_int md0 [])).
Definition st_comp : store * reg * res tid := create_compound (i_store st_vec) (i_reg st_vec) (s_ "/C") [(s_ "v", 1, None); (s_ "a", 0, None)] 0.
Definition st_again : istate * res tid := define_container 5 (s_ "/std/vector") 0 40 (IS (fst (fst st_comp)) (snd (fst st_comp)) md0 []).
Theorem C72_container_resized_refuted : out_of st_comp = Ok 2 /\ snd st_again = Ok 1 /\
  let H := s_heap (i_store (fst st_again)) in o_size (H 1) = 40%N /\ H 2 = Obj (s_ "/C") 28 (OComp [Fld (s_ "v") 0 1; Fld (s_ "a") 24 0]).
Proof. vm_compute. auto. Qed.

(** ** Cases *)
Example C72_case : world s_int r_int /\ plain (s_ "/C") /\
  let x := create_compound s_int r_int (s_ "/C") [(s_ "a", 0, None); (s_ "b", 0, Some 16%Z); (s_ "c", 0, None)] 0 in
  out_of x = Ok 1 /\ object_of x = Obj (s_ "/C") 24 (OComp [Fld (s_ "a") 0 0; Fld (s_ "b") 16 0; Fld (s_ "c") 20 0]) /\
  placed (fun t => o_size (s_heap s_int t)) [(s_ "a", 0, None); (s_ "b", 0, Some 16%Z); (s_ "c", 0, None)] [0; 16; 20]%Z.
Proof.
  split; [exact w_int|]. split; [apply plain_iff; split; vm_compute; reflexivity|]. split; [vm_compute; reflexivity|]. split; [vm_compute; reflexivity|].
  change [0; 16; 20]%Z with (offs (s_heap s_int) [(s_ "a", 0, None); (s_ "b", 0, Some 16%Z); (s_ "c", 0, None)]). apply fill_placed.
Qed.
Example C72_packed_case : let x := create_compound s_int r_int (s_ "/C") [(s_ "a", 0, None); (s_ "b", 0, None)] 0 in
  out_of x = Ok 1 /\ object_of x = Obj (s_ "/C") 8 (OComp [Fld (s_ "a") 0 0; Fld (s_ "b") 4 0]).
Proof. vm_compute. auto. Qed.
Example C72_enum_case : let x := create_enum s_int r_int (s_ "/E") [(s_ "z", Some 15%Z); (s_ "y", Some 2%Z); (s_ "x", None)] 0 in
  out_of x = Ok 1 /\ object_of x = Obj (s_ "/E") 4 (OEnum [(s_ "x", 3%Z); (s_ "y", 2%Z); (s_ "z", 15%Z)]).
Proof. vm_compute. auto. Qed.
Example C72_container_case : plain (s_ "/std/vector</int>") /\ get r_int (s_ "/std/vector</int>") = None /\
  snd (define_container 5 (s_ "/std/vector") 0 32 (IS s_int r_int md0 [])) = Ok 1 /\
  s_heap (i_store (fst (define_container 5 (s_ "/std/vector") 0 32 (IS s_int r_int md0 [])))) 1 = Obj (s_ "/std/vector</int>") 32 (OCont KVec 0).
Proof. split; [apply plain_iff; split; vm_compute; reflexivity|]. vm_compute. auto. Qed.
