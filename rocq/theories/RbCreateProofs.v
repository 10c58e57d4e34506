(** * RbCreateProofs *)
From Verif Require Import Base Types NamesSpec Names NamesProofs Graph GraphSpec GraphProofs Registry RegistrySpec RegistryProofs RegistryOps RegistryMain RegistryAlias
  World TypeBuilder TypeBuilderProofs Smap SmapProofs TypeObj TypeObjSpec TypeObjProofs Tlb RbCreateSpec RbCreate.
From Verif Require Import Graph.
Local Open Scope nat_scope.

Definition direct (k : okind) : Prop := match k with OPtr _ | OArr _ _ | OCont _ _ => False | _ => True end.
Lemma direct_name H t : direct (o_kind (H t)) -> indirect_name H t = None.
Proof. unfold indirect_name. destruct (o_kind (H t)); cbn; intros; try tauto; reflexivity. Qed.
Lemma in_int_spec z : in_int z = true <-> int_range z.
Proof. unfold in_int, int_range. rewrite andb_true_iff, !Z.leb_le. lia. Qed.
Lemma num2int_spec z : (int_range z /\ num2int z = Ok z) \/ (~ int_range z /\ num2int z = Throw ERange).
Proof. unfold num2int. destruct (in_int z) eqn:E; [left|right]; split; try reflexivity; [apply in_int_spec, E|rewrite <- in_int_spec; congruence]. Qed.

(** ** register *)
Lemma register_spec s r o s' r' out : world s r -> constructed s o -> direct (o_kind o) -> plain (o_name o) -> register s r o = (s', r', out) ->
  s' = alloc s o /\ world s' r' /\
  ((isValidTypename (o_name o) true = true /\ get r (o_name o) = None /\ out = Ok (s_next s) /\
    (forall k, absolute k -> get r' k = if seqb (o_name o) k then Some (s_next s) else get r k)) \/
   ((isValidTypename (o_name o) true = false \/ get r (o_name o) <> None) /\ out = Throw EArg /\ r' = r)).
Proof.
  intros W C D Hp E. assert (W1 := world_new W C). destruct (world_facts W1) as [[I R _ _] _]. destruct (world_facts W) as [[_ R0 _ _] _].
  set (H' := s_heap (alloc s o)) in *. assert (Ho : H' (s_next s) = o) by apply upd_same.
  assert (Hp' : plain (o_name (H' (s_next s)))) by (rewrite Ho; assumption).
  unfold register in E. fold H' in E. destruct (add_type 1 H' r (s_next s) true []) as [r1 o1] eqn:Ea.
  assert (W2 : o1 <> Fuel -> world (alloc s o) r1).
  { intros. refine (@world_op _ _ (OpAdd (s_next s) true []) 1 _ _ W1 _ _ Ea _); [cbn; lia|exact Hp'|assumption]. }
  unfold add_type in Ea. rewrite Ho in Ea. destruct (add_named H' r (o_name o) (Ent (s_next s) true [])) as [r2 o2] eqn:En.
  assert (M : forall x, mda 1 H' x (s_next s) = (x, Ok tt)). { intros x. cbn [mda]. rewrite direct_name by (rewrite Ho; assumption). reflexivity. }
  assert (F : ~ get r (o_name o) = Some (s_next s)). { intros X. specialize (R0 (s_next s)). assert (registered r (s_next s)) by (exists (o_name o); split; [apply plain_absolute; assumption|assumption]). specialize (R0 H). lia. }
  destruct (add_named_spec Hp En) as [(-> & -> & Ev)|[(-> & -> & Hq)|[(-> & -> & t & Hg & Ht)|(-> & Hb)]]]; cbn [seq_ e_type] in *.
  - injection Ea as <- <-. injection E as <- <- <-. split; [reflexivity|]. split; [apply W2; discriminate|]. right. auto.
  - contradiction.
  - injection Ea as <- <-. injection E as <- <- <-. split; [reflexivity|]. split; [apply W2; discriminate|]. right. split; [right; congruence|auto].
  - assert (Ea' : (r2, Ok tt) = (r1, o1)) by (destruct (existsb _ _) in Ea; [rewrite M in Ea|]; exact Ea). clear Ea. injection Ea' as <- <-. injection E as <- <- <-.
    split; [reflexivity|]. split; [apply W2; discriminate|]. left.
    destruct (bound_Inv I Hb) as (_ & G & _); [left; cbn [e_type]; rewrite Ho; reflexivity|]. destruct Hb as (_ & Hn & Hv & _). auto.
Qed.

(** ** Offsets *)
Lemma fill_fst H l : forall c, map fst (fill_offsets H c l) = map fst l.
Proof. induction l as [|[[n t] o] l IH]; intros; cbn; [reflexivity|]. f_equal. apply IH. Qed.
Definition offs (H : heap) (l : list given_field) : list Z := map snd (fill_offsets H 0 l).
Lemma fill_placed_gen H l : forall c, length (map snd (fill_offsets H c l)) = length l /\
  forall i n t o, nth_error l i = Some (n, t, o) ->
    match o with
    | Some z => nth_error (map snd (fill_offsets H c l)) i = Some z
    | None => match i with
              | 0 => nth_error (map snd (fill_offsets H c l)) 0 = Some c
              | S j => exists n' t' o' z', nth_error l j = Some (n', t', o') /\ nth_error (map snd (fill_offsets H c l)) j = Some z' /\
                                           nth_error (map snd (fill_offsets H c l)) i = Some (z' + Z.of_N (o_size (H t')))%Z
              end
    end.
Proof.
  induction l as [|[[n0 t0] o0] l IH]; intros c; cbn [fill_offsets map length].
  - split; [reflexivity|]. intros [|i] ? ? ? X; discriminate.
  - destruct (IH ((match o0 with Some z => z | None => c end) + Z.of_N (o_size (H t0)))%Z) as [IL IP]. split; [f_equal; exact IL|].
    intros [|i] n t o E; cbn [nth_error] in *.
    + injection E as -> -> ->. destruct o; reflexivity.
    + specialize (IP i n t o E). destruct o; [exact IP|]. destruct i as [|j].
      * exists n0, t0, o0, (match o0 with Some z => z | None => c end). cbn [nth_error]. auto.
      * destruct IP as (n' & t' & o' & z' & A & B & D). exists n', t', o', z'. cbn [nth_error]. auto.
Qed.
Lemma fill_placed H l : placed (fun t => o_size (H t)) l (offs H l).
Proof. unfold placed, offs. apply fill_placed_gen. Qed.
Lemma placed_fun sz l a b : placed sz l a -> placed sz l b -> a = b.
Proof.
  intros [La Pa] [Lb Pb]. assert (K : forall i, i < length l -> nth_error a i = nth_error b i).
  { induction i as [i IH] using lt_wf_ind. intros Hi. destruct (nth_error l i) as [[[n t] o]|] eqn:E; [|apply nth_error_None in E; lia].
    specialize (Pa _ _ _ _ E). specialize (Pb _ _ _ _ E). destruct o; [congruence|]. destruct i as [|j]; [congruence|].
    destruct Pa as (n1 & t1 & o1 & z1 & A1 & B1 & C1), Pb as (n2 & t2 & o2 & z2 & A2 & B2 & C2). assert (X := IH j ltac:(lia) ltac:(lia)). rewrite A1 in A2. injection A2 as <- <- <-. congruence. }
  clear Pa Pb. assert (length a = length b) by lia. rewrite <- La in K. clear La Lb. revert b H K. induction a as [|x a IH]; intros [|y b] Hl K; try discriminate; [reflexivity|].
  f_equal; [specialize (K 0 ltac:(cbn; lia)); cbn in K; congruence|]. apply IH; [cbn in Hl; lia|]. intros i Hi. apply (K (S i)). cbn. lia.
Qed.

(** ** Fields *)
Definition mk_fld (x : str * tid * Z) : fld := Fld (fst (fst x)) (int_size (snd x)) (snd (fst x)).
Definition grow (H : heap) (a : N) (x : str * tid * Z) : N := N.max a (wadd (int_size (snd x)) (o_size (H (snd (fst x))))).
Lemma add_fields_spec H l : forall sz fs,
  (Forall (fun x => int_range (snd x)) l /\ add_fields H l (sz, fs) = Ok (fold_left (grow H) l sz, fs ++ map mk_fld l)) \/
  (~ Forall (fun x => int_range (snd x)) l /\ add_fields H l (sz, fs) = Throw ERange).
Proof.
  induction l as [|[[n t] z] l IH]; intros sz fs; cbn [add_fields].
  - left. split; [constructor|]. cbn. rewrite app_nil_r. reflexivity.
  - destruct (num2int_spec z) as [[Hz ->]|[Hz ->]]; cbn [bind].
    + unfold add_field. cbn [fst snd]. set (sz' := if (_ <? _)%N then _ else _).
      assert (Es : sz' = grow H sz (n, t, z)). { unfold sz', grow. cbn [fst snd]. destruct (N.ltb_spec sz (wadd (int_size z) (o_size (H t)))); lia. }
      destruct (IH sz' (fs ++ [Fld n (int_size z) t])) as [[Hl ->]|[Hl ->]].
      * left. split; [constructor; assumption|]. cbn [fold_left map]. rewrite <- Es, <- app_assoc. reflexivity.
      * right. split; [|reflexivity]. intros X. inversion X; subst. contradiction.
    + right. split; [|reflexivity]. intros X. inversion X; subst. contradiction.
Qed.
Lemma fold_grow H l : forall a, fold_left (grow H) l a = fold_left N.max (map (fun x => wadd (int_size (snd x)) (o_size (H (snd (fst x))))) l) a.
Proof. induction l as [|x l IH]; intros a; cbn [fold_left map]; [reflexivity|]. rewrite IH. reflexivity. Qed.
Lemma fold_max_spec l : forall a, (a <= fold_left N.max l a)%N /\ (forall x, In x l -> (x <= fold_left N.max l a)%N) /\ (fold_left N.max l a = a \/ In (fold_left N.max l a) l).
Proof.
  induction l as [|x l IH]; intros a; cbn [fold_left]; [split; [lia|]; split; [intros ? []|auto]|].
  destruct (IH (N.max a x)) as (A & B & C). split; [lia|]. split; [intros y [<- |Hy]; [lia|auto]|].
  destruct C as [C|C]; [|right; right; exact C]. rewrite C. destruct (N.max_spec a x) as [[_ ->]|[_ ->]]; [right; left; reflexivity|left; reflexivity].
Qed.

(** ** Enums *)
Lemma fill_values_fst l : forall c, map fst (fill_values c l) = map fst l.
Proof. induction l as [|[n o] l IH]; intros; cbn; [reflexivity|]. f_equal. apply IH. Qed.
Lemma fill_values_len l : forall c, length (fill_values c l) = length l.
Proof. induction l as [|[n o] l IH]; intros; cbn; [reflexivity|]. f_equal. apply IH. Qed.
Lemma fill_numbered_gen l : forall c, length (map snd (fill_values c l)) = length l /\
  forall i n o, nth_error l i = Some (n, o) ->
    match o with
    | Some z => nth_error (map snd (fill_values c l)) i = Some z
    | None => match i with
              | 0 => nth_error (map snd (fill_values c l)) 0 = Some c
              | S j => exists z', nth_error (map snd (fill_values c l)) j = Some z' /\ nth_error (map snd (fill_values c l)) i = Some (z' + 1)%Z
              end
    end.
Proof.
  induction l as [|[n0 o0] l IH]; intros c; cbn [fill_values map length].
  - split; [reflexivity|]. intros [|i] ? ? X; discriminate.
  - destruct (IH ((match o0 with Some z => z | None => c end) + 1)%Z) as [IL IP]. split; [f_equal; exact IL|].
    intros [|i] n o E; cbn [nth_error] in *.
    + injection E as -> ->. destruct o; reflexivity.
    + specialize (IP i n o E). destruct o; [exact IP|]. destruct i as [|j].
      * exists (match o0 with Some z => z | None => c end). cbn [nth_error]. auto.
      * exact IP.
Qed.
Definition vals_of (l : list (str * option Z)) : list Z := map snd (fill_values 0 l).
Lemma fill_numbered l : numbered l (vals_of l).
Proof. unfold numbered, vals_of. apply fill_numbered_gen. Qed.
Lemma numbered_fun l a b : numbered l a -> numbered l b -> a = b.
Proof.
  intros [La Pa] [Lb Pb]. assert (K : forall i, i < length l -> nth_error a i = nth_error b i).
  { induction i as [i IH] using lt_wf_ind. intros Hi. destruct (nth_error l i) as [[n o]|] eqn:E; [|apply nth_error_None in E; lia].
    specialize (Pa _ _ _ E). specialize (Pb _ _ _ E). destruct o; [congruence|]. destruct i as [|j]; [congruence|].
    destruct Pa as (z1 & B1 & C1), Pb as (z2 & B2 & C2). assert (X := IH j ltac:(lia) ltac:(lia)). congruence. }
  clear Pa Pb. assert (length a = length b) by lia. rewrite <- La in K. clear La Lb. revert b H K. induction a as [|x a IH]; intros [|y b] Hl K; try discriminate; [reflexivity|].
  f_equal; [specialize (K 0 ltac:(cbn; lia)); cbn in K; congruence|]. apply IH; [cbn in Hl; lia|]. intros i Hi. apply (K (S i)). cbn. lia.
Qed.
Lemma combine_fst_snd {A B} (l : list (A * B)) : combine (map fst l) (map snd l) = l.
Proof. induction l as [|[a b] l IH]; cbn; congruence. Qed.
Lemma fill_values_combine l : fill_values 0 l = combine (map fst l) (vals_of l).
Proof. rewrite <- (fill_values_fst l 0). unfold vals_of. symmetry. apply combine_fst_snd. Qed.
(** [e]: the enum after the history [h], without conflict. *)
Lemma consistent_app h l : consistent (h ++ l) -> consistent h.
Proof. intros C n v w A B. apply (C n v w); apply in_or_app; auto. Qed.
Lemma first_def_in n h v : first_def n h v -> In (n, v) h.
Proof. intros (a & b & -> & _). apply in_or_app. right. left. reflexivity. Qed.
Lemma consistent_first h n v : consistent h -> In (n, v) h -> first_def n h v.
Proof.
  intros C Hi. assert (X : In n (map fst h)) by (apply in_map_iff; exists (n, v); auto). apply first_def_In in X as (w & Hw). assert (w = v) by (apply (C n); [apply first_def_in; assumption|assumption]). subst. assumption.
Qed.
Lemma add_symbols_spec last l : forall h, consistent h ->
  (Forall (fun p => int_range (snd p)) l /\ consistent (h ++ l) /\ add_symbols l (enum_run (En last []) h) = Ok (enum_run (En last []) (h ++ l))) \/
  ((~ Forall (fun p => int_range (snd p)) l \/ ~ consistent (h ++ l)) /\
   exists e, add_symbols l (enum_run (En last []) h) = Throw e /\ (e = ERange \/ e = EAlreadyExists) /\ (consistent (h ++ l) -> e = ERange) /\ (Forall (fun p => int_range (snd p)) l -> e = EAlreadyExists)).
Proof.
  induction l as [|[n v] l IH]; intros h C; cbn [add_symbols].
  - left. rewrite app_nil_r. auto.
  - destruct (num2int_spec v) as [[Hv ->]|[Hv ->]]; cbn [bind].
    2:{ right. split; [left; intros X; inversion X; subst; contradiction|]. exists ERange. split; [reflexivity|]. split; [auto|]. split; [auto|]. intros X. inversion X; subst. contradiction. }
    set (e := enum_run (En last []) h) in *.
    assert (Hadd : (consistent (h ++ [(n, v)]) /\ enum_add e n v = (enum_run (En last []) (h ++ [(n, v)]), Ok tt)) \/ (~ consistent (h ++ [(n, v)]) /\ snd (enum_add e n v) = Throw EAlreadyExists)).
    { assert (R : fst (enum_add e n v) = enum_run (En last []) (h ++ [(n, v)])) by (rewrite run_app; reflexivity).
      unfold enum_add in *. destruct (m_find n (en_values e)) as [w|] eqn:Ef.
      - apply enum_find in Ef. destruct (Z.eqb_spec w v) as [-> |Hne].
        + left. split; [|cbn [fst] in R; rewrite <- R; reflexivity]. intros m x y A B. apply in_app_or in A, B.
          assert (K : forall x, In (m, x) h \/ In (m, x) [(n, v)] -> In (m, x) h). { intros x0 [A0|[A0|[]]]; [assumption|]. injection A0 as <- <-. apply first_def_in. assumption. }
          apply (C m); apply K; assumption.
        + right. split; [|reflexivity]. intros X. apply Hne. apply (X n); apply in_or_app; [left; apply first_def_in; assumption|right; left; reflexivity].
      - left. split; [|cbn [fst] in R; rewrite <- R; reflexivity]. assert (N : forall w, ~ In (n, w) h).
        { intros w Hw. apply (consistent_first C) in Hw. apply (enum_find last) in Hw. fold e in Hw. congruence. }
        intros m x y A B. apply in_app_or in A, B. destruct A as [A|[A|[]]], B as [B|[B|[]]].
        + apply (C m); assumption.
        + injection B as <- <-. exfalso. eapply N; eassumption.
        + injection A as <- <-. exfalso. eapply N; eassumption.
        + injection A as <- <-. injection B as <-. reflexivity. }
    replace (h ++ (n, v) :: l) with ((h ++ [(n, v)]) ++ l) by (rewrite <- app_assoc; reflexivity).
    destruct Hadd as [[C1 E1]|[C1 E1]].
    + rewrite E1. destruct (IH _ C1) as [(F & D & ->)|[Hor (ex & -> & Hx & Hy & Hw)]].
      * left. split; [constructor; assumption|auto].
      * right. split; [destruct Hor as [Hor|Hor]; [left; intros X; inversion X; subst; contradiction|right; assumption]|]. exists ex. split; [reflexivity|]. split; [assumption|]. split; [assumption|]. intros X. inversion X; subst. auto.
    + right. split; [right; intros X; apply C1; eapply consistent_app; eassumption|]. exists EAlreadyExists. destruct (enum_add e n v) as [e1 [?|?|?|]] eqn:Q; cbn [snd] in E1; try discriminate. injection E1 as ->.
      split; [reflexivity|]. split; [auto|]. split; [|reflexivity]. intros X. exfalso. apply C1. eapply consistent_app; eassumption.
Qed.
