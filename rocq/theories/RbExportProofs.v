(** * RbExportProofs: the model implements the specification for registries without aliases and calls with method syntax. *)
From Verif Require Import Base NamesSpec Names NamesProofs NamesPath RbExportSpec RbExport.

Lemma starts_prefix p s : starts p s = has_prefix p s.
Proof. revert s. induction p as [|a p IH]; intros [|b s]; cbn [starts has_prefix]; try reflexivity. unfold ceqb. destruct (ascii_dec a b) as [-> |N]; [rewrite Ascii.eqb_refl; apply IH|]. destruct (Ascii.eqb_spec a b); [contradiction|reflexivity]. Qed.
Lemma view_upd {A B} (f : A -> B) (l : list A) : forall i x y, nth_error l i = Some y -> f x = f y -> map f (upd_nth l i x) = map f l.
Proof. induction l as [|a l IH]; intros [|i] x y E H; cbn [upd_nth map nth_error] in *; try discriminate; [injection E as ->; congruence|f_equal; eapply IH; eauto]. Qed.
Lemma Forall_upd_nth {A} (P : A -> Prop) (l : list A) : forall i x, Forall P l -> P x -> Forall P (upd_nth l i x).
Proof. induction l as [|a l IH]; intros [|i] x F H; cbn [upd_nth]; auto; inversion F; subst; constructor; auto. Qed.
Lemma nth_Forall_ {A} (P : A -> Prop) (l : list A) i x : Forall P l -> nth_error l i = Some x -> P x.
Proof. intros F E. eapply Forall_forall; [exact F|eapply nth_error_In; eauto]. Qed.
Lemma type_obj_spec t : forall objs i j, type_obj objs i t = Some j -> exists k o, j = (i + k)%nat /\ nth_error objs k = Some o /\ o_what o = WType t.
Proof.
  induction objs as [|o objs IH]; intros i j H; cbn [type_obj] in H; [discriminate|].
  assert (R : type_obj objs (S i) t = Some j -> exists k o', j = (i + k)%nat /\ nth_error (o :: objs) k = Some o' /\ o_what o' = WType t).
  { intros X. destruct (IH _ _ X) as (k & o' & -> & E & W). exists (S k), o'. split; [lia|]. auto. }
  destruct (o_what o) as [n|t'|k|] eqn:W; auto. destruct (str_dec t' t) as [-> |]; auto. injection H as <-. exists O, o. split; [lia|]. auto.
Qed.

Section Proofs.
  Variable snake camel : str -> str.
  Variable export : str -> exported.
  Variable root : str.
  Hypothesis plain_export : forall t, export t = XType t \/ exists k, export t = XClass k.
  Definition alias_free (T : list (str * str)) : Prop := Forall (fun e => fst e = snd e) T.
  Definition strict_call (p : str) (c : call) : Prop :=
    comp (text c) /\ text c <> [] /\ (p = [sep] -> c_m c <> root) /\ forall t k, p = t ++ [sep] -> export t = XClass k -> c_m c <> k.
  Definition view (l : list obj) : list (what * str) := map (fun o => (o_what o, o_prefix o)) l.
  Definition okprefix (p : str) : Prop := exists comps, p = sep :: terms comps /\ Forall comp comps.
  Definition stands (T : list (str * str)) (w : what) (n : str) : Prop :=
    match entry T n with Some t => match export t with XType t' => w = WType t' | XClass k => w = WClass k end | None => False end.
  Definition okwhat (o : obj) : Prop :=
    match o_what o with WType t => o_prefix o = t ++ [sep] | WRoot n => n = root /\ o_prefix o = [sep] | WClass k => exists t, export t = XClass k /\ o_prefix o = t ++ [sep] | WNamespace => True end.
  Definition okobj (V : list (what * str)) (T : list (str * str)) (o : obj) : Prop :=
    okprefix (o_prefix o) /\ okwhat o /\
    forall m args i, In ((Some m, args), i) (o_cache o) -> (obj_name (o_what o) = Some m /\ args = []) \/
      exists w, nth_error V i = Some (w, o_prefix o ++ m ++ targs args ++ [sep]) /\ stands T w (o_prefix o ++ m ++ targs args).
  Definition okstate (s : est) : Prop := alias_free (e_types s) /\ Forall (okobj (view (e_objs s)) (e_types s)) (e_objs s) /\ Forall (fun i => (i < length (e_objs s))%nat) (e_handles s).
  Definition prefix_at (V : list (what * str)) (i : nat) : str := match nth_error V i with Some x => snd x | None => [] end.

  Lemma entry_self T n t : alias_free T -> entry T n = Some t -> t = n.
  Proof. intros F. induction F as [|[k c] T E F IH]; cbn [entry]; [discriminate|]. destruct (str_dec k n) as [-> |]; [|exact IH]. cbn [fst snd] in E. congruence. Qed.
  Lemma cached_In c k i : cached c k = Some i -> In (k, i) c.
  Proof. induction c as [|[k' v] c IH]; cbn [cached In]; [discriminate|]. destruct (key_dec k' k) as [-> |]; [intros X; injection X as ->; left; reflexivity|auto]. Qed.
  Lemma okobj_ext V T o e : okobj V T o -> okobj (V ++ e) T o.
  Proof.
    intros (H1 & H2 & H3). split; [exact H1|]. split; [exact H2|]. intros m args i Hi. destruct (H3 m args i Hi) as [X|(w & X & Y)]; [left; exact X|right]. exists w. split; [|exact Y].
    rewrite nth_error_app1; [exact X|]. apply nth_error_Some. congruence.
  Qed.
  Lemma okobj_reg V T o n : alias_free T -> okobj V T o -> okobj V ((n, n) :: T) o.
  Proof.
    intros A (H1 & H2 & H3). split; [exact H1|]. split; [exact H2|]. intros m args i Hi. destruct (H3 m args i Hi) as [X|(w & X & Y)]; [left; exact X|right]. exists w. split; [exact X|].
    unfold stands in *. cbn [entry]. destruct (str_dec n (o_prefix o ++ m ++ targs args)) as [-> |]; [|exact Y]. destruct (entry T _) as [t|] eqn:E; [|contradiction]. rewrite (entry_self A E) in Y. exact Y.
  Qed.
  Lemma each_spec T p : alias_free T -> each T p = map fst (filter (fun e => starts p (fst e)) T).
  Proof. intros A. unfold each. induction A as [|[k c] T E A IH]; cbn [filter]; [reflexivity|]. cbn [fst snd] in *. subst c. destruct (str_dec k k); [|contradiction]. destruct (starts p k); cbn [map]; [f_equal|]; exact IH. Qed.
  Lemma filter_exists {A} (f : A -> bool) (l : list A) : existsb f l = match filter f l with [] => false | _ => true end.
  Proof. induction l as [|a l IH]; cbn [existsb filter]; [reflexivity|]. destruct (f a); [reflexivity|exact IH]. Qed.
  Lemma okprefix_next p c : okprefix p -> comp (text c) -> okprefix (p ++ text c ++ [sep]).
  Proof.
    intros (l & -> & F) C. exists (l ++ [text c]). split; [|apply Forall_app; split; [exact F|constructor; [exact C|constructor]]].
    unfold terms. rewrite map_app, concat_app. cbn [map concat app]. rewrite app_nil_r. reflexivity.
  Qed.
  Lemma base_of p c : okprefix p -> comp (text c) -> text c <> [] -> getTypename (p ++ text c) = text c.
  Proof. intros (l & -> & F) [C _] N. apply (@path_typename _ l). split; [reflexivity|]. auto. Qed.

  (** What a call does. *)
  Lemma resolve_spec s id c o : okstate s -> strict_call (o_prefix o) c -> nth_error (e_objs s) id = Some o -> c_const c = false \/ entry (e_types s) (o_prefix o ++ text c) <> None ->
    exists s' r, resolve snake camel export s id c = (s', r) /\ okstate s' /\ e_types s' = e_types s /\ e_handles s' = e_handles s /\ (exists e, view (e_objs s') = view (e_objs s) ++ e) /\
      match r with
      | None => s_lookup export (e_types s) (o_prefix o ++ text c) = ENotFound
      | Some i => exists o', nth_error (e_objs s') i = Some o' /\ o_prefix o' = o_prefix o ++ text c ++ [sep] /\ shown o' = s_lookup export (e_types s) (o_prefix o ++ text c) /\ shown o' <> ENotFound
      end.
  Proof.
    intros (A & F & H) (C2 & C3 & C4 & C5) E C1. unfold resolve. rewrite E. assert (O := nth_Forall_ F E). destruct O as (O1 & O2 & O3).
    assert (Sh : forall w n o', stands (e_types s) w n -> o_what o' = w -> shown o' = s_lookup export (e_types s) n /\ shown o' <> ENotFound).
    { intros w n o' St W. unfold stands in St. unfold s_lookup, shown. destruct (entry (e_types s) n) as [t|]; [|contradiction]. destruct (export t); rewrite W, St; split; (reflexivity || discriminate). }
    destruct (cached (o_cache o) (Some (c_m c), c_args c)) as [i|] eqn:Ec.
    - exists s, (Some i). split; [reflexivity|]. split; [repeat split; assumption|]. split; [reflexivity|]. split; [reflexivity|]. split; [exists []; rewrite app_nil_r; reflexivity|].
      apply cached_In in Ec. destruct (O3 _ _ _ Ec) as [[N Ea]|(w & Ei & St)].
      + exfalso. unfold text in C2, C3. rewrite Ea in C2, C3. cbn [targs] in C2, C3. rewrite app_nil_r in C2, C3. unfold okwhat in O2. destruct (o_what o) as [n|t|k|]; cbn [obj_name] in N; try discriminate; injection N as ->.
        * destruct O2 as [O2a O2]. exact (C4 O2 O2a).
        * destruct O1 as (l & El & _). rewrite O2 in El. destruct (c_m c) as [|x r]; [contradiction|]. cbn [app] in El. injection El as -> _. destruct C2 as [C2 _]. apply (C2 [] r); reflexivity.
        * destruct O2 as (t & Ht & Hp). exact (C5 _ _ Hp Ht eq_refl).
      + unfold view in Ei. rewrite nth_error_map in Ei. destruct (nth_error (e_objs s) i) as [o'|] eqn:Eo; [|discriminate]. cbn [option_map] in Ei. injection Ei as W P. exists o'. split; [reflexivity|]. split; [rewrite P; unfold text; rewrite !app_assoc; reflexivity|].
        unfold text. exact (Sh _ _ _ St W).
    - assert (Ca : exists more, candidates snake camel c = text c :: more /\ (c_const c = false -> more = [])) by (unfold candidates; destruct (c_const c); eexists; (split; [reflexivity|]); [discriminate|reflexivity]). destruct Ca as (more & Ca & Cm).
      unfold find_type. rewrite Ca. cbn [first_some]. destruct (entry (e_types s) (o_prefix o ++ text c)) as [t|] eqn:Et.
      + assert (Q := entry_self A Et). subst t. rewrite (base_of O1 C2 C3). change slash with sep. set (p' := o_prefix o ++ text c ++ [sep]). assert (P' : okprefix p') by (apply okprefix_next; assumption).
        assert (K : exists objs i o', setup (e_objs s) (export (o_prefix o ++ text c)) p' = (objs, i) /\ (exists e, view objs = view (e_objs s) ++ e) /\ Forall (okobj (view objs) (e_types s)) objs /\ nth_error objs i = Some o' /\ o_prefix o' = p' /\ stands (e_types s) (o_what o') (o_prefix o ++ text c)).
        { assert (App : forall w, stands (e_types s) w (o_prefix o ++ text c) -> okwhat (Obj w p' []) -> let objs := e_objs s ++ [Obj w p' []] in
                    (exists e, view objs = view (e_objs s) ++ e) /\ Forall (okobj (view objs) (e_types s)) objs /\ nth_error objs (length (e_objs s)) = Some (Obj w p' [])).
          { intros w St Ow objs. assert (Ve : view objs = view (e_objs s) ++ [(w, p')]) by (unfold objs, view; rewrite map_app; reflexivity). split; [eauto|]. split.
            - rewrite Ve. unfold objs. apply Forall_app. split; [eapply Forall_impl; [|exact F]; intros x; apply okobj_ext|]. constructor; [|constructor]. split; [exact P'|]. split; [exact Ow|]. intros m args i [].
            - unfold objs. rewrite nth_error_app2 by lia. rewrite Nat.sub_diag. reflexivity. }
          unfold setup. destruct (plain_export (o_prefix o ++ text c)) as [X|[k X]]; rewrite X.
          - assert (St : stands (e_types s) (WType (o_prefix o ++ text c)) (o_prefix o ++ text c)) by (unfold stands; rewrite Et, X; reflexivity).
            assert (Ow : okwhat (Obj (WType (o_prefix o ++ text c)) p' [])) by (unfold okwhat; cbn [o_what o_prefix]; unfold p'; rewrite app_assoc; reflexivity).
            destruct (type_obj (e_objs s) 0 (o_prefix o ++ text c)) as [i|] eqn:Eo.
            + apply type_obj_spec in Eo as (k & o1 & -> & E1 & W1). cbn [Nat.add]. assert (P1 : o_prefix o1 = p').
              { assert (Y := nth_Forall_ F E1). destruct Y as (_ & Y & _). unfold okwhat in Y. rewrite W1 in Y. rewrite Y. unfold p'. rewrite app_assoc. reflexivity. }
              assert (Ve : view (upd_nth (e_objs s) k (Obj (WType (o_prefix o ++ text c)) p' [])) = view (e_objs s)) by (apply (@view_upd _ _ _ _ _ _ o1 E1); cbn [o_what o_prefix]; congruence).
              exists (upd_nth (e_objs s) k (Obj (WType (o_prefix o ++ text c)) p' [])), k, (Obj (WType (o_prefix o ++ text c)) p' []). split; [reflexivity|]. split; [exists []; rewrite app_nil_r; exact Ve|]. split; [rewrite Ve; apply Forall_upd_nth; [exact F|]; split; [exact P'|]; split; [exact Ow|]; intros m args i []|]. split; [|split; [|exact St]]; [|reflexivity].
              assert (Lk : (k < length (e_objs s))%nat) by (apply nth_error_Some; congruence). clear -Lk. revert k Lk. generalize (e_objs s). intros l. induction l as [|a l IH]; intros [|k] L; cbn [length] in L; [lia|lia|reflexivity|]. cbn [upd_nth nth_error]. apply IH. lia.
            + destruct (App _ St Ow) as (Y1 & Y2 & Y3). eexists _, _, _. split; [reflexivity|]. split; [exact Y1|]. split; [exact Y2|]. split; [exact Y3|]. split; [reflexivity|exact St].
          - assert (St : stands (e_types s) (WClass k) (o_prefix o ++ text c)) by (unfold stands; rewrite Et, X; reflexivity).
            assert (Ow : okwhat (Obj (WClass k) p' [])) by (unfold okwhat; cbn [o_what o_prefix]; exists (o_prefix o ++ text c); split; [exact X|unfold p'; rewrite app_assoc; reflexivity]).
            destruct (App _ St Ow) as (Y1 & Y2 & Y3). eexists _, _, _. split; [reflexivity|]. split; [exact Y1|]. split; [exact Y2|]. split; [exact Y3|]. split; [reflexivity|exact St]. }
        destruct K as (objs & i & o' & -> & (e & Ve) & Fo & Ei & Po & St).
        assert (L : (length (e_objs s) <= length objs)%nat) by (assert (X := f_equal (@length _) Ve); unfold view in X; rewrite app_length, !map_length in X; lia).
        assert (Z : exists o2, nth_error objs id = Some o2 /\ o_what o2 = o_what o /\ o_prefix o2 = o_prefix o).
        { assert (X : nth_error (view objs) id = Some (o_what o, o_prefix o)) by (rewrite Ve, nth_error_app1 by (unfold view; rewrite map_length; apply nth_error_Some; congruence); unfold view; rewrite nth_error_map, E; reflexivity).
          unfold view in X. rewrite nth_error_map in X. destruct (nth_error objs id) as [o2|]; [|discriminate]. injection X as X1 X2. eauto. }
        destruct Z as (o2 & E2 & W2 & P2).
        set (objs' := if Nat.eqb i id then objs else set_cache objs id (Some (c_m c), c_args c) i).
        assert (V' : view objs' = view objs) by (unfold objs'; destruct (Nat.eqb i id); [reflexivity|]; unfold set_cache; rewrite E2; apply (@view_upd _ _ _ _ _ _ o2 E2); reflexivity).
        assert (Ei' : exists o3, nth_error objs' i = Some o3 /\ o_what o3 = o_what o' /\ o_prefix o3 = p').
        { assert (X : nth_error (view objs') i = Some (o_what o', o_prefix o')) by (rewrite V'; unfold view; rewrite nth_error_map, Ei; reflexivity). unfold view in X. rewrite nth_error_map in X. destruct (nth_error objs' i) as [o3|]; [|discriminate]. injection X as X1 X2. exists o3. repeat split; congruence. }
        destruct Ei' as (o3 & E3 & W3 & P3).
        eexists _, _. split; [reflexivity|]. split.
        { split; [exact A|]. cbn [e_objs e_types e_handles]. split.
          - rewrite V'. unfold objs'. destruct (Nat.eqb i id); [exact Fo|]. unfold set_cache. rewrite E2. apply Forall_upd_nth; [exact Fo|]. assert (Y := nth_Forall_ Fo E2). destruct Y as (Y1 & Y2 & Y3). split; [exact Y1|]. split; [exact Y2|].
            intros m args j [X|X]; [|exact (Y3 m args j X)]. injection X as <- <- <-. right. cbn [o_prefix]. rewrite P2. exists (o_what o'). split.
            + unfold view. rewrite nth_error_map, Ei. cbn [option_map]. rewrite Po. unfold p', text. rewrite !app_assoc. reflexivity.
            + unfold text in St. exact St.
          - eapply Forall_impl; [|exact H]. intros j Hj. change (j < length objs')%nat. assert (X := f_equal (@length _) V'). unfold view in X. rewrite !map_length in X. cbn beta in Hj. lia. }
        split; [reflexivity|]. split; [reflexivity|]. split; [exists e; cbn [e_objs]; rewrite V'; exact Ve|]. exists o3. split; [exact E3|]. split; [exact P3|]. exact (Sh _ _ _ St W3).
      + assert (C0 : c_const c = false) by (destruct C1 as [C1|C1]; [exact C1|congruence]). rewrite (Cm C0) in *. cbn [first_some]. rewrite C0. unfold find_namespace. rewrite Ca. cbn [find]. rewrite C0. rewrite (each_spec _ A). unfold s_lookup. rewrite Et. rewrite filter_exists. change slash with sep. rewrite <- app_assoc.
        destruct (filter (fun e => starts (o_prefix o ++ text c ++ [sep]) (fst e)) (e_types s)) as [|x l] eqn:Ef; cbn [map].
        * eexists _, _. split; [reflexivity|]. split; [repeat split; assumption|]. repeat (split; [reflexivity|]). split; [exists []; cbn [e_objs]; rewrite app_nil_r; reflexivity|]. reflexivity.
        * set (n := Obj WNamespace (o_prefix o ++ text c ++ [sep]) []). set (objs := e_objs s ++ [n]).
          assert (Ve : view objs = view (e_objs s) ++ [(WNamespace, o_prefix n)]) by (unfold objs, view; rewrite map_app; reflexivity).
          assert (E2 : nth_error objs id = Some o) by (unfold objs; rewrite nth_error_app1; [exact E|apply nth_error_Some; congruence]).
          assert (Fo : Forall (okobj (view objs) (e_types s)) objs).
          { rewrite Ve. unfold objs. apply Forall_app. split; [eapply Forall_impl; [|exact F]; intros y; apply okobj_ext|]. constructor; [|constructor]. split; [apply okprefix_next; assumption|]. split; [exact I|]. intros m args i []. }
          assert (V' : view (set_cache objs id (obj_name (o_what o), []) (length (e_objs s))) = view objs) by (unfold set_cache; rewrite E2; apply (@view_upd _ _ _ _ _ _ o E2); reflexivity).
          assert (Ei' : exists o3, nth_error (set_cache objs id (obj_name (o_what o), []) (length (e_objs s))) (length (e_objs s)) = Some o3 /\ o_what o3 = WNamespace /\ o_prefix o3 = o_prefix n).
          { assert (X : nth_error (view (set_cache objs id (obj_name (o_what o), []) (length (e_objs s)))) (length (e_objs s)) = Some (WNamespace, o_prefix n)) by (rewrite V', Ve, nth_error_app2 by (unfold view; rewrite map_length; lia); unfold view; rewrite map_length, Nat.sub_diag; reflexivity).
            unfold view in X. rewrite nth_error_map in X. destruct (nth_error _ (length (e_objs s))) as [o3|]; [|discriminate]. injection X as X1 X2. eauto. }
          destruct Ei' as (o3 & E3 & W3 & P3). eexists _, _. split; [reflexivity|]. split.
          { split; [exact A|]. cbn [e_objs e_types e_handles]. split.
            - rewrite V'. unfold set_cache. rewrite E2. apply Forall_upd_nth; [exact Fo|]. assert (Y := nth_Forall_ Fo E2). destruct Y as (Y1 & Y2 & Y3). split; [exact Y1|]. split; [exact Y2|].
              intros m args j [X|X]; [|exact (Y3 m args j X)]. injection X as X1 X2 X3. left. cbn [o_what]. split; congruence.
            - eapply Forall_impl; [|exact H]. intros j Hj. cbn beta in Hj |- *. assert (X := f_equal (@length _) V'). unfold view in X. rewrite !map_length in X. rewrite X. unfold objs. rewrite app_length. lia. }
          split; [reflexivity|]. split; [reflexivity|]. split; [cbn [e_objs]; rewrite V'; eauto|]. exists o3. split; [exact E3|]. split; [exact P3|]. unfold shown. rewrite W3, P3. split; [reflexivity|discriminate].
  Qed.

  Definition strict_op (sp : sexp) (o : eop) : Prop :=
    match o with
    | ECall h c => forall p, nth_error (se_names sp) h = Some p -> strict_call p c /\ (c_const c = false \/ entry (se_types sp) (p ++ text c) <> None)
    | ERegister n c => n = c
    | ERemove _ => False
    end.
  Fixpoint strict_ops (sp : sexp) (l : list eop) : Prop := match l with [] => True | o :: t => strict_op sp o /\ strict_ops (fst (s_estep export sp o)) t end.
  Definition agree (s : est) (sp : sexp) : Prop := okstate s /\ e_types s = se_types sp /\ map (prefix_at (view (e_objs s))) (e_handles s) = se_names sp.
  Lemma step_agree s sp o : agree s sp -> strict_op sp o -> let (s', x) := e_step snake camel export s o in let (sp', y) := s_estep export sp o in x = y /\ agree s' sp'.
  Proof.
    intros ((A & F & H) & T & P) S. destruct o as [h c|n n'|n]; cbn [strict_op] in S; [|subst n'|contradiction]; cbn [e_step s_estep].
    - rewrite <- P, nth_error_map. destruct (nth_error (e_handles s) h) as [id|] eqn:Eh; cbn [option_map]; [|split; [reflexivity|]; split; [repeat split; assumption|auto]].
      assert (L : (id < length (e_objs s))%nat) by (eapply (nth_Forall_ H); exact Eh). destruct (nth_error (e_objs s) id) as [o|] eqn:E; [|apply nth_error_None in E; lia].
      assert (Po : prefix_at (view (e_objs s)) id = o_prefix o) by (unfold prefix_at, view; rewrite nth_error_map, E; reflexivity). rewrite Po.
      assert (S1 : strict_call (o_prefix o) c /\ (c_const c = false \/ entry (e_types s) (o_prefix o ++ text c) <> None)).
      { rewrite T. apply S. rewrite <- P, nth_error_map, Eh. cbn [option_map]. rewrite Po. reflexivity. }
      destruct S1 as [S1 S2]. destruct (resolve_spec (conj A (conj F H)) S1 E S2) as (s' & r & -> & (A' & F' & H') & T' & Hs' & (e & Ve) & R). rewrite <- T.
      assert (Keep : forall l, Forall (fun i => (i < length (e_objs s))%nat) l -> map (prefix_at (view (e_objs s'))) l = map (prefix_at (view (e_objs s))) l).
      { intros l Fl. apply map_ext_in. intros i Hi. unfold prefix_at. rewrite Ve, nth_error_app1; [reflexivity|]. unfold view. rewrite map_length. rewrite Forall_forall in Fl. exact (Fl i Hi). }
      destruct r as [i|].
      + destruct R as (o' & Eo' & Po' & R & N). rewrite Eo'. assert (G : agree (ES (e_types s') (e_objs s') (e_frozen s') (e_handles s' ++ [i])) (SE (e_types s) (map (prefix_at (view (e_objs s))) (e_handles s) ++ [o_prefix o ++ text c ++ [sep]]))).
        { split; [split; [exact A'|split; [exact F'|]]|split; [exact T'|]].
          - cbn [e_handles e_objs]. apply Forall_app. split; [exact H'|]. constructor; [|constructor]. apply nth_error_Some. congruence.
          - cbn [e_handles e_objs se_names]. rewrite map_app, Hs', (Keep _ H). cbn [map]. f_equal. f_equal. unfold prefix_at, view. rewrite nth_error_map, Eo'. exact Po'. }
        rewrite <- R in *. destruct (shown o'); try (split; [reflexivity|exact G]). congruence.
      + rewrite R. split; [reflexivity|]. split; [repeat split; assumption|]. split; [congruence|]. rewrite Hs', (Keep _ H). exact P.
    - split; [reflexivity|]. split; [split; [|split]|split].
      + constructor; [reflexivity|exact A].
      + cbn [e_objs e_types]. eapply Forall_impl; [|exact F]. intros x. apply okobj_reg. exact A.
      + exact H.
      + cbn [e_types se_types]. rewrite T. reflexivity.
      + exact P.
  Qed.
  Lemma run_agree : forall l s sp, agree s sp -> strict_ops sp l -> e_run snake camel export s l = s_erun export sp l.
  Proof.
    induction l as [|o l IH]; intros s sp G F; [reflexivity|]. destruct F as [So F']. cbn [e_run s_erun]. assert (X := step_agree G So).
    destruct (e_step snake camel export s o) as [s' x], (s_estep export sp o) as [sp' y]. destruct X as [-> G']. f_equal. cbn [fst] in F'. apply IH; assumption.
  Qed.
  Lemma agree_start : agree (e_start root) (SE [] [[sep]]).
  Proof.
    split; [split; [constructor|split]|split; reflexivity]; cbn [e_start e_objs e_handles e_types view map]; constructor; try constructor.
    - exists []. split; [reflexivity|constructor].
    - split; [split; reflexivity|]. intros m args i [].
  Qed.
End Proofs.
