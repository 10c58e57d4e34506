(** * CustomProofs: proofs about the customizations *)
From Verif Require Import Base CustomSpec Custom.
From Coq Require Import Lia.

Section HashProofs.
  Context {K V : Type} (dec : forall a b : K, {a = b} + {a <> b}).
  Lemma hget_hset : forall (h : list (K * V)) k v k', hget dec (hset dec h k v) k' = if dec k k' then Some v else hget dec h k'.
  Proof.
    induction h as [|[k0 v0] h IH]; intros k v k'; cbn [hset hget]; [reflexivity|].
    destruct (dec k0 k) as [-> |N]; cbn [hget].
    - destruct (dec k k'); reflexivity.
    - destruct (dec k0 k') as [-> |N2]; [destruct (dec k k'); [congruence|reflexivity]|]. apply IH.
  Qed.
  Lemma hset_keys : forall (h : list (K * V)) k v, map fst (hset dec h k v) = map fst h ++ (if in_dec dec k (map fst h) then [] else [k]).
  Proof.
    induction h as [|[k0 v0] h IH]; intros k v; cbn [hset map fst]; [reflexivity|].
    destruct (dec k0 k) as [-> |N]; cbn [map fst app].
    - destruct (in_dec dec k (k :: map fst h)) as [_|X]; [rewrite app_nil_r; reflexivity|destruct X; left; reflexivity].
    - rewrite IH. destruct (in_dec dec k (map fst h)) as [I|I]; destruct (in_dec dec k (k0 :: map fst h)) as [J|J]; try reflexivity;
        [destruct J; right; exact I|destruct J as [J|J]; [destruct (N J)|destruct (I J)]].
  Qed.
  Lemma hget_in : forall (h : list (K * V)) k, hget dec h k <> None <-> In k (map fst h).
  Proof.
    induction h as [|[k0 v0] h IH]; intros k; cbn [hget map fst In]; [split; [congruence|contradiction]|].
    destruct (dec k0 k) as [-> |N]; [split; [left; reflexivity|discriminate]|]. rewrite IH. split; [right; assumption|intros [E|E]; [destruct (N E)|exact E]].
  Qed.
  Lemma hash_map : forall (h : list (K * V)) f, NoDup (map fst h) -> (forall k v, hget dec h k = Some v -> v = f k) -> h = map (fun k => (k, f k)) (map fst h).
  Proof.
    induction h as [|[k0 v0] h IH]; intros f ND H; cbn [map fst]; [reflexivity|]. cbn [map fst] in ND. apply NoDup_cons_iff in ND as [N1 N2].
    rewrite (IH f) at 1; [|exact N2|].
    - f_equal. f_equal. apply H. cbn [hget]. destruct (dec k0 k0); congruence.
    - intros k v E. apply H. cbn [hget]. destruct (dec k0 k) as [-> |_]; [|exact E]. destruct N1. apply hget_in. congruence.
  Qed.
End HashProofs.

(** ** Keys *)
Lemma suffix2_app : forall x p, length p = 2 -> suffix2 (x ++ p) = Some p /\ firstn (length (x ++ p) - 2) (x ++ p) = x.
Proof.
  intros x p L. unfold suffix2. rewrite app_length, L. destruct (Nat.ltb_spec (length x + 2) 2) as [X|_]; [lia|].
  replace (length x + 2 - 2) with (length x) by lia. rewrite skipn_app, skipn_all, Nat.sub_diag, firstn_app, firstn_all, Nat.sub_diag. cbn [skipn firstn app]. rewrite app_nil_r. split; reflexivity.
Qed.
Lemma suffix2_inv : forall s p, suffix2 s = Some p -> length p = 2 /\ s = firstn (length s - 2) s ++ p.
Proof.
  intros s p. unfold suffix2. destruct (Nat.ltb_spec (length s) 2) as [_|L]; [discriminate|]. intros E. injection E as <-.
  split; [rewrite skipn_length; lia|symmetry; apply firstn_skipn].
Qed.
Lemma mapping_cont : forall c, mapping_for_key (KText (c ++ s_ "<>")) = InCont c.
Proof. intros c. cbn [mapping_for_key]. destruct (@suffix2_app c (s_ "<>") eq_refl) as [-> E]. rewrite E. reflexivity. Qed.
Lemma mapping_array : forall c, mapping_for_key (KText (c ++ s_ "[]")) = InArray c.
Proof. intros c. cbn [mapping_for_key]. destruct (@suffix2_app c (s_ "[]") eq_refl) as [-> E]. rewrite E. reflexivity. Qed.
Lemma mapping_name : forall s, ~ generic s -> mapping_for_key (KText s) = InName s.
Proof.
  intros s G. cbn [mapping_for_key]. destruct (suffix2 s) as [p|] eqn:E; [|reflexivity]. apply suffix2_inv in E as [L E].
  destruct (sdec p (s_ "<>")) as [-> |_]; [destruct G; left; eexists; exact E|]. destruct (sdec p (s_ "[]")) as [-> |_]; [destruct G; right; eexists; exact E|reflexivity].
Qed.
Lemma mapping_inv : forall s, match mapping_for_key (KText s) with InCont c => s = c ++ s_ "<>" | InArray c => s = c ++ s_ "[]" | InName n => n = s /\ ~ generic s | InRegexp _ => False end.
Proof.
  intros s. cbn [mapping_for_key]. destruct (suffix2 s) as [p|] eqn:E.
  - destruct (suffix2_inv E) as [L E2]. destruct (sdec p (s_ "<>")) as [-> |N1]; [exact E2|]. destruct (sdec p (s_ "[]")) as [-> |N2]; [exact E2|].
    split; [reflexivity|]. intros [[x ->]|[x ->]]; [destruct (@suffix2_app x (s_ "<>") eq_refl) as [X _]|destruct (@suffix2_app x (s_ "[]") eq_refl) as [X _]]; rewrite X in E; [apply N1|apply N2]; congruence.
  - split; [reflexivity|]. intros [[x ->]|[x ->]]; [destruct (@suffix2_app x (s_ "<>") eq_refl) as [X _]|destruct (@suffix2_app x (s_ "[]") eq_refl) as [X _]]; congruence.
Qed.
Lemma mapping_inj : forall a b, mapping_for_key a = mapping_for_key b -> a = b.
Proof.
  intros [s|i] [s'|i'] E.
  - pose proof (mapping_inv s) as H. pose proof (mapping_inv s') as H'. rewrite E in H.
    destruct (mapping_for_key (KText s')); [congruence|congruence|destruct H, H'; congruence|contradiction].
  - pose proof (mapping_inv s) as H. rewrite E in H. destruct H.
  - pose proof (mapping_inv s') as H. rewrite <- E in H. destruct H.
  - cbn in E. congruence.
Qed.
Lemma genericb_spec : forall s, genericb s = true <-> generic s.
Proof.
  intros s. unfold genericb. split.
  - intros H. assert (E : skipn (length s - 2) s = s_ "<>" \/ skipn (length s - 2) s = s_ "[]").
    { destruct (list_eq_dec _ _ (s_ "<>")); [left; assumption|]. destruct (list_eq_dec _ _ (s_ "[]")); [right; assumption|discriminate]. }
    destruct E as [E|E]; [left|right]; exists (firstn (length s - 2) s); rewrite <- E; symmetry; apply firstn_skipn.
  - intros [[x ->]|[x ->]]; rewrite app_length, Nat.add_sub, skipn_app, skipn_all, Nat.sub_diag; cbn [skipn app]; reflexivity.
Qed.

Lemma NoDup_app_end : forall A (l : list A) x, NoDup l -> ~ In x l -> NoDup (l ++ [x]).
Proof.
  induction l as [|a l IH]; intros x ND H; cbn [app]; [constructor; [tauto|constructor]|]. apply NoDup_cons_iff in ND as [N1 N2]. cbn [In] in H.
  constructor; [rewrite in_app_iff; cbn [In]; intros [X|[X|[]]]; [contradiction|]; subst; tauto|apply IH; tauto].
Qed.

(** ** Tables *)
Section TableProofs.
  Context {O : Type}.
  Notation table := (table O).
  Lemma pget_pset : forall (tb : table) p v p', pget (pset tb p v) p' = if (match p, p' with InCont a, InCont b => if sdec a b then true else false | InArray a, InArray b => if sdec a b then true else false | InName a, InName b => if sdec a b then true else false | InRegexp a, InRegexp b => if N.eq_dec a b then true else false | _, _ => false end) then Some v else pget tb p'.
  Proof. intros tb p v p'. destruct p, p'; cbn [pget pset tb_cont tb_array tb_typename tb_regexp]; try reflexivity; rewrite hget_hset; destruct (_ : {_ = _} + {_ <> _}); reflexivity. Qed.
  Lemma pget_pset_key : forall (tb : table) k v k', pget (pset tb (mapping_for_key k) v) (mapping_for_key k') = if key_dec k k' then Some v else pget tb (mapping_for_key k').
  Proof.
    intros tb k v k'. rewrite pget_pset. destruct (key_dec k k') as [-> |N].
    - destruct (mapping_for_key k') as [a|a|a|a]; (destruct (_ : {_ = _} + {_ <> _}); [reflexivity|congruence]).
    - assert (M : mapping_for_key k <> mapping_for_key k') by (intros E; apply N, mapping_inj, E).
      destruct (mapping_for_key k) as [a|a|a|a], (mapping_for_key k') as [b|b|b|b]; try reflexivity; (destruct (_ : {_ = _} + {_ <> _}); [congruence|reflexivity]).
  Qed.
  Lemma pset_container : forall (tb : table) p v, tb_container (pset tb p v) = tb_container tb.
  Proof. intros tb [] v; reflexivity. Qed.

  Lemma first_seen_app : forall l seen l2, first_seen seen (l ++ l2) = first_seen seen l ++ first_seen (first_seen seen l ++ seen) l2.
  Proof.
    assert (EXT : forall l a b, (forall x, In x a <-> In x b) -> first_seen a l = first_seen b l).
    { induction l as [|[s|i] l IH]; intros a b H; cbn [first_seen]; [reflexivity|apply IH, H|].
      destruct (in_dec N.eq_dec i a) as [X|X], (in_dec N.eq_dec i b) as [Y|Y]; try (exfalso; apply H in X || apply H in Y; contradiction).
      - apply IH, H.
      - f_equal. apply IH. intros x. cbn [In]. rewrite H. tauto. }
    induction l as [|[s|i] l IH]; intros seen l2; cbn [app first_seen]; [reflexivity|apply IH|].
    destruct (in_dec N.eq_dec i seen); [apply IH|]. cbn [app]. f_equal. rewrite IH. f_equal. apply EXT. intros x. cbn [In]. rewrite !in_app_iff. cbn [In]. tauto.
  Qed.
  Lemma live_from_app : forall k (h : list (op O)) acc o, live_from k acc (h ++ [o]) =
    match o with OSet k' e => if key_dec k' k then [e] else live_from k acc h | OAdd k' e => if key_dec k' k then live_from k acc h ++ [e] else live_from k acc h end.
  Proof. induction h as [|[k' e|k' e] h IH]; intros acc o; cbn [app live_from]; [destruct o; reflexivity|apply IH|apply IH]. Qed.

  Record agrees (tb : table) (h : list (op O)) : Prop := {
    ag_get : forall k, concat_found (pget tb (mapping_for_key k)) = live k h;
    ag_re : map fst (tb_regexp tb) = matchers h;
    ag_name : forall s, generic s -> hget sdec (tb_typename tb) s = None;
    ag_nd : NoDup (map fst (tb_regexp tb));
    ag_cont : tb_container tb = true }.
  Lemma agrees_new : agrees (new_table true) [].
  Proof. split; cbn; auto. - intros [s|i]; [|reflexivity]. destruct (mapping_for_key (KText s)); reflexivity. - constructor. Qed.
  Lemma seen_in : forall l seen x, In x (first_seen seen l) -> ~ In x seen.
  Proof.
    induction l as [|[s|i] l IH]; intros seen x; cbn [first_seen]; [contradiction|apply IH|]. destruct (in_dec N.eq_dec i seen) as [X|X]; [apply IH|].
    intros [<- |H]; [exact X|]. apply IH in H. cbn [In] in H. tauto.
  Qed.
  Lemma agrees_pset : forall tb h o v, agrees tb h ->
    v = live (op_key o) (h ++ [o]) -> agrees (pset tb (mapping_for_key (op_key o)) v) (h ++ [o]).
  Proof.
    intros tb h o v A Ev. split.
    - intros k. rewrite pget_pset_key. destruct (key_dec (op_key o) k) as [<- |N]; [exact Ev|]. rewrite (ag_get A). unfold live. rewrite live_from_app.
      destruct o as [k' e|k' e]; cbn [op_key] in N; destruct (key_dec k' k); congruence.
    - unfold matchers. rewrite map_app, first_seen_app. cbn [map]. fold (matchers h). rewrite app_nil_r.
      destruct (op_key o) as [s|i] eqn:Ek.
      + cbn [first_seen]. rewrite app_nil_r, <- (ag_re A). pose proof (mapping_inv s) as MI. destruct (mapping_for_key (KText s)); try reflexivity. contradiction.
      + cbn [mapping_for_key pset tb_regexp]. rewrite hset_keys, (ag_re A). reflexivity.
    - intros s G. pose proof (ag_name A G) as H. destruct (op_key o) as [s'|i] eqn:Ek; [|exact H].
      pose proof (mapping_inv s') as MI. destruct (mapping_for_key (KText s')) as [a|a|a|a]; cbn [pset tb_typename]; try exact H.
      rewrite hget_hset. destruct MI as [-> MI]. destruct (sdec s' s) as [-> |_]; [contradiction|exact H].
    - destruct (op_key o) as [s'|i] eqn:Ek; [destruct (mapping_for_key (KText s')) eqn:Em; try apply (ag_nd A); pose proof (mapping_inv s') as MI; rewrite Em in MI; contradiction|].
      cbn [mapping_for_key pset tb_regexp]. rewrite hset_keys. destruct (in_dec N.eq_dec i (map fst (tb_regexp tb))) as [I|I]; [rewrite app_nil_r; apply (ag_nd A)|].
      apply NoDup_app_end; [apply (ag_nd A)|exact I].
    - rewrite pset_container. apply (ag_cont A).
  Qed.
  Lemma live_snoc_self : forall (o : op O) h, live (op_key o) (h ++ [o]) = match o with OSet _ e => [e] | OAdd k e => live k h ++ [e] end.
  Proof. intros o h. unfold live. rewrite live_from_app. destruct o as [k e|k e]; cbn [op_key]; destruct (key_dec k k); congruence. Qed.
  Lemma agrees_op : forall tb h o, agrees tb h -> agrees (run_op tb o) (h ++ [o]).
  Proof.
    intros tb h o A. destruct o as [k e|k e]; cbn [run_op].
    - apply (@agrees_pset tb h (OSet k e) [e] A). rewrite live_snoc_self. reflexivity.
    - unfold add. rewrite (ag_cont A). apply (@agrees_pset tb h (OAdd k e) _ A). rewrite live_snoc_self, <- (ag_get A). reflexivity.
  Qed.
  Lemma agrees_run : forall h2 tb h, agrees tb h -> agrees (run tb h2) (h ++ h2).
  Proof.
    induction h2 as [|o h2 IH]; intros tb h A; cbn [run fold_left]; [rewrite app_nil_r; exact A|].
    replace (h ++ o :: h2) with ((h ++ [o]) ++ h2) by (rewrite <- app_assoc; reflexivity). apply IH, agrees_op, A.
  Qed.

  Lemma compact_chosen : forall t (l : list (entry O)), compact (map (fun e => if e_if e t then e_obj e else None) l) = chosen t l.
  Proof.
    intros t. induction l as [|e l IH]; [reflexivity|]. cbn [map chosen]. unfold compact. cbn [flat_map]. fold (compact (map (fun e => if e_if e t then e_obj e else None) l)). rewrite IH.
    destruct (e_if e t), (e_obj e); reflexivity.
  Qed.
  Variable matches : N -> str -> bool.
  Lemma flat_regexp : forall (f : list (op O)) g (l : list N), (forall i, In i l -> g i = live (KMatch i) f) ->
    forall n, flat_map (fun p => if matches (fst p) n then snd p else []) (map (fun i => (i, g i)) l) = flat_map (fun k => live k f) (map KMatch (filter (fun i => matches i n) l)).
  Proof.
    intros f g l H n. induction l as [|i l IH]; [reflexivity|]. cbn [map flat_map filter fst snd].
    rewrite IH by (intros j J; apply H; right; exact J). destruct (matches i n); [|reflexivity]. cbn [map flat_map]. rewrite (H i (or_introl eq_refl)). reflexivity.
  Qed.
  Lemma find_all_agrees : forall tb h t, agrees tb h -> find_all matches tb t = customizations matches h t.
  Proof.
    intros tb h t A. unfold find_all, customizations. rewrite compact_chosen. f_equal. unfold candidates, keys_of. rewrite !flat_map_app. f_equal; [|f_equal].
    - destruct (tm_shape t) as [c|c| | |]; try reflexivity.
      + cbn [flat_map]. rewrite app_nil_r, <- (ag_get A), mapping_cont. reflexivity.
      + cbn [flat_map]. rewrite app_nil_r, <- (ag_get A), mapping_array. reflexivity.
    - destruct (genericb (tm_name t)) eqn:G.
      + apply genericb_spec in G. rewrite (ag_name A G). reflexivity.
      + cbn [flat_map]. rewrite app_nil_r, <- (ag_get A), mapping_name; [reflexivity|]. intros X. apply genericb_spec in X. congruence.
    - assert (E : tb_regexp tb = map (fun i => (i, live (KMatch i) h)) (map fst (tb_regexp tb))).
      { apply (@hash_map N _ N.eq_dec (tb_regexp tb) (fun i => live (KMatch i) h) (ag_nd A)). intros k v E. pose proof (ag_get A (KMatch k)) as H. cbn [mapping_for_key pget] in H. rewrite E in H. exact H. }
      rewrite E, <- (ag_re A).
      apply (@flat_regexp h (fun i => live (KMatch i) h)). reflexivity.
  Qed.

  (** The specification in order says the same as the one without order. *)
  Lemma live_registered : forall h k (e : entry O), In e (live k h) <-> registered h k e.
  Proof.
    induction h as [|o h IH] using rev_ind; intros k e.
    - split; [intros []|]. intros (h1 & h2 & o & E & _). destruct h1; discriminate.
    - unfold live. rewrite live_from_app. fold (live k h). split.
      + assert (OLD : In e (live k h) -> (forall e', o <> OSet k e') -> registered (h ++ [o]) k e).
        { intros H Ho. apply IH in H. destruct H as (h1 & h2 & o' & -> & Eo & N). exists h1, (h2 ++ [o]), o'. split; [rewrite <- app_assoc; reflexivity|]. split; [exact Eo|].
          intros e' I. apply in_app_iff in I. destruct I as [I|[I|[]]]; [exact (N _ I)|exact (Ho e' I)]. }
        assert (NEW : o = OSet k e \/ o = OAdd k e -> registered (h ++ [o]) k e).
        { intros Eo. exists h, [], o. split; [reflexivity|]. split; [exact Eo|]. intros e' []. }
        destruct o as [k' e'|k' e']; destruct (key_dec k' k) as [-> |Nk]; cbn [In].
        * intros [-> |[]]. apply NEW. left; reflexivity.
        * intros H. apply OLD; [exact H|]. intros e2 E. congruence.
        * rewrite in_app_iff. cbn [In]. intros [H|[-> |[]]]; [apply OLD; [exact H|discriminate]|apply NEW; right; reflexivity].
        * intros H. apply OLD; [exact H|discriminate].
      + intros (h1 & h2 & o' & E & Eo & N). destruct h2 as [|x h2 _] using rev_ind.
        * apply app_inj_tail in E as [-> ->]. destruct Eo as [-> | ->]; destruct (key_dec k k) as [_|X]; try congruence; [left; reflexivity|]. apply in_app_iff. right; left; reflexivity.
        * assert (E2 : h ++ [o] = (h1 ++ o' :: h2) ++ [x]) by (rewrite E, <- app_assoc; reflexivity). apply app_inj_tail in E2 as [E2 ->].
          assert (H : In e (live k h)). { apply IH. exists h1, h2, o'. split; [exact E2|]. split; [exact Eo|]. intros e' I. apply (N e'), in_app_iff. left; exact I. }
          destruct x as [k' e'|k' e']; destruct (key_dec k' k) as [-> |_]; try exact H; [|apply in_app_iff; left; exact H].
          destruct (N e'). apply in_app_iff. right; left; reflexivity.
  Qed.
  Lemma matchers_in : forall l seen i, In i (first_seen seen l) <-> In (KMatch i) l /\ ~ In i seen.
  Proof.
    induction l as [|[s|j] l IH]; intros seen i; cbn [first_seen In]; [tauto|rewrite IH; split; [intros [A B]; auto|intros [[A|A] B]; [discriminate|auto]]|].
    destruct (in_dec N.eq_dec j seen) as [X|X]; cbn [In]; rewrite IH; cbn [In]; split.
    - intros [A B]; auto.
    - intros [[A|A] B]; [injection A as ->; contradiction|auto].
    - intros [-> |[A B]]; [auto|split; [right; exact A|tauto]].
    - intros [[A|A] B]; [left; congruence|]. destruct (N.eq_dec j i) as [-> |N]; [left; reflexivity|right; split; [exact A|tauto]].
  Qed.
  Lemma in_chosen : forall t (l : list (entry O)) x, In x (chosen t l) <-> exists e, In e l /\ e_obj e = Some x /\ e_if e t = true.
  Proof.
    intros t. induction l as [|e l IH]; intros x; cbn [chosen]; [split; [intros []|intros (e & [] & _)]|].
    assert (R : In x (chosen t l) <-> exists e0, In e0 l /\ e_obj e0 = Some x /\ e_if e0 t = true) by apply IH.
    destruct (e_obj e) as [o|] eqn:Eo; [destruct (e_if e t) eqn:Ei|]; cbn [In]; rewrite R; split.
    - intros [-> |(e0 & A & B)]; [exists e|exists e0]; tauto.
    - intros (e0 & [-> |A] & B & C); [left; congruence|right; exists e0; tauto].
    - intros (e0 & A & B); exists e0; tauto.
    - intros (e0 & [-> |A] & B & C); [congruence|exists e0; tauto].
    - intros (e0 & A & B); exists e0; tauto.
    - intros (e0 & [-> |A] & B & C); [congruence|exists e0; tauto].
  Qed.
  Lemma keys_of_for : forall h t k (e : entry O), registered h k e -> (In k (keys_of matches h t) <-> key_for matches k t).
  Proof.
    intros h t k e R. unfold keys_of. rewrite !in_app_iff. unfold key_for. destruct k as [s|i].
    - assert (NR : ~ In (KText s) (map KMatch (filter (fun i => matches i (tm_name t)) (matchers h)))).
      { intros X. apply in_map_iff in X as (j & X & _). discriminate. }
      assert (G : In (KText s) (if genericb (tm_name t) then [] else [KText (tm_name t)]) <-> s = tm_name t /\ ~ generic s).
      { destruct (genericb (tm_name t)) eqn:G; cbn [In].
        - split; [intros []|]. intros [-> X]. apply X, genericb_spec, G.
        - split; [intros [E|[]]; injection E as <-; split; [reflexivity|]; intros X; apply genericb_spec in X; congruence|]. intros [-> _]. left; reflexivity. }
      rewrite G. destruct (tm_shape t) as [c|c| | |]; cbn [In]; split.
      + intros [[E|[]]|[E|E]]; [injection E as <-; left; exists c; auto|auto|contradiction].
      + intros [(c' & E & ->)|[(c' & E & _)|E]]; [injection E as ->; auto|discriminate|auto].
      + intros [[E|[]]|[E|E]]; [injection E as <-; right; left; exists c; auto|auto|contradiction].
      + intros [(c' & E & _)|[(c' & E & ->)|E]]; [discriminate|injection E as ->; auto|auto].
      + intros [[]|[E|E]]; [auto|contradiction].
      + intros [(c' & E & _)|[(c' & E & _)|E]]; [discriminate|discriminate|auto].
      + intros [[]|[E|E]]; [auto|contradiction].
      + intros [(c' & E & _)|[(c' & E & _)|E]]; [discriminate|discriminate|auto].
      + intros [[]|[E|E]]; [auto|contradiction].
      + intros [(c' & E & _)|[(c' & E & _)|E]]; [discriminate|discriminate|auto].
    - split.
      + intros [X|[X|X]].
        * destruct (tm_shape t); cbn [In] in X; try contradiction; destruct X as [X|[]]; discriminate.
        * destruct (genericb _); cbn [In] in X; [contradiction|destruct X as [X|[]]; discriminate].
        * apply in_map_iff in X as (j & E & X). injection E as ->. apply filter_In in X. tauto.
      + intros M. right; right. apply in_map, filter_In. split; [|exact M]. apply matchers_in. split; [|intros []].
        destruct R as (h1 & h2 & o & -> & Eo & _). apply in_map_iff. exists o. split; [destruct Eo as [-> | ->]; reflexivity|]. apply in_app_iff. right; left; reflexivity.
  Qed.
  Lemma customizations_in : forall (h : list (op O)) t x, In x (customizations matches h t) <->
    exists k e, registered h k e /\ key_for matches k t /\ e_obj e = Some x /\ e_if e t = true.
  Proof.
    intros h t x. unfold customizations. rewrite in_chosen. split.
    - intros (e & I & Eo & Ei). apply in_flat_map in I as (k & Ik & I). apply live_registered in I. exists k, e. split; [exact I|]. split; [|auto]. apply (keys_of_for t I). exact Ik.
    - intros (k & e & R & F & Eo & Ei). exists e. split; [|auto]. apply in_flat_map. exists k. split; [apply (keys_of_for t R), F|apply live_registered, R].
  Qed.
End TableProofs.

(** ** The world *)
Lemma validate_cond : forall o, validate_options o = cond o.
Proof. intros [i [|x l]]; reflexivity. Qed.

(** A call that does not give a Hash as the class. *)
Definition plain (c : call) : Prop := match c with CToRuby _ (AHash _) _ _ => False | _ => True end.
Definition plain_event (e : event) : Prop := match e with ECall c => plain c | ECreate _ => True end.

Record agrees_world (w : world) (h : list event) : Prop := {
  aw_model : agrees (w_model w) (asked asks_model h);
  aw_value : agrees (w_value w) (asked asks_value h);
  aw_from : agrees (w_from w) (asked asks_from h) }.
Lemma asked_snoc : forall X (f : call -> option X) h e, asked f (h ++ [e]) = asked f h ++ match e with ECall c => match f c with Some x => [x] | None => [] end | ECreate _ => [] end.
Proof.
  induction h as [|e' h IH]; intros e; cbn [app asked].
  - destruct e as [c|t]; [|reflexivity]. destruct (f c); reflexivity.
  - rewrite IH. destruct e' as [c|t]; [|reflexivity]. destruct (f c); reflexivity.
Qed.
Lemma agrees_add : forall O (tb : table O) h k p x, agrees tb h -> exists tb', add tb k (Entry p (Some x)) = Some tb' /\ agrees tb' (h ++ [OAdd k (Entry p (Some x))]).
Proof.
  intros O tb h k p x A. pose proof (agrees_op (OAdd k (Entry p (Some x))) A) as H. cbn [run_op] in H. unfold add in *. rewrite (ag_cont A) in *. eexists. split; [reflexivity|exact H].
Qed.
Lemma step_agrees : forall matches w h e, agrees_world w h -> agrees_world (run_event matches w e) (h ++ [e]).
Proof.
  intros matches w h e [A1 A2 A3]. destruct e as [c|t]; [|split; rewrite asked_snoc, app_nil_r; assumption]. cbn [run_event].
  destruct c as [k o m|k o m|k a o b|a k o b]; cbn [run_call].
  - rewrite validate_cond. destruct (cond o) as [p|] eqn:Ec.
    + destruct (@agrees_add _ _ _ k p m A1) as (tb & -> & B). cbn [option_map]. split; rewrite asked_snoc; cbn [asks_model asks_value asks_from w_model w_value w_from]; rewrite ?Ec, ?app_nil_r; assumption.
    + split; rewrite asked_snoc; cbn [asks_model asks_value asks_from]; rewrite ?Ec; cbn [option_map]; rewrite ?app_nil_r; assumption.
  - rewrite validate_cond. destruct (cond o) as [p|] eqn:Ec.
    + destruct (@agrees_add _ _ _ k p m A2) as (tb & -> & B). cbn [option_map]. split; rewrite asked_snoc; cbn [asks_model asks_value asks_from w_model w_value w_from]; rewrite ?Ec, ?app_nil_r; assumption.
    + split; rewrite asked_snoc; cbn [asks_model asks_value asks_from]; rewrite ?Ec; cbn [option_map]; rewrite ?app_nil_r; assumption.
  - assert (G : forall w', w_model w' = w_model w -> w_value w' = w_value w -> w_from w' = w_from w -> agrees_world w' (h ++ [ECall (CToRuby k a o b)])).
    { intros w' E1 E2 E3. split; rewrite asked_snoc; cbn [asks_model asks_value asks_from]; rewrite app_nil_r, ?E1, ?E2, ?E3; assumption. }
    destruct (match a with AHash _ => ANil | _ => a end), b as [b|]; try (apply G; reflexivity);
      (destruct (validate_options o); [destruct (add _ _ _); cbn [option_map]|]; apply G; reflexivity).
  - rewrite validate_cond. destruct a as [|c| |], b as [b|], (cond o) as [p|] eqn:Ec;
      try (split; rewrite asked_snoc; cbn [asks_model asks_value asks_from]; rewrite ?Ec; cbn [option_map]; rewrite ?app_nil_r; assumption).
    destruct (@agrees_add _ _ _ k p (c, b) A3) as (tb & Ea & B). match goal with |- context [add ?x ?y ?z] => replace (add x y z) with (Some tb) by (symmetry; exact Ea) end. cbn [option_map]. split; rewrite asked_snoc; cbn [asks_model asks_value asks_from w_model w_value w_from]; rewrite ?Ec, ?app_nil_r; assumption.
Qed.
Lemma step_to : forall matches w h e, plain_event e -> agrees (w_to w) (asked asks_to h) -> agrees (w_to (run_event matches w e)) (asked asks_to (h ++ [e])).
Proof.
  intros matches w h e P A. rewrite asked_snoc. destruct e as [c|t]; [|rewrite app_nil_r; exact A]. cbn [run_event plain_event] in *.
  destruct c as [k o m|k o m|k a o b|a k o b]; cbn [run_call asks_to].
  - rewrite app_nil_r. destruct (validate_options o); [destruct (add _ _ _)|]; exact A.
  - rewrite app_nil_r. destruct (validate_options o); [destruct (add _ _ _)|]; exact A.
  - destruct a as [|c|o'|]; [| |destruct P|rewrite app_nil_r; exact A].
    + destruct b as [b|]; [|rewrite app_nil_r; exact A]. rewrite validate_cond. destruct (cond o) as [p|]; cbn [option_map]; [|rewrite app_nil_r; exact A].
      destruct (@agrees_add _ _ _ k p (@None ruby_class, b) A) as (tb & Ea & B). match goal with |- context [add ?x ?y ?z] => replace (add x y z) with (Some tb) by (symmetry; exact Ea) end. exact B.
    + destruct b as [b|]; [|rewrite app_nil_r; exact A]. rewrite validate_cond. destruct (cond o) as [p|]; cbn [option_map]; [|rewrite app_nil_r; exact A].
      destruct (@agrees_add _ _ _ k p (Some c, b) A) as (tb & Ea & B). match goal with |- context [add ?x ?y ?z] => replace (add x y z) with (Some tb) by (symmetry; exact Ea) end. exact B.
  - rewrite app_nil_r. destruct (validate_options o); [destruct a, b; try destruct (add _ _ _)|]; exact A.
Qed.
Lemma events_agree : forall matches h, agrees_world (run_events matches world0 h) h.
Proof.
  intros matches h. induction h as [|e h IH] using rev_ind; [split; apply agrees_new|]. unfold run_events. rewrite fold_left_app. apply step_agrees, IH.
Qed.
Lemma events_to : forall matches h, Forall plain_event h -> agrees (w_to (run_events matches world0 h)) (asked asks_to h).
Proof.
  intros matches h. induction h as [|e h IH] using rev_ind; intros P; [apply agrees_new|]. apply Forall_app in P as [P1 P2]. apply Forall_inv in P2.
  unfold run_events. rewrite fold_left_app. apply step_to; [exact P2|apply IH, P1].
Qed.
Lemma types_grow : forall matches h w, exists l, w_types (run_events matches w h) = w_types w ++ l.
Proof.
  induction h as [|e h IH]; intros w; cbn [run_events fold_left]; [exists []; rewrite app_nil_r; reflexivity|]. destruct (IH (run_event matches w e)) as (l & E). unfold run_events in E. rewrite E.
  destruct e as [c|t]; cbn [run_event].
  - exists l. f_equal. destruct c as [k o m|k o m|k a o b|a k o b]; cbn [run_call].
    + destruct (validate_options o); [destruct (add _ _ _)|]; reflexivity.
    + destruct (validate_options o); [destruct (add _ _ _)|]; reflexivity.
    + destruct a, b; try reflexivity; (destruct (validate_options o); [destruct (add _ _ _)|]; reflexivity).
    + destruct (validate_options o); [destruct a, b; try destruct (add _ _ _)|]; reflexivity.
  - cbn [w_types]. exists ((t, subclass_initialize matches w t) :: l). rewrite <- app_assoc. reflexivity.
Qed.

(** The last conversion for a class. *)
Fixpoint last_for (c : ruby_class) (l : list from_conv) (acc : option N) : option N :=
  match l with [] => acc | (c', b) :: r => last_for c r (if N.eq_dec c' c then Some b else acc) end.
Lemma from_fold : forall c l h, hget N.eq_dec (fold_left (fun h (x : from_conv) => hset N.eq_dec h (fst x) (Registered (snd x))) l h) c =
  match last_for c l None with Some b => Some (Registered b) | None => hget N.eq_dec h c end.
Proof.
  assert (ACC : forall c l acc, last_for c l acc = match last_for c l None with Some b => Some b | None => acc end).
  { induction l as [|[c' b] l IH]; intros acc; cbn [last_for]; [reflexivity|]. rewrite IH. rewrite (IH (if N.eq_dec c' c then Some b else None)). destruct (last_for c l None), (N.eq_dec c' c); reflexivity. }
  induction l as [|[c' b] l IH]; intros h; cbn [fold_left last_for fst snd]; [reflexivity|]. rewrite IH, hget_hset, (ACC c l (if N.eq_dec c' c then Some b else None)).
  destruct (last_for c l None), (N.eq_dec c' c); reflexivity.
Qed.
