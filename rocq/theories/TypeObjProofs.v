(** * TypeObjProofs *)
From Coq Require Import Sorted Permutation.
From Verif Require Import Base Types.
From Verif Require Import Names NamesProofs Graph GraphProofs Registry RegistryOps Smap SmapProofs TypeObj TypeObjSpec.
Local Open Scope N_scope.

Lemma slt_spec a : forall b, slt a b = true <-> str_lt a b.
Proof.
  induction a as [|x a IH]; intros [|y b]; simpl.
  - split; [discriminate|intros H; inversion H].
  - split; [constructor|auto].
  - split; [discriminate|intros H; inversion H].
  - destruct (ceqb x y) eqn:E.
    + apply ceqb_eq in E. subst y. rewrite IH. split; [intros; apply lt_tail; assumption|]. intros H. inversion H; subst; [lia|assumption].
    + apply ceqb_neq in E. rewrite Nat.ltb_lt. split; [intros; apply lt_head; assumption|]. intros H. inversion H; subst; [assumption|congruence].
Qed.
Lemma ssorted_alpha l : ssorted l -> alphabetical l.
Proof.
  induction 1 as [|x l H IH F]; constructor; [assumption|]. eapply Forall_impl; [|exact F]. intros y Hy. apply slt_spec, Hy.
Qed.

(** ** Enum *)
Definition enum_run (e : enum_t) (h : list (str * Z)) : enum_t := fold_left (fun e p => fst (enum_add e (fst p) (snd p))) h e.
Lemma run_app e h h' : enum_run e (h ++ h') = enum_run (enum_run e h) h'.
Proof. apply fold_left_app. Qed.
Lemma first_def_app n h p v : first_def n (h ++ [p]) v <-> first_def n h v \/ (~ In n (map fst h) /\ p = (n, v)).
Proof.
  split.
  - intros (a & b & E & Hn). destruct (exists_last (l := (n, v) :: b)) as (b' & q & Eb); [discriminate|].
    rewrite Eb, app_assoc in E. apply app_inj_tail in E as [-> ->]. destruct b' as [|z b'].
    + simpl in Eb. inversion Eb; subst. right. rewrite app_nil_r. auto.
    + simpl in Eb. inversion Eb; subst. left. exists a, b'. auto.
  - intros [(a & b & -> & Hn)|(Hn & ->)].
    + exists a, (b ++ [p]). rewrite <- app_assoc. auto.
    + exists h, []. auto.
Qed.
Lemma first_def_fun n h v w : first_def n h v -> first_def n h w -> v = w.
Proof.
  intros (a & b & -> & Ha) (c & d & E & Hc). revert c E Hc. induction a as [|x a IH]; intros [|y c] E Hc; simpl in *.
  - congruence.
  - inversion E; subst. simpl in Hc. exfalso. apply Hc. left. reflexivity.
  - inversion E; subst. simpl in Ha. exfalso. apply Ha. left. reflexivity.
  - inversion E; subst. eapply IH; eauto; tauto.
Qed.
Lemma first_def_In n h : In n (map fst h) <-> exists v, first_def n h v.
Proof.
  split.
  - induction h as [|[m w] h IH]; [intros []|]. intros Hi. destruct (list_eq_dec ascii_dec m n) as [-> |Hm].
    + exists w, [], h. auto.
    + destruct Hi as [Hi|Hi]; [simpl in Hi; congruence|]. destruct (IH Hi) as (v & a & b & -> & Ha). exists v, ((m, w) :: a), b. split; [reflexivity|].
      simpl. tauto.
  - intros (v & a & b & -> & _). rewrite map_app, in_app_iff. right. left. reflexivity.
Qed.
Lemma enum_inv last h : let e := enum_run (En last []) h in
  sorted (en_values e) /\ forall n, match m_find n (en_values e) with Some v => first_def n h v | None => ~ In n (map fst h) end.
Proof.
  induction h as [|[n v] h IH] using rev_ind; [split; [constructor|simpl; auto]|]. rewrite run_app. simpl. destruct IH as [S F]. set (e := enum_run (En last []) h) in *.
  assert (V : en_values (fst (enum_add e n v)) = m_insert n v (en_values e)).
  { unfold enum_add. destruct (m_find n (en_values e)) as [w|]; [|reflexivity]. destruct (w =? v)%Z; reflexivity. }
  rewrite V. split; [apply m_insert_sorted, S|]. intros k. rewrite m_find_insert by assumption.
  destruct (seqb n k) eqn:E.
  - apply seqb_eq in E. subst k. specialize (F n). destruct (m_find n (en_values e)) as [w|]; apply first_def_app; auto.
  - specialize (F k). destruct (m_find k (en_values e)) as [w|]; [apply first_def_app; auto|].
    rewrite map_app, in_app_iff. simpl. intros [X|[X|[]]]; [auto|]. subst k. rewrite seqb_refl in E. discriminate.
Qed.
Lemma enum_find last h n v : m_find n (en_values (enum_run (En last []) h)) = Some v <-> first_def n h v.
Proof.
  destruct (enum_inv last h) as [S F]. specialize (F n). split; intros H.
  - rewrite H in F. exact F.
  - destruct (m_find n _) as [w|]; [f_equal; eapply first_def_fun; eauto|]. exfalso. apply F. apply first_def_In. eauto.
Qed.
Lemma first_with_spec v m : sorted m ->
  match first_with v m with
  | Some k => m_find k m = Some v /\ forall k', m_find k' m = Some v -> slt k' k = false
  | None => forall k, m_find k m <> Some v
  end.
Proof.
  induction m as [|[k x] m IH]; intros S; cbn [first_with]; [intros; discriminate|]. apply sorted_cons in S as [S F]. destruct (Z.eqb_spec x v) as [-> |Hx].
  - cbn [m_find]. rewrite seqb_refl. split; [reflexivity|]. intros k' H. destruct (seqb k k') eqn:E; [apply seqb_eq in E; subst; apply slt_irrefl|].
    apply m_find_In in H; [|assumption]. rewrite Forall_forall in F. apply F in H. apply slt_asym, H.
  - specialize (IH S). destruct (first_with v m) as [k'|].
    + destruct IH as [I1 I2]. cbn [m_find]. assert (L : slt k k' = true) by (apply m_find_In in I1; [|assumption]; rewrite Forall_forall in F; apply (F _ I1)).
      rewrite seqb_false by (apply slt_neq; assumption). split; [assumption|]. intros j. destruct (seqb k j); [congruence|apply I2].
    + intros j. cbn [m_find]. destruct (seqb k j); [congruence|apply IH].
Qed.

(** ** Compound *)
Definition end_of (f : fld) : N := fl_off f + sizeof (fl_type f).
Definition comp_run (c : comp_t) (h : list (str * ty * N)) : comp_t := fold_left (fun c x => comp_add c (fst (fst x)) (snd (fst x)) (snd x)) h c.
Lemma comp_run_app c h h' : comp_run c (h ++ h') = comp_run (comp_run c h) h'.
Proof. apply fold_left_app. Qed.
Lemma comp_fields c h : c_fields (comp_run c h) = c_fields c ++ map (fun x => Fld (fst (fst x)) (snd (fst x)) (snd x)) h.
Proof.
  revert c. induction h as [|x h IH]; intros c; simpl; [rewrite app_nil_r; reflexivity|]. rewrite IH. simpl. rewrite <- app_assoc. reflexivity.
Qed.
Lemma comp_size c h : Forall (fun x => snd x + sizeof (snd (fst x)) < two64) h ->
  c_size (comp_run c h) = fold_left N.max (map (fun x => snd x + sizeof (snd (fst x))) h) (c_size c).
Proof.
  intros H. revert c. induction H as [|x h Hx H IH]; intros c; simpl; [reflexivity|]. rewrite IH. simpl. f_equal. rewrite wadd_small by assumption.
  destruct (N.ltb_spec (c_size c) (snd x + sizeof (snd (fst x)))); lia.
Qed.
Lemma fold_max_ge l : forall a, a <= fold_left N.max l a /\ Forall (fun x => x <= fold_left N.max l a) l /\ (fold_left N.max l a = a \/ In (fold_left N.max l a) l).
Proof.
  induction l as [|x l IH]; intros a; simpl; [repeat split; auto; lia|]. destruct (IH (N.max a x)) as (H1 & H2 & H3). split; [lia|]. split.
  - constructor; [lia|assumption].
  - destruct H3 as [H3|H3]; [|auto]. destruct (N.max_spec a x) as [[_ E]|[_ E]]; rewrite E in H3 |- *; auto.
Qed.
Lemma max_end_spec l : Forall (fun f => end_of f < 2147483648) l -> forall m, (0 <= m)%Z ->
  max_end l m = Z.of_N (fold_left N.max (map end_of l) (Z.to_N m)).
Proof.
  induction 1 as [|f l Hf H IH]; intros m Hm; simpl; [lia|]. unfold end_of in Hf. rewrite wadd_small by (unfold two64; lia).
  unfold to_int. rewrite N.mod_small by lia. fold (end_of f) in *. destruct (Z.ltb_spec (Z.of_N (end_of f)) 2147483648); [|unfold end_of in *; lia].
  rewrite IH by (destruct (Z.ltb_spec m (Z.of_N (end_of f))); lia). do 2 f_equal. destruct (Z.ltb_spec m (Z.of_N (end_of f))); lia.
Qed.

(** The order of fields. *)
Definition fld_le (a b : fld) : Prop := fl_off a < fl_off b \/ (fl_off a = fl_off b /\ (fl_name a = fl_name b \/ str_lt (fl_name a) (fl_name b))).
Lemma fld_lt_false a b : fld_lt a b = false -> fld_le b a.
Proof.
  unfold fld_lt, fld_le. destruct (N.ltb_spec (fl_off a) (fl_off b)); [discriminate|]. destruct (N.eqb_spec (fl_off a) (fl_off b)) as [E|E]; [|intros; left; lia].
  intros L. right. split; [auto|]. destruct (slt (fl_name b) (fl_name a)) eqn:L2; [right; apply slt_spec, L2|left; symmetry; apply slt_total; assumption].
Qed.
Lemma fld_lt_true a b : fld_lt a b = true -> fld_le a b.
Proof.
  unfold fld_lt, fld_le. destruct (N.ltb_spec (fl_off a) (fl_off b)); [auto|]. destruct (N.eqb_spec (fl_off a) (fl_off b)) as [E|E]; [|discriminate].
  intros L. right. split; [auto|right; apply slt_spec, L].
Qed.
Lemma str_lt_trans a b c : str_lt a b -> str_lt b c -> str_lt a c.
Proof. rewrite <- !slt_spec. apply slt_trans. Qed.
Lemma fld_le_trans a b c : fld_le a b -> fld_le b c -> fld_le a c.
Proof.
  intros [H|[H H']] [G|[G G']]; unfold fld_le; try (left; lia). right. split; [congruence|].
  destruct H' as [H'|H'], G' as [G'|G']; [left; congruence|right; congruence|right; congruence|right; eapply str_lt_trans; eauto].
Qed.
Lemma fld_insert_perm f l : Permutation (fld_insert f l) (f :: l).
Proof.
  induction l as [|g l IH]; simpl; [auto|]. destruct (fld_lt g f); [|auto]. rewrite IH. apply perm_swap.
Qed.
Lemma fld_sort_perm l : Permutation (fld_sort l) l.
Proof. induction l as [|f l IH]; simpl; [auto|]. rewrite fld_insert_perm. auto. Qed.
Lemma fld_insert_sorted f l : StronglySorted fld_le l -> StronglySorted fld_le (fld_insert f l).
Proof.
  induction 1 as [|g l H IH F]; simpl; [repeat constructor|]. destruct (fld_lt g f) eqn:E.
  - constructor; [assumption|]. eapply Permutation_Forall; [symmetry; apply fld_insert_perm|]. constructor; [apply fld_lt_true, E|assumption].
  - apply fld_lt_false in E. constructor; [constructor; assumption|]. constructor; [assumption|]. eapply Forall_impl; [|exact F]. intros x. apply fld_le_trans, E.
Qed.
Lemma fld_sort_sorted l : StronglySorted fld_le (fld_sort l).
Proof. induction l as [|f l IH]; simpl; [constructor|apply fld_insert_sorted, IH]. Qed.
Lemma find_fld_spec n l : match find_fld n l with
  | Some f => exists a b, l = a ++ f :: b /\ fl_name f = n /\ Forall (fun g => fl_name g <> n) a
  | None => Forall (fun g => fl_name g <> n) l end.
Proof.
  induction l as [|f l IH]; simpl; [auto|]. destruct (seqb (fl_name f) n) eqn:E.
  - apply seqb_eq in E. exists [], l. auto.
  - assert (fl_name f <> n) by (intros X; apply seqb_eq in X; congruence). destruct (find_fld n l) as [g|].
    + destruct IH as (a & b & -> & H1 & H2). exists (f :: a), b. auto.
    + auto.
Qed.
Lemma find_fld_perm l l' n : Permutation l l' -> NoDup (map fl_name l) -> find_fld n l = find_fld n l'.
Proof.
  intros P. induction P as [|f l l' P IH|f g l|l l2 l3 P1 IH1 P2 IH2]; intros D; simpl in *.
  - reflexivity.
  - inversion D; subst. rewrite IH by assumption. reflexivity.
  - destruct (seqb (fl_name f) n) eqn:E1, (seqb (fl_name g) n) eqn:E2; try reflexivity. apply seqb_eq in E1, E2. inversion D as [|? ? H _]; subst. exfalso. apply H. left. congruence.
  - rewrite IH1 by assumption. apply IH2. eapply Permutation_NoDup; [apply Permutation_map; exact P1|assumption].
Qed.

(** ** MetaData *)
Inductive mop := MSet (k v : str) | MAdd (k v : str) | MAddAll (k : str) (vs : list str) | MClear (k : str) | MClearAll.
Definition md_do (m : meta) (o : mop) : meta :=
  match o with MSet k v => md_set m k v | MAdd k v => md_add m k v | MAddAll k vs => md_addAll m k vs | MClear k => md_clear m k | MClearAll => [] end.
(** The objects that exist: built by any sequence of calls and merges. *)
Inductive md_reach : meta -> Prop :=
| mr_new : md_reach []
| mr_op m o : md_reach m -> md_reach (md_do m o)
| mr_merge m m' : md_reach m -> md_reach m' -> md_reach (md_merge m m').
Definition md_ok (m : meta) : Prop := sorted m /\ forall k l, m_find k m = Some l -> ssorted l.
Lemma fold_set_insert_sorted vs : forall l, ssorted l -> ssorted (fold_left (fun s v => set_insert v s) vs l).
Proof. induction vs as [|v vs IH]; intros l H; simpl; [assumption|]. apply IH, set_insert_sorted, H. Qed.
Lemma fold_set_insert_In vs : forall l x, In x (fold_left (fun s v => set_insert v s) vs l) <-> In x l \/ In x vs.
Proof. induction vs as [|v vs IH]; intros l x; simpl; [tauto|]. rewrite IH, set_insert_In. intuition. Qed.
Lemma md_get_sorted m k : md_ok m -> ssorted (md_get m k).
Proof. intros [S F]. unfold md_get. destruct (m_find k m) eqn:E; [eauto|constructor]. Qed.
Lemma md_set_ok m k l : md_ok m -> ssorted l -> md_ok (m_set k l m).
Proof.
  intros [S F] H. split; [apply m_set_sorted, S|]. intros j l'. rewrite m_find_set by assumption. destruct (seqb k j); [intros E; inversion E; subst; assumption|apply F].
Qed.
Lemma md_addAll_ok m k vs : md_ok m -> md_ok (md_addAll m k vs).
Proof. intros H. apply md_set_ok; [assumption|]. apply fold_set_insert_sorted, md_get_sorted, H. Qed.
Lemma md_add_ok m k v : md_ok m -> md_ok (md_add m k v).
Proof. intros H. apply md_set_ok; [assumption|]. apply set_insert_sorted, md_get_sorted, H. Qed.
Lemma md_clear_ok m k : md_ok m -> md_ok (md_clear m k).
Proof. intros [S F]. split; [apply m_erase_sorted, S|]. intros j l. unfold md_clear. rewrite m_find_erase. destruct (seqb k j); [discriminate|apply F]. Qed.
Lemma md_merge_ok o : forall m, md_ok m -> md_ok (md_merge m o).
Proof. induction o as [|p o IH]; intros m H; simpl; [assumption|]. apply IH, md_addAll_ok, H. Qed.
Lemma md_reach_ok m : md_reach m -> md_ok m.
Proof.
  induction 1 as [|m o H IH|m m' H IH H' IH'].
  - split; [constructor|discriminate].
  - destruct o; simpl; [apply md_add_ok, md_clear_ok, IH|apply md_add_ok, IH|apply md_addAll_ok, IH|apply md_clear_ok, IH|split; [constructor|discriminate]].
  - apply md_merge_ok, IH.
Qed.
(** What a reader sees. *)
Lemma md_get_addAll m k vs j : sorted m -> md_get (md_addAll m k vs) j = if seqb k j then fold_left (fun s v => set_insert v s) vs (md_get m k) else md_get m j.
Proof. intros S. unfold md_get at 1, md_addAll. rewrite m_find_set by assumption. destruct (seqb k j); reflexivity. Qed.
Lemma md_include_addAll m k vs j : sorted m -> md_include (md_addAll m k vs) j = seqb k j || md_include m j.
Proof. intros S. unfold md_include, md_addAll. rewrite m_find_set by assumption. destruct (seqb k j); reflexivity. Qed.
Lemma md_merge_spec o : forall m, md_ok m -> sorted o -> forall k,
  (forall v, In v (md_get (md_merge m o) k) <-> In v (md_get m k) \/ In v (md_get o k)) /\
  md_include (md_merge m o) k = md_include m k || md_include o k.
Proof.
  induction o as [|[j l] o IH]; intros m H S k.
  - simpl. split; [|rewrite orb_false_r; reflexivity]. intros v. simpl. tauto.
  - apply sorted_cons in S as [S F]. destruct (IH _ (md_addAll_ok j l H) S k) as [I1 I2]. cbn [md_merge fold_left fst snd]. fold (md_merge (md_addAll m j l) o).
    rewrite I2, md_include_addAll by apply H. split.
    + intros v. rewrite I1, md_get_addAll by apply H.
      assert (Eg : md_get ((j, l) :: o) k = if seqb j k then l else md_get o k) by (unfold md_get; cbn [m_find]; destruct (seqb j k); reflexivity).
      rewrite Eg. destruct (seqb j k) eqn:E; [|reflexivity]. apply seqb_eq in E. subst j. rewrite fold_set_insert_In.
      assert (En : md_get o k = []) by (unfold md_get; rewrite (find_none_lt F); reflexivity). rewrite En. simpl. tauto.
    + assert (Ei : md_include ((j, l) :: o) k = seqb j k || md_include o k) by (unfold md_include; cbn [m_find]; destruct (seqb j k); reflexivity).
      rewrite Ei. destruct (seqb j k), (md_include m k), (md_include o k); reflexivity.
Qed.
Lemma md_ext a b : md_ok a -> md_ok b -> (forall k, md_include a k = md_include b k) -> (forall k v, In v (md_get a k) <-> In v (md_get b k)) -> a = b.
Proof.
  intros [Sa Fa] [Sb Fb] Hi Hg. apply sorted_ext; try assumption. intros k. specialize (Hi k). specialize (Hg k). unfold md_include, md_get in *.
  destruct (m_find k a) as [x|] eqn:Ea, (m_find k b) as [y|] eqn:Eb; try discriminate; [|reflexivity]. f_equal. apply ssorted_ext; eauto.
Qed.

(** ** config_set *)
Lemma while_from {C} (s : cset C) n : wsorted (cs_values s) -> cs_while n (cs_from n (cs_values s)) = values_of n (cs_values s).
Proof.
  unfold values_of. induction 1 as [|[k v] m H IH F]; simpl; [reflexivity|]. destruct (seqb k n) eqn:E; simpl; [|exact IH]. rewrite E. simpl. f_equal.
  apply seqb_eq in E. subst k. clear - H F. induction H as [|[k w] m H IH F']; simpl; [reflexivity|]. inversion F as [|? ? F1 F2]; subst. simpl in F1.
  destruct (seqb k n) eqn:E; simpl; [f_equal; apply IH; assumption|].
  assert (L : slt n k = true). { destruct (slt n k) eqn:L; [reflexivity|]. rewrite (slt_total L F1), seqb_refl in E. discriminate. }
  assert (G : Forall (fun p : str * str => seqb (fst p) n = false) m).
  { eapply Forall_impl; [|exact F']. simpl. intros p Hp. apply seqb_false. intros <-. rewrite L in Hp. discriminate. }
  clear - G. induction G as [|p l Hp G IHG]; simpl; [reflexivity|]. rewrite Hp. exact IHG.
Qed.
Definition cs_ok {C} (s : cset C) : Prop := wsorted (cs_values s) /\ wsorted (cs_children s).
Lemma cs_insert_ok {C} (s : cset C) n v : cs_ok s -> cs_ok (cs_insert s n v).
Proof. intros [A B]. split; [apply mm_insert_sorted, A|exact B]. Qed.
Lemma cs_insertAll_ok {C} n vs : forall (s : cset C), cs_ok s -> cs_ok (cs_insertAll s n vs).
Proof. induction vs as [|v vs IH]; intros s H; simpl; [assumption|]. apply IH, cs_insert_ok, H. Qed.
Lemma cs_erase_ok {C} (s : cset C) n : cs_ok s -> cs_ok (cs_erase s n).
Proof. intros [A B]. split; [apply wsorted_erase, A|exact B]. Qed.
Lemma cs_getList_0 {C} (s : cset C) n d : cs_ok s -> cs_getList 0 s n d = match values_of n (cs_values s) with [] => d | l => l end.
Proof. intros [A _]. unfold cs_getList. simpl. rewrite while_from by assumption. reflexivity. Qed.
Lemma values_insertAll {C} n k vs : forall (s : cset C), cs_ok s ->
  values_of n (cs_values (cs_insertAll s k vs)) = if seqb k n then values_of n (cs_values s) ++ vs else values_of n (cs_values s).
Proof.
  induction vs as [|v vs IH]; intros s H; simpl; [destruct (seqb k n); rewrite ?app_nil_r; reflexivity|].
  rewrite IH by (apply cs_insert_ok, H). simpl. rewrite values_insert by apply H. destruct (seqb k n); [rewrite <- app_assoc; reflexivity|reflexivity].
Qed.
