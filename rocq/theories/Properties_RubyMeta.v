(** * C81: MetaData objects from Ruby *)
From Verif Require Import Base Types Graph GraphProofs Registry RegistryOps Smap SmapProofs TypeObj TypeObjProofs Properties_TypeObj RubyMetaSpec RubyMeta.
From Coq Require Import Sorted.

Lemma c_str_id s : ~ In Ascii.zero s -> c_str s = s.
Proof.
  induction s as [|c s IH]; intros H; cbn [c_str]; [reflexivity|]. destruct (Ascii.eqb_spec c Ascii.zero) as [-> |_]; [destruct H; left; reflexivity|].
  f_equal. apply IH. intros X. apply H. right; exact X.
Qed.
Lemma sv_ok a : no_nul a -> string_value a = match a with RStr s => Some s | RNot => None end.
Proof. destruct a as [s|]; intros H; cbn [string_value]; [rewrite c_str_id by exact H|]; reflexivity. Qed.
Lemma new_values_ok vs : Forall no_nul vs -> forall acc,
  match texts vs with
  | None => new_values vs acc = None
  | Some l => exists l', new_values vs acc = Some l' /\ forall x, In x l' <-> In x l \/ In x acc
  end.
Proof.
  induction 1 as [|a vs Ha _ IH]; intros acc; cbn [texts new_values]; [exists acc; split; [reflexivity|intros x; cbn [In]; tauto]|].
  rewrite (sv_ok Ha). destruct a as [s|]; [|reflexivity]. specialize (IH (set_insert s acc)). destruct (texts vs) as [l|]; [|exact IH].
  destruct IH as (l' & E & H). exists l'. split; [exact E|]. intros x. rewrite H, set_insert_In. cbn [In]. intuition congruence.
Qed.

(** [m] shows the state [st]. *)
Definition shows (m : meta) (st : mstate) : Prop :=
  (forall k, md_include m k = true <-> ms_key st k) /\ forall k v, In v (md_get m k) <-> ms_val st k v.
(** A call whose effect is right whatever its arguments: set with a value that is not a String, and clear with two arguments,
    are left out (C81_set_refuted, C81_clear_refuted). *)
Definition proper (c : mcall) : Prop :=
  Forall no_nul (arg_list c) /\
  match c with MAdd _ _ => True | MSet _ vs => texts vs <> None | MClear l => length l <= 1 end.
Lemma seqb_spec a b : reflect (a = b) (seqb a b).
Proof. apply iff_reflect. symmetry. apply seqb_eq. Qed.
Lemma add_ok m k l l' st : md_ok m -> shows m st -> (forall x, In x l' <-> In x l \/ In x []) ->
  shows (md_addAll m k l') (MState (fun x => x = k \/ ms_key st x) (fun x v => (x = k /\ In v l) \/ ms_val st x v)).
Proof.
  intros O [S1 S2] Hl. split.
  - intros j. rewrite md_include_addAll by apply O. cbn [ms_key]. rewrite <- S1. destruct (seqb_spec k j) as [-> |N]; cbn [orb]; [tauto|]. intuition congruence.
  - intros j v. rewrite md_get_addAll by apply O. cbn [ms_val]. rewrite <- S2. destruct (seqb_spec k j) as [-> |N]; [rewrite fold_set_insert_In, Hl; cbn [In]; tauto|]. intuition congruence.
Qed.
Lemma clear_ok m k st : md_ok m -> shows m st -> shows (md_clear m k) (MState (fun x => x <> k /\ ms_key st x) (fun x v => x <> k /\ ms_val st x v)).
Proof.
  intros O [S1 S2]. split.
  - intros j. cbn [ms_key]. rewrite <- S1. unfold md_include, md_clear. rewrite m_find_erase. destruct (seqb_spec k j) as [-> |N]; [split; [discriminate|tauto]|]. split; [intros H; split; [congruence|exact H]|tauto].
  - intros j v. cbn [ms_val]. rewrite <- S2. unfold md_get, md_clear. rewrite m_find_erase. destruct (seqb_spec k j) as [-> |N]; [split; [contradiction|tauto]|]. split; [intros H; split; [congruence|exact H]|tauto].
Qed.
Lemma call_ok m st c : md_ok m -> shows m st -> proper c ->
  match should c st with
  | Some st' => snd (r_call m c) = false /\ shows (fst (r_call m c)) st'
  | None => snd (r_call m c) = true /\ fst (r_call m c) = m
  end.
Proof.
  intros O S [N P]. destruct c as [k vs|k vs|l]; cbn [arg_list] in N; cbn [r_call].
  - pose proof (Forall_inv N) as Nk. pose proof (Forall_inv_tail N) as Nv. unfold r_add. rewrite (sv_ok Nk). destruct k as [k|]; cbn [should]; [|auto].
    pose proof (new_values_ok Nv []) as H. destruct (texts vs) as [l|]; [|rewrite H; auto]. destruct H as (l' & -> & Hl). split; [reflexivity|]. cbn [fst]. apply add_ok; assumption.
  - pose proof (Forall_inv N) as Nk. pose proof (Forall_inv_tail N) as Nv. unfold r_set, r_clear, r_add. rewrite (sv_ok Nk). destruct k as [k|]; cbn [should]; [|auto].
    pose proof (new_values_ok Nv []) as H. destruct (texts vs) as [l|]; [|congruence]. destruct H as (l' & -> & Hl). split; [reflexivity|]. cbn [fst].
    pose proof (@add_ok (md_clear m k) k l l' _ (md_clear_ok k O) (clear_ok k O S) Hl) as [A1 A2]. split.
    + intros j. rewrite A1. cbn [ms_key]. destruct (seqb_spec j k); tauto.
    + intros j v. rewrite A2. cbn [ms_val]. tauto.
  - destruct l as [|k [|k2 l]]; cbn [should r_clear length] in *.
    + split; [reflexivity|]. split; [intros k; cbn; split; [discriminate|contradiction]|intros k v; cbn; tauto].
    + pose proof (Forall_inv N) as Nk. rewrite (sv_ok Nk). destruct k as [k|]; [|auto]. split; [reflexivity|]. cbn [fst]. apply clear_ok; assumption.
    + exfalso. inversion P as [|? X]. inversion X.
Qed.
Lemma r_call_ok m c : md_ok m -> md_ok (fst (r_call m c)).
Proof.
  intros O. assert (E : md_ok []) by (split; [constructor|discriminate]).
  assert (A : forall m k vs, md_ok m -> md_ok (fst (r_add m k vs))).
  { intros m' k vs O'. unfold r_add. destruct (string_value k); [|exact O']. destruct (new_values vs []); [apply md_addAll_ok, O'|exact O']. }
  assert (C : forall m l, md_ok m -> md_ok (fst (r_clear m l))).
  { intros m' l O'. unfold r_clear. destruct l as [|k [|k2 l]]; [exact E| |exact O']. destruct (string_value k); [apply md_clear_ok, O'|exact O']. }
  destruct c as [k vs|k vs|l]; cbn [r_call]; [apply A, O| |apply C, O]. unfold r_set. pose proof (C m [k] O) as X. destruct (r_clear m [k]) as [m1 e]. cbn [fst] in X. destruct e; [exact X|apply A, X].
Qed.
Lemma r_run_ok h : forall m, md_ok m -> md_ok (r_run m h).
Proof. induction h as [|c h IH]; intros m O; cbn [r_run]; [exact O|]. apply IH, r_call_ok, O. Qed.

(** After any sequence of proper calls the object shows what the calls say, and each call raises exactly when it should, and
    then changes nothing. *)
Theorem C81_map_partial h c : Forall proper h -> proper c ->
  let m := r_run [] h in let st := should_all h ms_empty in
  (forall k, ~ In Ascii.zero k -> (r_include m (RStr k) = Some true <-> ms_key st k) /\ exists l, r_get m (RStr k) = Some l /\ forall v, In v l <-> ms_val st k v) /\
  match should c st with
  | Some _ => snd (r_call m c) = false
  | None => snd (r_call m c) = true /\ fst (r_call m c) = m
  end.
Proof.
  intros Hh Hc m st.
  assert (G : forall h m st, Forall proper h -> md_ok m -> shows m st -> md_ok (r_run m h) /\ shows (r_run m h) (should_all h st)).
  { clear. induction h as [|c h IH]; intros m st F O S; cbn [r_run should_all]; [auto|]. pose proof (Forall_inv F) as Pc. apply Forall_inv_tail in F.
    pose proof (call_ok O S Pc) as H. apply IH; [exact F|apply r_call_ok, O|]. destruct (should c st) as [st'|]; [apply H|]. destruct H as [_ ->]. exact S. }
  destruct (@G h [] ms_empty Hh) as [O S].
  { split; [constructor|discriminate]. }
  { split; [intros k; cbn; split; [discriminate|contradiction]|intros k v; cbn; tauto]. }
  fold m in O, S. fold st in S. split.
  - intros k Nk. unfold r_include, r_get. cbn [string_value]. rewrite (c_str_id Nk). cbn [option_map]. split; [rewrite <- (proj1 S k); split; [intros X; injection X; auto|intros ->; reflexivity]|].
    exists (md_get m k). split; [reflexivity|]. intros v. apply S.
  - pose proof (call_ok O S Hc) as H. destruct (should c st); [apply H|exact H].
Qed.
(** Whatever the calls, keys lists the keys without duplicates, each key is in include?, and each gives what get gives. *)
Theorem C81_each h : let m := r_run [] h in
  NoDup (r_keys m) /\ (forall k, In k (r_keys m) <-> md_include m k = true) /\ map fst (r_each m) = r_keys m /\
  forall k l, In (k, l) (r_each m) -> r_get m (RStr k) = Some l /\ NoDup l.
Proof.
  intros m. assert (O : md_ok m) by (apply r_run_ok; split; [constructor|discriminate]). destruct O as [S F].
  assert (K : forall k, In k (r_keys m) <-> md_include m k = true).
  { intros k. unfold md_include, r_keys. clear. induction m as [|[j l] m IH]; cbn [map fst In m_find]; [split; [contradiction|discriminate]|].
    destruct (seqb_spec j k) as [-> |N]; [split; auto|]. rewrite IH. split; [intros [X|X]; [congruence|exact X]|auto]. }
  split; [|split; [exact K|]].
  - apply ssorted_NoDup, sorted_keys, S.
  - split; [unfold r_each; rewrite map_map; apply map_id|]. intros k l I. apply in_map_iff in I as (j & E & I). injection E as -> <-.
    unfold r_get. cbn [string_value option_map]. split; [reflexivity|]. apply ssorted_NoDup. apply md_get_sorted. split; assumption.
Qed.

(** set (and []=) with an Array, or anything that is not a String, raises and the old values are lost. *)
Theorem C81_set_refuted : forall k v, ~ In Ascii.zero k -> ~ In Ascii.zero v ->
  let m := r_run [] [MAdd (RStr k) [RStr v]] in
  r_get m (RStr k) = Some [v] /\ snd (r_call m (MSet (RStr k) [RNot])) = true /\ r_get (fst (r_call m (MSet (RStr k) [RNot]))) (RStr k) = Some [].
Proof.
  intros k v Nk Nv m.
  assert (O0 : md_ok []) by (split; [constructor|discriminate]).
  assert (Em : m = md_addAll [] k [v]) by (unfold m; cbn [r_run r_call r_add string_value new_values fst]; rewrite (c_str_id Nk), (c_str_id Nv); reflexivity).
  rewrite Em. unfold r_get. cbn [string_value option_map r_call r_set r_clear r_add new_values fst snd]. rewrite (c_str_id Nk). split; [|split; [reflexivity|]].
  - f_equal. rewrite md_get_addAll by apply O0. rewrite (proj2 (seqb_eq k k) eq_refl). reflexivity.
  - f_equal. unfold md_get, md_clear. cbn [fst]. rewrite m_find_erase, (proj2 (seqb_eq k k) eq_refl). reflexivity.
Qed.
(** clear and delete with two keys do nothing and do not raise. *)
Theorem C81_clear_refuted : forall m k1 k2, r_call m (MClear [k1; k2]) = (m, false).
Proof. reflexivity. Qed.
(** Texts are cut at the first NUL: different keys are the same key. *)
Theorem C81_nul_refuted : let k1 := ["a"; Ascii.zero; "b"]%char in let k2 := ["a"; Ascii.zero; "c"]%char in
  r_get (r_run [] [MSet (RStr k1) [RStr k1]]) (RStr k2) = Some [["a"%char]].
Proof. reflexivity. Qed.
Example proper_history : Forall proper [MSet (RStr (s_ "doc")) [RStr (s_ "x"); RStr (s_ "y")]; MAdd (RStr (s_ "doc")) [RNot]; MClear [RStr (s_ "other")]; MAdd (RStr (s_ "doc")) [RStr (s_ "x")]].
Proof. repeat constructor; cbn; try congruence; intros X; repeat (destruct X as [X|X]; [discriminate X|]); destruct X. Qed.
Example proper_history_shown : r_each (r_run [] [MSet (RStr (s_ "doc")) [RStr (s_ "y"); RStr (s_ "x")]; MAdd (RStr (s_ "doc")) [RNot]; MSet (RStr (s_ "empty")) []]) = [(s_ "doc", [s_ "x"; s_ "y"]); (s_ "empty", [])].
Proof. reflexivity. Qed.
