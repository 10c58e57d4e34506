(** * TlbLoad: the importer on the nodes of the exporter. *)
From Coq Require Import Sorted.
From Verif Require Import Base Types NamesSpec Names NamesProofs Graph GraphProofs Registry RegistryOps RegistryProofs World Exporter Smap SmapProofs TypeObj TypeObjSpec TypeObjProofs CsvSpec Csv CsvProofs Xml Tlb TlbSpec XmlProofs TlbText TlbDoc.
From Verif Require Import Graph.
Local Open Scope nat_scope.

(** ** Numbers *)
Lemma fold_digits s : forall a, Forall is_digit s -> fold_left (fun a c => 10 * a + N.of_nat (nat_of_ascii c - 48))%N s a = fold_left (fun a c => 10 * a + digit_val c)%N s a.
Proof.
  induction s as [|c s IH]; intros a Hs; [reflexivity|]. inversion Hs as [|? ? Hc Hs']; subst. cbn [fold_left]. rewrite IH by assumption. f_equal. f_equal. unfold digit_val. change (nat_of_ascii c) with (N.to_nat (N_of_ascii c)). lia.
Qed.
Lemma digits_of s n : decimal s n -> digits_val s = Some n.
Proof.
  intros (Hne & Hd & Hr). unfold digits_val. destruct s as [|c s]; [contradiction|]. replace (forallb isdigit (c :: s)) with true.
  - rewrite fold_digits by assumption. f_equal. exact Hr.
  - symmetry. apply forallb_forall. rewrite Forall_forall in Hd. intros x Hx. specialize (Hd x Hx). unfold is_digit in Hd. unfold isdigit. change (nat_of_ascii x) with (N.to_nat (N_of_ascii x)). lia.
Qed.
Lemma digit_first s n : decimal s n -> exists c r, s = c :: r /\ ceqb c "-" = false /\ ceqb c "+" = false.
Proof.
  intros (Hne & Hd & _). destruct s as [|c r]; [contradiction|]. exists c, r. split; [reflexivity|]. inversion Hd as [|? ? Hc _]; subst. unfold is_digit in Hc.
  split; apply Ascii.eqb_neq; intros ->; vm_compute in Hc; destruct Hc as [Hc _]; apply Hc; reflexivity.
Qed.
Lemma cast_size_dec n : (n < 2 ^ 64)%N -> cast_size (dec n) = Ok n.
Proof.
  intros Hn. assert (D := decN_decimal n). unfold decN in D. destruct (digit_first D) as (c & r & E & E1 & E2). unfold cast_size. rewrite E at 1. rewrite E1, E2. rewrite (digits_of D).
  rewrite (proj2 (N.ltb_lt n (2 ^ 64)) Hn). reflexivity.
Qed.
Lemma in_int_ok z : is_int z -> in_int z = true.
Proof. unfold is_int, in_int. intros Hz. apply andb_true_iff. split; apply Z.leb_le; apply Hz. Qed.
Lemma cast_int_decZ z : is_int z -> cast_int (decZ z) = Ok z.
Proof.
  intros Hz. destruct (decZ_decimal z) as [[H0 D]|[H0 (r & E & D)]].
  - destruct (digit_first D) as (c & r & E & E1 & E2). unfold cast_int. rewrite E at 1. rewrite E1, E2. rewrite (digits_of D). rewrite Z2N.id by assumption. rewrite (in_int_ok Hz). reflexivity.
  - unfold cast_int. rewrite E. change (ceqb "-" "-") with true. cbn iota. rewrite (digits_of D). rewrite Z2N.id by lia. rewrite Z.opp_involutive, (in_int_ok Hz). reflexivity.
Qed.
Lemma cast_int_dec n : (n < 2 ^ 31)%N -> cast_int (dec n) = Ok (Z.of_N n).
Proof.
  intros Hn. change (2 ^ 31)%N with 2147483648%N in Hn. assert (D := decN_decimal n). unfold decN in D. destruct (digit_first D) as (c & r & E & E1 & E2). unfold cast_int. rewrite E at 1. rewrite E1, E2. rewrite (digits_of D).
  rewrite in_int_ok by (unfold is_int; lia). reflexivity.
Qed.
(** ** Elements *)
Lemma is_elem_tagged t x : is_elem t x = tagged t x.
Proof. destruct x as [u a k| |]; reflexivity. Qed.
Lemma elements_inside t x : elements t x = inside t x.
Proof. unfold elements, inside, children. destruct x; reflexivity. Qed.
(** ** Metadata *)
Definition meta_step (m : meta) (l : str * list str) : meta :=
  let m1 := md_addAll m (fst l) [] in match snd l with v :: _ => md_add m1 (fst l) v | [] => m1 end.
Lemma load_lines ls : forall m, load_meta (map line_node ls) m = Ok (fold_left meta_step ls m).
Proof.
  induction ls as [|[k vs] ls IH]; intros m; [reflexivity|]. cbn [map load_meta line_node fst snd]. change (get_string (XElem (s_ "metadata") [(s_ "key", k)] (map XCdata vs)) (s_ "key")) with (Ok k). cbn [bind children fold_left].
  destruct vs as [|v vs]; cbn [map first_cdata]; exact (IH _).
Qed.
Lemma md_get_add m k v j : sorted m -> md_get (md_add m k v) j = if seqb k j then set_insert v (md_get m k) else md_get m j.
Proof. intros S. unfold md_get at 1, md_add. rewrite m_find_set by assumption. destruct (seqb k j); reflexivity. Qed.
Lemma md_include_add m k v j : sorted m -> md_include (md_add m k v) j = seqb k j || md_include m j.
Proof. intros S. unfold md_include, md_add. rewrite m_find_set by assumption. destruct (seqb k j); reflexivity. Qed.
Lemma meta_step_ok m l : md_ok m -> md_ok (meta_step m l).
Proof. intros Hm. unfold meta_step. destruct (snd l); [apply md_addAll_ok; assumption|apply md_add_ok, md_addAll_ok; assumption]. Qed.
Lemma meta_step_include m l k : md_ok m -> md_include (meta_step m l) k = seqb (fst l) k || md_include m k.
Proof.
  intros Hm. unfold meta_step. destruct (snd l); [apply md_include_addAll, Hm|]. rewrite md_include_add by (apply md_addAll_ok; assumption). rewrite md_include_addAll by apply Hm. destruct (seqb (fst l) k); reflexivity.
Qed.
Lemma meta_step_get m l k v : md_ok m -> (In v (md_get (meta_step m l) k) <-> In v (md_get m k) \/ (fst l = k /\ hd_error (snd l) = Some v)).
Proof.
  intros Hm. unfold meta_step. destruct (snd l) as [|w vs]; cbn [hd_error].
  - rewrite md_get_addAll by apply Hm. cbn [fold_left]. destruct (seqb (fst l) k) eqn:E; [apply seqb_eq in E; rewrite E|]; intuition discriminate.
  - rewrite md_get_add by (apply md_addAll_ok; assumption). rewrite !md_get_addAll by apply Hm. rewrite seqb_refl. cbn [fold_left]. destruct (seqb (fst l) k) eqn:E.
    + apply seqb_eq in E. rewrite set_insert_In, E. split; [intros [-> |X]; auto|intros [X|[_ X]]; [auto|injection X as ->; auto]].
    + split; [auto|]. intros [X|[X _]]; [assumption|]. rewrite X, seqb_refl in E. discriminate.
Qed.
Lemma meta_fold ls : forall m, md_ok m -> md_ok (fold_left meta_step ls m) /\
  (forall k, md_include (fold_left meta_step ls m) k = true <-> md_include m k = true \/ In k (map fst ls)) /\
  (forall k v, In v (md_get (fold_left meta_step ls m) k) <-> In v (md_get m k) \/ exists l, In l ls /\ fst l = k /\ hd_error (snd l) = Some v).
Proof.
  induction ls as [|l ls IH]; intros m Hm; cbn [fold_left map In]; [split; [assumption|]; split; [intros k; tauto|intros k v; split; [auto|intros [X|(l & [] & _)]; exact X]]|].
  destruct (IH _ (meta_step_ok l Hm)) as (A & B & C). split; [exact A|]. split.
  - intros k. rewrite B, meta_step_include, orb_true_iff by assumption. rewrite seqb_eq. tauto.
  - intros k v. rewrite C, meta_step_get by assumption. split.
    + intros [[X|[X Y]]|(l' & X & Y)]; [auto|right; exists l; auto|right; exists l'; auto].
    + intros [X|(l' & [<- |X] & Y & Z)]; [auto|auto|right; exists l'; auto].
Qed.
Lemma alpha_ssorted l : alphabetical l -> ssorted l.
Proof. intros A. induction A as [|x l A IH F]; constructor; [exact IH|]. eapply Forall_impl; [|exact F]. intros y. apply slt_spec. Qed.
Lemma alpha_sorted {A} (m : smap A) : alphabetical (map fst m) -> sorted m.
Proof.
  induction m as [|[k v] m IH]; intros Hm; [constructor|]. inversion Hm as [|? ? S F]; subst. constructor; [apply IH; assumption|]. apply Forall_forall. intros p Hp. rewrite Forall_forall in F. apply slt_spec. apply F. apply in_map. assumption.
Qed.
Lemma meta_sorted_ok m : meta_sorted m -> md_ok m.
Proof. intros [A B]. assert (S := alpha_sorted A). split; [assumption|]. intros k l E. apply (m_find_In _ _ S) in E. rewrite Forall_forall in B. apply alpha_ssorted. apply (B _ E). Qed.
Lemma lines_keys m k : In k (map fst (meta_lines m)) <-> In k (map fst m).
Proof.
  unfold meta_lines. induction m as [|[j vs] m IH]; [tauto|]. cbn [flat_map map fst snd]. rewrite map_app, in_app_iff, IH. cbn [In]. enough (In k (map fst (match vs with [] => [(j, [])] | v :: l => map (fun w => (j, [w])) (v :: l) end)) <-> j = k) by tauto.
  destruct vs as [|v vs]; [cbn; tauto|]. rewrite map_map. cbn [fst]. rewrite in_map_iff. split; [intros (w & E & _); exact E|]. intros E. exists v. split; [exact E|left; reflexivity].
Qed.
Lemma lines_values m k v : (exists l, In l (meta_lines m) /\ fst l = k /\ hd_error (snd l) = Some v) <-> exists vs, In (k, vs) m /\ In v vs.
Proof.
  unfold meta_lines. split.
  - intros (l & Hl & E1 & E2). apply in_flat_map in Hl. destruct Hl as ([j vs] & Hj & Hl). cbn [fst snd] in Hl. destruct vs as [|w vs].
    + destruct Hl as [<- |[]]. discriminate.
    + apply in_map_iff in Hl. destruct Hl as (u & <- & Hu). cbn in E1, E2. injection E2 as ->. subst j. exists (w :: vs). auto.
  - intros (vs & Hm & Hv). exists (k, [v]). split; [|auto]. apply in_flat_map. exists (k, vs). split; [assumption|]. cbn [fst snd]. destruct vs as [|w vs]; [destruct Hv|]. apply in_map_iff. exists v. auto.
Qed.
Lemma meta_back m : meta_sorted m -> fold_left meta_step (meta_lines m) [] = m.
Proof.
  intros Hm. assert (O := meta_sorted_ok Hm). assert (O0 : md_ok []) by (split; [constructor|discriminate]). destruct (@meta_fold (meta_lines m) [] O0) as (A & B & C). apply md_ext; [assumption|assumption| |].
  - intros k. apply eq_true_iff_eq. rewrite B, lines_keys. unfold md_include. cbn [m_find]. destruct (m_find k m) as [l|] eqn:E.
    + split; [reflexivity|]. intros _. right. apply (m_find_In _ _ (proj1 O)) in E. apply (in_map fst) in E. exact E.
    + apply m_find_None in E. split; [intros [X|X]; [discriminate|contradiction]|discriminate].
  - intros k v. rewrite C, lines_values. unfold md_get at 1. cbn [m_find In]. unfold md_get. split.
    + intros [[]|(vs & X & Y)]. apply (m_find_In _ _ (proj1 O)) in X. rewrite X. assumption.
    + intros X. right. destruct (m_find k m) as [vs|] eqn:E; [|destruct X]. exists vs. split; [apply (m_find_In _ _ (proj1 O)); assumption|assumption].
Qed.
Lemma load_back m x : meta_sorted m -> inside (s_ "metadata") x = map line_node (meta_lines m) -> loadMetaData x [] = Ok m.
Proof. intros Hm E. unfold loadMetaData. rewrite elements_inside, E, load_lines, meta_back by assumption. reflexivity. Qed.
(** ** Enums *)
Definition val_node (p : str * Z) : xnode := XElem (s_ "value") [(s_ "symbol", fst p); (s_ "value", decZ (snd p))] [].
Lemma insert_last {A} n (v : A) m : Forall (fun p => slt (fst p) n = true) m -> m_insert n v m = m ++ [(n, v)].
Proof. induction 1 as [|[k x] m Hk _ IH]; [reflexivity|]. cbn [m_insert fst] in *. rewrite Hk, IH. reflexivity. Qed.
Lemma load_values_ok vs : forall e, Forall (fun p => is_int (snd p)) vs -> sorted (en_values e ++ vs) -> exists e', load_values (map val_node vs) e = Ok e' /\ en_values e' = en_values e ++ vs.
Proof.
  induction vs as [|[n z] vs IH]; intros e Hi Hs; [exists e; rewrite app_nil_r; auto|]. inversion Hi as [|? ? Hz Hi']; subst. cbn [fst snd] in *.
  cbn [map load_values val_node fst snd]. unfold get_int.
  change (get_string (val_node (n, z)) (s_ "symbol")) with (Ok n). change (get_string (val_node (n, z)) (s_ "value")) with (Ok (decZ z)).
  cbn [bind]. rewrite cast_int_decZ by assumption. cbn [bind].
  assert (F : Forall (fun p => slt (fst p) n = true) (en_values e)).
  { clear - Hs. induction (en_values e) as [|p l IHl]; [constructor|]. inversion Hs as [|? ? S F]; subst. constructor; [|apply IHl; assumption]. rewrite Forall_forall in F. apply (F (n, z)). apply in_or_app. right. left. reflexivity. }
  unfold enum_add. assert (E : m_find n (en_values e) = None).
  { apply m_find_None. intros X. apply in_map_iff in X. destruct X as (p & E & X). rewrite Forall_forall in F. specialize (F p X). rewrite E, slt_irrefl in F. discriminate. }
  rewrite E. rewrite insert_last by assumption. destruct (IH (En z (en_values e ++ [(n, z)])) Hi') as (e' & A & B); [cbn [en_values]; rewrite <- app_assoc; exact Hs|]. exists e'. split; [exact A|]. rewrite B. cbn [en_values]. rewrite <- app_assoc. reflexivity.
Qed.
(** ** Fields *)
Definition fles (p q : fld * meta) : Prop := fld_le (fst p) (fst q).
Lemma fld_le_lt a b : fld_le a b -> forall m n, Tlb.fld_lt (b, n) (a, m) = false.
Proof.
  intros Hl m n. unfold Tlb.fld_lt. cbn [fst]. destruct Hl as [Hl|[E Hl]].
  - rewrite (proj2 (N.ltb_ge (f_off b) (f_off a))) by lia. rewrite (proj2 (N.eqb_neq (f_off b) (f_off a))) by lia. reflexivity.
  - rewrite (proj2 (N.ltb_ge (f_off b) (f_off a))) by lia. rewrite E, N.eqb_refl. destruct (slt (f_name b) (f_name a)) eqn:Es; [|reflexivity]. apply slt_spec in Es. contradiction.
Qed.
Lemma sort_sorted l : StronglySorted fld_le (map fst l) -> Tlb.fld_sort l = l.
Proof.
  induction l as [|[f m] l IH]; intros Hs; [reflexivity|]. cbn [map fst] in Hs. inversion Hs as [|? ? S F]; subst. cbn [Tlb.fld_sort]. rewrite IH by assumption. destruct l as [|[g n] l]; [reflexivity|]. cbn [Tlb.fld_insert]. inversion F as [|? ? F1 _]; subst. cbn [fst] in F1. rewrite (fld_le_lt F1). reflexivity.
Qed.
