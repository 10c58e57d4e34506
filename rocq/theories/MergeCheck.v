(** * MergeCheck: checks that concrete registries meet the hypotheses about merges. Not a model of code. *)
From Verif Require Import Base Types NamesSpec Names NamesProofs Registry RegistrySpec RegistryProofs RegistryOps RegistryMain RegistryAlias World TypeBuilder Merge MergeSpec MergeProofs.
From Verif Require Import Graph GraphSpec GraphProofs.
Local Open Scope nat_scope.

Definition heap_of (l : list tobj) : heap := fun t => nth t l null_obj.
Definition constructed_b (H : heap) (t : tid) : bool :=
  match o_kind (H t) with
  | OPtr x => seqb (o_name (H t)) (getPointerName (o_name (H x))) && (o_size (H t) =? 8)%N
  | OArr d x => seqb (o_name (H t)) (getArrayName (o_name (H x)) d) && (o_size (H t) =? (d * o_size (H x)) mod 2 ^ 64)%N
  | OCont KVec x => seqb (o_name (H t)) (vector_fullName (o_name (H x)))
  | OCont KStr x => seqb (o_name (H t)) (s_ "/std/string") && seqb (o_name (H x)) (s_ "/int8_t") && match o_kind (H x) with ONum _ => true | _ => false end
  | _ => true
  end.
Definition heap_b (l : list tobj) (next : nat) : bool :=
  (length l <=? next) && forallb (fun t => constructed_b (heap_of l) t && forallb (fun d => d <? next) (dependsOn (heap_of l) t)) (seq 0 (length l)).
Lemma heap_out l t : length l <= t -> heap_of l t = null_obj.
Proof. intros Ht. unfold heap_of. apply nth_overflow. exact Ht. Qed.
Lemma heap_b_ok l next : heap_b l next = true -> proper_heap (heap_of l) next.
Proof.
  unfold heap_b. rewrite andb_true_iff, forallb_forall. intros [Hl Hf]. apply Nat.leb_le in Hl. split; [|split].
  - intros t. destruct (Nat.lt_ge_cases t (length l)) as [Ht|Ht]; [|unfold constructed_as; rewrite heap_out by assumption; exact Logic.I].
    assert (X := Hf t ltac:(apply in_seq; lia)). apply andb_true_iff in X. destruct X as [X _]. unfold constructed_b in X. unfold constructed_as. destruct (o_kind (heap_of l t)) as [| | | |x|d x|[] x|]; try exact Logic.I; rewrite ?andb_true_iff in X.
    + destruct X as [X Y]. apply seqb_eq in X. apply N.eqb_eq in Y. auto.
    + destruct X as [X Y]. apply seqb_eq in X. apply N.eqb_eq in Y. auto.
    + apply seqb_eq in X. exact X.
    + destruct X as [[X Y] Z]. apply seqb_eq in X. apply seqb_eq in Y. split; [exact X|]. split; [exact Y|]. destruct (o_kind (heap_of l x)); try discriminate. eauto.
  - intros t Ht. apply heap_out. lia.
  - intros t d Hd. destruct (Nat.lt_ge_cases t (length l)) as [Ht|Ht]; [|unfold dependsOn in Hd; rewrite heap_out in Hd by assumption; destruct Hd].
    assert (X := Hf t ltac:(apply in_seq; lia)). apply andb_true_iff in X. destruct X as [_ X]. rewrite forallb_forall in X. apply Nat.ltb_lt, X, Hd.
Qed.

Definition types_of (r : reg) : list tid := map (fun p => e_type (snd p)) (r_global r).
Lemma types_ok H r t : Inv H r -> registered r t -> In t (types_of r).
Proof. intros I (n & Hn & G). destruct (get_In I Hn G) as (e & Hi & <-). apply (in_map (fun p => e_type (snd p))) in Hi. exact Hi. Qed.
Lemma types_reg H r t : Inv H r -> In t (types_of r) -> registered r t.
Proof. intros I Hi. apply in_map_iff in Hi. destruct Hi as ([n e] & <- & Hi). destruct (global_get I Hi) as (Hn & _ & G). exists n. auto. Qed.
Definition memb (x : nat) (l : list nat) : bool := existsb (Nat.eqb x) l.
Lemma memb_ok x l : memb x l = true <-> In x l.
Proof. unfold memb. rewrite existsb_exists. split; [intros (y & Hy & E); apply Nat.eqb_eq in E; congruence|]. intros Hx. exists x. split; [assumption|apply Nat.eqb_refl]. Qed.

(** Names with modifiers. *)
Definition strip (sh : shape) (k : str) : str :=
  match sh with
  | SPtr => removelast k
  | SArr d => firstn (length k - length (getArrayName [] d)) k
  | SVec => firstn (length k - length (vector_fullName [])) (skipn (length (s_ "/std/vector<")) k)
  end.
Definition marked (k : str) : bool := match rev k with c :: _ => memb (nat_of_ascii c) (map nat_of_ascii (s_ "*]>")) | [] => false end.
Definition meant_b (H : heap) (r : reg) (p : str * entry) : bool :=
  negb (marked (fst p)) ||
  match o_kind (H (e_type (snd p))) with
  | OPtr x => seqb (fst p) (shape_name SPtr (strip SPtr (fst p))) && match get r (strip SPtr (fst p)) with Some y => x =? y | None => false end
  | OArr d x => seqb (fst p) (shape_name (SArr d) (strip (SArr d) (fst p))) && match get r (strip (SArr d) (fst p)) with Some y => x =? y | None => false end
  | OCont KVec x => seqb (fst p) (shape_name SVec (strip SVec (fst p))) && match get r (strip SVec (fst p)) with Some y => x =? y | None => false end
  | _ => false
  end.
Lemma marked_shape sh n : marked (shape_name sh n) = true.
Proof.
  unfold marked. destruct sh; cbn [shape_name]; unfold getPointerName, getArrayName, vector_fullName; rewrite ?rev_app_distr; try reflexivity.
Qed.
Lemma meant_ok H r : Inv H r -> forallb (meant_b H r) (r_global r) = true -> names_meant H r.
Proof.
  intros I Hf n sh t Hn G. destruct (get_In I (shape_abs sh Hn) G) as (e & Hi & <-). rewrite forallb_forall in Hf. assert (X := Hf _ Hi). unfold meant_b in X. cbn [fst snd] in X. rewrite marked_shape in X. cbn [negb orb] in X.
  assert (K : forall sh' x, o_kind (H (e_type e)) = shape_kind sh' x -> seqb (shape_name sh n) (shape_name sh' (strip sh' (shape_name sh n))) && match get r (strip sh' (shape_name sh n)) with Some y => x =? y | None => false end = true ->
    exists x, get r n = Some x /\ o_kind (H (e_type e)) = shape_kind sh x).
  { intros sh' x Kx E. apply andb_true_iff in E. destruct E as [E1 E2]. apply seqb_eq in E1. destruct (shape_name_inj E1) as [<- En]. rewrite <- En in E2. destruct (get r n) as [y|]; [|discriminate]. apply Nat.eqb_eq in E2. subst y. eauto. }
  destruct (o_kind (H (e_type e))) as [| | | |x|d x|[] x|] eqn:Ek; try discriminate; [exact (K SPtr x eq_refl X)|exact (K (SArr d) x eq_refl X)|exact (K SVec x eq_refl X)].
Qed.
Definition derived_b (H : heap) (r : reg) : bool :=
  forallb (fun t => forallb (fun p => match indirect_name H t with
    | Some (x, mk) => negb (e_type (snd p) =? x) || match get r (mk (fst p)) with Some _ => true | None => false end
    | None => true end) (r_global r)) (types_of r).
Lemma derived_ok H r : Inv H r -> derived_b H r = true -> derived_names H r.
Proof.
  intros I Hb t sh x a Ht K Ha G E. unfold derived_b in Hb. rewrite forallb_forall in Hb. assert (X := Hb t (types_ok I Ht)). rewrite forallb_forall in X. destruct (get_In I Ha G) as (e & Hi & Ee). assert (Y := X _ Hi). cbn [fst snd] in Y.
  rewrite (shape_indirect K) in Y. rewrite Ee, Nat.eqb_refl in Y. cbn [negb orb] in Y. rewrite E in Y. discriminate.
Qed.
(** What a type is made of. *)
Fixpoint closure (H : heap) (f : nat) (l : list tid) : list tid :=
  match f with 0 => l | S f' => closure H f' (nodup Nat.eq_dec (l ++ flat_map (dependsOn H) l)) end.
Definition acyclic_b (H : heap) (t : tid) : bool :=
  match o_kind (H t) with
  | OArr _ x => let l := closure H 10 [x] in memb x l && forallb (fun y => forallb (fun d => memb d l) (dependsOn H y)) l && negb (memb t l)
  | _ => true
  end.
Lemma acyclic_ok H t : acyclic_b H t = true -> no_array_cycle H t.
Proof.
  unfold acyclic_b, no_array_cycle. destruct (o_kind (H t)) as [| | | | |d x| |]; try exact (fun _ => Logic.I). set (l := closure H 10 [x]). cbv zeta. rewrite !andb_true_iff, negb_true_iff, forallb_forall. intros [[Hx Hc] Ht] R.
  assert (X : In t l); [|apply memb_ok in X; congruence]. clear Ht. apply memb_ok in Hx. induction R as [|y z R IH Hd]; [exact Hx|]. assert (Y := Hc y IH). rewrite forallb_forall in Y. apply memb_ok, Y, Hd.
Qed.
Definition proper_b (H : heap) (next : nat) (r : reg) : bool :=
  forallb (fun t => (t <? next) && forallb (fun d => memb d (types_of r)) (dependsOn H t)) (types_of r) && forallb (meant_b H r) (r_global r).
Lemma proper_ok H next r : reachable H r -> proper_b H next r = true -> proper H next r.
Proof.
  intros Hr Hb. assert (I := reachable_Inv Hr). apply andb_true_iff in Hb. destruct Hb as [Hb Hm]. rewrite forallb_forall in Hb. constructor; [exact Hr| | |apply (meant_ok I Hm)].
  - intros t Ht. assert (X := Hb t (types_ok I Ht)). apply andb_true_iff in X. apply Nat.ltb_lt, X.
  - intros t d Ht Hd. assert (X := Hb t (types_ok I Ht)). apply andb_true_iff in X. destruct X as [_ X]. rewrite forallb_forall in X. apply (types_reg I), memb_ok, X, Hd.
Qed.
Definition arrays_b (H : heap) (r : reg) : bool := forallb (acyclic_b H) (types_of r).
Lemma arrays_ok H r : Inv H r -> arrays_b H r = true -> forall t, registered r t -> no_array_cycle H t.
Proof. intros I Hb t Ht. unfold arrays_b in Hb. rewrite forallb_forall in Hb. apply acyclic_ok, Hb, (types_ok I Ht). Qed.
Definition apart_b (A B : reg) : bool := forallb (fun t => negb (memb t (types_of B))) (types_of A).
Lemma apart_ok H A B : Inv H A -> Inv H B -> apart_b A B = true -> forall t, registered A t -> registered B t -> False.
Proof. intros IA IB Hb t Ha Ht. unfold apart_b in Hb. rewrite forallb_forall in Hb. assert (X := Hb t (types_ok IA Ha)). apply negb_true_iff in X. apply (types_ok IB), memb_ok in Ht. congruence. Qed.
(** Names with the same definition in both registries. *)
Definition same_b (H : heap) (a b : tid) : bool := match isSame 50 H a b with Ok true => true | _ => match isSame 50 H b a with Ok true => true | _ => false end end.
Lemma same_b_ok H a b : same_b H a b = true -> struct_same H a b.
Proof.
  unfold same_b. intros X. destruct (isSame 50 H a b) as [[]| | |] eqn:E; try (apply (@isSame_sound 50); exact E); destruct (isSame 50 H b a) as [[]| | |] eqn:E'; try discriminate X; apply same_sym, (@isSame_sound 50); exact E'.
Qed.
Definition agree_b (H : heap) (A B : reg) : bool := forallb (fun p => match get B (fst p) with Some b => same_b H (e_type (snd p)) b | None => true end) (r_global A).
Lemma agree_ok H A B : Inv H A -> agree_b H A B = true -> forall n a b, absolute n -> get A n = Some a -> get B n = Some b -> struct_same H a b.
Proof.
  intros IA Hb n a b Hn Ga Gb. unfold agree_b in Hb. rewrite forallb_forall in Hb. destruct (get_In IA Hn Ga) as (e & Hi & <-). assert (X := Hb _ Hi). cbn [fst snd] in X. rewrite Gb in X. apply same_b_ok, X.
Qed.
