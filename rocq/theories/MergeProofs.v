(** * MergeProofs: what a successful merge builds. *)
From Verif Require Import Base Types NamesSpec Names NamesProofs Registry RegistrySpec RegistryProofs RegistryOps RegistryMain RegistryAlias World TypeBuilderSpec TypeBuilder TypeBuilderProofs TlbCore Merge MergeSpec.
From Verif Require Import Graph GraphSpec GraphProofs.
Local Open Scope nat_scope.

(** ** Shapes *)
Lemma shape_indirect H t sh x : o_kind (H t) = shape_kind sh x -> indirect_name H t = Some (x, shape_name sh).
Proof. unfold indirect_name. intros ->. destruct sh; reflexivity. Qed.
Lemma indirect_shape H t x mk : indirect_name H t = Some (x, mk) -> exists sh, o_kind (H t) = shape_kind sh x /\ mk = shape_name sh.
Proof.
  unfold indirect_name. destruct (o_kind (H t)) as [| | | |y|d y|k y|]; try discriminate; [| |destruct k; try discriminate]; intros E; injection E as <- <-; [exists SPtr|exists (SArr d)|exists SVec]; auto.
Qed.
Lemma shape_name_inj sh sh' a b : shape_name sh a = shape_name sh' b -> sh = sh' /\ a = b.
Proof.
  intros E. set (H := fun t : tid => match t with 0 => Obj [] 0 (shape_kind sh 0) | _ => Obj [] 0 (shape_kind sh' 0) end).
  assert (I0 : indirect_name H 0 = Some (0, shape_name sh)) by (apply shape_indirect; reflexivity).
  assert (I1 : indirect_name H 1 = Some (0, shape_name sh')) by (apply shape_indirect; reflexivity).
  destruct (indirect_inj I0 I1 E) as [-> F]. split; [|reflexivity]. specialize (F []). clear - F.
  destruct sh as [|d|], sh' as [|d'|]; try reflexivity; try discriminate F.
  f_equal. apply dec_inj. unfold shape_name, getArrayName in F. cbn [app] in F. injection F as F. apply app_last_inj in F. apply F.
Qed.
Lemma shape_kind_inj sh sh' x y : shape_kind sh x = shape_kind sh' y -> sh = sh' /\ x = y.
Proof. destruct sh, sh'; cbn; intros E; inversion E; auto. Qed.
Lemma shape_abs sh a : absolute a -> absolute (shape_name sh a).
Proof. intros [q ->]. destruct sh; eexists; reflexivity. Qed.
Lemma shape_plain sh a : plain a -> plain (shape_name sh a).
Proof.
  intros Hp. set (H := fun t : tid => Obj [] 0 (shape_kind sh 0)). assert (I0 : indirect_name H 0 = Some (0, shape_name sh)) by (apply shape_indirect; reflexivity).
  eapply plain_indirect; [exact I0|assumption].
Qed.
Lemma shape_longer sh a : length a < length (shape_name sh a).
Proof.
  set (H := fun t : tid => Obj [] 0 (shape_kind sh 0)). assert (I0 : indirect_name H 0 = Some (0, shape_name sh)) by (apply shape_indirect; reflexivity).
  eapply indirect_longer; exact I0.
Qed.
Lemma shape_deps H t sh x : o_kind (H t) = shape_kind sh x -> dependsOn H t = [x].
Proof. unfold dependsOn. intros ->. destruct sh; reflexivity. Qed.
Lemma derived_shape H r n t : derived H r n t -> exists sh x a, o_kind (H t) = shape_kind sh x /\ absolute a /\ get r a = Some x /\ a <> o_name (H x) /\ n = shape_name sh a.
Proof. intros (x & mk & a & Hi & Ha & Hg & Hn & ->). destruct (indirect_shape Hi) as (sh & K & ->). exists sh, x, a. auto. Qed.

(** ** Reachability *)
Lemma reaches_inv H a c : reaches H a c -> c = a \/ exists d, In d (dependsOn H a) /\ reaches H d c.
Proof.
  induction 1 as [|b c Hb IH Hc]; [auto|]. right. destruct IH as [-> |(d & Hd & Hr)]; [exists c; split; [assumption|constructor]|].
  exists d. split; [assumption|]. econstructor; eassumption.
Qed.
Lemma reaches_deps H a d c : In d (dependsOn H a) -> reaches H d c -> reaches H a c.
Proof. intros Hd. induction 1 as [|b c Hb IH Hc]; [econstructor; [constructor|assumption]|econstructor; eassumption]. Qed.
Definition clean (H : heap) (W : list tid) (t : tid) : Prop := forall x, reaches H t x -> ~ In x W.

(** ** Comparison: what is put on the stack *)
Lemma compare_pairs H : forall f l r eq st b st', do_compare f H l r eq st = Ok (b, st') ->
  (NoDup (keys st) -> NoDup (keys st')) /\ forall x y, In (x, y) st' -> In (x, y) st \/ (reaches H l x /\ reaches H r y).
Proof.
  induction f as [|f IH]; intros l r eq st b st' E; [discriminate|].
  assert (Hrec : forall x y e st0 b0 st1, rec_compare (do_compare f H) x y e st0 = Ok (b0, st1) ->
    (NoDup (keys st0) -> NoDup (keys st1)) /\ forall u v, In (u, v) st1 -> In (u, v) st0 \/ (reaches H x u /\ reaches H y v)).
  { intros x y e st0 b0 st1 E0. unfold rec_compare in E0. destruct (x =? y); [injection E0 as <- <-; auto|]. destruct (lookup x st0) eqn:El; [injection E0 as <- <-; auto|].
    destruct (IH _ _ _ _ _ _ E0) as [N P]. split.
    - intros Hd. apply N. cbn [keys map fst]. constructor; [|assumption]. apply lookup_None. assumption.
    - intros u v Hi. destruct (P _ _ Hi) as [[Eq|Hi']|Hr]; [injection Eq as <- <-; right; split; constructor|auto|auto]. }
  assert (R1 : forall x y e st0 b0 st1, In x (dependsOn H l) -> In y (dependsOn H r) -> rec_compare (do_compare f H) x y e st0 = Ok (b0, st1) ->
    (NoDup (keys st0) -> NoDup (keys st1)) /\ forall u v, In (u, v) st1 -> In (u, v) st0 \/ (reaches H l u /\ reaches H r v)).
  { intros x y e st0 b0 st1 Hx Hy E0. destruct (Hrec _ _ _ _ _ _ E0) as [N P]. split; [assumption|]. intros u v Hi. destruct (P _ _ Hi) as [X|[A B]]; [auto|]. right. split; eapply reaches_deps; eassumption. }
  clear Hrec. unfold dependsOn in R1. cbn [do_compare] in E.
  destruct (o_kind (H l)) as [| |c|v|x|d x|k x|fs] eqn:El.
  - injection E as <- <-; auto.
  - injection E as <- <-; auto.
  - injection E as <- <-; auto.
  - destruct (negb _); [injection E as <- <-; auto|]. destruct (o_kind (H r)); try discriminate. injection E as <- <-; auto.
  - destruct (negb _); [injection E as <- <-; auto|]. destruct (o_kind (H r)) as [| | | |y| | |]; try discriminate. eapply R1; [left; reflexivity|left; reflexivity|exact E].
  - destruct (negb _); [injection E as <- <-; auto|]. destruct (o_kind (H r)) as [| | | | |d' y| |]; try discriminate. destruct (d =? d')%N; [|injection E as <- <-; auto]. eapply R1; [left; reflexivity|left; reflexivity|exact E].
  - destruct (negb _); [injection E as <- <-; auto|]. destruct (o_kind (H r)) as [| | | | | |k' y|]; try discriminate. destruct (ckind_eqb k k'); [|injection E as <- <-; auto]. eapply R1; [left; reflexivity|left; reflexivity|exact E].
  - destruct (o_kind (H r)) as [| | | | | | |gs]; try (injection E as <- <-; auto; fail).
    destruct (eq && negb _); [injection E as <- <-; auto|]. destruct (negb _); [injection E as <- <-; auto|].
    assert (K : forall fs0 gs0 st0, incl fs0 fs -> incl gs0 gs -> fields_compare (fun x y st => rec_compare (do_compare f H) x y eq st) fs0 gs0 st0 = Ok (b, st') ->
      (NoDup (keys st0) -> NoDup (keys st')) /\ forall u v, In (u, v) st' -> In (u, v) st0 \/ (reaches H l u /\ reaches H r v)).
    { induction fs0 as [|p fs0 IHf]; intros gs0 st0 Hf Hg E0; cbn [fields_compare] in E0; [injection E0 as _ <-; auto|]. destruct gs0 as [|q gs0]; [discriminate|].
      destruct (negb _ || negb _); [injection E0 as _ <-; auto|].
      destruct (rec_compare (do_compare f H) (f_type p) (f_type q) eq st0) as [[ok st1]| | |] eqn:Er; cbn [bind] in E0; try discriminate.
      destruct (@R1 (f_type p) (f_type q) eq st0 ok st1) as [N P]; [apply in_map, Hf; left; reflexivity|apply in_map, Hg; left; reflexivity|exact Er|].
      destruct ok; [|injection E0 as _ <-; auto]. destruct (IHf gs0 st1) as [N' P']; [intros z Hz; apply Hf; right; assumption|intros z Hz; apply Hg; right; assumption|exact E0|].
      split; [auto|]. intros u v Hi. destruct (P' _ _ Hi) as [Hi'|]; auto. }
    apply (K fs gs st); [apply incl_refl|apply incl_refl|exact E].
Qed.
Lemma nodup_lookup st x y : NoDup (keys st) -> In (x, y) st -> lookup x st = Some y.
Proof.
  induction st as [|[u v] st IH]; intros Hd Hi; [destruct Hi|]. cbn [keys map fst] in Hd. inversion Hd as [|? ? Hn Hd']; subst. cbn [lookup]. destruct (Nat.eqb_spec u x) as [->|Hne].
  - destruct Hi as [E|Hi]; [injection E as ->; reflexivity|]. exfalso. apply Hn. apply (in_map fst) in Hi. exact Hi.
  - destruct Hi as [E|Hi]; [congruence|]. apply IH; assumption.
Qed.
Lemma insert_cases k v st : (lookup k st = None /\ stack_insert k v st = (k, v) :: st) \/ (exists w, lookup k st = Some w /\ stack_insert k v st = st).
Proof. unfold stack_insert. destruct (lookup k st); [right; eauto|left; auto]. Qed.

(** ** Adding a type *)
Definition added (H : heap) (r : reg) (b : tid) (r' : reg) : Prop :=
  Inv H r' /\ mono r r' /\ (forall d, registered r' d <-> registered r d \/ d = b) /\ get r' (o_name (H b)) = Some b /\
  (forall k x, absolute k -> get r k = None -> get r' k = Some x -> (k = o_name (H b) /\ x = b) \/ derived H r' k x) /\ closed_ H r'.
Lemma add_added f H r b src r' : names_ok H -> Inv H r -> plain (o_name (H b)) -> closed_ H r -> add f H r b src = (r', Ok tt) -> added H r b r'.
Proof.
  intros N I P C E. unfold add in E. destruct (add_effect I P E) as (I' & M & _ & Ef). destruct (add_ok I P E) as (G & _ & R & _).
  split; [exact I'|]. split; [exact M|]. split; [exact R|]. split; [exact G|]. split; [|exact (add_closed N I P C E)].
  intros k x Hk Hn Hx. destruct (Ef k Hk) as [Eq|(_ & y & Ey & [[-> Eb]|D])]; [congruence| |].
  - left. split; [reflexivity|]. congruence.
  - right. congruence.
Qed.
Lemma added_again f H r b src r' r'' : names_ok H -> plain (o_name (H b)) -> added H r b r' -> add f H r' b src = (r'', Ok tt) -> added H r b r''.
Proof.
  intros N P (I & M & R & G & K & C) E. destruct (add_added N I P C E) as (I' & M' & R' & G' & K' & C').
  split; [exact I'|]. split; [intros k t Hk Hg; apply M', M; assumption|]. split; [intros d; rewrite R', R; tauto|]. split; [exact G'|]. split; [|exact C'].
  intros k x Hk Hn Hx. destruct (get r' k) as [y|] eqn:Ey; [|apply K'; assumption]. assert (X := M' _ _ Hk Ey). rewrite Hx in X. injection X as <-.
  destruct (K _ _ Hk Hn Ey) as [X|D]; [left; assumption|]. right. eapply derived_mono; [|exact D]. exact M'.
Qed.
Definition alike (H H' : heap) : Prop := forall t, o_name (H' t) = o_name (H t) /\ o_kind (H' t) = o_kind (H t).
Lemma alike_indirect H H' t : alike H H' -> indirect_name H' t = indirect_name H t.
Proof. intros A. unfold indirect_name. destruct (A t) as [_ ->]. reflexivity. Qed.
Lemma Inv_names H H' r : (forall t, registered r t -> o_name (H' t) = o_name (H t)) -> Inv H r -> Inv H' r.
Proof.
  intros Ha I. destruct I as [I1 I2 I3 I4 I5 I6] eqn:EI. constructor; try assumption. intros n e Hi. destruct (I4 n e Hi) as (e' & A & B). exists e'. split; [|assumption]. rewrite Ha; [assumption|].
  destruct (global_get (Build_Inv I1 I2 I3 I4 I5 I6) Hi) as (Ab & _ & G). exists n. auto.
Qed.
Lemma added_alike H H' r b r' : alike H H' -> added H r b r' -> added H' r b r'.
Proof.
  intros A (I & M & R & G & K & C). split; [eapply Inv_names; [|exact I]; intros t _; apply A|]. split; [exact M|]. split; [exact R|]. split; [destruct (A b) as [-> _]; exact G|]. split.
  - intros k x Hk Hn Hx. destruct (A b) as [-> _]. destruct (K _ _ Hk Hn Hx) as [X|(y & mk & a & Hi & Ha & Hg & Hne & ->)]; [left; assumption|right].
    exists y, mk, a. rewrite (@alike_indirect H H') by assumption. destruct (A y) as [-> _]. auto.
  - intros D x mk a. rewrite (@alike_indirect H H') by assumption. apply C.
Qed.
