(** * RegistryMain: removal, namespaces, all the reachable registries. *)
From Coq Require Import Sorted.
From Verif Require Import Base Types NamesSpec Names NamesProofs NamesPath Graph GraphProofs Registry RegistrySpec RegistryProofs RegistryOps.
Local Open Scope nat_scope.

(** ** remove *)
Lemma mem_In t l : mem t l = true <-> In t l.
Proof. apply existsb_In. Qed.
Lemma mem_app t a b : mem t (a ++ b) = mem t a || mem t b.
Proof. apply existsb_app. Qed.
Definition prim (H : heap) (g : nmap) (t : tid) : Prop := exists e, In (o_name (H t), e) g /\ e_type e = t.
Lemma rdep_step_spec H g res q t : In t (rdep_step H g res q) <->
  prim H g t /\ ~ In t res /\ ~ In t q /\ exists x, In x q /\ In x (dependsOn H t).
Proof.
  unfold rdep_step. rewrite in_map_iff. split.
  - intros ([n e] & Et & Hi). simpl in Et. subst t. apply filter_In in Hi. cbn [fst snd] in Hi. destruct Hi as [Hi Hf]. rewrite !andb_true_iff in Hf. destruct Hf as [[Ha Hm] He].
    unfold isAlias in Ha. rewrite negb_involutive in Ha. apply seqb_eq in Ha. cbn [fst snd] in Ha. apply negb_true_iff, orb_false_iff in Hm. destruct Hm as [Hm1 Hm2].
    apply existsb_exists in He. destruct He as (x & Hx & Hd). apply mem_In in Hd. split; [exists e; rewrite <- Ha; auto|].
    split; [intros X; apply mem_In in X; congruence|]. split; [intros X; apply mem_In in X; congruence|]. eauto.
  - intros ((e & Hi & He) & Hr & Hq & x & Hx & Hd). exists (o_name (H t), e). split; [assumption|]. apply filter_In. split; [assumption|]. cbn [fst snd]. rewrite He.
    unfold isAlias. cbn [fst snd]. rewrite He, seqb_refl. simpl. apply andb_true_iff. split.
    + apply negb_true_iff, orb_false_iff. split; [destruct (mem t res) eqn:E; [apply mem_In in E; contradiction|reflexivity]|destruct (mem t q) eqn:E; [apply mem_In in E; contradiction|reflexivity]].
    + apply existsb_exists. exists x. split; [assumption|]. apply mem_In. assumption.
Qed.
Definition left_ (dom l : list tid) : nat := length (filter (fun x => negb (mem x l)) dom).
Lemma left_lt dom l l' t : incl l l' -> In t dom -> ~ In t l -> In t l' -> left_ dom l' < left_ dom l.
Proof.
  intros Hi Hd Hn Hl. unfold left_. induction dom as [|x dom IH]; [destruct Hd|]. cbn [filter].
  assert (Hle : length (filter (fun x => negb (mem x l')) dom) <= length (filter (fun x => negb (mem x l)) dom)).
  { apply filter_le. intros y. rewrite !negb_true_iff. intros E. destruct (mem y l) eqn:E2; [|reflexivity]. apply mem_In in E2. apply Hi in E2. apply mem_In in E2. congruence. }
  destruct (Nat.eq_dec x t) as [-> |Hx].
  - rewrite (proj2 (mem_In t l') Hl). destruct (mem t l) eqn:E; [apply mem_In in E; contradiction|]. cbn [negb length]. lia.
  - destruct Hd as [Hd|Hd]; [contradiction|]. specialize (IH Hd). destruct (mem x l') eqn:E1, (mem x l) eqn:E2; cbn [negb length]; try lia.
    exfalso. apply mem_In in E2. apply Hi in E2. apply mem_In in E2. congruence.
Qed.
Lemma rdep_loop_spec H g (P : tid -> Prop) t0 : (forall t x, prim H g t -> In x (dependsOn H t) -> P x -> P t) ->
  forall f res q, (forall x, In x (q ++ res) -> P x) -> In t0 (q ++ res) ->
  (forall t x, prim H g t -> In x (dependsOn H t) -> In x res -> In t (q ++ res)) ->
  left_ (map (fun p => e_type (snd p)) g) (q ++ res) + 1 < f ->
  exists ts, rdep_loop f H g res q = Ok ts /\ (forall x, In x ts -> P x) /\ In t0 ts /\ (forall t x, prim H g t -> In x (dependsOn H t) -> In x ts -> In t ts).
Proof.
  intros HP. induction f as [|f IH]; intros res q Hall Ht Hcl Hf; [lia|]. cbn [rdep_loop]. destruct q as [|y q]; [exists res; auto|].
  set (q1 := rdep_step H g res (y :: q)).
  assert (Hq1 : forall t, In t q1 <-> prim H g t /\ ~ In t res /\ ~ In t (y :: q) /\ exists x, In x (y :: q) /\ In x (dependsOn H t)) by (intros t; apply rdep_step_spec).
  destruct q1 as [|z q1'] eqn:Eq.
  - destruct f as [|f]; [lia|]. cbn [rdep_loop]. exists ((y :: q) ++ res). split; [reflexivity|]. split; [assumption|]. split; [assumption|].
    intros t x Hp Hd Hx. apply in_app_or in Hx. destruct Hx as [Hx|Hx]; [|eapply Hcl; eauto].
    destruct (in_dec Nat.eq_dec t ((y :: q) ++ res)) as [Hi|Hi]; [assumption|]. exfalso. apply (proj2 (Hq1 t)). split; [assumption|]. rewrite in_app_iff in Hi. repeat split; try tauto. eauto.
  - rewrite <- Eq in *. apply IH.
    + intros x Hx. apply in_app_or in Hx. destruct Hx as [Hx|Hx]; [|auto]. apply Hq1 in Hx. destruct Hx as (Hp & _ & _ & w & Hw & Hd). eapply HP; eauto. apply Hall. apply in_or_app. left. assumption.
    + apply in_or_app. right. assumption.
    + intros t x Hp Hd Hx. rewrite in_app_iff. apply in_app_or in Hx. destruct (in_dec Nat.eq_dec t ((y :: q) ++ res)) as [Hi|Hi]; [auto|]. left. apply Hq1.
      rewrite in_app_iff in Hi. split; [assumption|]. destruct Hx as [Hx|Hx]; [repeat split; try tauto; eauto|]. exfalso. apply Hi. apply in_app_or. eapply Hcl; eauto.
    + assert (Hz : In z q1) by (rewrite Eq; left; reflexivity). apply Hq1 in Hz as Hz'. destruct Hz' as (Hp & Hr & Hn & _).
      assert (L : left_ (map (fun p => e_type (snd p)) g) (q1 ++ (y :: q) ++ res) < left_ (map (fun p => e_type (snd p)) g) ((y :: q) ++ res)).
      { apply left_lt with z; [apply incl_appr, incl_refl| |rewrite in_app_iff; tauto|apply in_or_app; left; assumption].
        destruct Hp as (e & Hi & He). rewrite <- He. apply (in_map (fun p => e_type (snd p)) _ _ Hi). }
      lia.
Qed.
Lemma left_le dom l : left_ dom l <= length dom.
Proof. apply filter_length_le. Qed.
Lemma prim_registered H r t : Inv H r -> (prim H (r_global r) t <-> registered r t).
Proof.
  intros I. split.
  - intros (e & Hi & He). destruct (global_get I Hi) as (A & _ & B). exists (o_name (H t)). split; [assumption|congruence].
  - intros (n & Ha & Hg). destruct (get_In I Ha Hg) as (e & Hi & He). destruct (inv_primary I Hi) as (e2 & Hi2 & He2). rewrite He in *. exists e2. auto.
Qed.
Lemma reverseDepends_spec H r t : Inv H r -> exists ts, conv (fun f => reverseDepends f H r t) (Ok ts) /\ forall d, In d ts <-> dependent H r t d.
Proof.
  intros I.
  assert (K : forall f, length (r_global r) + 1 < f -> exists ts, reverseDepends f H r t = Ok ts /\ forall d, In d ts <-> dependent H r t d).
  { intros f Hf. destruct (@rdep_loop_spec H (r_global r) (dependent H r t) t) with (f := f) (res := @nil tid) (q := [t]) as (ts & E & A & B & C).
    - intros d x Hp Hd Hx. eapply dep_step; eauto. apply (prim_registered d I). assumption.
    - intros x [<- |[]]. constructor.
    - left. reflexivity.
    - intros ? ? _ _ [].
    - eapply Nat.le_lt_trans; [apply Nat.add_le_mono_r, left_le|]. rewrite map_length. assumption.
    - exists ts. split; [exact E|]. intros d. split; [apply A|]. induction 1 as [|d x Hr Hd _ IH]; [assumption|]. eapply C; eauto. apply (prim_registered d I). assumption. }
  assert (M : forall f res q ts, rdep_loop f H (r_global r) res q = Ok ts -> rdep_loop (S f) H (r_global r) res q = Ok ts).
  { induction f as [|f IH]; intros res q ts E; [discriminate|]. cbn [rdep_loop] in E. destruct q as [|y q]; [exact E|]. change (rdep_loop (S f) H (r_global r) ((y :: q) ++ res) (rdep_step H (r_global r) res (y :: q)) = Ok ts). auto. }
  destruct (K (length (r_global r) + 2)) as (ts & E & S); [lia|]. exists ts. split; [|assumption]. exists (length (r_global r) + 2). intros m Hm. induction Hm; [assumption|]. apply M. assumption.
Qed.
Lemma filter_get (f : tid -> bool) m n : NoDup (map fst m) ->
  option_map e_type (find_ n (filter (fun p => f (e_type (snd p))) m)) = match option_map e_type (find_ n m) with Some d => if f d then Some d else None | None => None end.
Proof. intros Hn. rewrite find_filter by assumption. destruct (find_ n m) as [e|]; simpl; [|reflexivity]. destruct (f (e_type e)); reflexivity. Qed.
Lemma remove_Inv H r t f r' ts : Inv H r -> remove f H r t = Ok (r', ts) -> Inv H r' /\ (forall n, get r' n = match get r n with Some d => if mem d ts then None else Some d | None => None end) /\ r_ns r' = r_ns r.
Proof.
  intros I E. unfold remove in E. destruct (reverseDepends f H r t) as [ts'| | |] eqn:Er; try discriminate. cbn [bind] in E. inversion E; subst r' ts'. clear E. cbn [r_ns].
  assert (Hc := fun n => @filter_get (fun d => negb (mem d ts)) (r_current r) n (inv_nodup I)).
  assert (Hg := fun n => @filter_get (fun d => negb (mem d ts)) (r_global r) n (gsorted_NoDup (inv_sorted I))).
  assert (Hm : forall o : option tid, match o with Some d => if negb (mem d ts) then Some d else None | None => None end = match o with Some d => if mem d ts then None else Some d | None => None end) by (intros [d|]; [destruct (mem d ts)|]; reflexivity).
  split; [|split; [intros n; unfold get; cbn [r_current]; rewrite Hc; apply Hm|reflexivity]].
  constructor; cbn [r_global r_current].
  - apply gsorted_filter. apply (inv_sorted I).
  - rewrite Forall_forall. intros p Hi. apply filter_In in Hi. generalize (inv_plain I). rewrite Forall_forall. intros X. apply X. tauto.
  - intros n Ha. rewrite Hc, Hg, (inv_agree I Ha). reflexivity.
  - intros n e Hi. apply filter_In in Hi. destruct Hi as [Hi Hf]. destruct (inv_primary I Hi) as (e2 & Hi2 & He2). exists e2. split; [|assumption]. apply filter_In. split; [assumption|]. cbn [snd] in *. rewrite He2. assumption.
  - apply NoDup_filter_. apply (inv_nodup I).
  - intros n e Hi. apply filter_In in Hi. destruct Hi as [Hi Hf]. destruct (inv_current I Hi) as (m & e2 & Hi2 & He2). exists m, e2. split; [|assumption]. apply filter_In. split; [assumption|]. cbn [snd] in *. rewrite He2. assumption.
Qed.

(** ** The other operations *)
Lemma removeAlias_spec H r n r' out : Inv H r -> absolute n -> removeAlias H r n = (r', out) -> Inv H r' /\
  ((r' = r /\ out = Throw ERuntime /\ (get r n = None \/ exists t, get r n = Some t /\ o_name (H t) = n)) \/
   (out = Ok tt /\ (exists t, get r n = Some t /\ o_name (H t) <> n) /\ r_ns r' = r_ns r /\ forall k, absolute k -> get r' k = if seqb n k then None else get r k)).
Proof.
  intros I Ha. unfold removeAlias. rewrite (get_global I Ha). destruct (find_ n (r_global r)) as [e|] eqn:Ef; [|intros E; inversion E; subst; split; [assumption|left; auto]].
  destruct (seqb (o_name (H (e_type e))) n) eqn:En; [apply seqb_eq in En; intros E; inversion E; subst r' out; split; [assumption|left]; split; [reflexivity|split; [reflexivity|right; exists (e_type e); auto]]|].
  apply seqb_neq in En. intros E. inversion E; subst r' out.
  destruct (@update_Inv H (erase_ n (r_global r)) (r_current r) (r_ns r)) as [I' G].
  - apply gsorted_filter, (inv_sorted I).
  - rewrite Forall_forall. intros p Hi. apply In_erase in Hi. generalize (inv_plain I). rewrite Forall_forall. auto.
  - intros k x Hi. assert (Hi' := In_erase Hi). destruct (inv_primary I Hi') as (e2 & Hi2 & He2). exists e2. split; [|assumption]. apply filter_In. split; [assumption|].
    cbn [fst]. apply negb_true_iff, seqb_neq. intros X. assert (X2 := In_find (gsorted_NoDup (inv_sorted I)) Hi2). rewrite X in X2. rewrite X2 in Ef. inversion Ef; subst e2. rewrite He2 in En. contradiction.
  - split; [assumption|]. right. split; [reflexivity|]. split; [exists (e_type e); auto|]. split; [reflexivity|]. intros k Hk. rewrite G by assumption. rewrite find_erase. rewrite (get_global I Hk). destruct (seqb n k); reflexivity.
Qed.
Lemma clearAliases_spec H r : Inv H r -> Inv H (clearAliases H r) /\ r_ns (clearAliases H r) = r_ns r /\
  forall k, absolute k -> get (clearAliases H r) k = match get r k with Some t => if seqb k (o_name (H t)) then Some t else None | None => None end.
Proof.
  intros I. unfold clearAliases. destruct (@update_Inv H (filter (fun p => negb (isAlias H p)) (r_global r)) (r_current r) (r_ns r)) as [I' G].
  - apply gsorted_filter, (inv_sorted I).
  - rewrite Forall_forall. intros p Hi. apply filter_In in Hi. generalize (inv_plain I). rewrite Forall_forall. intros X; apply X; tauto.
  - intros k x Hi. apply filter_In in Hi. destruct Hi as [Hi Hf]. destruct (inv_primary I Hi) as (e2 & Hi2 & He2). exists e2. split; [|assumption]. apply filter_In. split; [assumption|].
    unfold isAlias. cbn [fst snd]. rewrite He2, seqb_refl. reflexivity.
  - split; [assumption|]. split; [reflexivity|]. intros k Hk. rewrite G by assumption. rewrite find_filter by (apply gsorted_NoDup, (inv_sorted I)). rewrite (get_global I Hk).
    destruct (find_ k (r_global r)) as [e|]; [|reflexivity]. unfold isAlias. cbn [fst snd]. rewrite negb_involutive. simpl. destruct (seqb k (o_name (H (e_type e)))); reflexivity.
Qed.
Lemma namespace_spec H r s : Inv H r -> Inv H (fst (setDefaultNamespace r s)) /\ forall k, absolute k -> get (fst (setDefaultNamespace r s)) k = get r k.
Proof.
  intros I. unfold setDefaultNamespace. destruct (isValidNamespace s true); cbn [negb fst]; [|auto].
  destruct (@update_Inv H (r_global r) (r_current r) (getNormalizedNamespace s)) as [I' G]; [apply (inv_sorted I)|apply (inv_plain I)|apply (inv_primary I)|]. split; [assumption|].
  intros k Hk. cbn [r_global r_current]. rewrite G, (get_global I Hk) by assumption. reflexivity.
Qed.
Lemma importNamespace_spec H r s b : Inv H r -> Inv H (importNamespace r s b) /\ forall k, absolute k -> get (importNamespace r s b) k = get r k.
Proof.
  intros I. destruct (@import_spec s b (r_global r) (inv_plain I) (r_current r)) as (A & B & C). cbn zeta in *. unfold importNamespace. split.
  - constructor; cbn [r_global r_current].
    + apply (inv_sorted I).
    + apply (inv_plain I).
    + intros n Hn. rewrite A by assumption. apply (inv_agree I Hn).
    + apply (inv_primary I).
    + apply B, (inv_nodup I).
    + intros n e Hi. destruct (C _ _ Hi) as [Hc|[p Hp]]; [apply (inv_current I Hc)|eauto].
  - intros k Hk. unfold get. cbn [r_current]. rewrite A by assumption. reflexivity.
Qed.
Lemma removeAlias_relative H r n r' out : Inv H r -> ~ absolute n -> removeAlias H r n = (r', out) -> r' = r /\ out = Throw ERuntime.
Proof.
  intros I Ha. unfold removeAlias. destruct (find_ n (r_global r)) as [e|] eqn:Ef; [|intros E; inversion E; auto]. apply find_In in Ef. apply (global_get I) in Ef. tauto.
Qed.
Theorem reachable_Inv allowed H r : reachable_by allowed H r -> Inv H r.
Proof.
  induction 1 as [|r o f r' out _ I _ Hok E _]; [apply Inv0|]. destruct o; cbn [exec] in E.
  - apply (add_effect I Hok E).
  - apply (alias_effect I Hok E).
  - destruct (remove f H r t) as [[r2 ts]| | |] eqn:Er; inversion E; subst; try assumption. apply (remove_Inv I Er).
  - destruct (isAbsoluteName n) eqn:Ea.
    + apply absolute_iff in Ea. apply (removeAlias_spec I Ea E).
    + assert (Hn : ~ absolute n) by (rewrite absolute_iff; congruence). destruct (removeAlias_relative I Hn E) as [-> _]. assumption.
  - inversion E. apply clearAliases_spec. assumption.
  - inversion E. constructor; simpl; try constructor; try tauto.
  - inversion E. apply namespace_spec. assumption.
  - inversion E. apply importNamespace_spec. assumption.
Qed.
