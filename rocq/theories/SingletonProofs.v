From Verif Require Import Base NamesSpec Names NamesProofs Graph GraphProofs Registry RegistrySpec RegistryProofs RegistryOps Smap SmapProofs Singleton SingletonSpec.
Local Open Scope nat_scope.

Definition table (s : sing) : smap (N * nat) := match the_instance s with None => [] | Some (_, m) => m end.
Record inv (s : sing) (u : str -> nat) : Prop := {
  i_sorted : sorted (table s);
  i_some : forall n c i, m_find n (table s) = Some (c, i) -> c = N.of_nat (u n) /\ u n <> 0 /\ i < next_inst s;
  i_none : forall n, m_find n (table s) = None -> u n = 0;
  i_inj : forall n k c d i, m_find n (table s) = Some (c, i) -> m_find k (table s) = Some (d, i) -> n = k;
  i_small : forall n, (N.of_nat (u n) < 2 ^ 64)%N;
  i_created : forall i, In i (created (log s)) -> i < next_inst s;
  i_nodup : NoDup (created (log s)) }.
Lemma nodup_snoc {A} (l : list A) x : NoDup l -> ~ In x l -> NoDup (l ++ [x]).
Proof. intros H N. induction H as [|y l Hy H IH]; cbn [app]; [constructor; [intros []|constructor]|]. constructor; [|apply IH; intros X; apply N; right; assumption]. intros X. apply in_app_or in X. destruct X as [X|[->|[]]]; [contradiction|apply N; left; reflexivity]. Qed.
Lemma inv0 : inv sing0 (fun _ => 0).
Proof. split; try (intros; discriminate); try (intros; reflexivity); [constructor|intros i []|constructor]. Qed.
Lemma live_table s n : live s n = option_map snd (m_find n (table s)).
Proof. unfold live, table. destruct (the_instance s) as [[e m]|]; reflexivity. Qed.
Lemma instance_ok s : exists s1 e, instance s = (s1, (e, table s)) /\ the_instance s1 = Some (e, table s) /\ table s1 = table s /\ next_inst s1 = next_inst s /\ log s1 = log s.
Proof. unfold instance, table. destruct (the_instance s) as [[e m]|] eqn:E; [exists s, e; rewrite E; auto|eexists _, _; split; [reflexivity|]; auto]. Qed.
Lemma created_app a b : created (a ++ b) = created a ++ created b.
Proof. unfold created. rewrite map_app, concat_app. reflexivity. Qed.
Lemma upd_same (A : Type) (n : str) (a b : A) : (if list_eq_dec Ascii.ascii_dec n n then a else b) = a.
Proof. destruct (list_eq_dec Ascii.ascii_dec n n); congruence. Qed.
Lemma upd_other (A : Type) (n k : str) (a b : A) : n <> k -> (if list_eq_dec Ascii.ascii_dec n k then a else b) = b.
Proof. intros H. destruct (list_eq_dec Ascii.ascii_dec n k); congruence. Qed.

(** What a step does. *)
Definition effect (u v : str -> nat) (s s' : sing) : Prop :=
  (forall n, match u n, v n with
    | 0, 0 => live s n = None /\ live s' n = None
    | 0, S _ => live s n = None /\ exists i, live s' n = Some i /\ log s' = log s ++ [Created n i] /\ ~ In i (created (log s))
    | S _, S _ => exists i, live s n = Some i /\ live s' n = Some i
    | S _, 0 => live s' n = None /\ exists i, live s n = Some i /\ log s' = log s ++ [Destroyed n i]
    end) /\
  ((forall n, u n = 0 <-> v n = 0) -> log s' = log s).
Lemma live_zero s u n : inv s u -> u n = 0 -> live s n = None.
Proof. intros [A B C D E F G] H. rewrite live_table. destruct (m_find n (table s)) as [[c i]|] eqn:X; [|reflexivity]. apply B in X. tauto. Qed.
Lemma live_pos s u n : inv s u -> u n <> 0 -> exists i, m_find n (table s) = Some (N.of_nat (u n), i) /\ live s n = Some i.
Proof. intros [A B C D E F G] H. rewrite live_table. destruct (m_find n (table s)) as [[c i]|] eqn:X; [|apply C in X; contradiction]. destruct (B _ _ _ X) as (-> & _). exists i. auto. Qed.
(** Steps that change the counter of one name, and keep the instance. *)
Lemma count_step s u s' e n i v : inv s u -> u n <> 0 -> m_find n (table s) = Some (N.of_nat (u n), i) ->
  (N.of_nat (v n) < 2 ^ 64)%N -> v n <> 0 -> (forall k, n <> k -> v k = u k) ->
  the_instance s' = Some (e, m_set n (N.of_nat (v n), i) (table s)) -> next_inst s' = next_inst s -> log s' = log s -> inv s' v /\ effect u v s s'.
Proof.
  intros I Hu Hf Hb Hv Ho Ht Hn Hl. destruct I as [A B C D E F G] eqn:EI. assert (T : table s' = m_set n (N.of_nat (v n), i) (table s)) by (unfold table at 1; rewrite Ht; reflexivity).
  assert (K : forall k, m_find k (table s') = if seqb n k then Some (N.of_nat (v n), i) else m_find k (table s)) by (intros k; rewrite T; apply m_find_set; assumption).
  assert (I' : inv s' v).
  { split.
    - rewrite T. apply m_set_sorted, A.
    - intros k c j. rewrite K, Hn. destruct (seqb n k) eqn:Ek.
      + apply seqb_eq in Ek. subst k. intros X; inversion X; subst. split; [reflexivity|]. split; [assumption|]. eapply B. eassumption.
      + apply seqb_neq in Ek. intros X. rewrite (Ho _ Ek). apply B, X.
    - intros k. rewrite K. destruct (seqb n k) eqn:Ek; [discriminate|]. apply seqb_neq in Ek. rewrite (Ho _ Ek). apply C.
    - intros a b c d j. rewrite !K. destruct (seqb n a) eqn:Ea, (seqb n b) eqn:Eb.
      + apply seqb_eq in Ea, Eb. congruence.
      + apply seqb_eq in Ea. subst a. intros X Y. inversion X; subst. eapply D; eassumption.
      + apply seqb_eq in Eb. subst b. intros X Y. inversion Y; subst. eapply D; eassumption.
      + apply D.
    - intros k. destruct (list_eq_dec Ascii.ascii_dec n k) as [->|N]; [assumption|]. rewrite (Ho _ N). apply E.
    - rewrite Hl, Hn. assumption.
    - rewrite Hl. assumption. }
  split; [assumption|]. split; [|intros _; assumption]. intros k. destruct (list_eq_dec Ascii.ascii_dec n k) as [->|N].
  - destruct (u k); [contradiction|]. destruct (v k); [contradiction|]. exists i. rewrite !live_table, K, Hf, seqb_refl. split; reflexivity.
  - rewrite (Ho _ N). assert (L : live s' k = live s k) by (rewrite !live_table, K; rewrite seqb_false by assumption; reflexivity).
    destruct (u k) eqn:Ek; [split; [|rewrite L]; eapply live_zero; eassumption|]. destruct (live_pos (n := k) I) as (j & _ & Lj); [congruence|]. exists j. rewrite L. auto.
Qed.
(** Steps that change nothing but the server. *)
Lemma idle_step s u s' v : inv s u -> (forall k, v k = u k) -> table s' = table s -> next_inst s' = next_inst s -> log s' = log s -> inv s' v /\ effect u v s s'.
Proof.
  intros I Ho T Hn Hl. assert (I' : inv s' v).
  { destruct I as [A B C D E F G]. split; rewrite ?T, ?Hn, ?Hl; try assumption; intros k; rewrite Ho; auto. }
  split; [assumption|]. split; [|intros _; assumption]. intros k. rewrite Ho. assert (L : live s' k = live s k) by (rewrite !live_table, T; reflexivity).
  destruct (u k) eqn:Ek; [split; [|rewrite L]; eapply live_zero; eassumption|]. destruct (live_pos (n := k) I) as (j & _ & Lj); [congruence|]. exists j. rewrite L. auto.
Qed.
Lemma step_ok s u o : inv s u -> allowed u o -> exists s', step s o = Ok s' /\ inv s' (uses_step u o) /\ effect u (uses_step u o) s s'.
Proof.
  intros I Ha. destruct (instance_ok s) as (s1 & e & Ei & Hi & Ht & Hn & Hl). destruct o as [n c|n|n]; cbn [step allowed] in *.
  - cbn [attach]. rewrite Ei. destruct (m_find n (table s)) as [[cc i]|] eqn:Ef; cbn [fst snd].
    + destruct I as [A B C D E F G] eqn:EI. destruct (B _ _ _ Ef) as (-> & Hu & Hj). eexists. split; [reflexivity|].
      assert (V : uses_step u (Use n c) n = S (u n)) by (cbn; rewrite upd_same; destruct c, (u n); congruence).
      replace ((N.of_nat (u n) + 1) mod 2 ^ 64)%N with (N.of_nat (uses_step u (Use n c) n)) by (rewrite N.mod_small by assumption; rewrite V; lia).
      eapply (count_step (n := n) (i := i) (e := e) (v := uses_step u (Use n c))); [exact I|assumption|assumption|rewrite V; lia|rewrite V; discriminate| |reflexivity|assumption|assumption].
      intros k Hk. cbn. apply upd_other. assumption.
    + assert (Hz : u n = 0) by (eapply i_none; eassumption). destruct c.
      * cbn [the_instance]. rewrite Hi, Nat.eqb_refl. eexists. split; [reflexivity|].
        set (s' := set_map _ e _). set (v := uses_step u (Use n true)). assert (Vn : v n = 1) by (unfold v; cbn; rewrite upd_same, Hz; reflexivity).
        assert (Vo : forall k, n <> k -> v k = u k) by (intros k Hk; unfold v; cbn; apply upd_other; assumption).
        assert (T : table s' = m_insert n (1%N, next_inst s1) (table s)) by reflexivity. destruct I as [A B C D E F G] eqn:EI.
        assert (K : forall k, m_find k (table s') = if seqb n k then Some (1%N, next_inst s1) else m_find k (table s)) by (intros k; rewrite T, m_find_insert by assumption; rewrite Ef; reflexivity).
        assert (L : log s' = log s ++ [Created n (next_inst s)]) by (cbn; rewrite Hl, Hn; reflexivity).
        assert (Nx : next_inst s' = S (next_inst s)) by (cbn; rewrite Hn; reflexivity).
        assert (I' : inv s' v).
        { split.
          - rewrite T. apply m_insert_sorted, A.
          - intros k cc j. rewrite K, Nx. destruct (seqb n k) eqn:Ek; [apply seqb_eq in Ek; subst k; intros X; inversion X; subst; rewrite Vn, Hn; repeat split; [discriminate|lia]|].
            apply seqb_neq in Ek. intros X. rewrite (Vo _ Ek). destruct (B _ _ _ X) as (X1 & X2 & X3). repeat split; [assumption|assumption|lia].
          - intros k. rewrite K. destruct (seqb n k) eqn:Ek; [discriminate|]. apply seqb_neq in Ek. rewrite (Vo _ Ek). apply C.
          - intros a b ca d j. rewrite !K. destruct (seqb n a) eqn:Ea, (seqb n b) eqn:Eb.
            + apply seqb_eq in Ea, Eb. congruence.
            + intros X Y. inversion X; subst. apply B in Y. rewrite Hn in Y. lia.
            + intros X Y. inversion Y; subst. apply B in X. rewrite Hn in X. lia.
            + apply D.
          - intros k. destruct (list_eq_dec Ascii.ascii_dec n k) as [->|N]; [rewrite Vn; reflexivity|]. rewrite (Vo _ N). apply E.
          - rewrite L, Nx, created_app. intros i X. apply in_app_or in X. destruct X as [X|[<-|[]]]; [apply F in X; lia|lia].
          - rewrite L, created_app. cbn. apply nodup_snoc; [assumption|intros X; apply F in X; lia]. }
        split; [assumption|]. split.
        -- intros k. destruct (list_eq_dec Ascii.ascii_dec n k) as [->|N].
           ++ rewrite Hz, Vn. split; [eapply live_zero; eassumption|]. exists (next_inst s). rewrite live_table, K, seqb_refl, Hn. split; [reflexivity|]. split; [assumption|]. intros X. apply F in X. lia.
           ++ rewrite (Vo _ N). assert (Lk : live s' k = live s k) by (rewrite !live_table, K; rewrite seqb_false by assumption; reflexivity).
              destruct (u k) eqn:Ek; [split; [|rewrite Lk]; eapply live_zero; eassumption|]. destruct (live_pos (n := k) I) as (j & _ & Lj); [congruence|]. exists j. rewrite Lk. auto.
        -- intros X. apply X in Hz. congruence.
      * eexists. split; [reflexivity|]. apply idle_step; [assumption| |assumption|assumption|assumption]. intros k. cbn. destruct (list_eq_dec Ascii.ascii_dec n k) as [<-|]; [rewrite Hz|]; reflexivity.
  - cbn [detach]. rewrite Ei. destruct (live_pos I Ha) as (i & Ef & Li). rewrite Ef.
    set (v := uses_step u (Drop n)). assert (Vn : v n = u n - 1) by (unfold v; cbn; apply upd_same). assert (Vo : forall k, n <> k -> v k = u k) by (intros k Hk; unfold v; cbn; apply upd_other; assumption).
    destruct (N.leb_spec (N.of_nat (u n)) 1) as [Hle|Hgt].
    + cbn [rev fold_left bind the_instance set_map]. rewrite Nat.eqb_refl. eexists. split; [reflexivity|]. set (s' := match m_erase n (table s) with [] => _ | _ => _ end).
      assert (T : table s' = m_erase n (table s)) by (unfold s'; destruct (m_erase n (table s)) eqn:X; [reflexivity|cbn; rewrite <- X; reflexivity]).
      assert (Nx : next_inst s' = next_inst s) by (unfold s'; destruct (m_erase n (table s)); cbn; assumption).
      assert (L : log s' = log s ++ [Destroyed n i]) by (unfold s'; destruct (m_erase n (table s)); cbn; rewrite Hl; reflexivity).
      assert (K : forall k, m_find k (table s') = if seqb n k then None else m_find k (table s)) by (intros k; rewrite T; apply m_find_erase).
      destruct I as [A B C D E F G] eqn:EI. assert (I' : inv s' v).
      { split.
        - rewrite T. apply m_erase_sorted, A.
        - intros k c j. rewrite K, Nx. destruct (seqb n k) eqn:Ek; [discriminate|]. apply seqb_neq in Ek. rewrite (Vo _ Ek). apply B.
        - intros k. rewrite K. destruct (seqb n k) eqn:Ek; [apply seqb_eq in Ek; subst k; rewrite Vn; lia|]. apply seqb_neq in Ek. rewrite (Vo _ Ek). apply C.
        - intros a b c d j. rewrite !K. destruct (seqb n a), (seqb n b); try discriminate. apply D.
        - intros k. destruct (list_eq_dec Ascii.ascii_dec n k) as [->|N]; [rewrite Vn; assert (E0 := E k); lia|]. rewrite (Vo _ N). apply E.
        - rewrite L, Nx, created_app. cbn. rewrite app_nil_r. assumption.
        - rewrite L, created_app. cbn. rewrite app_nil_r. assumption. }
      split; [assumption|]. split.
      * intros k. destruct (list_eq_dec Ascii.ascii_dec n k) as [->|N].
        -- destruct (u k) as [|[|]] eqn:Ek; [contradiction| |lia]. rewrite Vn. simpl. split; [rewrite live_table, K, seqb_refl; reflexivity|]. exists i. auto.
        -- rewrite (Vo _ N). assert (Lk : live s' k = live s k) by (rewrite !live_table, K; rewrite seqb_false by assumption; reflexivity).
           destruct (u k) eqn:Ek; [split; [|rewrite Lk]; eapply live_zero; eassumption|]. destruct (live_pos (n := k) I) as (j & _ & Lj); [congruence|]. exists j. rewrite Lk. auto.
      * intros X. exfalso. apply Ha, X. rewrite Vn. lia.
    + eexists. split; [reflexivity|]. replace (N.of_nat (u n) - 1)%N with (N.of_nat (v n)) by (rewrite Vn; lia).
      eapply (count_step (n := n) (i := i) (e := e) (v := v)); [exact I|assumption|assumption|rewrite Vn; assert (X := i_small I n); lia|rewrite Vn; lia|assumption|reflexivity|assumption|assumption].
  - unfold get_instance. rewrite Ei. cbn [fst snd]. destruct (live_pos I Ha) as (i & Ef & Li). rewrite Ef. cbn [bind]. eexists. split; [reflexivity|].
    apply idle_step; [assumption|reflexivity|assumption|assumption|assumption].
Qed.
Lemma run_from h : forall s u, inv s u -> disciplined_from u h ->
  exists s', fold_left (fun a o => s <- a ;; step s o) h (Ok s) = Ok s' /\ inv s' (fold_left uses_step h u).
Proof.
  induction h as [|o h IH]; intros s u I D; cbn [fold_left]; [exists s; auto|]. destruct D as [Ha D]. destruct (step_ok I Ha) as (s1 & E & I1 & _). cbn [bind]. rewrite E. apply IH; assumption.
Qed.
Lemma disciplined_app a : forall b u, disciplined_from u (a ++ b) <-> disciplined_from u a /\ disciplined_from (fold_left uses_step a u) b.
Proof. induction a as [|o a IH]; intros b u; cbn [app disciplined_from fold_left]; [tauto|]. rewrite IH. tauto. Qed.
Lemma run_app a b : run (a ++ b) = fold_left (fun a o => s <- a ;; step s o) b (run a).
Proof. unfold run. apply fold_left_app. Qed.

(** Threads. *)
Lemma own_ext p : forall u v, (forall n, u n = v n) -> own_from u p -> own_from v p.
Proof.
  induction p as [|o p IH]; intros u v H; cbn [own_from]; [auto|]. intros [A B]. split; [destruct o; rewrite <- ?H; assumption|]. apply (IH (uses_step u o)); [|assumption].
  intros n. destruct o as [m c|m|m]; cbn; [destruct (list_eq_dec Ascii.ascii_dec m n); rewrite H; reflexivity|destruct (list_eq_dec Ascii.ascii_dec m n); rewrite H; reflexivity|apply H].
Qed.
Definition total (us : list (str -> nat)) (n : str) : nat := fold_right (fun u a => u n + a) 0 us.
Lemma total_app a b n : total (a ++ b) n = total a n + total b n.
Proof. unfold total. induction a as [|u a IH]; cbn; [reflexivity|]. rewrite IH. lia. Qed.
Lemma interleaved ps h : interleaving ps h -> forall us u, Forall2 own_from us ps -> (forall n, u n = total us n) ->
  (forall a b n, h = a ++ b -> (N.of_nat (fold_left uses_step a u n) + 1 < 2 ^ 64)%N) -> disciplined_from u h.
Proof.
  induction 1 as [ps _|a o p b h _ IH]; intros us u F T B; cbn [disciplined_from]; [exact I|].
  apply Forall2_app_inv_r in F. destruct F as (ua & us' & Fa & F & ->). inversion F as [|u0 ? ub ? Ho Fb]; subst. cbn [own_from] in Ho. destruct Ho as [Hp Hq].
  assert (Tn : forall n, u n = total ua n + (u0 n + total ub n)) by (intros n; rewrite T, total_app; reflexivity). split.
  - destruct o as [n c|n|n]; cbn [allowed].
    + apply (B [] (Use n c :: h) n). reflexivity.
    + rewrite Tn. lia.
    + rewrite Tn. lia.
  - apply (IH (ua ++ uses_step u0 o :: ub)).
    + apply Forall2_app; [assumption|]. constructor; assumption.
    + intros n. rewrite total_app. cbn [total fold_right]. fold (total ub n). destruct o as [m c|m|m]; cbn [uses_step].
      * subst c. destruct (list_eq_dec Ascii.ascii_dec m n); rewrite Tn; lia.
      * destruct (list_eq_dec Ascii.ascii_dec m n) as [<-|]; rewrite Tn; lia.
      * apply Tn.
    + intros x y n E. apply (B (o :: x) y n). cbn. rewrite E. reflexivity.
Qed.
