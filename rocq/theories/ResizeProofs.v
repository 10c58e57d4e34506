(** * ResizeProofs: Registry::resize on acyclic registries, when types grow. *)
From Verif Require Import Base Types NamesSpec Names NamesProofs NamesPath Graph GraphProofs Registry RegistrySpec RegistryProofs RegistryOps RegistryMain RegistryAlias Resize ResizeSpec.
Local Open Scope N_scope.

Lemma sfind_sinsert n k v s : sfind n (sinsert k v s) = if seqb k n then match sfind k s with Some x => Some x | None => Some v end else sfind n s.
Proof.
  unfold sinsert. destruct (sfind k s) as [x|] eqn:E.
  - destruct (seqb k n) eqn:Es; [apply seqb_eq in Es; subst; assumption|reflexivity].
  - simpl. destruct (seqb k n); reflexivity.
Qed.
Lemma shifted_app d a : forall g b, shifted d g (a ++ b) = shifted d g a ++ shifted d (g + total d a) b.
Proof.
  induction a as [|x a IH]; intros g b; simpl; [f_equal; lia|]. rewrite IH. do 3 f_equal. lia.
Qed.
Lemma total_app d a b : total d (a ++ b) = total d a + total d b.
Proof. induction a as [|x a IH]; simpl; [reflexivity|]. rewrite IH. lia. Qed.
Lemma shifted_length d a : forall g, length (shifted d g a) = length a.
Proof. induction a; intros g; simpl; auto. Qed.
Lemma shifted_zero d a : total d a = 0 -> forall g, g = 0 -> shifted d g a = a.
Proof.
  induction a as [|x a IH]; intros Ht g ->; [reflexivity|]. simpl in *. rewrite IH by lia. destruct x; simpl. f_equal. f_equal. lia.
Qed.
Lemma shifted_ext d d' a : (forall x, In x a -> d (f_type x) = d' (f_type x)) -> forall g, shifted d g a = shifted d' g a.
Proof. induction a as [|x a IH]; intros E g; simpl; [reflexivity|]. rewrite (E x) by (left; reflexivity). rewrite IH; [reflexivity|]. intros; apply E; right; assumption. Qed.
Lemma total_ext d d' a : (forall x, In x a -> d (f_type x) = d' (f_type x)) -> total d a = total d' a.
Proof. induction a as [|x a IH]; intros E; simpl; [reflexivity|]. rewrite (E x) by (left; reflexivity). rewrite IH; [reflexivity|]. intros; apply E; right; assumption. Qed.
Lemma set_nth_app a x o b : set_nth_off (length a) o (a ++ x :: b) = a ++ Fld (f_name x) o (f_type x) :: b.
Proof. induction a; simpl; [reflexivity|congruence]. Qed.
Lemma nth_app A (a : list A) x b : nth_error (a ++ x :: b) (length a) = Some x.
Proof. induction a; simpl; auto. Qed.

Section Resize.
Context (H0 : heap) (r : reg) (req : list (str * N)) (rank : tid -> nat).
Context (I : Inv H0 r) (Hcl : deps_closed H0 r).
Context (Hrank : forall t d, registered r t -> In d (dependsOn H0 t) -> (rank d < rank t)%nat).

(** The first loop. *)
Definition listed (t : tid) : option N :=
  option_map snd (find (fun p => match get r (fst p) with Some x => (x =? t)%nat | None => false end) req).
Context (Hres : Forall (fun p => get r (fst p) <> None) req) (Hnd : NoDup (map (fun p => get r (fst p)) req)).
Lemma listed_asks t s : listed t = Some s <-> asks r req t s.
Proof.
  unfold listed, asks. clear Hres. induction req as [|[n v] q IH]; [split; [discriminate|intros (n & [] & _)]|]. simpl in *. inversion Hnd as [|? ? Hn Hd]; subst. clear Hnd. specialize (IH Hd).
  destruct (get r n) as [x|] eqn:E.
  - destruct (Nat.eqb_spec x t) as [-> |Hx].
    + split; [intros X; simpl in X; inversion X; subst; exists n; auto|]. intros (m & [X|X] & Hm); [inversion X; subst; reflexivity|].
      exfalso. apply Hn. apply in_map_iff. exists (m, s). auto.
    + rewrite IH. split; intros (m & X & Hm); exists m; [auto|]. destruct X as [X|X]; [inversion X; subst; congruence|auto].
  - rewrite IH. split; intros (m & X & Hm); exists m; [auto|]. destruct X as [X|X]; [inversion X; subst; congruence|auto].
Qed.
Lemma listed_none t : listed t = None <-> forall s, ~ asks r req t s.
Proof.
  split.
  - intros E s X. apply listed_asks in X. congruence.
  - intros E. destruct (listed t) as [s|] eqn:El; [|reflexivity]. apply listed_asks in El. exfalso. eapply E; eauto.
Qed.

(** The sizes at the end. *)
Fixpoint nsf (k : nat) (t : tid) : N :=
  match listed t with
  | Some s => s
  | None =>
      match k with
      | O => 0
      | S k' => match o_kind (H0 t) with
                | OComp fs => o_size (H0 t) + total (fun d => nsf k' d - o_size (H0 d)) fs
                | OArr d x => d * nsf k' x
                | _ => o_size (H0 t)
                end
      end
  end.
Definition ns (t : tid) : N := nsf (S (rank t)) t.
Definition dl (t : tid) : N := ns t - o_size (H0 t).
Lemma nsf_stable t : registered r t -> forall k, (rank t < k)%nat -> nsf k t = ns t.
Proof.
  remember (rank t) as m eqn:Em. revert t Em. induction m as [m IH] using lt_wf_ind. intros t -> Hr k Hk. unfold ns. destruct k as [|k]; [lia|]. simpl. destruct (listed t); [reflexivity|].
  destruct (o_kind (H0 t)) as [| | | | |d x| |fs] eqn:Ek; try reflexivity.
  - assert (Hd : In x (dependsOn H0 t)) by (unfold dependsOn; rewrite Ek; left; reflexivity). assert (Hx := Hrank Hr Hd). assert (Hrx := Hcl Hr Hd).
    rewrite (IH _ Hx x eq_refl Hrx k) by lia. rewrite (IH _ Hx x eq_refl Hrx (rank t)) by lia. reflexivity.
  - f_equal. apply total_ext. intros y Hy. assert (Hd : In (f_type y) (dependsOn H0 t)) by (unfold dependsOn; rewrite Ek; apply in_map; assumption). assert (Hx := Hrank Hr Hd). assert (Hrx := Hcl Hr Hd).
    rewrite (IH _ Hx _ eq_refl Hrx k) by lia. rewrite (IH _ Hx _ eq_refl Hrx (rank t)) by lia. reflexivity.
Qed.
Lemma ns_eq t : registered r t -> ns t =
  match listed t with
  | Some s => s
  | None => match o_kind (H0 t) with
            | OComp fs => o_size (H0 t) + total dl fs
            | OArr d x => d * ns x
            | _ => o_size (H0 t)
            end
  end.
Proof.
  intros Hr. unfold ns at 1. simpl. destruct (listed t); [reflexivity|]. destruct (o_kind (H0 t)) as [| | | | |d x| |fs] eqn:Ek; try reflexivity.
  - assert (Hd : In x (dependsOn H0 t)) by (unfold dependsOn; rewrite Ek; left; reflexivity). rewrite (nsf_stable (Hcl Hr Hd)); [reflexivity|]. apply (Hrank Hr Hd).
  - f_equal. apply total_ext. intros y Hy. assert (Hd : In (f_type y) (dependsOn H0 t)) by (unfold dependsOn; rewrite Ek; apply in_map; assumption). unfold dl. rewrite (nsf_stable (Hcl Hr Hd)); [reflexivity|]. apply (Hrank Hr Hd).
Qed.
Definition target (t : tid) : tobj :=
  Obj (o_name (H0 t)) (ns t) (match listed t, o_kind (H0 t) with None, OComp fs => OComp (shifted dl 0 fs) | _, k => k end).
Lemma target_resized (H' : heap) t : (forall x, registered r x -> H' x = target x) -> registered r t -> resized r req H0 H' t.
Proof.
  intros HT Hr. assert (E := ns_eq Hr). rewrite (HT t Hr) in * || idtac. unfold resized. rewrite (HT t Hr). split; [reflexivity|]. split.
  - intros s Ha. apply listed_asks in Ha. unfold target. cbn [o_size o_kind]. rewrite Ha in *. auto.
  - intros Hn. apply listed_none in Hn. rewrite Hn in E. unfold target. cbn [o_size o_kind]. rewrite Hn.
    destruct (o_kind (H0 t)) as [| | | | |d x| |fs] eqn:Ek; try (rewrite E; destruct (H0 t); simpl in *; subst; reflexivity).
    + split; [reflexivity|]. rewrite (HT x); [exact E|]. apply (Hcl Hr). unfold dependsOn. rewrite Ek. left. reflexivity.
    + assert (X : forall y, In y fs -> dl (f_type y) = growth H0 H' (f_type y)).
      { intros y Hy. unfold dl, growth. rewrite (HT (f_type y)); [reflexivity|]. apply (Hcl Hr). unfold dependsOn. rewrite Ek. apply in_map. assumption. }
      split; [f_equal; apply shifted_ext; exact X|]. rewrite <- (total_ext X). exact E.
Qed.

Context (Hgrow : forall t s, asks r req t s -> o_size (H0 t) <= s).
Context (Hok : forall t, registered r t -> sizes_ok H0 t).
Context (Hov : forall t, registered r t -> ns t < two64).
Lemma grows t : registered r t -> o_size (H0 t) <= ns t.
Proof.
  remember (rank t) as m eqn:Em. revert t Em. induction m as [m IH] using lt_wf_ind. intros t -> Hr. rewrite (ns_eq Hr). destruct (listed t) as [s|] eqn:El; [apply Hgrow, listed_asks; assumption|].
  assert (Ho := Hok Hr). unfold sizes_ok in Ho. destruct (o_kind (H0 t)) as [| | | | |d x| |fs] eqn:Ek; try lia.
  rewrite Ho. apply N.mul_le_mono_l. assert (Hd : In x (dependsOn H0 t)) by (unfold dependsOn; rewrite Ek; left; reflexivity). apply (IH _ (Hrank Hr Hd) x eq_refl). apply (Hcl Hr Hd).
Qed.
Lemma target_same t : registered r t -> listed t = None -> ns t = o_size (H0 t) -> target t = H0 t.
Proof.
  intros Hr Hl E. unfold target. rewrite E, Hl. destruct (H0 t) as [n s k] eqn:Et; simpl in *. f_equal. destruct k as [| | | | | | |fs]; try reflexivity. f_equal.
  apply shifted_zero; [|reflexivity]. assert (X := ns_eq Hr). rewrite Hl, Et in X. simpl in X. lia.
Qed.

Definition J (k : nat) (H : heap) (sz : sizes) : Prop := forall x, registered r x -> (rank x < k)%nat ->
  match sfind (o_name (H0 x)) sz with
  | Some (o, _) => H x = target x /\ o = o_size (H0 x)
  | None => H x = H0 x /\ listed x = None
  end.
Lemma J_name k H sz x : J k H sz -> registered r x -> (rank x < k)%nat -> o_name (H x) = o_name (H0 x).
Proof. intros Hj Hr Hk. specialize (Hj x Hr Hk). destruct (sfind _ sz) as [[o n]|]; destruct Hj as [-> _]; reflexivity. Qed.
Lemma own_get x : registered r x -> get r (o_name (H0 x)) = Some x.
Proof. intros (n & _ & Hg). apply (get_primary I Hg). Qed.
Lemma names_inj x y : registered r x -> registered r y -> o_name (H0 x) = o_name (H0 y) -> x = y.
Proof. apply (unique_named I). Qed.

Definition post (k : nat) (t : tid) (H : heap) (sz : sizes) (o : res (bool * heap * sizes)) : Prop :=
  exists b H' sz', o = Ok (b, H', sz') /\ J k H' sz' /\
    (forall x, (rank t < rank x)%nat -> H' x = H x) /\
    (forall x, registered r x -> (rank t < rank x)%nat -> sfind (o_name (H0 x)) sz' = sfind (o_name (H0 x)) sz) /\
    (b = true -> sfind (o_name (H0 t)) sz' <> None) /\ (b = false -> target t = H0 t).
Lemma post_target k t H sz b H' sz' : registered r t -> (rank t < k)%nat -> J k H' sz' -> (b = true -> sfind (o_name (H0 t)) sz' <> None) -> (b = false -> target t = H0 t) -> 
  post k t H sz (Ok (b, H', sz')) -> H' t = target t.
Proof.
  intros Hr Hk Hj Hb1 Hb2 _. specialize (Hj t Hr Hk). destruct (sfind (o_name (H0 t)) sz') as [[o n]|]; [apply Hj|]. destruct b; [exfalso; apply Hb1; reflexivity|]. rewrite Hb2 by reflexivity. apply Hj.
Qed.
Lemma J_le k k' H sz : (k' <= k)%nat -> J k H sz -> J k' H sz.
Proof. intros Hl Hj x Hr Hk. apply Hj; [assumption|lia]. Qed.
(** The loop over the fields. *)
Lemma fields_spec f t fs : registered r t -> listed t = None -> o_kind (H0 t) = OComp fs ->
  (forall d, In d (map f_type fs) -> forall H sz, J (rank t) H sz -> post (rank t) d H sz (resize f r H sz d)) ->
  forall suf pre H sz g, fs = pre ++ suf -> J (rank t) H sz -> H t = Obj (o_name (H0 t)) (o_size (H0 t)) (OComp (shifted dl 0 pre ++ suf)) -> g = total dl pre ->
  exists H' sz', fields_resize (resize f r) r t (length suf) (length pre) g H sz = Ok (total dl fs, H', sz') /\ J (rank t) H' sz' /\
    H' t = Obj (o_name (H0 t)) (o_size (H0 t)) (OComp (shifted dl 0 fs)) /\
    (forall x, x <> t -> (rank t <= rank x)%nat -> H' x = H x) /\
    (forall x, registered r x -> (rank t <= rank x)%nat -> sfind (o_name (H0 x)) sz' = sfind (o_name (H0 x)) sz).
Proof.
  intros Hr Hl Ek Hrec. assert (Ht := Hov Hr). rewrite (ns_eq Hr), Hl, Ek in Ht. assert (Ho := Hok Hr). unfold sizes_ok in Ho. rewrite Ek in Ho.
  induction suf as [|x suf IH]; intros pre H sz g Efs Hj HT Eg.
  - rewrite app_nil_r in Efs. subst pre g. exists H, sz. simpl. rewrite app_nil_r in HT. auto.
  - assert (Hin : In x fs) by (rewrite Efs; apply in_or_app; right; left; reflexivity).
    assert (Hind : In (f_type x) (map f_type fs)) by (apply in_map; assumption).
    assert (Hdep : In (f_type x) (dependsOn H0 t)) by (unfold dependsOn; rewrite Ek; assumption).
    assert (Hrx := Hcl Hr Hdep). assert (Hlt := Hrank Hr Hdep).
    assert (Htot : total dl fs = total dl pre + (dl (f_type x) + total dl suf)) by (rewrite Efs, total_app; reflexivity).
    rewrite Forall_forall in Ho. assert (Hox := Ho _ Hin).
    cbn [length fields_resize]. assert (Efo : fields_of H t = shifted dl 0 pre ++ x :: suf) by (unfold fields_of; rewrite HT; reflexivity). rewrite Efo.
    replace (nth_error (shifted dl 0 pre ++ x :: suf) (length pre)) with (Some x) by (rewrite <- (shifted_length dl pre 0); symmetry; apply nth_app). rewrite wadd_small by lia.
    set (H1 := setOffset H t (length pre) (f_off x + g)).
    assert (HT1 : H1 t = Obj (o_name (H0 t)) (o_size (H0 t)) (OComp (shifted dl 0 (pre ++ [x]) ++ suf))).
    { unfold H1, setOffset, upd. rewrite Nat.eqb_refl, Efo, HT. cbn [o_name o_size]. do 2 f_equal. rewrite <- (shifted_length dl pre 0), set_nth_app. rewrite shifted_app. simpl. rewrite <- app_assoc. simpl. rewrite Eg. reflexivity. }
    assert (Hoth : forall y, y <> t -> H1 y = H y) by (intros y Hy; unfold H1, setOffset, upd; apply Nat.eqb_neq in Hy; rewrite Hy; reflexivity).
    assert (Hj1 : J (rank t) H1 sz).
    { intros y Hy Hky. specialize (Hj y Hy Hky). assert (y <> t) by (intros ->; lia). rewrite Hoth by assumption. exact Hj. }
    unfold get_same. rewrite (J_name Hj1 Hrx Hlt), (own_get Hrx). cbn [bind].
    destruct (Hrec _ Hind H1 sz Hj1) as (b & H2 & sz2 & E & Hj2 & F1 & F2 & B1 & B2). rewrite E. cbn [bind].
    assert (HT2 : H2 t = H1 t) by (apply F1; assumption).
    assert (Step : forall g', g' = total dl (pre ++ [x]) -> exists H' sz', fields_resize (resize f r) r t (length suf) (S (length pre)) g' H2 sz2 = Ok (total dl fs, H', sz') /\ J (rank t) H' sz' /\
      H' t = Obj (o_name (H0 t)) (o_size (H0 t)) (OComp (shifted dl 0 fs)) /\ (forall y, y <> t -> (rank t <= rank y)%nat -> H' y = H y) /\
      (forall y, registered r y -> (rank t <= rank y)%nat -> sfind (o_name (H0 y)) sz' = sfind (o_name (H0 y)) sz)).
    { intros g' Eg'. replace (S (length pre)) with (length (pre ++ [x])) by (rewrite app_length; simpl; lia).
      destruct (IH (pre ++ [x]) H2 sz2 g') as (H' & sz' & A1 & A2 & A3 & A4 & A5); [rewrite <- app_assoc; exact Efs|exact Hj2|rewrite HT2; exact HT1|exact Eg'|].
      exists H', sz'. split; [exact A1|]. split; [exact A2|]. split; [exact A3|]. split.
      - intros y Hy Hky. rewrite A4 by assumption. rewrite F1 by lia. apply Hoth. assumption.
      - intros y Hy Hky. rewrite A5 by assumption. apply F2; [assumption|lia]. }
    destruct b.
    + assert (X := Hj2 _ Hrx Hlt). rewrite (J_name Hj2 Hrx Hlt). destruct (sfind (o_name (H0 (f_type x))) sz2) as [[o n]|]; [|exfalso; apply B1; reflexivity].
      destruct X as [X1 X2]. rewrite X1. cbn [target o_size]. subst o. assert (Gx := grows Hrx). assert (Ovx := Hov Hrx).
      rewrite wsub_small by assumption. apply Step. rewrite total_app. cbn [total]. fold (dl (f_type x)). rewrite wadd_small by lia. lia.
    + apply Step. rewrite total_app. cbn [total]. specialize (B2 eq_refl). assert (Y : ns (f_type x) = o_size (H0 (f_type x))) by (rewrite <- B2; reflexivity). assert (Z : dl (f_type x) = 0) by (unfold dl; lia). rewrite Z. lia.
Qed.
Lemma resize_spec : forall f t H sz k, registered r t -> (rank t < k)%nat -> (rank t < f)%nat -> J k H sz -> post k t H sz (resize f r H sz t).
Proof.
  induction f as [|f IH]; intros t H sz k Hr Hk Hf Hj; [lia|]. cbn [resize]. assert (Jt := Hj t Hr Hk). rewrite (J_name Hj Hr Hk).
  destruct (sfind (o_name (H0 t)) sz) as [[o0 n0]|] eqn:Es.
  { exists true, H, sz. repeat split; auto. intros _. congruence. discriminate. }
  destruct Jt as [Ht Hl]. assert (Ens := ns_eq Hr). rewrite Hl in Ens.
  assert (Base : base_resize H sz t = (false, H)) by (unfold base_resize; rewrite (J_name Hj Hr Hk), Es; reflexivity).
  assert (Fin : forall (b : bool) H1 sz1, J (rank t) H1 sz1 -> (forall x, x <> t -> (rank t <= rank x)%nat -> H1 x = H x) ->
    (forall x, registered r x -> (rank t <= rank x)%nat -> sfind (o_name (H0 x)) sz1 = sfind (o_name (H0 x)) sz) ->
    H1 t = target t -> (b = false -> target t = H0 t) ->
    post k t H sz (if b then Ok (true, H1, sinsert (o_name (H1 t)) (o_size (H t), o_size (H1 t)) sz1) else Ok (false, H1, sz1))).
  { intros b H1 sz1 Hj1 F1 F2 HT Hb. assert (N1 : sfind (o_name (H0 t)) sz1 = None) by (rewrite F2 by (auto; lia); exact Es). destruct b.
    - rewrite HT. cbn [target o_name o_size]. exists true. eexists. eexists. split; [reflexivity|]. split; [|split; [|split; [|split]]].
      + intros x Hx Hkx. rewrite sfind_sinsert. destruct (seqb (o_name (H0 t)) (o_name (H0 x))) eqn:Eq.
        * apply seqb_eq in Eq. apply (names_inj Hr Hx) in Eq. subst x. rewrite N1. split; [assumption|]. rewrite Ht. reflexivity.
        * assert (Hxt : x <> t) by (intros ->; rewrite seqb_refl in Eq; discriminate). destruct (Nat.lt_ge_cases (rank x) (rank t)) as [Hlt|Hge].
          -- apply (Hj1 x Hx Hlt).
          -- rewrite F1, F2 by auto. apply (Hj x Hx Hkx).
      + intros x Hx. apply F1; [intros ->; lia|lia].
      + intros x Hx Hkx. rewrite sfind_sinsert. destruct (seqb (o_name (H0 t)) (o_name (H0 x))) eqn:Eq; [apply seqb_eq in Eq; apply (names_inj Hr Hx) in Eq; subst; lia|]. apply F2; [assumption|lia].
      + intros _. rewrite sfind_sinsert, seqb_refl, N1. discriminate.
      + discriminate.
    - exists false, H1, sz1. split; [reflexivity|]. specialize (Hb eq_refl). split; [|split; [|split; [|split]]].
      + intros x Hx Hkx. destruct (Nat.lt_ge_cases (rank x) (rank t)) as [Hlt|Hge]; [apply (Hj1 x Hx Hlt)|]. rewrite F2 by auto. destruct (Nat.eq_dec x t) as [-> |Hxt].
        * rewrite Es. split; [congruence|assumption].
        * rewrite F1 by auto. apply (Hj x Hx Hkx).
      + intros x Hx. apply F1; [intros ->; lia|lia].
      + intros x Hx Hkx. apply F2; [assumption|lia].
      + discriminate.
      + auto. }
  rewrite Ht at 1. rewrite Base.
  assert (Leaf : ns t = o_size (H0 t) -> post k t H sz (Ok (false, H, sz))).
  { intros E. apply (Fin false H sz); auto; [apply (@J_le k); [lia|assumption]| |intros _; apply target_same; assumption]. rewrite Ht. symmetry. apply target_same; assumption. }
  assert (Ind : forall x, In x (dependsOn H0 t) -> exists b H1 sz1, (y <- get_same H r x;; ('(b, H2, sz2) <- resize f r H sz y;; Ok (b || false, H2, sz2))) = Ok (b, H1, sz1) /\
    J (rank t) H1 sz1 /\ (forall x, (rank t <= rank x)%nat -> H1 x = H x) /\ (forall x, registered r x -> (rank t <= rank x)%nat -> sfind (o_name (H0 x)) sz1 = sfind (o_name (H0 x)) sz) /\
    H1 x = target x /\ (b = false -> target x = H0 x)).
  { intros x Hd. assert (Hrx := Hcl Hr Hd). assert (Hlt := Hrank Hr Hd). unfold get_same. assert (Hjt : J (rank t) H sz) by (apply (@J_le k); [lia|assumption]).
    rewrite (J_name Hjt Hrx Hlt), (own_get Hrx). cbn [bind]. destruct (IH x H sz (rank t) Hrx Hlt) as (b & H1 & sz1 & E & J1 & F1 & F2 & B1 & B2); [lia|assumption|]. rewrite E. cbn [bind].
    exists b, H1, sz1. rewrite orb_false_r. split; [reflexivity|]. split; [assumption|]. split; [intros y Hy; apply F1; lia|]. split; [intros y Hy1 Hy2; apply F2; [assumption|lia]|]. split; [|assumption].
    eapply (@post_target (rank t) x H sz b); eauto. exists b, H1, sz1. auto 10. }
  destruct (o_kind (H0 t)) as [| | | |x|d x|ck x|fs] eqn:Ek.
  - apply Leaf. assumption.
  - apply Leaf. assumption.
  - apply Leaf. assumption.
  - apply Leaf. assumption.
  - destruct (Ind x) as (b & H1 & sz1 & E & J1 & F1 & F2 & X1 & X2); [unfold dependsOn; rewrite Ek; left; reflexivity|]. rewrite E. cbn [bind].
    assert (TS := target_same Hr Hl Ens). apply (Fin b H1 sz1); auto. rewrite F1 by lia. congruence.
  - destruct (Ind x) as (b & H1 & sz1 & E & J1 & F1 & F2 & X1 & X2); [unfold dependsOn; rewrite Ek; left; reflexivity|]. rewrite E. cbn [bind].
    assert (Hxt : x <> t) by (intros ->; assert (X := Hrank Hr (d := t)); unfold dependsOn in X; rewrite Ek in X; specialize (X (or_introl eq_refl)); lia).
    assert (Ot := Hov Hr). destruct b.
    + cbn [bind]. rewrite X1. cbn [target o_size]. rewrite wmul_small by (rewrite <- Ens; assumption). apply (Fin true (setSize H1 t (d * ns x)) sz1).
      * intros y Hy Hky. unfold setSize, upd. assert (y <> t) by (intros ->; lia). apply Nat.eqb_neq in H2. rewrite H2. apply (J1 y Hy Hky).
      * intros y Hy Hky. unfold setSize, upd. apply Nat.eqb_neq in Hy. rewrite Hy. apply F1. assumption.
      * assumption.
      * unfold setSize, upd. rewrite Nat.eqb_refl. rewrite F1 by lia. rewrite Ht. unfold target. rewrite Hl, Ek, Ens. reflexivity.
      * discriminate.
    + cbn [bind]. specialize (X2 eq_refl). assert (TS : target t = H0 t).
      { apply target_same; [assumption|assumption|]. assert (Ho := Hok Hr). unfold sizes_ok in Ho. rewrite Ek in Ho. rewrite Ens, Ho. f_equal. rewrite <- X2. reflexivity. }
      apply (Fin false H1 sz1); auto. rewrite F1 by lia. congruence.
  - destruct (Ind x) as (b & H1 & sz1 & E & J1 & F1 & F2 & X1 & X2); [unfold dependsOn; rewrite Ek; left; reflexivity|]. rewrite E. cbn [bind].
    assert (TS := target_same Hr Hl Ens). apply (Fin b H1 sz1); auto. rewrite F1 by lia. congruence.
  - destruct (@fields_spec f t fs Hr Hl Ek) with (suf := fs) (pre := @nil fld) (H := H) (sz := sz) (g := 0) as (H1 & sz1 & E & J1 & T1 & F1 & F2); auto.
    { intros d Hd H2 sz2 Hj2. assert (Hd' : In d (dependsOn H0 t)) by (unfold dependsOn; rewrite Ek; assumption). apply IH; [apply (Hcl Hr Hd')|apply (Hrank Hr Hd')|assert (X := Hrank Hr Hd'); lia|assumption]. }
    { apply (@J_le k); [lia|assumption]. }
    { rewrite Ht. simpl. destruct (H0 t); simpl in *; subst; reflexivity. }
    change (length (@nil fld)) with 0%nat in E. rewrite E. cbn [bind]. assert (Ot := Hov Hr). destruct (N.eqb_spec (total dl fs) 0) as [Ez|Ez]; cbn [negb].
    + cbn [bind]. assert (TS : target t = H0 t) by (apply target_same; [assumption|assumption|rewrite Ens; lia]).
      apply (Fin false H1 sz1); auto. rewrite T1. unfold target. rewrite Hl, Ek. f_equal. lia.
    + cbn [bind]. apply (Fin true (setSize H1 t (wadd (o_size (H1 t)) (total dl fs))) sz1).
      * intros y Hy Hky. unfold setSize, upd. assert (Hyt : y <> t) by (intros ->; lia). apply Nat.eqb_neq in Hyt. rewrite Hyt. apply (J1 y Hy Hky).
      * intros y Hy Hky. unfold setSize, upd. assert (Hyt := Hy). apply Nat.eqb_neq in Hyt. rewrite Hyt. apply F1; assumption.
      * assumption.
      * unfold setSize, upd. rewrite Nat.eqb_refl, T1. cbn [o_name o_size o_kind]. rewrite wadd_small by lia. unfold target. rewrite Hl, Ek, Ens. reflexivity.
      * discriminate.
Qed.
(** The first loop. *)
Lemma request_spec q : forall H sz, NoDup (map (fun p => get r (fst p)) q) -> Forall (fun p => get r (fst p) <> None) q ->
  (forall n s t, In (n, s) q -> get r n = Some t -> H t = H0 t /\ sfind (o_name (H0 t)) sz = None) ->
  exists H' sz', request r q H sz = Ok (H', sz') /\
   (forall t, (forall n s, In (n, s) q -> get r n <> Some t) -> H' t = H t) /\
   (forall n s t, In (n, s) q -> get r n = Some t -> H' t = Obj (o_name (H0 t)) s (o_kind (H0 t)) /\ sfind (o_name (H0 t)) sz' = Some (o_size (H0 t), s)) /\
   (forall m, (forall n s t, In (n, s) q -> get r n = Some t -> o_name (H0 t) <> m) -> sfind m sz' = sfind m sz).
Proof.
  induction q as [|[n s] q IH]; intros H sz Hd Hq Hp; simpl.
  - exists H, sz. repeat split; auto; intros; contradiction.
  - inversion Hd as [|? ? Hn Hd']; subst. inversion Hq as [|? ? Hg Hq']; subst. cbn [fst] in Hg. destruct (get r n) as [t|] eqn:Et; [|contradiction].
    destruct (Hp n s t (or_introl eq_refl) Et) as [Ht Hs]. assert (Hrt : registered r t) by (eapply registered_get; eauto).
    assert (Hne : forall n' s' t', In (n', s') q -> get r n' = Some t' -> t' <> t).
    { intros n' s' t' Hi Hg' ->. apply Hn. apply in_map_iff. exists (n', s'). cbn [fst]. split; [congruence|assumption]. }
    destruct (IH (setSize H t s) (sinsert (o_name (H t)) (o_size (H t), s) sz)) as (H' & sz' & E & A & B & C); [assumption|assumption| |].
    { intros n' s' t' Hi Hg'. assert (Htt := Hne _ _ _ Hi Hg'). unfold setSize, upd. apply Nat.eqb_neq in Htt. rewrite Htt. destruct (Hp n' s' t') as [P1 P2]; [right; assumption|assumption|]. split; [assumption|].
      rewrite sfind_sinsert. rewrite Ht. destruct (seqb (o_name (H0 t)) (o_name (H0 t'))) eqn:Eq; [|assumption]. apply seqb_eq in Eq. apply Nat.eqb_neq in Htt. exfalso. apply Htt. symmetry. apply names_inj; [assumption|eapply registered_get; eauto|assumption]. }
    exists H', sz'. split; [exact E|]. split; [|split].
    + intros t' Hno. assert (t' <> t) by (intros ->; apply (Hno n s); [left; reflexivity|assumption]). rewrite A by (intros n' s' Hi; apply (Hno n' s'); right; assumption).
      unfold setSize, upd. apply Nat.eqb_neq in H1. rewrite H1. reflexivity.
    + intros n' s' t' [X|Hi] Hg'.
      * inversion X; subst n' s'. assert (t' = t) by congruence. subst t'. split.
        -- rewrite A; [|intros n' s' Hi X'; apply (Hne _ _ _ Hi X'); reflexivity]. unfold setSize, upd. rewrite Nat.eqb_refl, Ht. reflexivity.
        -- rewrite C; [|intros n' s' t' Hi Hg'' Eq; apply (Hne _ _ _ Hi Hg''); apply names_inj; [eapply registered_get; eauto|assumption|assumption]].
           rewrite sfind_sinsert, Ht, seqb_refl, Hs. reflexivity.
      * apply (B n' s' t' Hi Hg').
    + intros m Hm. rewrite C by (intros; eapply Hm; [right; eassumption|eassumption]). rewrite sfind_sinsert, Ht. destruct (seqb (o_name (H0 t)) m) eqn:Eq; [|reflexivity].
      apply seqb_eq in Eq. exfalso. eapply (Hm n s t); [left; reflexivity|assumption|assumption].
Qed.
Lemma all_spec f k l : (k <= f)%nat -> forall H sz, J k H sz -> (forall t, In t l -> registered r t /\ (rank t < k)%nat) ->
  exists H' sz', resize_all f r l H sz = Ok (H', sz') /\ J k H' sz' /\ (forall t, In t l -> H' t = target t) /\ (forall t, H t = target t -> registered r t -> (rank t < k)%nat -> H' t = target t).
Proof.
  intros Hf. induction l as [|t l IH]; intros H sz Hj Hl; simpl.
  - exists H, sz. repeat split; auto. intros t [].
  - destruct (Hl t (or_introl eq_refl)) as [Hr Hk]. destruct (@resize_spec f t H sz k Hr Hk) as (b & H1 & sz1 & E & J1 & F1 & F2 & B1 & B2); [lia|assumption|]. rewrite E. cbn [bind].
    assert (T1 : H1 t = target t) by (eapply (@post_target k t H sz b); eauto; exists b, H1, sz1; auto 10).
    destruct (IH H1 sz1 J1) as (H' & sz' & E' & J' & A & B); [intros; apply Hl; right; assumption|].
    exists H', sz'. split; [exact E'|]. split; [exact J'|]. split.
    + intros x [<- |Hx]; [apply B; assumption|auto].
    + intros x Hx Hrx Hkx. apply B; [|assumption|assumption].
      assert (X := J1 x Hrx Hkx). assert (Y := Hj x Hrx Hkx). destruct (sfind (o_name (H0 x)) sz1) as [[o n]|] eqn:E1; [apply X|]. destruct X as [X Xl].
      (* not recorded: x is what it was at the start *)
      destruct (sfind (o_name (H0 x)) sz) as [[o n]|] eqn:E2.
      * destruct Y as [Y _]. rewrite X. destruct (Nat.lt_ge_cases (rank t) (rank x)) as [Hlt|Hge]; [rewrite (F1 x Hlt) in X; congruence|].
        (* it cannot be forgotten *) exfalso. clear - E E1 E2 Hr. revert E E1 E2. generalize (o_name (H0 x)). intros m E E1 E2.
        assert (G : forall f H sz t b H' sz', resize f r H sz t = Ok (b, H', sz') -> forall m, sfind m sz <> None -> sfind m sz' <> None).
        { clear. induction f as [|f IH]; intros H sz t b H' sz' E m Hm; [discriminate|]. cbn [resize] in E. destruct (sfind (o_name (H t)) sz); [inversion E; subst; assumption|].
          assert (IR : forall H sz x b H' sz' res, (y <- get_same H r x ;; '(b0, H2, sz2) <- resize f r H sz y ;; Ok (b0 || res, H2, sz2)) = Ok (b, H', sz') -> forall m, sfind m sz <> None -> sfind m sz' <> None).
          { clear - IH. intros H sz x b H' sz' res E m Hm. destruct (get_same H r x) as [y| | |]; try discriminate. cbn [bind] in E. destruct (resize f r H sz y) as [[[b0 H2] sz2]| | |] eqn:E2; try discriminate. cbn [bind] in E. inversion E; subst. eapply IH; eauto. }
          assert (FR : forall n i g H sz g' H' sz', fields_resize (resize f r) r t n i g H sz = Ok (g', H', sz') -> forall m, sfind m sz <> None -> sfind m sz' <> None).
          { clear - IH. induction n as [|n IHn]; intros i g H sz g' H' sz' E m Hm; simpl in E; [inversion E; subst; assumption|]. destruct (nth_error _ i); [|discriminate].
            destruct (get_same _ r _) as [y| | |]; try discriminate. cbn [bind] in E. destruct (resize f r _ sz y) as [[[b0 H2] sz2]| | |] eqn:E2; try discriminate. cbn [bind] in E.
            assert (X := IH _ _ _ _ _ _ E2 m Hm). destruct b0; [destruct (sfind _ sz2) as [[o nn]|]; [|discriminate]|]; eapply IHn; eauto. }
          match type of E with bind ?e _ = _ => destruct e as [[[b0 H1] sz1]| | |] eqn:Ei; try discriminate end. cbn [bind] in E.
          assert (K : sfind m sz1 <> None).
          { destruct (base_resize H sz t) as [bb Hb]. destruct (o_kind (H t)); try (inversion Ei; subst; assumption).
            - eapply IR; eauto.
            - match type of Ei with bind ?e _ = _ => destruct e as [[[b1 H2] sz2]| | |] eqn:E2; try discriminate end. cbn [bind] in Ei. assert (Y := IR _ _ _ _ _ _ _ E2 m Hm). destruct b1; inversion Ei; subst; assumption.
            - eapply IR; eauto.
            - match type of Ei with bind ?e _ = _ => destruct e as [[[b1 H2] sz2]| | |] eqn:E2; try discriminate end. cbn [bind] in Ei. assert (Y := FR _ _ _ _ _ _ _ _ E2 m Hm). destruct (negb (b1 =? 0)); inversion Ei; subst; assumption. }
          destruct b0; inversion E; subst; [|assumption]. rewrite sfind_sinsert. destruct (seqb _ m) eqn:Eq; [|assumption]. destruct (sfind (o_name (H' t)) sz1); discriminate. }
        apply (G _ _ _ _ _ _ _ E m); [congruence|assumption].
      * destruct Y as [Y _]. congruence.
Qed.
Lemma registry_resize_spec : exists H', conv (fun f => registry_resize f r req H0) (Ok H') /\ (forall t, registered r t -> H' t = target t).
Proof.
  destruct (@request_spec req H0 []) as (H1 & sz1 & E & A & B & C); auto.
  destruct (below_exists rank I) as [M HM].
  assert (Hj : J (S M) H1 sz1).
  { intros x Hr _. destruct (listed x) as [s|] eqn:El.
    - assert (Ha := El). apply listed_asks in Ha. destruct Ha as (n & Hi & Hg). destruct (B _ _ _ Hi Hg) as [B1 B2]. rewrite B2. split; [|reflexivity]. rewrite B1. unfold target. rewrite El. f_equal. rewrite (ns_eq Hr), El. reflexivity.
    - assert (Hn := proj1 (listed_none x) El). rewrite C.
      + split; [|reflexivity]. apply A. intros n s Hi Hg. apply (Hn s). exists n. auto.
      + intros n s t Hi Hg Eq. assert (t = x) by (apply names_inj; [eapply registered_get; eauto|assumption|assumption]). subst t. apply (Hn s). exists n. auto. }
  assert (Hnames : forall x, o_name (H1 x) = o_name (H0 x)).
  { intros x. destruct (listed x) as [s|] eqn:El.
    - apply listed_asks in El. destruct El as (n & Hi & Hg). destruct (B _ _ _ Hi Hg) as [-> _]. reflexivity.
    - assert (Hn := proj1 (listed_none x) El). rewrite A; [reflexivity|]. intros n s Hi Hg. apply (Hn s). exists n. auto. }
  set (l := map (fun p => e_type (snd p)) (filter (fun p => negb (isAlias H1 p)) (r_global r))).
  assert (Hl : forall t, In t l <-> registered r t).
  { intros t. unfold l. rewrite <- (prim_registered t I). rewrite in_map_iff. split.
    - intros ([k e] & Et & Hi). cbn [snd] in Et. apply filter_In in Hi. destruct Hi as [Hi Ha]. unfold isAlias in Ha. rewrite negb_involutive in Ha. apply seqb_eq in Ha. cbn [fst snd] in Ha. rewrite Hnames in Ha. exists e. subst k t. auto.
    - intros (e & Hi & He). exists (o_name (H0 t), e). split; [assumption|]. apply filter_In. split; [assumption|]. unfold isAlias. cbn [fst snd]. rewrite Hnames, He, seqb_refl. reflexivity. }
  assert (K : forall f, (S M <= f)%nat -> exists H' sz', resize_all f r l H1 sz1 = Ok (H', sz') /\ (forall t, registered r t -> H' t = target t)).
  { intros f Hf. destruct (@all_spec f (S M) l Hf H1 sz1 Hj) as (H' & sz' & E' & _ & T & _).
    - intros t Ht. apply Hl in Ht. split; [assumption|]. specialize (HM t Ht). lia.
    - exists H', sz'. split; [assumption|]. intros t Ht. apply T, Hl, Ht. }
  (* the result does not depend on the fuel *)
  assert (Mono : forall f H sz t x, resize f r H sz t = x -> x <> Fuel -> resize (S f) r H sz t = x).
  { clear. induction f as [|f IH]; intros H sz t x E Hx; [simpl in E; congruence|]. remember (S f) as k eqn:Ek. cbn [resize]. subst k. cbn [resize] in E. destruct (sfind (o_name (H t)) sz); [assumption|].
    assert (IR : forall H sz y z res, (y <- get_same H r y ;; '(b0, H2, sz2) <- resize f r H sz y ;; Ok (b0 || res, H2, sz2)) = z -> z <> Fuel -> (y <- get_same H r y ;; '(b0, H2, sz2) <- resize (S f) r H sz y ;; Ok (b0 || res, H2, sz2)) = z).
    { clear - IH. intros H sz y z res E Hz. destruct (get_same H r y) as [u| | |]; cbn [bind] in *; try assumption. destruct (resize f r H sz u) as [a| | |] eqn:E2; cbn [bind] in E; [| | |congruence]; rewrite (IH _ _ _ _ E2) by discriminate; assumption. }
    assert (FR : forall n i g H sz z, fields_resize (resize f r) r t n i g H sz = z -> z <> Fuel -> fields_resize (resize (S f) r) r t n i g H sz = z).
    { clear - IH. induction n as [|n IHn]; intros i g H sz z E Hz; [assumption|]. cbn [fields_resize] in E |- *. destruct (nth_error _ i); [|assumption].
      destruct (get_same _ r _) as [u| | |]; cbn [bind] in E |- *; try assumption. destruct (resize f r _ sz u) as [[[b0 H2] sz2]| | |] eqn:E2; cbn [bind] in E; [| | |congruence]; rewrite (IH _ _ _ _ E2) by discriminate; cbn [bind]; try assumption.
      destruct b0; [destruct (sfind _ sz2) as [[o nn]|]; [|assumption]|]; apply IHn; assumption. }
    match type of E with bind ?e _ = _ => remember e as v eqn:Ei end. assert (Hv : v <> Fuel) by (intros ->; simpl in E; congruence). symmetry in Ei.
    match goal with |- bind ?e _ = _ => assert (Ee : e = v); [|rewrite Ee; exact E] end.
    clear E. destruct (base_resize H sz t) as [bb Hb]; destruct (o_kind (H t)); try exact Ei; try (apply IR; assumption);
      match type of Ei with bind ?e _ = _ => remember e as v1 eqn:E2; symmetry in E2; assert (Hv1 : v1 <> Fuel) by (intros ->; simpl in Ei; congruence); first [rewrite (IR _ _ _ _ _ E2 Hv1)|rewrite (FR _ _ _ _ _ _ E2 Hv1)]; exact Ei end. }
  assert (MonoA : forall f l H sz x, resize_all f r l H sz = x -> x <> Fuel -> resize_all (S f) r l H sz = x).
  { clear - Mono. intros f. induction l as [|t l IH]; intros H sz x E Hx; cbn [resize_all] in *; [assumption|]. destruct (resize f r H sz t) as [[[b H1] sz1]| | |] eqn:E1; cbn [bind] in E; [| | |congruence];
      rewrite (Mono _ _ _ _ _ E1) by discriminate; cbn [bind]; [apply IH; assumption|assumption|assumption]. }
  destruct (K (S M) (le_n _)) as (H' & sz' & E' & T).
  assert (Efix : forall f, (S M <= f)%nat -> resize_all f r l H1 sz1 = Ok (H', sz')).
  { intros f Hf. induction Hf; [assumption|]. apply MonoA; [assumption|discriminate]. }
  exists H'. split; [|assumption]. exists (S M). intros f Hf. unfold registry_resize. rewrite E. cbn [bind]. fold l. rewrite (Efix f Hf). reflexivity.
Qed.
End Resize.
