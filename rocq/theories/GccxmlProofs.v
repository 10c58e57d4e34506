(** * GccxmlProofs *)
From Verif Require Import Base Types TypeObj GccxmlSpec Gccxml.
Local Open Scope nat_scope.

(** ** The registry *)
Definition named (n : nm) : Prop := match n with NBase _ | NQual _ _ _ => True | _ => False end.
Record reg_ok (r : areg) : Prop := {
  ro_alias : forall k c, assoc k (a_alias r) = Some c -> def r c <> None /\ named k;
  ro_ptr : forall c d, def r (NPtrOf c) = Some d -> d = DPtr c /\ def r c <> None;
  ro_arr : forall c k d, def r (NArrOf c k) = Some d -> d = DArr c k /\ def r c <> None;
  ro_comp : forall n sz fs, def r n = Some (DComp sz fs) -> Forall (fun f => def r (snd (fst f)) <> None) fs
}.
Definition mono (r r' : areg) : Prop := (forall n c, get r n = Some c -> get r' n = Some c) /\ (forall n d, def r n = Some d -> def r' n = Some d).
Lemma mono_refl r : mono r r.
Proof. split; auto. Qed.
Lemma mono_trans a b c : mono a b -> mono b c -> mono a c.
Proof. intros [A1 A2] [B1 B2]. split; auto. Qed.
Lemma mono_def r r' n : mono r r' -> def r n <> None -> def r' n <> None.
Proof. intros [_ M] H. destruct (def r n) as [d|] eqn:E; [|congruence]. rewrite (M _ _ E). discriminate. Qed.
Lemma get_eq r n : get r n = match def r n with
  | Some _ => Some n
  | None => match assoc n (a_alias r) with
      | Some c => Some c
      | None => match n with
          | NPtrOf m => match get r m with Some c => match def r (NPtrOf c) with Some _ => Some (NPtrOf c) | None => None end | None => None end
          | NArrOf m k => match get r m with Some c => match def r (NArrOf c k) with Some _ => Some (NArrOf c k) | None => None end | None => None end
          | _ => None
          end
      end
  end.
Proof. destruct n; reflexivity. Qed.
Lemma get_self r c : def r c <> None -> get r c = Some c.
Proof. intros H. rewrite get_eq. destruct (def r c); [reflexivity|congruence]. Qed.
Lemma get_def r n c : reg_ok r -> get r n = Some c -> def r c <> None.
Proof.
  intros O. rewrite get_eq. destruct (def r n) eqn:E1; [intros X; injection X as <-; congruence|]. destruct (assoc n (a_alias r)) eqn:E2; [intros X; injection X as <-; apply (ro_alias O E2)|].
  destruct n as [|m|m k|]; try discriminate; destruct (get r m) as [c'|]; try discriminate.
  - destruct (def r (NPtrOf c')) eqn:E3; [|discriminate]. intros X; injection X as <-. congruence.
  - destruct (def r (NArrOf c' k)) eqn:E3; [|discriminate]. intros X; injection X as <-. congruence.
Qed.
Lemma get_get r n c : reg_ok r -> get r n = Some c -> get r c = Some c.
Proof. intros O E. apply get_self. eapply get_def; eauto. Qed.
Lemma def_add r n d x : def (add_def r n d) x = if nm_dec n x then Some d else def r x.
Proof. unfold def, add_def. cbn [a_types assoc]. destruct (nm_dec n x); reflexivity. Qed.
Lemma add_mono r n d : get r n = None -> mono r (add_def r n d).
Proof.
  intros Hn. assert (Hd : def r n = None) by (rewrite get_eq in Hn; destruct (def r n); [discriminate|reflexivity]).
  split.
  - intros x. induction x as [s|m IH|m IH k|m IH a b]; intros c E; (match type of E with get _ ?x = _ => destruct (nm_dec n x) as [X|Hne]; [subst; congruence|] end); rewrite get_eq in E |- *; rewrite def_add; (destruct (nm_dec n _) as [X|_]; [contradiction|]); cbn [add_def a_alias].
    + exact E.
    + destruct (def r (NPtrOf m)); [exact E|]. destruct (assoc (NPtrOf m) (a_alias r)); [exact E|]. destruct (get r m) as [c'|] eqn:Em; [|discriminate]. rewrite (IH c' eq_refl), def_add.
      destruct (nm_dec n (NPtrOf c')) as [-> |_]; [rewrite Hd in E; discriminate|exact E].
    + destruct (def r (NArrOf m k)); [exact E|]. destruct (assoc (NArrOf m k) (a_alias r)); [exact E|]. destruct (get r m) as [c'|] eqn:Em; [|discriminate]. rewrite (IH c' eq_refl), def_add.
      destruct (nm_dec n (NArrOf c' k)) as [-> |_]; [rewrite Hd in E; discriminate|exact E].
    + exact E.
  - intros x e E. rewrite def_add. destruct (nm_dec n x) as [-> |_]; [congruence|exact E].
Qed.
Definition closed_def (r : areg) (n : nm) (d : tdef) : Prop :=
  (forall c, n = NPtrOf c -> d = DPtr c /\ def r c <> None) /\ (forall c k, n = NArrOf c k -> d = DArr c k /\ def r c <> None) /\
  (forall sz fs, d = DComp sz fs -> Forall (fun f => def r (snd (fst f)) <> None) fs).
Lemma add_ok_ r n d : reg_ok r -> get r n = None -> closed_def r n d -> reg_ok (add_def r n d).
Proof.
  intros [A B C D] Hn (X1 & X2 & X3). assert (M := add_mono d Hn). constructor.
  - intros k c E. destruct (A k c E) as [H1 H2]. split; [eapply mono_def; eauto|assumption].
  - intros c e. rewrite def_add. destruct (nm_dec n (NPtrOf c)) as [En|_]; intros E.
    + injection E as <-. destruct (X1 c En) as [H1 H2]. split; [assumption|eapply mono_def; eauto].
    + destruct (B c e E). split; [assumption|eapply mono_def; eauto].
  - intros c k e. rewrite def_add. destruct (nm_dec n (NArrOf c k)) as [En|_]; intros E.
    + injection E as <-. destruct (X2 c k En) as [H1 H2]. split; [assumption|eapply mono_def; eauto].
    + destruct (C c k e E). split; [assumption|eapply mono_def; eauto].
  - intros x sz fs. rewrite def_add. destruct (nm_dec n x) as [_|_]; intros E.
    + injection E as ->. specialize (X3 sz fs eq_refl). eapply Forall_impl; [|exact X3]. intros f Hf. eapply mono_def; eauto.
    + eapply Forall_impl; [|exact (D _ _ _ E)]. intros f Hf. eapply mono_def; eauto.
Qed.
Lemma get_add_base r n d s : get (add_def r n d) (NBase s) = if nm_dec n (NBase s) then Some (NBase s) else get r (NBase s).
Proof. rewrite get_eq, def_add. destruct (nm_dec n (NBase s)); [reflexivity|]. rewrite (get_eq r). reflexivity. Qed.
Definition add_alias (r : areg) (n c : nm) : areg := AR (a_types r) ((n, c) :: a_alias r).
Lemma def_alias r n c x : def (add_alias r n c) x = def r x.
Proof. reflexivity. Qed.
Lemma al_alias r n c x : assoc x (a_alias (add_alias r n c)) = if nm_dec n x then Some c else assoc x (a_alias r).
Proof. reflexivity. Qed.
Lemma alias_mono r n c : get r n = None -> named n -> mono r (add_alias r n c).
Proof.
  intros Hn Na. split; [|auto]. intros x. induction x as [s|m IH|m IH k|m IH a b]; intros y E; rewrite get_eq in E |- *; rewrite def_alias, al_alias.
  - destruct (nm_dec n (NBase s)) as [X|_]; [|exact E]. subst n. rewrite get_eq, E in Hn. discriminate.
  - destruct (nm_dec n (NPtrOf m)) as [X|_]; [subst n; destruct Na|]. destruct (def r (NPtrOf m)); [exact E|]. destruct (assoc (NPtrOf m) (a_alias r)); [exact E|].
    destruct (get r m) as [c'|] eqn:Em; [|discriminate]. rewrite (IH c' eq_refl). exact E.
  - destruct (nm_dec n (NArrOf m k)) as [X|_]; [subst n; destruct Na|]. destruct (def r (NArrOf m k)); [exact E|]. destruct (assoc (NArrOf m k) (a_alias r)); [exact E|].
    destruct (get r m) as [c'|] eqn:Em; [|discriminate]. rewrite (IH c' eq_refl). exact E.
  - destruct (nm_dec n (NQual m a b)) as [X|_]; [|exact E]. subst n. rewrite get_eq, E in Hn. discriminate.
Qed.
Lemma get_alias_new r n c : get r n = None -> get (add_alias r n c) n = Some c.
Proof.
  intros Hn. rewrite get_eq in Hn |- *. unfold def, add_alias in *. cbn [a_types a_alias assoc] in *. destruct (assoc n (a_types r)); [discriminate|]. destruct (nm_dec n n); [reflexivity|congruence].
Qed.
Lemma get_alias_base r n c s : get (add_alias r n c) (NBase s) = if nm_dec n (NBase s) then match def r n with Some _ => Some n | None => Some c end else get r (NBase s).
Proof.
  rewrite get_eq, (get_eq r). unfold def, add_alias. cbn [a_types a_alias assoc]. destruct (nm_dec n (NBase s)) as [-> |_]; [|reflexivity]. reflexivity.
Qed.
Lemma alias_ok_ r n c : reg_ok r -> named n -> def r c <> None -> reg_ok (add_alias r n c).
Proof.
  intros [A B C D] Na Hc. constructor; try assumption. intros k x. cbn [add_alias a_alias assoc]. destruct (nm_dec n k) as [-> |_]; [|apply A]. intros E. injection E as <-. auto.
Qed.
Lemma get_ptr_inv r m x : reg_ok r -> get r (NPtrOf m) = Some x -> exists c, get r m = Some c /\ x = NPtrOf c.
Proof.
  intros O. rewrite get_eq. destruct (def r (NPtrOf m)) eqn:E1.
  - intros X. injection X as <-. exists m. split; [apply get_self, (ro_ptr O E1)|reflexivity].
  - destruct (assoc (NPtrOf m) (a_alias r)) eqn:E2; [destruct (ro_alias O E2) as [_ []]|]. destruct (get r m) as [c|]; [|discriminate]. destruct (def r (NPtrOf c)); [|discriminate]. intros X. injection X as <-. eauto.
Qed.
Lemma get_arr_inv r m k x : reg_ok r -> get r (NArrOf m k) = Some x -> exists c, get r m = Some c /\ x = NArrOf c k.
Proof.
  intros O. rewrite get_eq. destruct (def r (NArrOf m k)) eqn:E1.
  - intros X. injection X as <-. exists m. split; [apply get_self, (ro_arr O E1)|reflexivity].
  - destruct (assoc (NArrOf m k) (a_alias r)) eqn:E2; [destruct (ro_alias O E2) as [_ []]|]. destruct (get r m) as [c|]; [|discriminate]. destruct (def r (NArrOf c k)); [|discriminate]. intros X. injection X as <-. eauto.
Qed.
Lemma get_ptr r m c : reg_ok r -> get r m = Some c -> def r (NPtrOf c) <> None -> get r (NPtrOf m) = Some (NPtrOf c).
Proof.
  intros O Em Hd. rewrite get_eq. destruct (def r (NPtrOf m)) eqn:E1.
  - assert (X : get r m = Some m) by (apply get_self, (ro_ptr O E1)). congruence.
  - destruct (assoc (NPtrOf m) (a_alias r)) eqn:E2; [destruct (ro_alias O E2) as [_ []]|]. rewrite Em. destruct (def r (NPtrOf c)); [reflexivity|congruence].
Qed.
Lemma get_arr r m k c : reg_ok r -> get r m = Some c -> def r (NArrOf c k) <> None -> get r (NArrOf m k) = Some (NArrOf c k).
Proof.
  intros O Em Hd. rewrite get_eq. destruct (def r (NArrOf m k)) eqn:E1.
  - assert (X : get r m = Some m) by (apply get_self, (ro_arr O E1)). congruence.
  - destruct (assoc (NArrOf m k) (a_alias r)) eqn:E2; [destruct (ro_alias O E2) as [_ []]|]. rewrite Em. destruct (def r (NArrOf c k)); [reflexivity|congruence].
Qed.

Section Proofs.
  Variable P : program.
  Lemma add_type_spec r n d r' : add_type P r n d = Ok r' -> get r n = None /\ r' = add_def r n d.
  Proof. unfold add_type. destruct (p_valid P n); [|discriminate]. destruct (get r n); [discriminate|]. intros X. injection X as <-. auto. Qed.
  Lemma build_eq r n : build P r n = match get r n with
    | Some c => Ok (r, c)
    | None => match n with
        | NPtrOf m => '(r1, c) <- build P r m ;; match def r1 (NPtrOf c) with Some _ => Ok (r1, NPtrOf c) | None => r2 <- add_type P r1 (NPtrOf c) (DPtr c) ;; Ok (r2, NPtrOf c) end
        | NArrOf m k => '(r1, c) <- build P r m ;; match def r1 (NArrOf c k) with Some _ => Ok (r1, NArrOf c k) | None => r2 <- add_type P r1 (NArrOf c k) (DArr c k) ;; Ok (r2, NArrOf c k) end
        | _ => Throw ENotFound
        end
    end.
  Proof. destruct n; reflexivity. Qed.
  Definition same_base (r r' : areg) : Prop := forall s, get r' (NBase s) = get r (NBase s) /\ def r' (NBase s) = def r (NBase s).
  Definition only_indirect (r r' : areg) : Prop := forall n d, def r' n = Some d -> def r n = Some d \/ match n with NPtrOf _ | NArrOf _ _ => True | _ => False end.
  Lemma build_spec r : reg_ok r -> forall n r' c, build P r n = Ok (r', c) -> reg_ok r' /\ mono r r' /\ get r' n = Some c /\ same_base r r' /\ only_indirect r r'.
  Proof.
    intros O. assert (Z : forall n c, get r n = Some c -> reg_ok r /\ mono r r /\ get r n = Some c /\ same_base r r /\ only_indirect r r).
    { intros. split; [assumption|]. split; [apply mono_refl|]. split; [assumption|]. split; [intros ?; auto|intros ? ?; auto]. }
    induction n as [s|m IH|m IH k|m IH a b]; intros r' c E; rewrite build_eq in E.
    - destruct (get r (NBase s)) eqn:G; [injection E as <- <-; auto|discriminate].
    - destruct (get r (NPtrOf m)) eqn:G; [injection E as <- <-; auto|]. destruct (build P r m) as [[r1 c1]| | |] eqn:Em; try discriminate. cbn [bind] in E. destruct (IH _ _ eq_refl) as (O1 & M1 & G1 & S1 & I1).
      destruct (def r1 (NPtrOf c1)) eqn:Ed.
      + injection E as <- <-. split; [assumption|]. split; [assumption|]. split; [apply get_ptr; congruence|]. split; assumption.
      + destruct (add_type P r1 (NPtrOf c1) (DPtr c1)) as [r2| | |] eqn:Ea; try discriminate. cbn [bind] in E. injection E as <- <-. apply add_type_spec in Ea as [Hn ->].
        assert (M2 := add_mono (DPtr c1) Hn). assert (O2 : reg_ok (add_def r1 (NPtrOf c1) (DPtr c1))).
        { apply add_ok_; [assumption|assumption|]. repeat split; try discriminate; intros; try (injection H as ->; reflexivity). injection H as ->. eapply get_def; eauto. }
        split; [assumption|]. split; [eapply mono_trans; eauto|]. split; [apply get_ptr; [assumption|apply M2; assumption|rewrite def_add; destruct (nm_dec _ _); congruence]|]. split.
        * intros s. rewrite get_add_base, def_add. destruct (nm_dec (NPtrOf c1) (NBase s)); [discriminate|apply S1].
        * intros n d. rewrite def_add. destruct (nm_dec (NPtrOf c1) n) as [<-|_]; [auto|apply I1].
    - destruct (get r (NArrOf m k)) eqn:G; [injection E as <- <-; auto|]. destruct (build P r m) as [[r1 c1]| | |] eqn:Em; try discriminate. cbn [bind] in E. destruct (IH _ _ eq_refl) as (O1 & M1 & G1 & S1 & I1).
      destruct (def r1 (NArrOf c1 k)) eqn:Ed.
      + injection E as <- <-. split; [assumption|]. split; [assumption|]. split; [apply get_arr; congruence|]. split; assumption.
      + destruct (add_type P r1 (NArrOf c1 k) (DArr c1 k)) as [r2| | |] eqn:Ea; try discriminate. cbn [bind] in E. injection E as <- <-. apply add_type_spec in Ea as [Hn ->].
        assert (M2 := add_mono (DArr c1 k) Hn). assert (O2 : reg_ok (add_def r1 (NArrOf c1 k) (DArr c1 k))).
        { apply add_ok_; [assumption|assumption|]. repeat split; try discriminate; intros; try (injection H as -> ->; reflexivity). injection H as -> ->. eapply get_def; eauto. }
        split; [assumption|]. split; [eapply mono_trans; eauto|]. split; [apply get_arr; [assumption|apply M2; assumption|rewrite def_add; destruct (nm_dec _ _); congruence]|]. split.
        * intros s. rewrite get_add_base, def_add. destruct (nm_dec (NArrOf c1 k) (NBase s)); [discriminate|apply S1].
        * intros n d. rewrite def_add. destruct (nm_dec (NArrOf c1 k) n) as [<-|_]; [auto|apply I1].
    - destruct (get r (NQual m a b)) eqn:G; [injection E as <- <-; auto|discriminate].
  Qed.
  Lemma build_known r n c : get r n = Some c -> build P r n = Ok (r, c).
  Proof. intros G. rewrite build_eq, G. reflexivity. Qed.
  Lemma alias_spec r n b r' : reg_ok r -> named n -> alias P r n b = Ok r' ->
    exists c, get r b = Some c /\ reg_ok r' /\ mono r r' /\ get r' n = Some c /\ (r' = r \/ (get r n = None /\ r' = add_alias r n c)).
  Proof.
    intros O Na. unfold alias. destruct (get r b) as [c|] eqn:Gb; [|discriminate]. destruct (get r n) as [c'|] eqn:Gn.
    - destruct (nm_dec c c') as [<-|_]; [|discriminate]. intros X. injection X as <-. exists c. split; [reflexivity|]. split; [assumption|]. split; [apply mono_refl|]. auto.
    - destruct (p_valid P n); [|discriminate]. intros X. injection X as <-. fold (add_alias r n c). exists c. split; [reflexivity|]. assert (Hd := get_def O Gb). split; [apply alias_ok_; assumption|].
      split; [apply alias_mono; assumption|]. split; [apply get_alias_new; assumption|]. right. auto.
  Qed.

  (** ** The specification is functional *)
  Lemma designates_fun std i c : designates P std i c -> forall c', designates P std i c' -> c' = c.
  Proof.
    induction 1 as [i s c Hn Hs|i to c Hn Hd IH|i to m c Hn Hd IH|i to a b c Hn Hd IH|i s pub bs inc ms sz Hn|i s pub vs Hn|i s pub to c Hn Hd IH]; intros c' H'; inversion H'; subst; try congruence.
    - rewrite (IH c0); congruence.
    - rewrite (IH c0); congruence.
    - apply IH. congruence.
    - apply IH. congruence.
  Qed.
  Lemma own_fields_fun std ms fs : own_fields P std ms fs -> forall fs', own_fields P std ms fs' -> fs' = fs.
  Proof.
    induction 1 as [|m ms f c fs Hn Hd Ho IH|m ms fs Hn Ho IH]; intros fs' H'; inversion H'; subst; try reflexivity.
    - assert (f0 = f) by congruence. subst f0. f_equal; [|apply IH; assumption]. f_equal. f_equal. eapply designates_fun; eauto.
    - match goal with H : forall f, _ <> _ |- _ => destruct (H _ Hn) end.
    - match goal with H : p_node P m = Some _ |- _ => destruct (Hn _ H) end.
    - apply IH; assumption.
  Qed.
  Lemma class_of_fun i cls : class_of P i cls -> forall c', class_of P i c' -> c' = cls.
  Proof.
    induction 1 as [i s pub bs inc ms sz Hn|i to a b cls Hn Hc IH|i s pub to cls Hn Hc IH]; intros c' H'; inversion H'; subst; try congruence.
    - apply IH. congruence.
    - apply IH. congruence.
  Qed.
  Scheme dm_ind := Minimality for data_members Sort Prop with bm_ind := Minimality for base_members Sort Prop.
  Combined Scheme dbm_ind from dm_ind, bm_ind.
  Lemma members_fun std : (forall i fs, data_members P std i fs -> forall fs', data_members P std i fs' -> fs' = fs) /\
    (forall bs fs, base_members P std bs fs -> forall fs', base_members P std bs fs' -> fs' = fs).
  Proof.
    apply dbm_ind.
    - intros i s pub bs inc ms sz fb fo Hn _ IH Ho fs' H'. inversion H'; subst. rewrite Hn in H. injection H as <- <- <- <- <- <-. f_equal; [apply IH; assumption|eapply own_fields_fun; eauto].
    - intros fs' H'. inversion H'. reflexivity.
    - intros b bs cls fs r Hc _ IH1 _ IH2 fs' H'. inversion H'; subst. rewrite (class_of_fun Hc H1) in *. rewrite (IH1 _ H2), (IH2 _ H4). reflexivity.
  Qed.

  (** ** The invariant of the loader *)
  Variable base : areg.
  Let std := fun s => get base (NBase s).
  Hypothesis base_ok : reg_ok base.
  Hypothesis base_plain : forall n sz fs, def base n <> Some (DComp sz fs).
  Hypothesis odr : one_definition P std.
  Hypothesis nohide : no_hiding P std.
  Notation des := (designates P std).
  Notation lout := (left_out P std).
  Notation dmem := (data_members P std).
  Definition good (r : areg) (i : id) (n : nm) : Prop := (exists c, get r n = Some c /\ des i c) \/ (exists s, n = NBase s /\ names P i s).
  Definition complete (r : areg) (i : id) (n : nm) : Prop := exists c, get r n = Some c /\ des i c /\ forall s, names P i s -> get r (NBase s) = Some c.
  Definition importable (i : id) (s : str) (d : tdef) : Prop :=
    (exists bs ms sz fs, p_node P i = Some (Class s true bs false ms sz) /\ d = DComp (sz / 8) fs /\ dmem i fs /\ p_hidden P s = false /\
       existsb (p_virtual P) ms = false /\ (forall m f, In m ms -> p_node P m = Some (Fieldn f) -> fn_public f = true) /\
       (forall b, In b bs -> dmem (bn_type b) [] \/ (bn_virtual b = false /\ bn_public b = true))) \/
    (exists vs, p_node P i = Some (Enumn s true vs) /\ d = DEnum vs /\ p_hidden P s = false).
  Definition known (r : areg) : Prop := forall s c, get r (NBase s) = Some c -> std s = Some c \/ exists i, names P i s /\ des i c.
  Record inv (st : list id) (s : gst) : Prop := {
    iv_reg : reg_ok (g_reg s);
    iv_base : mono base (g_reg s);
    iv_from : known (g_reg s);
    iv_defs : forall n d, def (g_reg s) n = Some d -> def base n = Some d \/ match n with NPtrOf _ | NArrOf _ _ => True | NBase t => exists i, importable i t d | _ => False end;
    iv_names : forall i n, name_of (g_names s) i = Some n -> inb i (g_ign s) = true \/ complete (g_reg s) i n \/ (In i st /\ exists t, n = NBase t /\ names P i t);
    iv_ign : forall i, inb i (g_ign s) = true -> lout i;
    iv_empty : forall i, inb i (g_empty s) = true -> dmem i []
  }.
  Lemma names_fun i a b : names P i a -> names P i b -> a = b.
  Proof. intros (n & E1 & E2) (m & F1 & F2). congruence. Qed.
  Lemma known_des r i s c : known r -> names P i s -> get r (NBase s) = Some c -> des i c.
  Proof. intros K Hn G. destruct (K s c G) as [Hs|(j & Hj & Hd)]; [eapply od_std; eauto|eapply od_names; [eassumption|exact Hj|exact Hn|exact Hd]]. Qed.
  Lemma good_des r i n c : known r -> good r i n -> get r n = Some c -> des i c.
  Proof. intros K [(c' & E & D)|(s & -> & N)] G; [congruence|eapply known_des; eauto]. Qed.
  Lemma good_mono r r' i n : mono r r' -> good r i n -> good r' i n.
  Proof. intros [M _] [(c & E & D)|H]; [left; eauto|right; assumption]. Qed.
  Lemma complete_mono r r' i n : mono r r' -> complete r i n -> complete r' i n.
  Proof. intros [M _] (c & E & D & H). exists c. auto. Qed.
  Lemma inb_cons i j l : inb i (j :: l) = true -> i = j \/ inb i l = true.
  Proof. unfold inb. cbn [existsb]. rewrite Bool.orb_true_iff. intros [H|H]; [left; apply Nat.eqb_eq; assumption|auto]. Qed.
  (** Steps *)
  Lemma inv_weaken st i s : inv st s -> inv (i :: st) s.
  Proof. intros [A B C D E F G]. constructor; try assumption. intros j n Ej. destruct (E j n Ej) as [H|[H|[H1 H2]]]; [auto|auto|]. right. right. split; [right; assumption|assumption]. Qed.
  Lemma inv_reg st s r : inv st s -> reg_ok r -> mono (g_reg s) r -> known r ->
    (forall n d, def r n = Some d -> def (g_reg s) n = Some d \/ match n with NPtrOf _ | NArrOf _ _ => True | NBase t => exists i, importable i t d | _ => False end) -> inv st (set_reg s r).
  Proof.
    intros [A B C D E F G] O M K H. constructor; cbn [set_reg g_reg g_names g_ign g_empty]; try assumption.
    - eapply mono_trans; eauto.
    - intros n d Ed. destruct (H n d Ed) as [X|X]; [apply D; assumption|auto].
    - intros i n Ei. destruct (E i n Ei) as [X|[X|X]]; [auto| |auto]. right. left. eapply complete_mono; eauto.
  Qed.
  Lemma inv_name st s i n : inv st s -> (inb i (g_ign s) = true \/ complete (g_reg s) i n \/ (In i st /\ exists t, n = NBase t /\ names P i t)) -> inv st (set_name s i n).
  Proof.
    intros [A B C D E F G] H. constructor; cbn [set_name g_reg g_names g_ign g_empty]; try assumption. intros j m. cbn [name_of]. destruct (i =? j) eqn:Eij; [|apply E]. apply Nat.eqb_eq in Eij. subst j. intros X. injection X as <-. exact H.
  Qed.
  Lemma inb_tl i j l : inb i l = true -> inb i (j :: l) = true.
  Proof. intros H. unfold inb in *. cbn [existsb]. rewrite H, Bool.orb_true_r. reflexivity. Qed.
  Lemma inb_hd i l : inb i (i :: l) = true.
  Proof. unfold inb. cbn [existsb]. rewrite Nat.eqb_refl. reflexivity. Qed.
  Lemma inv_ignore st s i : inv st s -> lout i -> inv st (ignore s i).
  Proof.
    intros [A B C D E F G] H. constructor; cbn [ignore g_reg g_names g_ign g_empty]; try assumption.
    - intros j n Ej. destruct (E j n Ej) as [X|X]; [left; apply inb_tl; assumption|auto].
    - intros j Hj. apply inb_cons in Hj as [-> |Hj]; auto.
  Qed.
  Lemma inv_set_empty st s i : inv st s -> dmem i [] -> inv st (set_empty s i).
  Proof. intros [A B C D E F G] H. constructor; cbn [set_empty g_reg g_names g_ign g_empty]; try assumption. intros j Hj. apply inb_cons in Hj as [-> |Hj]; auto. Qed.
  (** The type behind a registered compound. *)
  Lemma comp_class st s c sz fs i : inv st s -> def (g_reg s) c = Some (DComp sz fs) -> des i c -> exists cls, class_of P i cls /\ dmem cls fs.
  Proof.
    intros I Ed Hd. destruct (iv_defs I Ed) as [X|X]; [destruct (base_plain X)|].
    destruct c as [t|m|m k|m a b].
    - destruct X as (j & [(bs & ms & z & fs' & Hj & X1 & X2 & _)|(vs & _ & X & _)]); [|discriminate]. injection X1 as -> ->.
      remember (NBase t) as c eqn:Ec. induction Hd as [i u c Hn Hs|i to c Hn Hd IH|i to m c Hn Hd IH|i to a b c Hn Hd IH|i u pub bs' inc ms' sz' Hn|i u pub vs Hn|i u pub to c Hn Hd IH].
      + subst c. unfold std in Hs. assert (Hb := get_def base_ok Hs). destruct (def base (NBase t)) as [d|] eqn:Eb; [|congruence]. assert (X := proj2 (iv_base I) _ _ Eb). rewrite Ed in X. injection X as <-. destruct (base_plain Eb).
      + discriminate.
      + discriminate.
      + destruct (IH Ec Ed) as (cls & H1 & H2). exists cls. split; [econstructor 2; eauto|assumption].
      + injection Ec as ->. assert (i = j) by (eapply (od_defines odr); left; eauto 10). subst i. exists j. split; [econstructor; eauto|assumption].
      + injection Ec as ->. assert (i = j) by (eapply (od_defines odr (s := t)); [right; eauto|left; eauto 10]). subst i. congruence.
      + destruct (IH Ec Ed) as (cls & H1 & H2). exists cls. split; [econstructor 3; eauto|assumption].
    - destruct (ro_ptr (iv_reg I) Ed). discriminate.
    - destruct (ro_arr (iv_reg I) Ed). discriminate.
    - destruct X.
  Qed.
  Lemma dmem_class i fs : dmem i fs -> class_of P i i.
  Proof. intros H. inversion H; subst. econstructor; eauto. Qed.

  (** ** What a recursive call does *)
  Definition fine (st : list id) (s : gst) (i : id) (r : option nm) (s' : gst) : Prop :=
    inv st s' /\ mono (g_reg s) (g_reg s') /\ (forall j, name_of (g_names s) j <> None -> name_of (g_names s') j <> None) /\
    match r with None => lout i | Some n => good (g_reg s') i n end.
  Definition rec_ok (rec : gst -> id -> res (option nm * gst)) : Prop := forall st s i r s', inv st s -> rec s i = Ok (r, s') -> fine st s i r s'.
  Section Rec.
    Variable rec : gst -> id -> res (option nm * gst).
    Hypothesis Hrec : rec_ok rec.
    Definition moved (st : list id) (s s' : gst) : Prop := inv st s' /\ mono (g_reg s) (g_reg s') /\ (forall j, name_of (g_names s) j <> None -> name_of (g_names s') j <> None).
    Lemma moved_refl st s : inv st s -> moved st s s.
    Proof. intros I. split; [assumption|]. split; [apply mono_refl|auto]. Qed.
    Lemma moved_trans st a b c : moved st a b -> moved st b c -> moved st a c.
    Proof. intros (I1 & M1 & N1) (I2 & M2 & N2). split; [assumption|]. split; [eapply mono_trans; eauto|auto]. Qed.
    (** The bases kept: those that are not empty. *)
    Inductive based : list base_n -> list (nm * Z) -> Prop :=
    | bd_nil : based [] []
    | bd_skip b bs l : dmem (bn_type b) [] -> based bs l -> based (b :: bs) l
    | bd_keep b bs c l : des (bn_type b) c -> bn_virtual b = false -> bn_public b = true -> based bs l -> based (b :: bs) ((c, bn_off b) :: l).
    Lemma bases_loop_ok st : forall bs s l s', inv st s -> bases_loop rec s bs = Ok (l, s') ->
      moved st s s' /\ match l with None => exists b, In b bs /\ (lout (bn_type b) \/ bn_virtual b = true \/ bn_public b = false) | Some l => based bs l end.
    Proof.
      induction bs as [|b bs IH]; intros s l s' I E; cbn [bases_loop] in E.
      - injection E as <- <-. split; [apply moved_refl; assumption|constructor].
      - destruct (rec s (bn_type b)) as [[r s1]| | |] eqn:Er; try discriminate. cbn [bind] in E. destruct (Hrec I Er) as (I1 & M1 & N1 & Hr).
        assert (V1 : moved st s s1) by (split; [|split]; assumption).
        destruct (inb (bn_type b) (g_empty s1)) eqn:Ee.
        + destruct (IH _ _ _ I1 E) as (V2 & H). split; [eapply moved_trans; eauto|]. destruct l as [l|]; [apply bd_skip; [apply (iv_empty I1 Ee)|assumption]|]. destruct H as (b' & Hb & H). exists b'. split; [right; assumption|assumption].
        + destruct r as [n|]; [|injection E as <- <-; split; [assumption|exists b; split; [left; reflexivity|auto]]].
          destruct (get (g_reg s1) n) as [c|] eqn:G; [|discriminate]. destruct (bn_virtual b) eqn:Ev; [injection E as <- <-; split; [assumption|exists b; split; [left; reflexivity|auto]]|].
          destruct (bn_public b) eqn:Ep; cbn [negb] in E; [|injection E as <- <-; split; [assumption|exists b; split; [left; reflexivity|auto]]].
          destruct (bases_loop rec s1 bs) as [[l2 s2]| | |] eqn:E2; try discriminate. cbn [bind] in E. injection E as <- <-. destruct (IH _ _ _ I1 E2) as (V2 & H). split; [eapply moved_trans; eauto|].
          destruct l2 as [l2|]; cbn [option_map]; [|destruct H as (b' & Hb & H); exists b'; split; [right; assumption|assumption]].
          apply bd_keep; try assumption. eapply good_des; [apply (iv_from I1)|eassumption|assumption].
    Qed.
    Lemma base_fields_ok st s : inv st s -> forall bs l, based bs l -> forall fb, base_fields (g_reg s) l = Ok fb -> base_members P std bs fb.
    Proof.
      intros I. induction 1 as [|b bs l Hd Hb IH|b bs c l Hd Hv Hp Hb IH]; intros fb E.
      - cbn [base_fields] in E. injection E as <-. constructor.
      - specialize (IH _ E). exact (bm_cons (dmem_class Hd) Hd IH).
      - cbn [base_fields] in E. destruct (def (g_reg s) c) as [[| | | |sz fs| |]|] eqn:Ed; try discriminate. destruct (base_fields (g_reg s) l) as [rest| | |]; try discriminate. cbn [bind] in E. injection E as <-.
        destruct (comp_class I Ed Hd) as (cls & H1 & H2). assert (X : map (fun f : cfield => (fst f, bn_off b + offset_of (fst (fst f)) fs)%Z) fs = map (shift (bn_off b)) fs).
        { assert (ND := nohide H2). apply map_ext_in. intros f Hf. unfold shift. f_equal. rewrite Z.add_comm. f_equal. clear - ND Hf. induction fs as [|g fs IH]; [destruct Hf|]. cbn [map] in ND. apply NoDup_cons_iff in ND as [N1 N2]. cbn [offset_of].
          destruct Hf as [-> |Hf]; [destruct (str_dec _ _); [reflexivity|congruence]|]. destruct (str_dec (fst (fst g)) (fst (fst f))) as [Eq|_]; [|apply IH; assumption]. destruct N1. rewrite Eq. apply (in_map (fun f : cfield => fst (fst f))). assumption. }
        match goal with |- base_members _ _ _ ?a => change (base_members P std (b :: bs) (map (fun f : cfield => (fst f, bn_off b + offset_of (fst (fst f)) fs)%Z) fs ++ rest)) end. rewrite X. econstructor; eauto.
    Qed.
    Lemma bases_empty_ok st s : inv st s -> forall bs l, based bs l -> bases_empty (g_reg s) l = Ok true -> base_members P std bs [].
    Proof.
      intros I. induction 1 as [|b bs l Hd Hb IH|b bs c l Hd Hv Hp Hb IH]; intros E.
      - constructor.
      - exact (bm_cons (dmem_class Hd) Hd (IH E)).
      - cbn [bases_empty] in E. destruct (def (g_reg s) c) as [[| | | |sz [|f fs]| |]|] eqn:Ed; try discriminate. destruct (comp_class I Ed Hd) as (cls & H1 & H2). exact (bm_cons H1 H2 (IH E)).
    Qed.
    Definition field_good (r : areg) (f : field_n) (d : str * nm * Z) : Prop := fst (fst d) = fn_name f /\ snd d = (fn_off f / 8)%Z /\ good r (fn_type f) (snd (fst d)) /\ fn_public f = true.
    Lemma fields_loop_ok st : forall fs s l s', inv st s -> fields_loop rec s fs = Ok (l, s') ->
      moved st s s' /\ match l with None => exists f, In f fs /\ (lout (fn_type f) \/ fn_public f = false) | Some l => Forall2 (field_good (g_reg s')) fs l end.
    Proof.
      induction fs as [|f fs IH]; intros s l s' I E; cbn [fields_loop] in E.
      - injection E as <- <-. split; [apply moved_refl; assumption|constructor].
      - destruct (fn_public f) eqn:Ep; cbn [negb] in E; [|injection E as <- <-; split; [apply moved_refl; assumption|exists f; split; [left; reflexivity|auto]]].
        destruct (rec s (fn_type f)) as [[r s1]| | |] eqn:Er; try discriminate. cbn [bind] in E. destruct (Hrec I Er) as (I1 & M1 & N1 & Hr).
        assert (V1 : moved st s s1) by (split; [|split]; assumption).
        destruct r as [n|]; [|injection E as <- <-; split; [assumption|exists f; split; [left; reflexivity|auto]]].
        destruct (fields_loop rec s1 fs) as [[l2 s2]| | |] eqn:E2; try discriminate. cbn [bind] in E. injection E as <- <-. destruct (IH _ _ _ I1 E2) as (V2 & H). split; [eapply moved_trans; eauto|].
        destruct l2 as [l2|]; cbn [option_map]; [|destruct H as (f' & Hf & H); exists f'; split; [right; assumption|assumption]].
        constructor; [|assumption]. split; [reflexivity|]. split; [reflexivity|]. split; [|assumption]. eapply good_mono; [apply V2|]. assumption.
    Qed.
    Lemma built_fields_ok r : known r -> forall fs l, Forall2 (field_good r) fs l -> forall r' fo, built_fields P r l = Ok (r', fo) ->
      r' = r /\ Forall2 (fun f d => fst (fst d) = fn_name f /\ snd d = (fn_off f / 8)%Z /\ des (fn_type f) (snd (fst d)) /\ exists t, get r t = Some (snd (fst d))) fs fo.
    Proof.
      intros K. induction 1 as [|f d fs l (H1 & H2 & H3 & H4) Hl IH]; intros r' fo E; cbn [built_fields] in E.
      - injection E as <- <-. split; [reflexivity|constructor].
      - destruct d as [[n t] o]. cbn [fst snd] in *. destruct (get r t) as [c|] eqn:G.
        + rewrite (build_known G) in E. cbn [bind] in E. destruct (built_fields P r l) as [[r2 fs2]| | |] eqn:E2; try discriminate. cbn [bind] in E. injection E as <- <-. destruct (IH _ _ eq_refl) as [-> Hf]. split; [reflexivity|].
          constructor; [|assumption]. cbn [fst snd]. split; [assumption|]. split; [assumption|]. split; [eapply good_des; eauto|]. eauto.
        + destruct H3 as [(c & X & _)|(u & -> & _)]; [congruence|]. rewrite build_eq, G in E. discriminate.
    Qed.
    Lemma own_fields_ok r : forall ms fo, Forall2 (fun f d => fst (fst d) = fn_name f /\ snd d = (fn_off f / 8)%Z /\ des (fn_type f) (snd (fst d)) /\ exists t, get r t = Some (snd (fst d))) (concat (map (is_field P) ms)) fo ->
      own_fields P std ms fo.
    Proof.
      induction ms as [|m ms IH]; intros fo F; cbn [map concat] in F.
      - inversion F. constructor.
      - unfold is_field in F at 1. destruct (p_node P m) as [n|] eqn:En.
        + destruct n; try (cbn [app] in F; apply of_other; [congruence|apply IH; assumption]). cbn [app] in F. inversion F as [|x d ys l (H1 & H2 & H3 & _) Hl]; subst. destruct d as [[a b] o]. cbn [fst snd] in *. subst. apply of_field; auto.
        + cbn [app] in F. apply of_other; [congruence|apply IH; assumption].
    Qed.
    Lemma base_fields_reg r : reg_ok r -> forall l fb, base_fields r l = Ok fb -> Forall (fun f => def r (snd (fst f)) <> None) fb.
    Proof.
      intros O. induction l as [|[c o] l IH]; intros fb E; cbn [base_fields] in E.
      - injection E as <-. constructor.
      - destruct (def r c) as [[| | | |sz fs| |]|] eqn:Ed; try discriminate. destruct (base_fields r l) as [rest| | |]; try discriminate. cbn [bind] in E. injection E as <-. apply Forall_app. split; [|apply IH; reflexivity].
        apply Forall_map. assert (X := ro_comp O Ed). eapply Forall_impl; [|exact X]. intros f Hf. exact Hf.
    Qed.
    Lemma leave_named st i s t c : inv (i :: st) s -> names P i t -> get (g_reg s) (NBase t) = Some c -> inv st s.
    Proof.
      intros I Hn G. assert (Hd : des i c) by (eapply known_des; [apply (iv_from I)|eassumption|assumption]).
      destruct I as [A B C D E F H]. constructor; try assumption. intros j n Ej. destruct (E j n Ej) as [X|[X|[X1 (u & -> & X2)]]]; [auto|auto|]. destruct X1 as [<-|X1]; [|right; right; eauto].
      right. left. rewrite (names_fun X2 Hn). exists c. split; [assumption|]. split; [assumption|]. intros u' Hu. rewrite (names_fun Hu Hn). assumption.
    Qed.
    Lemma leave_out st i s : inv (i :: st) s -> lout i -> inv st (ignore s i).
    Proof.
      intros I L. destruct (inv_ignore I L) as [A B C D E F G]. constructor; try assumption. intros j n Ej. destruct (E j n Ej) as [X|[X|[X1 X2]]]; [auto|auto|]. destruct X1 as [<-|X1]; [left; apply inb_hd|auto].
    Qed.
    Lemma in_fields m f ms : In m ms -> p_node P m = Some (Fieldn f) -> In f (concat (map (is_field P) ms)).
    Proof. intros Hm E. apply in_concat. exists (is_field P m). split; [apply in_map; assumption|]. unfold is_field. rewrite E. left. reflexivity. Qed.
    Lemma fields_in f ms : In f (concat (map (is_field P) ms)) -> exists m, In m ms /\ p_node P m = Some (Fieldn f).
    Proof.
      intros H. apply in_concat in H as (l & Hl & Hf). apply in_map_iff in Hl as (m & <- & Hm). exists m. split; [assumption|]. unfold is_field in Hf. destruct (p_node P m) as [[]|]; cbn in Hf; try contradiction. destruct Hf as [-> |[]]. reflexivity.
    Qed.
    Lemma based_public bs l : based bs l -> forall b, In b bs -> dmem (bn_type b) [] \/ (bn_virtual b = false /\ bn_public b = true).
    Proof. induction 1 as [|b bs l Hd Hb IH|b bs c l Hd Hv Hp Hb IH]; intros b' Hi; [destruct Hi| |]; destruct Hi as [<-|Hi]; auto. Qed.
    Lemma resolve_class_ok st s i t bs inc ms sz r s' : inv (i :: st) s -> p_node P i = Some (Class t true bs inc ms sz) -> p_hidden P t = false ->
      resolve_class P rec s i (NBase t) bs inc ms sz = Ok (r, s') -> fine st s i r s'.
    Proof.
      intros I En Hh E. unfold resolve_class in E. assert (Hnm : names P i t) by (eexists; split; [exact En|reflexivity]).
      destruct (bases_loop rec s bs) as [[b s1]| | |] eqn:Eb; try discriminate. cbn [bind] in E. destruct (bases_loop_ok I Eb) as ((I1 & M1 & N1) & Hb).
      assert (Out : forall s2, inv (i :: st) s2 -> mono (g_reg s) (g_reg s2) -> (forall j, name_of (g_names s) j <> None -> name_of (g_names s2) j <> None) -> lout i -> fine st s i None (ignore s2 i)).
      { intros s2 I2 M2 N2 L. split; [apply leave_out; assumption|]. split; [exact M2|]. split; [exact N2|exact L]. }
      destruct b as [bl|]; [|injection E as <- <-; apply Out; try assumption; destruct Hb as (b & Hb & H); eapply lo_base; eauto].
      destruct inc; [injection E as <- <-; apply Out; try assumption; eapply lo_incomplete; eauto|].
      destruct (existsb (p_virtual P) ms) eqn:Ev; [injection E as <- <-; apply Out; try assumption; apply existsb_exists in Ev as (m & Hm & Ev); eapply lo_virtual; eauto|].
      destruct (match concat (map (is_field P) ms) with [] => bases_empty (g_reg s1) bl | _ :: _ => Ok false end) as [e| | |] eqn:Ee; try discriminate. cbn [bind] in E. destruct e.
      - destruct (concat (map (is_field P) ms)) as [|f0 fl0] eqn:Efl; [|discriminate]. assert (Hd : dmem i []).
        { change (@nil cfield) with (@nil cfield ++ []). econstructor; [exact En|eapply bases_empty_ok; eauto|]. apply (@own_fields_ok (g_reg s1)). rewrite Efl. constructor. }
        injection E as <- <-. apply (Out (set_empty s1 i)); try assumption; [apply inv_set_empty; assumption|apply lo_empty; assumption].
      - destruct (fields_loop rec s1 (concat (map (is_field P) ms))) as [[l s2]| | |] eqn:Ef; try discriminate. cbn [bind] in E. destruct (fields_loop_ok I1 Ef) as ((I2 & M2 & N2) & Hl).
        assert (M02 := mono_trans M1 M2). assert (N02 : forall j, name_of (g_names s) j <> None -> name_of (g_names s2) j <> None) by auto.
        destruct l as [defs|]; [|injection E as <- <-; apply Out; try assumption; destruct Hl as (f & Hf & H); apply fields_in in Hf as (m & Hm & Hf); eapply lo_field; eauto].
        unfold create_compound in E. destruct (base_fields (g_reg s2) bl) as [fb| | |] eqn:Efb; try discriminate. cbn [bind] in E. destruct (built_fields P (g_reg s2) defs) as [[r1 fo]| | |] eqn:Efo; try discriminate. cbn [bind] in E.
        destruct (built_fields_ok (iv_from I2) Hl Efo) as [-> Hfo].
        destruct (check_ints (sz / 8 :: map snd (fb ++ fo))%Z); try discriminate. cbn [bind] in E.
        destruct (add_type P (g_reg s2) (NBase t) (DComp (sz / 8) (fb ++ fo))) as [r3| | |] eqn:Ea; try discriminate. cbn [bind] in E. injection E as <- <-. apply add_type_spec in Ea as [G ->].
        assert (Bm : base_members P std bs fb) by (eapply base_fields_ok; eauto). assert (Om : own_fields P std ms fo) by (eapply own_fields_ok; eauto). assert (Dm : dmem i (fb ++ fo)) by (econstructor; eauto).
        assert (M3 := add_mono (DComp (sz / 8) (fb ++ fo)) G).
        assert (I3 : inv (i :: st) (set_reg s2 (add_def (g_reg s2) (NBase t) (DComp (sz / 8) (fb ++ fo))))).
        { apply inv_reg; [assumption| |assumption| |].
          - apply add_ok_; [apply (iv_reg I2)|assumption|]. split; [discriminate|]. split; [discriminate|]. intros sz' fs' X. injection X as <- <-. apply Forall_app. split; [eapply base_fields_reg; [apply (iv_reg I2)|eassumption]|].
            clear - Hfo I2. induction Hfo as [|f d fs l (_ & _ & _ & u & Gu) Hl IH]; constructor; [|assumption]. eapply get_def; [apply (iv_reg I2)|eassumption].
          - intros u c. rewrite get_add_base. destruct (nm_dec (NBase t) (NBase u)) as [X|_]; [|apply (iv_from I2)]. injection X as <-. intros X. injection X as <-. right. exists i. split; [assumption|eapply ds_class; exact En].
          - intros n d. rewrite def_add. destruct (nm_dec (NBase t) n) as [<-|_]; [|auto]. intros X. injection X as <-. right. exists i. left. exists bs, ms, sz, (fb ++ fo). split; [assumption|]. split; [reflexivity|]. split; [assumption|]. split; [assumption|]. split; [assumption|]. split.
            + intros m f Hm Hf. assert (Hin := in_fields Hm Hf). clear - Hl Hin. induction Hl as [|x d fs l (_ & _ & _ & Hp) Hl IH]; [destruct Hin|]. destruct Hin as [<-|Hin]; auto.
            + eapply based_public; eauto. }
        split; [|split; [|split; [exact N02|right; eauto]]].
        + eapply leave_named; [exact I3|exact Hnm|]. cbn [set_reg g_reg]. rewrite get_add_base. destruct (nm_dec (NBase t) (NBase t)); [reflexivity|congruence].
        + eapply mono_trans; eauto.
    Qed.
    Lemma known_same r r' : same_base r r' -> known r -> known r'.
    Proof. intros S K s c G. rewrite (proj1 (S s)) in G. auto. Qed.
    Lemma resolve_typedef_ok st s i t to r s' : inv (i :: st) s -> p_node P i = Some (Typedef t true to) ->
      resolve_typedef P rec s i (NBase t) to = Ok (r, s') -> fine st s i r s'.
    Proof.
      intros I En E. unfold resolve_typedef in E. assert (Hnm : names P i t) by (eexists; split; [exact En|reflexivity]).
      destruct (rec s to) as [[x s1]| | |] eqn:Er; try discriminate. cbn [bind] in E. destruct (Hrec I Er) as (I1 & M1 & N1 & Hx).
      destruct x as [n|]; [|injection E as <- <-; assert (L : lout i) by (eapply lo_typedef; eauto); split; [apply leave_out; assumption|split; [exact M1|split; [exact N1|exact L]]]].
      destruct (get (g_reg s1) n) as [c|] eqn:G; [|discriminate]. assert (Hd : des i c) by (eapply ds_typedef; [exact En|]; eapply good_des; [apply (iv_from I1)|eassumption|assumption]).
      assert (Gc := get_get (iv_reg I1) G).
      destruct (if nm_dec (NBase t) c then Ok (g_reg s1) else alias P (g_reg s1) (NBase t) c) as [r'| | |] eqn:Ea; try discriminate. cbn [bind] in E. injection E as <- <-.
      assert (X : reg_ok r' /\ mono (g_reg s1) r' /\ get r' (NBase t) = Some c /\ known r' /\ forall u d, def r' u = Some d -> def (g_reg s1) u = Some d).
      { destruct (nm_dec (NBase t) c) as [<-|_].
        - injection Ea as <-. split; [apply (iv_reg I1)|]. split; [apply mono_refl|]. split; [assumption|]. split; [apply (iv_from I1)|auto].
        - destruct (alias_spec (iv_reg I1) (n := NBase t) Coq.Init.Logic.I Ea) as (c' & G1 & O2 & M2 & G2 & H). rewrite Gc in G1. injection G1 as <-. split; [assumption|]. split; [assumption|]. split; [assumption|]. split.
          + destruct H as [-> |[Gn ->]]; [apply (iv_from I1)|]. intros u x. rewrite get_alias_base. destruct (nm_dec (NBase t) (NBase u)) as [X|_]; [|apply (iv_from I1)]. injection X as <-.
            intros X. right. exists i. split; [assumption|]. assert (x = c). { destruct (def (g_reg s1) (NBase t)) eqn:Ed; [|congruence]. rewrite get_eq, Ed in Gn. discriminate. } subst x. assumption.
          + destruct H as [-> |[Gn ->]]; auto. }
      destruct X as (O2 & M2 & G2 & K2 & D2). assert (I2 : inv (i :: st) (set_reg s1 r')) by (apply inv_reg; auto).
      split; [|split; [|split]].
      - apply inv_name; [eapply leave_named; [exact I2|exact Hnm|exact G2]|]. right. left. exists c. split; [cbn [set_reg g_reg]; apply M2; assumption|]. split; [assumption|]. intros u Hu. rewrite (names_fun Hu Hnm). exact G2.
      - cbn [set_name set_reg g_reg]. eapply mono_trans; eauto.
      - intros j Hj. cbn [set_name set_reg g_names name_of]. destruct (i =? j); [discriminate|auto].
      - right. eauto.
    Qed.
    Definition fine1 (st : list id) (s : gst) (i : id) (r : option nm) (s' : gst) : Prop := fine st s i r s' /\ (r = None \/ name_of (g_names s') i <> None).
    Lemma name_same i n s : name_of (g_names (set_name s i n)) i = Some n.
    Proof. cbn [set_name g_names name_of]. rewrite Nat.eqb_refl. reflexivity. Qed.
    Lemma names_kept s i n j : name_of (g_names s) j <> None -> name_of (g_names (set_name s i n)) j <> None.
    Proof. intros H. cbn [set_name g_names name_of]. destruct (i =? j); [discriminate|assumption]. Qed.
    Lemma get_known_fine st s i t c : inv st s -> names P i t -> get (g_reg s) (NBase t) = Some c -> fine st s i (Some c) (set_name s i c).
    Proof.
      intros I Hn G. assert (Hd : des i c) by (eapply known_des; [apply (iv_from I)|eassumption|assumption]). assert (Gc := get_get (iv_reg I) G).
      split; [|split; [apply mono_refl|split; [intros j; apply names_kept|left; eauto]]]. apply inv_name; [assumption|]. right. left. exists c. split; [assumption|]. split; [assumption|]. intros u Hu. rewrite (names_fun Hu Hn). assumption.
    Qed.
    Lemma resolve_node_new st s i nd r s' : inv st s -> p_node P i = Some nd -> name_of (g_names s) i = None -> resolve_node P rec s i nd = Ok (r, s') -> fine1 st s i r s'.
    Proof.
      intros I En Hno E. unfold resolve_node in E. rewrite Hno in E.
      assert (Decl : forall t, declares nd = Some t -> (forall to, nd <> Ptr to) -> (forall to m, nd <> Arr to m) -> (forall to a b, nd <> Cv to a b) ->
        match get (g_reg s) (NBase t) with
        | Some c => Ok (Some c, set_name s i c)
        | None =>
            if negb (is_typedef nd) && p_hidden P t then Ok (None, ignore s i)
            else
              let s1 := set_name s i (NBase t) in
              if negb (public_ nd) then Ok (None, ignore s1 i)
              else
                match nd with
                | Class _ _ bs inc ms size => resolve_class P rec s1 i (NBase t) bs inc ms size
                | Typedef _ _ to => resolve_typedef P rec s1 i (NBase t) to
                | Enumn _ _ vs => r <- create_enum P (g_reg s1) (NBase t) vs ;; Ok (Some (NBase t), set_reg s1 r)
                | _ => Ok (None, ignore s1 i)
                end
        end = Ok (r, s') -> fine1 st s i r s').
      { clear E. intros t Ed Np Na Nc E. assert (Hnm : names P i t) by (exists nd; auto). destruct (get (g_reg s) (NBase t)) as [c|] eqn:G.
        { injection E as <- <-. split; [eapply get_known_fine; eauto|right; rewrite name_same; discriminate]. }
        destruct (negb (is_typedef nd) && p_hidden P t) eqn:Eh.
        { injection E as <- <-. apply andb_prop in Eh as [Eh1 Eh2]. assert (L : lout i). { eapply lo_hidden; try eassumption. intros a b c ->. discriminate. }
          split; [|left; reflexivity]. split; [apply inv_ignore; assumption|]. split; [apply mono_refl|]. split; [auto|exact L]. }
        cbv zeta in E. assert (I1 : inv (i :: st) (set_name s i (NBase t))).
        { apply inv_name; [apply inv_weaken; assumption|]. right. right. split; [left; reflexivity|eauto]. }
        assert (Out : lout i -> fine1 st s i None (ignore (set_name s i (NBase t)) i)).
        { intros L. split; [|left; reflexivity]. split; [apply leave_out; assumption|]. split; [apply mono_refl|]. split; [intros j; apply names_kept|exact L]. }
        assert (Go : forall r s', fine st (set_name s i (NBase t)) i r s' -> fine1 st s i r s').
        { intros r0 s0 (F1 & F2 & F3 & F4). split; [split; [assumption|]; split; [exact F2|]; split; [|assumption]|].
          - intros j Hj. apply F3, names_kept, Hj.
          - right. apply F3. rewrite name_same. discriminate. }
        destruct (public_ nd) eqn:Ep; cbn [negb] in E.
        2:{ injection E as <- <-. apply Out. destruct nd; try discriminate; cbn [public_] in Ep; subst; [eapply lo_private_class|eapply lo_private_typedef|eapply lo_private_enum|eapply lo_other]; eauto. }
        destruct nd as [u|to|to m|to a b|u pub bs inc ms sz|f|u pub to|u pub vs| |u pub]; try discriminate; cbn [declares] in Ed; injection Ed as ->.
        - injection E as <- <-. apply Out. eapply lo_fund; [exact En|]. unfold std. destruct (get base (NBase t)) as [c|] eqn:Gb; [|reflexivity]. rewrite (proj1 (iv_base I) _ _ Gb) in G. discriminate.
        - cbn [public_] in Ep. subst pub. apply Go. eapply resolve_class_ok; eauto.
        - cbn [public_] in Ep. subst pub. apply Go. eapply resolve_typedef_ok; eauto.
        - cbn [public_] in Ep. subst pub. apply Go. unfold create_enum in E. destruct vs as [|v vs]; [discriminate|]. destruct (check_ints _); try discriminate. cbn [bind] in E. destruct (consistentb (v :: vs)); [|discriminate].
          destruct (add_type P (g_reg (set_name s i (NBase t))) (NBase t) (DEnum (v :: vs))) as [r3| | |] eqn:Ea; try discriminate. cbn [bind] in E. injection E as <- <-. apply add_type_spec in Ea as [G' ->].
          assert (M3 := add_mono (DEnum (v :: vs)) G'). split; [|split; [exact M3|split; [auto|right; eauto]]].
          eapply (@leave_named st i _ t (NBase t)); [|exact Hnm|cbn [set_reg g_reg]; rewrite get_add_base; destruct (nm_dec (NBase t) (NBase t)); [reflexivity|congruence]].
          apply inv_reg; [assumption| |exact M3| |].
          + apply add_ok_; [apply (iv_reg I1)|assumption|]. split; [discriminate|]. split; discriminate.
          + intros x c. rewrite get_add_base. destruct (nm_dec (NBase t) (NBase x)) as [X|_]; [|apply (iv_from I1)]. injection X as <-. intros X. injection X as <-. right. exists i. split; [assumption|eapply ds_enum; eauto].
          + intros x d. rewrite def_add. destruct (nm_dec (NBase t) x) as [<-|_]; [|auto]. intros X. injection X as <-. right. exists i. right. exists (v :: vs). split; [assumption|]. split; [reflexivity|exact Eh].
        - injection E as <- <-. apply Out. eapply lo_other; eauto. }
      assert (Ptrs : forall to n s1 N, moved st s s1 -> good (g_reg s1) to n -> (forall u, ~ names P i u) -> (forall c, get (g_reg s1) n = Some c -> forall r2, reg_ok r2 -> mono (g_reg s1) r2 -> get r2 N <> None -> exists x, get r2 N = Some x /\ des i x) ->
        (forall m, N = NPtrOf m -> m = n) -> True) by auto. clear Ptrs.
      destruct nd as [u|to|to m|to a b|u pub bs inc ms sz|f|u pub to|u pub vs| |u pub]; cbn [declares] in E, Decl.
      - apply (Decl u); try discriminate; auto.
      - clear Decl. assert (NoN : forall u, ~ names P i u) by (intros u (x & X1 & X2); rewrite En in X1; injection X1 as <-; discriminate).
        destruct (rec s to) as [[x s1]| | |] eqn:Er; try discriminate. cbn [bind] in E. destruct (Hrec I Er) as (I1 & M1 & N1 & Hx).
        destruct x as [n|]; [|injection E as <- <-; assert (L : lout i) by (eapply lo_ptr; eauto); split; [split; [apply inv_ignore; assumption|split; [exact M1|split; [exact N1|exact L]]]|left; reflexivity]].
        destruct (build P (g_reg s1) (NPtrOf n)) as [[r' c]| | |] eqn:Eb; try discriminate. cbn [bind] in E. injection E as <- <-. destruct (build_spec (iv_reg I1) Eb) as (O2 & M2 & G2 & S2 & D2).
        destruct (get_ptr_inv O2 G2) as (c1 & Gc & ->). assert (I2 : inv st (set_reg s1 r')).
        { apply inv_reg; [assumption|assumption|assumption|eapply known_same; [exact S2|apply (iv_from I1)]|]. intros y d Ey. destruct (D2 y d Ey) as [X|X]; [auto|]. right. destruct y; try contradiction; exact Coq.Init.Logic.I. }
        assert (Hd : des i (NPtrOf c1)). { eapply ds_ptr; [exact En|]. eapply good_des; [apply (iv_from I2)| |exact Gc]. eapply good_mono; eauto. }
        assert (Cp : complete r' i (NPtrOf n)) by (exists (NPtrOf c1); split; [assumption|]; split; [assumption|]; intros u Hu; destruct (NoN u Hu)).
        split; [|right; cbn [set_reg g_names]; rewrite name_same; discriminate]. split; [|split; [|split]].
        + apply (@inv_name st (set_reg s1 r') i (NPtrOf n)); [assumption|]. auto.
        + eapply mono_trans; eauto.
        + intros j Hj. apply (@names_kept s1). auto.
        + left. exists (NPtrOf c1). auto.
      - clear Decl. assert (NoN : forall u, ~ names P i u) by (intros u (x & X1 & X2); rewrite En in X1; injection X1 as <-; discriminate).
        destruct (rec s to) as [[x s1]| | |] eqn:Er; try discriminate. cbn [bind] in E. destruct (Hrec I Er) as (I1 & M1 & N1 & Hx).
        destruct x as [n|]; [|injection E as <- <-; assert (L : lout i) by (eapply lo_arr; eauto); split; [split; [apply inv_ignore; assumption|split; [exact M1|split; [exact N1|exact L]]]|left; reflexivity]].
        destruct m as [m|]; [|discriminate].
        destruct (build P (g_reg s1) (NArrOf n (m + 1))) as [[r' c]| | |] eqn:Eb; try discriminate. cbn [bind] in E. injection E as <- <-. destruct (build_spec (iv_reg I1) Eb) as (O2 & M2 & G2 & S2 & D2).
        destruct (get_arr_inv O2 G2) as (c1 & Gc & ->). assert (I2 : inv st (set_reg s1 r')).
        { apply inv_reg; [assumption|assumption|assumption|eapply known_same; [exact S2|apply (iv_from I1)]|]. intros y d Ey. destruct (D2 y d Ey) as [X|X]; [auto|]. right. destruct y; try contradiction; exact Coq.Init.Logic.I. }
        assert (Hd : des i (NArrOf c1 (m + 1))). { eapply ds_arr; [exact En|]. eapply good_des; [apply (iv_from I2)| |exact Gc]. eapply good_mono; eauto. }
        assert (Cp : complete r' i (NArrOf n (m + 1))) by (exists (NArrOf c1 (m + 1)); split; [assumption|]; split; [assumption|]; intros u Hu; destruct (NoN u Hu)).
        split; [|right; cbn [set_reg g_names]; rewrite name_same; discriminate]. split; [|split; [|split]].
        + apply (@inv_name st (set_reg s1 r') i (NArrOf n (m + 1))); [assumption|]. auto.
        + eapply mono_trans; eauto.
        + intros j Hj. apply (@names_kept s1). auto.
        + left. exists (NArrOf c1 (m + 1)). auto.
      - clear Decl. assert (NoN : forall u, ~ names P i u) by (intros u (x & X1 & X2); rewrite En in X1; injection X1 as <-; discriminate).
        destruct (rec s to) as [[x s1]| | |] eqn:Er; try discriminate. cbn [bind] in E. destruct (Hrec I Er) as (I1 & M1 & N1 & Hx).
        destruct x as [n|]; [|injection E as <- <-; assert (L : lout i) by (eapply lo_cv; eauto); split; [split; [assumption|split; [exact M1|split; [exact N1|exact L]]]|left; reflexivity]].
        destruct (alias P (g_reg s1) (NQual n a b) n) as [r'| | |] eqn:Ea; try discriminate. cbn [bind] in E. injection E as <- <-. destruct (alias_spec (iv_reg I1) (n := NQual n a b) Coq.Init.Logic.I Ea) as (c & G1 & O2 & M2 & G2 & H).
        assert (I2 : inv st (set_reg s1 r')).
        { apply inv_reg; [assumption|assumption|assumption| |].
          - destruct H as [-> |[_ ->]]; [apply (iv_from I1)|]. intros u c'. rewrite get_alias_base. destruct (nm_dec (NQual n a b) (NBase u)); [discriminate|apply (iv_from I1)].
          - destruct H as [-> |[_ ->]]; auto. }
        assert (Hd : des i c). { eapply ds_cv; [exact En|]. eapply good_des; [apply (iv_from I1)|exact Hx|exact G1]. }
        assert (Cp : complete r' i (NQual n a b)) by (exists c; split; [assumption|]; split; [assumption|]; intros u Hu; destruct (NoN u Hu)).
        split; [|right; cbn [set_reg g_names]; rewrite name_same; discriminate]. split; [|split; [|split]].
        + apply (@inv_name st (set_reg s1 r') i (NQual n a b)); [assumption|]. auto.
        + eapply mono_trans; eauto.
        + intros j Hj. apply (@names_kept s1). auto.
        + left. exists c. split; [apply M2; assumption|assumption].
      - apply (Decl u); try discriminate; auto.
      - injection E as <- <-. split; [|left; reflexivity]. split; [assumption|]. split; [apply mono_refl|]. split; [auto|]. eapply lo_unnamed; [exact En|reflexivity|discriminate..].
      - apply (Decl u); try discriminate; auto.
      - apply (Decl u); try discriminate; auto.
      - injection E as <- <-. split; [|left; reflexivity]. split; [assumption|]. split; [apply mono_refl|]. split; [auto|]. eapply lo_unnamed; [exact En|reflexivity|discriminate..].
      - apply (Decl u); try discriminate; auto.
    Qed.
  End Rec.
  Lemma resolve_id_ok : forall fuel, rec_ok (resolve_id P fuel).
  Proof.
    induction fuel as [|fuel IH]; intros st s i r s' I E; cbn [resolve_id] in E; [discriminate|].
    assert (Same : forall r, match r with None => lout i | Some n => good (g_reg s) i n end -> fine st s i r s). { intros r0 H. split; [assumption|]. split; [apply mono_refl|]. auto. }
    destruct (inb i (g_ign s)) eqn:Ei; [injection E as <- <-; apply Same, (iv_ign I Ei)|].
    destruct (name_of (g_names s) i) as [n|] eqn:En.
    - injection E as <- <-. split; [assumption|]. split; [apply mono_refl|]. split; [auto|].
      destruct (iv_names I En) as [H|[(c & H1 & H2 & _)|(_ & t & -> & H)]]; [congruence|left; eauto|right; eauto].
    - destruct (p_node P i) as [nd|] eqn:Ep; [|injection E as <- <-; apply Same, lo_missing; assumption].
      apply (resolve_node_new IH I Ep En E).
  Qed.

  (** ** load *)
  Lemma inv_start : inv [] (GS base [] [] []).
  Proof.
    constructor; cbn [g_reg g_names g_ign g_empty name_of]; try discriminate; auto.
    - apply mono_refl.
    - intros s c G. left. exact G.
  Qed.
  Lemma load_nodes_ok fuel : forall l s s', inv [] s -> load_nodes P fuel s l = Ok s' ->
    moved [] s s' /\ forall i, In i l -> lout i \/ name_of (g_names s') i <> None.
  Proof.
    induction l as [|i l IH]; intros s s' I E; cbn [load_nodes] in E.
    - injection E as <-. split; [apply moved_refl; assumption|intros i []].
    - destruct (p_node P i) as [nd|] eqn:En.
      + destruct (resolve_node P (resolve_id P fuel) s i nd) as [[r s1]| | |] eqn:Er; try discriminate. cbn [bind] in E.
        assert (X : moved [] s s1 /\ (lout i \/ name_of (g_names s1) i <> None)).
        { destruct (name_of (g_names s) i) as [n|] eqn:Hn.
          - unfold resolve_node in Er. rewrite Hn in Er. injection Er as <- <-. split; [apply moved_refl; assumption|]. right. congruence.
          - destruct (resolve_node_new (@resolve_id_ok fuel) I En Hn Er) as ((I1 & M1 & N1 & H) & H2). split; [split; [|split]; assumption|]. destruct H2 as [-> |H2]; auto. }
        destruct X as [V1 H1]. destruct (IH _ _ (proj1 V1) E) as [V2 H2]. split; [eapply moved_trans; eauto|]. intros j [<-|Hj]; [|auto]. destruct H1 as [H1|H1]; [auto|]. right. apply V2. assumption.
      + destruct (IH _ _ I E) as [V2 H2]. split; [assumption|]. intros j [<-|Hj]; [|auto]. left. apply lo_missing. assumption.
  Qed.
  Lemma load_ok fuel types typedefs s : load P fuel base types typedefs = Ok s ->
    inv [] s /\ forall i, In i (types ++ typedefs) -> lout i \/ exists n, complete (g_reg s) i n.
  Proof.
    intros E. destruct (load_nodes_ok inv_start E) as [(I & M & N) H]. split; [assumption|]. intros i Hi. destruct (H i Hi) as [L|Hn]; [auto|]. destruct (name_of (g_names s) i) as [n|] eqn:En; [|congruence].
    destruct (iv_names I En) as [X|[X|[[] _]]]; [left; eapply iv_ign; eauto|eauto].
  Qed.

  (** ** Termination *)
  Variable ids : list id.
  Variable h : id -> nat.
  Variable H : nat.
  Hypothesis ids_all : forall i, p_node P i <> None -> In i ids.
  Hypothesis h_le : forall i, h i <= H.
  Hypothesis h_ptr : forall i to, p_node P i = Some (Ptr to) -> h to < h i.
  Hypothesis h_arr : forall i to m, p_node P i = Some (Arr to m) -> h to < h i.
  Hypothesis h_cv : forall i to a b, p_node P i = Some (Cv to a b) -> h to < h i.
  Definition unnamed (s : gst) : nat := length (filter (fun i => match name_of (g_names s) i with None => true | Some _ => false end) ids).
  Definition need (s : gst) (i : id) : nat := unnamed s * (H + 2) + h i.
  Lemma filter_le {A} (f g : A -> bool) l : (forall x, f x = true -> g x = true) -> length (filter f l) <= length (filter g l).
  Proof. intros X. induction l as [|a l IH]; [cbn; lia|]. cbn [filter]. destruct (f a) eqn:Fa; [rewrite (X _ Fa); cbn [length]; lia|]. destruct (g a); cbn [length]; lia. Qed.
  Lemma filter_lt {A} (f g : A -> bool) l i : (forall x, f x = true -> g x = true) -> In i l -> f i = false -> g i = true -> length (filter f l) < length (filter g l).
  Proof.
    intros X. induction l as [|a l IH]; [intros []|]. intros Hi Fi Gi. cbn [filter]. destruct Hi as [-> |Hi].
    - rewrite Fi, Gi. cbn [length]. assert (Y := @filter_le _ f g l X). lia.
    - specialize (IH Hi Fi Gi). destruct (f a) eqn:Fa; [rewrite (X _ Fa); cbn [length]; lia|]. destruct (g a); cbn [length]; lia.
  Qed.
  Lemma unnamed_le s s' : (forall j, name_of (g_names s) j <> None -> name_of (g_names s') j <> None) -> unnamed s' <= unnamed s.
  Proof. intros X. apply filter_le. intros i Hi. destruct (name_of (g_names s) i) eqn:E; [|reflexivity]. destruct (name_of (g_names s') i) eqn:E'; [discriminate|]. destruct (X i); congruence. Qed.
  Lemma unnamed_lt s i n : In i ids -> name_of (g_names s) i = None -> unnamed (set_name s i n) < unnamed s.
  Proof.
    intros Hi Hn. apply filter_lt with (i := i); [|assumption|rewrite name_same; reflexivity|rewrite Hn; reflexivity].
    intros j Hj. destruct (name_of (g_names s) j) eqn:E; [|reflexivity]. assert (X := @names_kept s i n j). destruct (name_of (g_names (set_name s i n)) j); [discriminate|]. destruct X; congruence.
  Qed.
  Definition settles (rec : gst -> id -> res (option nm * gst)) (k : nat) : Prop := forall st s i, inv st s -> need s i < k -> rec s i <> Fuel.
  Section Settle.
    Variable rec : gst -> id -> res (option nm * gst).
    Variable k : nat.
    Hypothesis Hrec : rec_ok rec.
    Hypothesis Hset : settles rec k.
    Lemma bases_loop_settles st : forall bs s, inv st s -> unnamed s * (H + 2) + H < k -> bases_loop rec s bs <> Fuel.
    Proof.
      induction bs as [|b bs IH]; intros s I Hk; cbn [bases_loop]; [discriminate|]. destruct (rec s (bn_type b)) as [[r s1]| | |] eqn:Er; cbn [bind]; try discriminate.
      - destruct (Hrec I Er) as (I1 & _ & N1 & _). assert (U := unnamed_le N1). assert (R : bases_loop rec s1 bs <> Fuel) by (apply IH; [assumption|nia]).
        destruct (inb (bn_type b) (g_empty s1)); [assumption|]. destruct r as [n|]; [|discriminate]. destruct (get (g_reg s1) n); [|discriminate]. destruct (bn_virtual b); [discriminate|]. destruct (negb (bn_public b)); [discriminate|].
        destruct (bases_loop rec s1 bs) as [[l s2]| | |]; cbn [bind]; try discriminate. congruence.
      - destruct (Hset (i := bn_type b) I); [|assumption]. unfold need. assert (X := h_le (bn_type b)). lia.
    Qed.
    Lemma fields_loop_settles st : forall fs s, inv st s -> unnamed s * (H + 2) + H < k -> fields_loop rec s fs <> Fuel.
    Proof.
      induction fs as [|f fs IH]; intros s I Hk; cbn [fields_loop]; [discriminate|]. destruct (negb (fn_public f)); [discriminate|]. destruct (rec s (fn_type f)) as [[r s1]| | |] eqn:Er; cbn [bind]; try discriminate.
      - destruct (Hrec I Er) as (I1 & _ & N1 & _). assert (U := unnamed_le N1). assert (R : fields_loop rec s1 fs <> Fuel) by (apply IH; [assumption|nia]).
        destruct r as [n|]; [|discriminate]. destruct (fields_loop rec s1 fs) as [[l s2]| | |]; cbn [bind]; try discriminate. congruence.
      - destruct (Hset (i := fn_type f) I); [|assumption]. unfold need. assert (X := h_le (fn_type f)). lia.
    Qed.
    Lemma add_type_settles r n d : add_type P r n d <> Fuel.
    Proof. unfold add_type. destruct (p_valid P n); [|discriminate]. destruct (get r n); discriminate. Qed.
    Lemma build_settles r : forall n, build P r n <> Fuel.
    Proof.
      induction n as [s|m IH|m IH x|m IH a b]; rewrite build_eq; destruct (get r _); try discriminate; destruct (build P r m) as [[r1 c]| | |]; cbn [bind]; try discriminate; try congruence.
      - destruct (def r1 (NPtrOf c)); [discriminate|]. assert (X := @add_type_settles r1 (NPtrOf c) (DPtr c)). destruct (add_type P r1 (NPtrOf c) (DPtr c)); cbn [bind]; try discriminate. congruence.
      - destruct (def r1 (NArrOf c x)); [discriminate|]. assert (X := @add_type_settles r1 (NArrOf c x) (DArr c x)). destruct (add_type P r1 (NArrOf c x) (DArr c x)); cbn [bind]; try discriminate. congruence.
    Qed.
    Lemma alias_settles r n b : alias P r n b <> Fuel.
    Proof. unfold alias. destruct (get r b); [|discriminate]. destruct (get r n); [destruct (nm_dec _ _); discriminate|]. destruct (p_valid P n); discriminate. Qed.
    Lemma check_settles l : check_ints l <> Fuel.
    Proof. unfold check_ints. destruct (forallb in_int l); discriminate. Qed.
    Lemma base_fields_settles r : forall l, base_fields r l <> Fuel.
    Proof. induction l as [|[c o] l IH]; cbn [base_fields]; [discriminate|]. destruct (def r c) as [[| | | |sz fs| |]|]; try discriminate. destruct (base_fields r l); cbn [bind]; try discriminate. congruence. Qed.
    Lemma bases_empty_settles r : forall l, bases_empty r l <> Fuel.
    Proof. induction l as [|[c o] l IH]; cbn [bases_empty]; [discriminate|]. destruct (def r c) as [[| | | |sz [|]| |]|]; try discriminate. assumption. Qed.
    Lemma built_fields_settles : forall l r, built_fields P r l <> Fuel.
    Proof.
      induction l as [|[[n t] o] l IH]; intros r; cbn [built_fields]; [discriminate|]. assert (X := @build_settles r t). destruct (build P r t) as [[r1 c]| | |]; cbn [bind]; try discriminate; [|congruence]. specialize (IH r1).
      destruct (built_fields P r1 l) as [[r2 fs]| | |]; cbn [bind]; try discriminate. congruence.
    Qed.
    Lemma resolve_node_settles st s i nd : inv st s -> p_node P i = Some nd -> need s i < S k -> resolve_node P rec s i nd <> Fuel.
    Proof.
      intros I En Hk. unfold resolve_node. destruct (name_of (g_names s) i) eqn:Hn; [discriminate|].
      assert (Hi : In i ids) by (apply ids_all; congruence).
      assert (Ind : forall to, h to < h i -> rec s to <> Fuel) by (intros to Ht; apply (Hset I); unfold need in *; lia).
      assert (Named : forall t, names P i t -> inv (i :: st) (set_name s i (NBase t)) /\ unnamed (set_name s i (NBase t)) * (H + 2) + H < k).
      { intros t Ht. split; [apply inv_name; [apply inv_weaken; assumption|]; right; right; split; [left; reflexivity|eauto]|]. assert (U := @unnamed_lt s i (NBase t) Hi Hn). unfold need in Hk. nia. }
      assert (Decl : forall t, declares nd = Some t ->
        match get (g_reg s) (NBase t) with
        | Some c => Ok (Some c, set_name s i c)
        | None =>
            if negb (is_typedef nd) && p_hidden P t then Ok (None, ignore s i)
            else
              let s1 := set_name s i (NBase t) in
              if negb (public_ nd) then Ok (None, ignore s1 i)
              else
                match nd with
                | Class _ _ bs inc ms size => resolve_class P rec s1 i (NBase t) bs inc ms size
                | Typedef _ _ to => resolve_typedef P rec s1 i (NBase t) to
                | Enumn _ _ vs => r <- create_enum P (g_reg s1) (NBase t) vs ;; Ok (Some (NBase t), set_reg s1 r)
                | _ => Ok (None, ignore s1 i)
                end
        end <> Fuel).
      { intros t Ed. destruct (Named t) as [I1 K1]; [exists nd; auto|]. set (s1 := set_name s i (NBase t)) in *. destruct (get (g_reg s) (NBase t)); [discriminate|]. destruct (negb (is_typedef nd) && p_hidden P t); [discriminate|]. cbv zeta. destruct (negb (public_ nd)); [discriminate|].
        destruct nd as [u|to|to m|to a b|u pub bs inc ms sz|f|u pub to|u pub vs| |u pub]; try discriminate.
        - unfold resolve_class. assert (X := @bases_loop_settles (i :: st) bs s1 I1 K1). destruct (bases_loop rec s1 bs) as [[b s2]| | |] eqn:Eb; cbn [bind]; try discriminate; [|congruence]. destruct (bases_loop_ok Hrec I1 Eb) as ((I2 & M2 & N2) & _).
          destruct b as [bl|]; [|discriminate]. destruct inc; [discriminate|]. destruct (existsb (p_virtual P) ms); [discriminate|].
          assert (Y : match concat (map (is_field P) ms) with [] => bases_empty (g_reg s2) bl | _ :: _ => Ok false end <> Fuel) by (destruct (concat _); [apply bases_empty_settles|discriminate]).
          destruct (match concat (map (is_field P) ms) with [] => bases_empty (g_reg s2) bl | _ :: _ => Ok false end) as [e| | |]; cbn [bind]; try discriminate; [|congruence]. destruct e; [discriminate|].
          assert (U := unnamed_le N2). assert (F := @fields_loop_settles (i :: st) (concat (map (is_field P) ms)) s2 I2 ltac:(nia)). destruct (fields_loop rec s2 (concat (map (is_field P) ms))) as [[l s3]| | |]; cbn [bind]; try discriminate; [|congruence].
          destruct l as [defs|]; [|discriminate]. unfold create_compound. assert (B := @base_fields_settles (g_reg s3) bl). destruct (base_fields (g_reg s3) bl) as [fb| | |]; cbn [bind]; try discriminate; [|congruence].
          assert (C := @built_fields_settles defs (g_reg s3)). destruct (built_fields P (g_reg s3) defs) as [[r1 fo]| | |]; cbn [bind]; try discriminate; [|congruence].
          assert (Q := @check_settles (sz / 8 :: map snd (fb ++ fo))%Z). destruct (check_ints _) as [[]| | |]; cbn [bind]; try discriminate; [|congruence].
          assert (R := @add_type_settles r1 (NBase t) (DComp (sz / 8) (fb ++ fo))). destruct (add_type P r1 (NBase t) (DComp (sz / 8) (fb ++ fo))); cbn [bind]; try discriminate. congruence.
        - unfold resolve_typedef. assert (X : rec s1 to <> Fuel) by (apply (Hset I1); unfold need; assert (Z := h_le to); lia). destruct (rec s1 to) as [[r s2]| | |]; cbn [bind]; try discriminate; [|congruence]. destruct r as [n|]; [|discriminate]. destruct (get (g_reg s2) n) as [c|]; [|discriminate].
          destruct (nm_dec (NBase t) c); cbn [bind]; [discriminate|]. assert (Y := @alias_settles (g_reg s2) (NBase t) c). destruct (alias P (g_reg s2) (NBase t) c); cbn [bind]; try discriminate. congruence.
        - unfold create_enum. destruct vs as [|v vs]; [discriminate|]. assert (Q := @check_settles (map snd (v :: vs))). destruct (check_ints _) as [[]| | |]; cbn [bind]; try discriminate; [|congruence]. destruct (consistentb (v :: vs)); [|discriminate].
          assert (R := @add_type_settles (g_reg s1) (NBase t) (DEnum (v :: vs))). destruct (add_type P (g_reg s1) (NBase t) (DEnum (v :: vs))); cbn [bind]; try discriminate. congruence. }
      destruct nd as [u|to|to m|to a b|u pub bs inc ms sz|f|u pub to|u pub vs| |u pub]; cbn [declares] in *; try discriminate; try (exact (Decl u eq_refl)).
      - specialize (Ind to (h_ptr En)). destruct (rec s to) as [[r s1]| | |]; cbn [bind]; try discriminate; [|congruence]. destruct r as [n|]; [|discriminate]. assert (X := @build_settles (g_reg s1) (NPtrOf n)). destruct (build P (g_reg s1) (NPtrOf n)) as [[r' c]| | |]; cbn [bind]; try discriminate. congruence.
      - specialize (Ind to (h_arr En)). destruct (rec s to) as [[r s1]| | |]; cbn [bind]; try discriminate; [|congruence]. destruct r as [n|]; [|discriminate]. destruct m as [m|]; [|discriminate]. assert (X := @build_settles (g_reg s1) (NArrOf n (m + 1))). destruct (build P (g_reg s1) (NArrOf n (m + 1))) as [[r' c]| | |]; cbn [bind]; try discriminate. congruence.
      - specialize (Ind to (h_cv En)). destruct (rec s to) as [[r s1]| | |]; cbn [bind]; try discriminate; [|congruence]. destruct r as [n|]; [|discriminate]. assert (X := @alias_settles (g_reg s1) (NQual n a b) n). destruct (alias P (g_reg s1) (NQual n a b) n); cbn [bind]; try discriminate. congruence.
    Qed.
  End Settle.
  Lemma resolve_id_settles : forall k, settles (resolve_id P k) k.
  Proof.
    induction k as [|k IH]; intros st s i I Hk; [lia|]. cbn [resolve_id]. destruct (inb i (g_ign s)); [discriminate|]. destruct (name_of (g_names s) i); [discriminate|]. destruct (p_node P i) as [nd|] eqn:En; [|discriminate].
    eapply resolve_node_settles; eauto. apply resolve_id_ok.
  Qed.
  Lemma load_settles fuel types typedefs : length ids * (H + 2) + H < fuel -> load P fuel base types typedefs <> Fuel.
  Proof.
    intros Hf. unfold load. generalize (types ++ typedefs). intros l. assert (X : forall l s, inv [] s -> unnamed s <= length ids -> load_nodes P fuel s l <> Fuel).
    { clear l. induction l as [|i l IH]; intros s I U; cbn [load_nodes]; [discriminate|]. destruct (p_node P i) as [nd|] eqn:En; [|apply IH; assumption].
      assert (R : resolve_node P (resolve_id P fuel) s i nd <> Fuel). { eapply resolve_node_settles; [apply resolve_id_ok|apply resolve_id_settles|eassumption|assumption|]. unfold need. assert (Z := h_le i). nia. }
      destruct (resolve_node P (resolve_id P fuel) s i nd) as [[r s1]| | |] eqn:Er; cbn [bind]; try discriminate; [|congruence].
      assert (V : moved [] s s1).
      { destruct (name_of (g_names s) i) as [n|] eqn:Hn.
        - unfold resolve_node in Er. rewrite Hn in Er. injection Er as <- <-. apply moved_refl; assumption.
        - destruct (resolve_node_new (@resolve_id_ok fuel) I En Hn Er) as ((I1 & M1 & N1 & _) & _). split; [|split]; assumption. }
      apply IH; [apply V|]. assert (Y := unnamed_le (proj2 (proj2 V))). lia. }
    apply X; [apply inv_start|]. unfold unnamed. cbn [g_names name_of]. clear. induction ids as [|a l IH]; cbn [filter length]; lia.
  Qed.
End Proofs.
