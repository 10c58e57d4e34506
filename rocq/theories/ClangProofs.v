(** * ClangProofs *)
From Verif Require Import Base Types TypeObj GccxmlSpec Gccxml GccxmlProofs ClangSpec Clang.
From Coq Require Import Permutation.
Local Open Scope nat_scope.

Section Proofs.
  Variable P : cprog.
  Variable base : areg.
  Let std := fun s => get base (NBase s).
  Hypothesis base_ok : reg_ok base.
  Hypothesis base_plain : forall n sz fs, def base n <> Some (DComp sz fs).
  Hypothesis wn : well_named P std.
  Hypothesis cl : closed P.
  Notation den := (denotes P std).
  Notation sta := (stands P std).
  Notation excl := (excluded P std).
  Notation GP := (cp_names P).

  (** ** Sugar *)
  Lemma cname_canon t : cname P (canon t) = cname P t.
  Proof. induction t; cbn [canon cname]; congruence. Qed.
  Lemma canon_idem t : canon (canon t) = canon t.
  Proof. induction t; cbn [canon]; congruence. Qed.
  Lemma excl_canon t : excl (canon t) -> excl t.
  Proof.
    induction t as [s k b|i|e|u IH n|s u IH|u IH|u IH|s|s]; cbn [canon]; intros H; try exact H.
    - inversion H as [| | | |x y Hx|x y v m Hx| | | | | | | |]; subst; [apply ex_arr; auto|]. rewrite canon_idem in Hx. eapply ex_arr_arr; eauto.
    - apply ex_typedef. auto.
    - apply ex_elab. auto.
    - apply ex_ptr.
  Qed.
  Lemma indirect_excl t : is_indirect t = true -> excl t.
  Proof. intros H. apply excl_canon. unfold is_indirect in H. destruct (canon t); try discriminate; constructor. Qed.

  (** ** The specification is functional *)
  Lemma stands_fun n c c' : sta n c -> sta n c' -> c = c'.
  Proof.
    intros H. revert c'. induction H as [s c Hd|n c k Hs IH|n c Hs IH]; intros c' H'; inversion H'; subst.
    - eapply wn_denotes; eauto.
    - f_equal. auto.
    - f_equal. auto.
  Qed.

  (** ** The invariant *)
  (** What the importer gives a class: its members, then those of its bases, at the offsets within each class. *)
  Definition fit (f : fieldd) : Prop := cf_access f <> Priv /\ cf_anon f = false /\ (cf_bits f mod 8 = 0)%N.
  Inductive imembers : nat -> list cfield -> Prop :=
  | im_class i fo fb : (forall f, In f (rd_fields (c_record P i)) -> fit f) -> Forall2 (own_field P std) (rd_fields (c_record P i)) fo -> ibase_members (rd_bases (c_record P i)) fb -> imembers i (fo ++ fb)
  with ibase_members : list cbase -> list cfield -> Prop :=
  | ib_nil : ibase_members [] []
  | ib_cons b bs j fs r : as_record (cb_type b) = Some j -> imembers j fs -> ibase_members bs r -> ibase_members (b :: bs) (fs ++ r).
  Scheme im_ind := Minimality for imembers Sort Prop with ib_ind := Minimality for ibase_members Sort Prop.
  Combined Scheme imb_ind from im_ind, ib_ind.
  Definition zero_bases : Prop := forall i b, In b (rd_bases (c_record P i)) -> cb_off b = 0%N.
  Lemma members_agree : (forall i l, imembers i l -> exists fs, cmembers P std i fs /\ Permutation (map fst l) (map fst fs) /\ (zero_bases -> Permutation l fs)) /\
    (forall bs l, ibase_members bs l -> exists fs, cbase_members P std bs fs /\ Permutation (map fst l) (map fst fs) /\ ((forall b, In b bs -> cb_off b = 0%N) -> zero_bases -> Permutation l fs)).
  Proof.
    apply imb_ind.
    - intros i fo fb _ Ho _ (fs & H1 & H2 & H3). exists (fs ++ fo). split; [constructor; assumption|]. split.
      + rewrite !map_app. rewrite Permutation_app_comm. apply Permutation_app; [assumption|reflexivity].
      + intros Z. rewrite Permutation_app_comm. apply Permutation_app; [|reflexivity]. apply H3; [|assumption]. intros b Hb. eapply Z; eauto.
    - exists []. split; [constructor|]. split; [constructor|]. intros _ _. constructor.
    - intros b bs j fs r Hj _ (x & X1 & X2 & X3) _ (y & Y1 & Y2 & Y3). exists (map (shift (Z.of_N (cb_off b))) x ++ y). split; [econstructor; eauto|]. split.
      + rewrite !map_app. apply Permutation_app; [|assumption]. rewrite map_map. cbn [shift fst]. exact X2.
      + intros Hb Z. rewrite (Hb b) by (left; reflexivity). apply Permutation_app; [|apply Y3; [intros b' Hb'; apply Hb; right; assumption|assumption]].
        replace (map (shift (Z.of_N 0)) x) with x; [auto|]. symmetry. transitivity (map (fun f : cfield => f) x); [|apply map_id]. apply map_ext. intros [f o]. unfold shift. cbn [fst snd Z.of_N]. rewrite Z.add_0_r. reflexivity.
  Qed.
  Definition public_like (i : nat) : Prop :=
    (forall f, In f (rd_fields (c_record P i)) -> fit f) /\ (forall b, In b (rd_bases (c_record P i)) -> cb_access b <> Priv).
  Definition describes (a : source) (d : tdef) : Prop :=
    match a with
    | SRecord i => exists fs, d = DComp (rd_size (c_record P i)) fs /\ imembers i fs /\ fs <> [] /\ public_like i /\ rd_poly (c_record P i) = false /\ rd_defined (c_record P i) = true /\ rd_named (c_record P i) = true /\ rd_bad (c_record P i) = false
    | SEnum e => d = DEnum (map (fun p => (fst p, to_int (snd p))) (en_values (c_enum P e))) /\ en_access (c_enum P e) <> Priv
    | SNum bits => d = DNum (bits / 8)
    | SCont c => d = DCont c
    end.
  Record inv (r : areg) : Prop := {
    iv_reg : reg_ok r;
    iv_base : mono base r;
    iv_from : forall s c, get r (NBase s) = Some c -> den s c;
    iv_defs : forall n d, def r n = Some d -> def base n = Some d \/ match n with NArrOf _ _ => True | NBase s => exists a, defines P std s a /\ describes a d | _ => False end
  }.
  Lemma inv_start : inv base.
  Proof. constructor; auto; [apply mono_refl|]. intros s c G. apply dn_std. exact G. Qed.
  Lemma std_none r s : inv r -> get r (NBase s) = None -> std s = None.
  Proof. intros I G. unfold std. destruct (get base (NBase s)) as [c|] eqn:E; [|reflexivity]. rewrite (proj1 (iv_base I) _ _ E) in G. discriminate. Qed.
  Lemma std_some r s c : inv r -> std s = Some c -> get r (NBase s) = Some c.
  Proof. intros I G. apply (proj1 (iv_base I)). exact G. Qed.
  Fixpoint plain (n : nm) : Prop := match n with NBase _ => True | NPtrOf m | NArrOf m _ => plain m | NQual _ _ _ => False end.
  Lemma cname_plain t : plain (cname P t).
  Proof. induction t as [| | |u IH n| | | | |]; cbn [cname plain]; auto. induction (cname P u); cbn [of_array plain] in *; auto. Qed.
  Lemma cname_flat t n : (forall v m, canon t <> CArray v m) -> cname P (CArray t n) = NArrOf (cname P t) n.
  Proof.
    intros H. cbn [cname]. assert (X : match cname P t with NArrOf _ _ => False | _ => True end); [|destruct (cname P t); [reflexivity|reflexivity|destruct X|reflexivity]].
    induction t as [| | |u IH k|s u IH|u IH|u IH| |]; cbn [cname canon] in *; try exact I; try exact (IH H). destruct (H _ _ eq_refl).
  Qed.
  Lemma get_stands r n c : inv r -> plain n -> get r n = Some c -> sta n c.
  Proof.
    intros I. revert c. induction n as [s|m IH|m IH k|m IH a b]; intros c Hp G; cbn [plain] in Hp.
    - apply st_base, (iv_from I G).
    - destruct (get_ptr_inv (iv_reg I) G) as (c' & G' & ->). apply st_ptr. auto.
    - destruct (get_arr_inv (iv_reg I) G) as (c' & G' & ->). apply st_arr. auto.
    - destruct Hp.
  Qed.
  (** Steps *)
  Lemma inv_add r s d a : inv r -> get r (NBase s) = None -> den s (NBase s) -> defines P std s a -> describes a d -> closed_def r (NBase s) d -> inv (add_def r (NBase s) d).
  Proof.
    intros I G Hd Df Ds C. constructor.
    - apply add_ok_; [apply (iv_reg I)|assumption|assumption].
    - eapply mono_trans; [apply (iv_base I)|apply add_mono; assumption].
    - intros t c. rewrite get_add_base. destruct (nm_dec (NBase s) (NBase t)) as [X|_]; [|apply (iv_from I)]. injection X as <-. intros X. injection X as <-. assumption.
    - intros n e. rewrite def_add. destruct (nm_dec (NBase s) n) as [<-|_]; [|apply (iv_defs I)]. intros X. injection X as <-. right. eauto.
  Qed.
  Lemma inv_alias r s b c r' : inv r -> alias GP r (NBase s) b = Ok r' -> get r b = Some c -> den s c -> inv r' /\ mono r r' /\ get r' (NBase s) = Some c.
  Proof.
    intros I E G Hd. destruct (alias_spec (iv_reg I) (n := NBase s) Coq.Init.Logic.I E) as (c' & G1 & O2 & M2 & G2 & H). rewrite G in G1. injection G1 as <-. split; [|split; assumption].
    constructor; [assumption|eapply mono_trans; [apply (iv_base I)|assumption]| |].
    - destruct H as [-> |[Gn ->]]; [apply (iv_from I)|]. intros t x. rewrite get_alias_base. destruct (nm_dec (NBase s) (NBase t)) as [X|_]; [|apply (iv_from I)]. injection X as <-.
      destruct (def r (NBase s)) eqn:Ed; [rewrite get_eq, Ed in Gn; discriminate|]. intros X. injection X as <-. assumption.
    - destruct H as [-> |[Gn ->]]; apply (iv_defs I).
  Qed.
  Lemma inv_arr r c k : inv r -> get r (NArrOf c k) = None -> def r c <> None -> inv (add_def r (NArrOf c k) (DArr c k)).
  Proof.
    intros I G Hc. constructor.
    - apply add_ok_; [apply (iv_reg I)|assumption|]. split; [discriminate|]. split; [|discriminate]. intros c' k' X. injection X as <- <-. auto.
    - eapply mono_trans; [apply (iv_base I)|apply add_mono; assumption].
    - intros t x. rewrite get_add_base. destruct (nm_dec (NArrOf c k) (NBase t)) as [X|_]; [discriminate|apply (iv_from I)].
    - intros n e. rewrite def_add. destruct (nm_dec (NArrOf c k) n) as [<-|_]; [auto|apply (iv_defs I)].
  Qed.

  (** ** The functions *)
  Definition fine (r : areg) (t : ctype) (o : option nm) (r' : areg) : Prop :=
    inv r' /\ mono r r' /\ match o with Some c => get r' (cname P t) = Some c | None => excl t end.
  Definition rec_ok (rec : areg -> ctype -> cres) : Prop := forall r t o r', inv r -> c_type P t -> rec r t = Ok (o, r') -> fine r t o r'.
  Definition good_fields (r : areg) (l : list cfield) : Prop := Forall (fun f => def r (snd (fst f)) <> None) l.
  Definition mfine (r : areg) (i : nat) (o : option (list cfield)) (r' : areg) : Prop :=
    inv r' /\ mono r r' /\ match o with Some l => imembers i l /\ good_fields r' l /\ (forall f, In f (rd_fields (c_record P i)) -> fit f) | None => bad_member P std i end.
  Definition recm_ok (recm : areg -> nat -> res (option (list cfield) * areg)) : Prop := forall r i o r', inv r -> c_type P (CRecord i) -> recm r i = Ok (o, r') -> mfine r i o r'.
  Lemma good_mono_ r r' l : mono r r' -> good_fields r l -> good_fields r' l.
  Proof. intros M H. eapply Forall_impl; [|exact H]. intros f Hf. eapply mono_def; eauto. Qed.
  Lemma nothing r t : inv r -> excl t -> fine r t None r.
  Proof. intros I E. split; [assumption|]. split; [apply mono_refl|assumption]. Qed.
  Lemma builtin_ok r s k bits o r' : inv r -> c_type P (CBuiltin s k bits) -> get r (NBase s) = None -> register_builtin P r s k bits = Ok (o, r') -> fine r (CBuiltin s k bits) o r'.
  Proof.
    intros I T G E. unfold register_builtin in E. destruct (numeric_name P s k bits) as [n|] eqn:En; [|injection E as <- <-; apply nothing; [assumption|apply ex_builtin; assumption]].
    assert (Hs := std_none I G). destruct (get r (NBase n)) as [c|] eqn:Gn.
    - destruct (alias GP r (NBase s) c) as [r2| | |] eqn:Ea; try discriminate. cbn [bind] in E. injection E as <- <-.
      assert (Hd : den s c).
      { destruct (std n) as [x|] eqn:Es; [rewrite (std_some I Es) in Gn; injection Gn as <-; eapply dn_builtin_std; eauto|]. assert (X : c = NBase n) by (eapply (wn_denotes wn); [exact (iv_from I Gn)|eapply dn_numeric; eauto]). subst c. eapply dn_builtin; eauto. }
      destruct (inv_alias I Ea (get_get (iv_reg I) Gn) Hd) as (I2 & M2 & G2). split; [assumption|]. split; assumption.
    - assert (Hn := std_none I Gn). destruct (add_type GP r (NBase n) (DNum (bits / 8))) as [r1| | |] eqn:Ea; try discriminate. cbn [bind] in E. apply add_type_spec in Ea as [_ ->].
      destruct (alias GP (add_def r (NBase n) (DNum (bits / 8))) (NBase s) (NBase n)) as [r2| | |] eqn:Eb; try discriminate. cbn [bind] in E. injection E as <- <-.
      assert (I1 : inv (add_def r (NBase n) (DNum (bits / 8)))). { eapply (@inv_add r n (DNum (bits / 8)) (SNum bits)); try assumption; [eapply dn_numeric; eauto|eapply df_num; eauto|reflexivity|]. split; [discriminate|]. split; discriminate. }
      assert (Gb : get (add_def r (NBase n) (DNum (bits / 8))) (NBase n) = Some (NBase n)) by (rewrite get_add_base; destruct (nm_dec (NBase n) (NBase n)); congruence).
      destruct (inv_alias I1 Eb Gb) as (I2 & M2 & G2); [eapply dn_builtin; eauto|]. split; [assumption|]. split; [eapply mono_trans; [apply add_mono; exact Gn|exact M2]|assumption].
  Qed.
  Lemma enum_ok r e o r' : inv r -> c_type P (CEnum e) -> add_enum P r (c_enum P e) = Ok (o, r') -> fine r (CEnum e) o r'.
  Proof.
    intros I T E. unfold add_enum in E. destruct (en_named (c_enum P e)) eqn:En; cbn [negb] in E; [|injection E as <- <-; apply nothing; [assumption|apply ex_enum; auto]].
    destruct (en_access (c_enum P e)) eqn:Ea; [| |injection E as <- <-; apply nothing; [assumption|apply ex_enum; auto]].
    all: destruct (consistentb _); [|discriminate]; match type of E with bind ?x _ = _ => destruct x as [r1| | |] eqn:Eb end; try discriminate; cbn [bind] in E; injection E as <- <-; apply add_type_spec in Eb as [G ->].
    all: split; [eapply inv_add; try assumption; [apply dn_enum; assumption|apply df_enum; assumption|split; [reflexivity|congruence]|split; [discriminate|split; discriminate]]|]; (split; [apply add_mono; assumption|]); cbn [cname]; rewrite get_add_base; destruct (nm_dec _ _); congruence.
  Qed.
  Section Rec.
    Variable rec : areg -> ctype -> cres.
    Variable recm : areg -> nat -> res (option (list cfield) * areg).
    Hypothesis Hrec : rec_ok rec.
    Hypothesis Hrecm : recm_ok recm.
    Lemma array_ok r t n o r' : inv r -> c_type P (CArray t n) -> add_array P rec r t n = Ok (o, r') -> fine r (CArray t n) o r'.
    Proof.
      intros I T E. unfold add_array in E. destruct (is_array t) eqn:Ea; [injection E as <- <-; apply nothing; [assumption|]; destruct t; try discriminate; eapply ex_arr_arr; reflexivity|].
      destruct (rec r t) as [[x r1]| | |] eqn:Er; try discriminate. cbn [bind] in E. destruct (Hrec I (cl_arr cl T) Er) as (I1 & M1 & H).
      destruct x as [c|]; [|injection E as <- <-; split; [assumption|]; split; [assumption|apply ex_arr; assumption]].
      destruct (add_type GP r1 (NArrOf c n) (DArr c n)) as [r2| | |] eqn:Eb; try discriminate. cbn [bind] in E. injection E as <- <-. apply add_type_spec in Eb as [G ->].
      assert (Hc := get_def (iv_reg I1) H). assert (I2 := inv_arr I1 G Hc). assert (M2 := add_mono (DArr c n) G). split; [assumption|]. split; [eapply mono_trans; eauto|].
      rewrite cname_flat; [|destruct (cl_flat cl T) as [X|(v & m & ->)]; [exact X|discriminate]]. apply get_arr; [apply (iv_reg I2)|apply M2; assumption|]. rewrite def_add. destruct (nm_dec _ _); congruence.
    Qed.
    Lemma typedef_ok r s u o r' : inv r -> c_type P (CTypedef s u) -> register_typedef P rec r s u = Ok (o, r') ->
      fine r (CTypedef s u) o r' /\ match o with Some c => get r' (NBase s) = Some c | None => True end.
    Proof.
      intros I T E. unfold register_typedef in E. destruct (c_valid P (NBase s)); [|discriminate]. destruct (rec r u) as [[x r1]| | |] eqn:Er; try discriminate. cbn [bind] in E. destruct (Hrec I (cl_typedef cl T) Er) as (I1 & M1 & H).
      destruct x as [c|]; [|injection E as <- <-; split; [|exact Coq.Init.Logic.I]; split; [assumption|]; split; [assumption|apply ex_typedef; assumption]].
      destruct (alias GP r1 (NBase s) (cname P u)) as [r2| | |] eqn:Ea; try discriminate. cbn [bind] in E. injection E as <- <-.
      assert (Hd : den s c) by (eapply dn_typedef; [exact T|eapply get_stands; [exact I1|apply cname_plain|exact H]]). destruct (inv_alias I1 Ea H Hd) as (I2 & M2 & G2).
      split; [|assumption]. split; [assumption|]. split; [eapply mono_trans; eauto|]. cbn [cname]. apply M2. assumption.
    Qed.
    Lemma fields_ok : forall fs r o r', inv r -> (forall f, In f fs -> c_type P (cf_type f)) -> fields_members rec r fs = Ok (o, r') ->
      inv r' /\ mono r r' /\ match o with
        | Some l => Forall2 (own_field P std) fs l /\ good_fields r' l /\ forall f, In f fs -> fit f
        | None => exists f, In f fs /\ (cf_anon f = true \/ cf_access f = Priv \/ (cf_bits f mod 8 <> 0)%N \/ excl (cf_type f)) end.
    Proof.
      induction fs as [|f fs IH]; intros r o r' I T E; cbn [fields_members] in E.
      - injection E as <- <-. split; [assumption|]. split; [apply mono_refl|]. split; [constructor|]. split; [constructor|]. intros f [].
      - destruct (cf_anon f) eqn:Ea; [injection E as <- <-; split; [assumption|]; split; [apply mono_refl|]; exists f; split; [left; reflexivity|auto]|].
        assert (Tf : c_type P (canon (cf_type f))) by (apply (cl_canon cl), T; left; reflexivity).
        destruct (cf_access f) eqn:Ec; [| |injection E as <- <-; split; [assumption|]; split; [apply mono_refl|]; exists f; split; [left; reflexivity|auto]].
        all: destruct (rec r (canon (cf_type f))) as [[x r1]| | |] eqn:Er; try discriminate; cbn [bind] in E; destruct (Hrec I Tf Er) as (I1 & M1 & H); (destruct x as [c|]; [|injection E as <- <-; split; [assumption|]; split; [assumption|]; exists f; split; [left; reflexivity|right; right; right; apply excl_canon; assumption]]);
          (destruct (cf_bits f mod 8 =? 0)%N eqn:Eb; cbn [negb] in E; [|injection E as <- <-; split; [assumption|]; split; [assumption|]; exists f; split; [left; reflexivity|right; right; left; apply N.eqb_neq; assumption]]);
          destruct (fields_members rec r1 fs) as [[l r2]| | |] eqn:E2; try discriminate; cbn [bind] in E; injection E as <- <-; destruct (IH _ _ _ I1 (fun g Hg => T g (or_intror Hg)) E2) as (I2 & M2 & H2); (split; [assumption|]); (split; [eapply mono_trans; eauto|]);
          (destruct l as [l|]; cbn [option_map]; [|destruct H2 as (g & Hg & H2); exists g; split; [right; assumption|assumption]]); destruct H2 as (F2 & G2 & A2).
        all: split; [constructor; [|assumption]; split; [reflexivity|]; split; [|reflexivity]; cbn [fst snd]; rewrite <- cname_canon; eapply get_stands; [exact I1|apply cname_plain|exact H]|].
        all: split; [constructor; [|assumption]; cbn [fst snd]; eapply mono_def; [exact M2|]; eapply get_def; [apply (iv_reg I1)|exact H]|].
        all: intros g [<-|Hg]; [split; [congruence|split; [assumption|apply N.eqb_eq; assumption]]|auto].
    Qed.
    Lemma as_record_type t j : c_type P t -> as_record t = Some j -> c_type P (CRecord j).
    Proof. induction t; cbn [as_record]; intros T E; try discriminate; [injection E as <-; assumption|apply IHt; [eapply cl_typedef; eauto|assumption]|apply IHt; [eapply cl_elab; eauto|assumption]]. Qed.
    Lemma bases_ok : forall bs r o r', inv r -> (forall b, In b bs -> c_type P (cb_type b)) -> bases_members recm r bs = Ok (o, r') ->
      inv r' /\ mono r r' /\ match o with
        | Some l => ibase_members bs l /\ good_fields r' l
        | None => exists b j, In b bs /\ as_record (cb_type b) = Some j /\ bad_member P std j end.
    Proof.
      induction bs as [|b bs IH]; intros r o r' I T E; cbn [bases_members] in E.
      - injection E as <- <-. split; [assumption|]. split; [apply mono_refl|]. split; constructor.
      - destruct (as_record (cb_type b)) as [j|] eqn:Ej; [|discriminate]. assert (Tj := as_record_type (T b (or_introl eq_refl)) Ej).
        destruct (recm r j) as [[x r1]| | |] eqn:Er; try discriminate. cbn [bind] in E. destruct (Hrecm I Tj Er) as (I1 & M1 & H). destruct x as [l|]; [|injection E as <- <-; split; [assumption|]; split; [assumption|]; exists b, j; split; [left; reflexivity|auto]].
        destruct (bases_members recm r1 bs) as [[l2 r2]| | |] eqn:E2; try discriminate. cbn [bind] in E. injection E as <- <-. destruct (IH _ _ _ I1 (fun g Hg => T g (or_intror Hg)) E2) as (I2 & M2 & H2). split; [assumption|]. split; [eapply mono_trans; eauto|].
        destruct l2 as [l2|]; cbn [option_map]; [|destruct H2 as (b' & j' & Hb & H2); exists b', j'; split; [right; assumption|assumption]]. destruct H as (H1 & H3 & _), H2 as (H2 & H4). split; [econstructor; eauto|]. apply Forall_app. split; [eapply good_mono_; eauto|assumption].
    Qed.
    Lemma class_ok r i o r' : inv r -> c_type P (CRecord i) -> class_members P rec recm r i = Ok (o, r') -> mfine r i o r'.
    Proof.
      intros I T E. unfold class_members in E. destruct (fields_members rec r (rd_fields (c_record P i))) as [[x r1]| | |] eqn:Ef; try discriminate. cbn [bind] in E.
      destruct (fields_ok I (fun f Hf => cl_field cl T Hf) Ef) as (I1 & M1 & H1). destruct x as [l|]; [|injection E as <- <-; split; [assumption|]; split; [assumption|]; destruct H1 as (f & Hf & H1); eapply bad_own; eauto].
      destruct (bases_members recm r1 (rd_bases (c_record P i))) as [[y r2]| | |] eqn:Eb; try discriminate. cbn [bind] in E. injection E as <- <-. destruct (bases_ok I1 (fun b Hb => cl_base cl T Hb) Eb) as (I2 & M2 & H2).
      split; [assumption|]. split; [eapply mono_trans; eauto|]. destruct y as [l2|]; cbn [option_map]; [|destruct H2 as (b & j & Hb & Hj & H2); eapply bad_base; eauto].
      destruct H1 as (F1 & G1 & A1), H2 as (F2 & G2). split; [constructor; assumption|]. split; [|assumption]. apply Forall_app. split; [eapply good_mono_; eauto|assumption].
    Qed.
    Lemma register_bases_ok : forall bs r o r', inv r -> (forall b, In b bs -> c_type P (cb_type b)) -> register_bases rec r bs = Ok (o, r') ->
      inv r' /\ mono r r' /\ if o : bool then forall b, In b bs -> cb_access b <> Priv \/ as_record (cb_type b) = None else exists b j, In b bs /\ as_record (cb_type b) = Some j /\ cb_access b = Priv.
    Proof.
      induction bs as [|b bs IH]; intros r o r' I T E; cbn [register_bases] in E.
      - injection E as <- <-. split; [assumption|]. split; [apply mono_refl|]. intros b [].
      - destruct (as_record (cb_type b)) as [j|] eqn:Ej.
        + destruct (cb_access b) eqn:Ea; [| |injection E as <- <-; split; [assumption|]; split; [apply mono_refl|]; exists b, j; split; [left; reflexivity|auto]].
          all: destruct (rec r (cb_type b)) as [[x r1]| | |] eqn:Er; try discriminate; cbn [bind] in E; destruct (Hrec I (T b (or_introl eq_refl)) Er) as (I1 & M1 & _); destruct (IH _ _ _ I1 (fun g Hg => T g (or_intror Hg)) E) as (I2 & M2 & H2); (split; [assumption|]); (split; [eapply mono_trans; eauto|]).
          all: destruct o; [intros b' [<-|Hb]; [left; congruence|auto]|destruct H2 as (b' & j' & Hb & H2); exists b', j'; split; [right; assumption|assumption]].
        + destruct (IH _ _ _ I (fun g Hg => T g (or_intror Hg)) E) as (I2 & M2 & H2). split; [assumption|]. split; [assumption|].
          destruct o; [intros b' [<-|Hb]; auto|destruct H2 as (b' & j' & Hb & H2); exists b', j'; split; [right; assumption|assumption]].
    Qed.
    Lemma container_ok r i e o r' : inv r -> c_type P (CRecord i) -> rd_container (c_record P i) = Some e ->
      register_container P rec r (rd_name (c_record P i)) e = Ok (o, r') -> fine r (CRecord i) o r'.
    Proof.
      intros I T Ec E. unfold register_container in E. destruct (rec r e) as [[x r1]| | |] eqn:Er; try discriminate. cbn [bind] in E. destruct (Hrec I (cl_cont cl T Ec) Er) as (I1 & M1 & H).
      destruct x as [c|]; [|injection E as <- <-; split; [assumption|]; split; [assumption|eapply ex_container; eauto]]. cbv zeta in E.
      assert (St : sta (cname P e) c) by (eapply get_stands; [exact I1|apply cname_plain|exact H]). assert (Dn : den (c_cont P c) (NBase (c_cont P c))) by (eapply dn_container_name; eauto).
      match type of E with bind ?x _ = _ => destruct x as [[r2 y]| | |] eqn:E2 end; try discriminate. cbn [bind] in E.
      assert (X : inv r2 /\ mono r1 r2 /\ y = NBase (c_cont P c) /\ get r2 y = Some y).
      { destruct (get r1 (NBase (c_cont P c))) as [z|] eqn:G.
        - assert (z = NBase (c_cont P c)) by (eapply (wn_denotes wn); [exact (iv_from I1 G)|exact Dn]). subst z. destruct (def r1 (NBase (c_cont P c))) as [[]|]; try discriminate. injection E2 as <- <-. split; [assumption|]. split; [apply mono_refl|]. auto.
        - destruct (add_type GP r1 (NBase (c_cont P c)) (DCont c)) as [r3| | |] eqn:Ea; try discriminate. cbn [bind] in E2. injection E2 as <- <-. apply add_type_spec in Ea as [_ ->]. split; [|split; [apply add_mono; assumption|split; [reflexivity|]]].
          + eapply (@inv_add _ _ _ (SCont c)); try assumption; [eapply df_cont; eauto|reflexivity|]. split; [discriminate|]. split; discriminate.
          + rewrite get_add_base. destruct (nm_dec (NBase (c_cont P c)) (NBase (c_cont P c))) as [_|Hx]; [reflexivity|destruct (Hx eq_refl)]. }
      destruct X as (I2 & M2 & -> & G2). destruct (nm_dec (NBase (c_cont P c)) (NBase (rd_name (c_record P i)))) as [Eq|_]; cbn [bind] in E.
      - injection E as <- <-. split; [assumption|]. split; [eapply mono_trans; eauto|]. cbn [cname]. rewrite <- Eq. assumption.
      - destruct (alias GP r2 (NBase (rd_name (c_record P i))) (NBase (c_cont P c))) as [r3| | |] eqn:Ea; try discriminate. cbn [bind] in E. injection E as <- <-.
        destruct (inv_alias I2 Ea G2) as (I3 & M3 & G3); [eapply dn_container; eauto|]. split; [assumption|]. split; [eapply mono_trans; [exact M1|eapply mono_trans; eauto]|assumption].
    Qed.
    Lemma imembers_bases i l : imembers i l -> forall b, In b (rd_bases (c_record P i)) -> as_record (cb_type b) <> None.
    Proof.
      intros H. inversion H as [? fo fb Hf Ho Hb]; subst. revert Hb. generalize (rd_bases (c_record P i)) as bs. clear. intros bs Hb. induction Hb; intros x Hx; [destruct Hx|]. destruct Hx as [<-|Hx]; [congruence|auto].
    Qed.
    Lemma record_ok r i o r' : inv r -> c_type P (CRecord i) -> add_record P rec recm r i = Ok (o, r') -> fine r (CRecord i) o r'.
    Proof.
      intros I T E. unfold add_record in E. cbv zeta in E. destruct (negb (rd_named (c_record P i)) || rd_bad (c_record P i)) eqn:En.
      { injection E as <- <-. apply nothing; [assumption|]. apply ex_record. apply Bool.orb_true_iff in En as [En|En]; [left; destruct (rd_named _); [discriminate|reflexivity]|auto]. }
      apply Bool.orb_false_iff in En as [En1 En2]. apply Bool.negb_false_iff in En1. destruct (rd_container (c_record P i)) as [e|] eqn:Ec; [eapply container_ok; eauto|].
      destruct (negb (rd_defined (c_record P i)) || rd_poly (c_record P i)) eqn:Ed.
      { injection E as <- <-. apply nothing; [assumption|]. apply ex_record. apply Bool.orb_true_iff in Ed as [Ed|Ed]; [right; left; destruct (rd_defined _); [discriminate|reflexivity]|auto]. }
      apply Bool.orb_false_iff in Ed as [Ed1 Ed2]. apply Bool.negb_false_iff in Ed1.
      destruct (recm r i) as [[x r1]| | |] eqn:Er; try discriminate. cbn [bind] in E. destruct (Hrecm I T Er) as (I1 & M1 & H). destruct x as [fs|]; [|injection E as <- <-; split; [assumption|]; split; [assumption|apply ex_member; assumption]].
      destruct H as (Hm & Hg & Ha). destruct fs as [|f fs].
      { injection E as <- <-. split; [assumption|]. split; [assumption|]. apply ex_empty.
        destruct (proj1 members_agree i [] Hm) as (l & H1 & H2 & _). apply Permutation_nil in H2. destruct l; [exact H1|discriminate]. }
      destruct (register_bases rec r1 (rd_bases (c_record P i))) as [[go r2]| | |] eqn:Eb; try discriminate. cbn [bind] in E. destruct (register_bases_ok I1 (fun b Hb => cl_base cl T Hb) Eb) as (I2 & M2 & Hb).
      destruct go; [|injection E as <- <-; split; [assumption|]; split; [eapply mono_trans; eauto|]; destruct Hb as (b & j & H1 & H2 & H3); eapply ex_base; eauto].
      destruct (add_type GP r2 (NBase (rd_name (c_record P i))) (DComp (rd_size (c_record P i)) (f :: fs))) as [r3| | |] eqn:Ea; try discriminate. cbn [bind] in E. injection E as <- <-. apply add_type_spec in Ea as [G ->].
      split; [|split; [eapply mono_trans; [exact M1|eapply mono_trans; [exact M2|apply add_mono; assumption]]|]].
      - eapply (@inv_add _ _ _ (SRecord i)); try assumption; [apply dn_record; assumption|apply df_record; assumption| |].
        + exists (f :: fs). split; [reflexivity|]. split; [assumption|]. split; [discriminate|]. split; [|auto]. split; [assumption|]. intros b Hib. destruct (Hb b Hib) as [X|X]; [assumption|]. destruct (imembers_bases Hm Hib X).
        + split; [discriminate|]. split; [discriminate|]. intros sz l X. injection X as <- <-. eapply good_mono_; eauto.
      - cbn [cname]. rewrite get_add_base. destruct (nm_dec _ _); congruence.
    Qed.
  End Rec.
  Lemma imembers_fit : (forall i l, imembers i l -> forall k, ancestor P i k -> forall f, In f (rd_fields (c_record P k)) -> fit f) /\
    (forall bs l, ibase_members bs l -> forall b j k, In b bs -> as_record (cb_type b) = Some j -> ancestor P j k -> forall f, In f (rd_fields (c_record P k)) -> fit f).
  Proof.
    apply imb_ind.
    - intros i fo fb Hf _ _ IH k A. inversion A; subst; [exact Hf|]. eapply IH; eauto.
    - intros b j k [].
    - intros b bs j fs r Ej _ IH1 _ IH2 b' j' k [<-|Hb] Ej' A; [|eapply IH2; eauto]. assert (j' = j) by congruence. subst j'. apply IH1. exact A.
  Qed.
  Lemma register_ok : forall fuel, rec_ok (register_type P fuel) /\ recm_ok (add_members P fuel).
  Proof.
    induction fuel as [|fuel [IH1 IH2]]; (split; [intros r t o r' I T E; cbn [register_type] in E|intros r i o r' I T E; cbn [add_members] in E]); try discriminate.
    - destruct (get r (cname P t)) as [c|] eqn:G; [injection E as <- <-; split; [assumption|]; split; [apply mono_refl|assumption]|].
      destruct (is_indirect t) eqn:Ei; [injection E as <- <-; apply nothing; [assumption|apply indirect_excl; assumption]|].
      destruct t as [s k bits|i|e|u n|s u|u|u|s|s].
      + eapply builtin_ok; eauto.
      + eapply record_ok; eauto.
      + eapply enum_ok; eauto.
      + eapply array_ok; eauto.
      + eapply typedef_ok; eauto.
      + destruct (IH1 _ _ _ _ I (cl_elab cl T) E) as (I1 & M1 & H). split; [assumption|]. split; [assumption|]. destruct o; [exact H|apply ex_elab; assumption].
      + discriminate.
      + discriminate.
      + injection E as <- <-. apply nothing; [assumption|apply ex_other].
    - eapply class_ok; eauto.
  Qed.
  Lemma import_ok fuel : forall l r r', inv r -> (forall t, In t l -> c_type P t) -> import P fuel r l = Ok r' ->
    inv r' /\ mono r r' /\ forall t, In t l -> excl t \/ exists c, get r' (cname P t) = Some c /\ forall s u, t = CTypedef s u -> get r' (NBase s) = Some c.
  Proof.
    induction l as [|t l IH]; intros r r' I T E; cbn [import] in E.
    - injection E as <-. split; [assumption|]. split; [apply mono_refl|]. intros t [].
    - match type of E with bind ?x _ = _ => destruct x as [[o r1]| | |] eqn:Er end; try discriminate. cbn [bind] in E.
      assert (Tt : c_type P t) by (apply T; left; reflexivity).
      assert (X : fine r t o r1 /\ forall s u, t = CTypedef s u -> match o with Some c => get r1 (NBase s) = Some c | None => True end).
      { destruct t; try (split; [eapply (proj1 (register_ok fuel)); eauto|discriminate]). destruct (typedef_ok (proj1 (register_ok fuel)) I Tt Er) as [X1 X2]. split; [assumption|]. intros s u X. injection X as <- <-. assumption. }
      destruct X as ((I1 & M1 & H) & Hs). destruct (IH _ _ I1 (fun x Hx => T x (or_intror Hx)) E) as (I2 & M2 & H2). split; [assumption|]. split; [eapply mono_trans; eauto|].
      intros x [<-|Hx]; [|auto]. destruct o as [c|]; [|auto]. right. exists c. split; [apply M2; assumption|]. intros s u Eq. apply M2. exact (Hs s u Eq).
  Qed.

  (** ** Termination *)
  Variable rk : nat -> nat.
  Variable D : nat.
  Fixpoint leaf (t : ctype) : nat := match t with CArray u _ | CTypedef _ u | CElab u => leaf u | CRecord i => S (rk i) | _ => 0 end.
  Hypothesis nesting_le : forall t, c_type P t -> nesting t <= D.
  Hypothesis rk_field : forall i f, c_type P (CRecord i) -> In f (rd_fields (c_record P i)) -> leaf (cf_type f) <= rk i.
  Hypothesis rk_base : forall i b, c_type P (CRecord i) -> In b (rd_bases (c_record P i)) -> leaf (cb_type b) <= rk i.
  Hypothesis rk_cont : forall i e, c_type P (CRecord i) -> rd_container (c_record P i) = Some e -> leaf e <= rk i.
  Definition need (t : ctype) : nat := leaf t * (D + 3) + nesting t.
  Definition needm (i : nat) : nat := rk i * (D + 3) + D + 1.
  Lemma leaf_canon t : leaf (canon t) = leaf t.
  Proof. induction t; cbn [canon leaf]; congruence. Qed.
  Lemma leaf_record t j : as_record t = Some j -> leaf t = S (rk j).
  Proof. induction t; cbn [as_record leaf]; intros E; try discriminate; [injection E as <-; reflexivity|auto|auto]. Qed.
  Lemma add_no_fuel r n d : add_type GP r n d <> Fuel.
  Proof. apply add_type_settles. Qed.
  Lemma builtin_no_fuel r s k b : register_builtin P r s k b <> Fuel.
  Proof.
    unfold register_builtin. destruct (numeric_name P s k b) as [n|]; [|discriminate]. destruct (get r (NBase n)) as [c|].
    - assert (X := @alias_settles GP r (NBase s) c). destruct (alias GP r (NBase s) c); cbn [bind]; try discriminate. congruence.
    - assert (X := @add_no_fuel r (NBase n) (DNum (b / 8))). destruct (add_type GP r (NBase n) (DNum (b / 8))) as [r1| | |]; cbn [bind]; try discriminate; [|congruence]. assert (Y := @alias_settles GP r1 (NBase s) (NBase n)). destruct (alias GP r1 (NBase s) (NBase n)); cbn [bind]; try discriminate. congruence.
  Qed.
  Lemma enum_no_fuel r e : add_enum P r e <> Fuel.
  Proof.
    unfold add_enum. destruct (negb (en_named e)); [discriminate|]. destruct (en_access e); try discriminate; (destruct (consistentb _); [|discriminate]); match goal with |- bind ?x _ <> _ => assert (X : x <> Fuel) by apply add_no_fuel; destruct x end; cbn [bind]; try discriminate; congruence.
  Qed.
  Definition settles (rec : areg -> ctype -> cres) (k : nat) : Prop := forall r t, inv r -> c_type P t -> need t <= k -> rec r t <> Fuel.
  Definition settles_m (recm : areg -> nat -> res (option (list cfield) * areg)) (k : nat) : Prop := forall r i, inv r -> c_type P (CRecord i) -> needm i <= k -> recm r i <> Fuel.
  Section Settle.
    Variable rec : areg -> ctype -> cres.
    Variable recm : areg -> nat -> res (option (list cfield) * areg).
    Variable k : nat.
    Hypothesis Hrec : rec_ok rec.
    Hypothesis Hrecm : recm_ok recm.
    Hypothesis Sr : settles rec k.
    Hypothesis Sm : settles_m recm k.
    Lemma fields_settle : forall fs r, inv r -> (forall f, In f fs -> c_type P (cf_type f) /\ leaf (cf_type f) * (D + 3) + D <= k) -> fields_members rec r fs <> Fuel.
    Proof.
      induction fs as [|f fs IH]; intros r I T; cbn [fields_members]; [discriminate|]. destruct (cf_anon f); [discriminate|]. destruct (T f (or_introl eq_refl)) as [Tf Kf]. assert (Tc := cl_canon cl Tf).
      assert (X : rec r (canon (cf_type f)) <> Fuel). { apply Sr; [assumption|assumption|]. unfold need. rewrite leaf_canon. assert (Y := nesting_le Tc). lia. }
      destruct (cf_access f); try discriminate; destruct (rec r (canon (cf_type f))) as [[x r1]| | |] eqn:Er; cbn [bind]; try discriminate; try congruence; (destruct x as [c|]; [|discriminate]); (destruct (negb _); [discriminate|]); destruct (Hrec I Tc Er) as (I1 & _ & _);
        assert (Y := IH _ I1 (fun g Hg => T g (or_intror Hg))); destruct (fields_members rec r1 fs) as [[l r2]| | |]; cbn [bind]; try discriminate; congruence.
    Qed.
    Lemma bases_settle : forall bs r, inv r -> (forall b, In b bs -> c_type P (cb_type b) /\ forall j, as_record (cb_type b) = Some j -> needm j <= k) -> bases_members recm r bs <> Fuel.
    Proof.
      induction bs as [|b bs IH]; intros r I T; cbn [bases_members]; [discriminate|]. destruct (as_record (cb_type b)) as [j|] eqn:Ej; [|discriminate]. destruct (T b (or_introl eq_refl)) as [Tb Kb]. assert (Tj := as_record_type Tb Ej).
      assert (X : recm r j <> Fuel) by (apply Sm; auto). destruct (recm r j) as [[x r1]| | |] eqn:Er; cbn [bind]; try discriminate; [|congruence]. destruct x as [l|]; [|discriminate]. destruct (Hrecm I Tj Er) as (I1 & _ & _).
      assert (Y := IH _ I1 (fun g Hg => T g (or_intror Hg))). destruct (bases_members recm r1 bs) as [[l2 r2]| | |]; cbn [bind]; try discriminate. congruence.
    Qed.
    Lemma class_settle r i : inv r -> c_type P (CRecord i) -> needm i <= S k -> class_members P rec recm r i <> Fuel.
    Proof.
      intros I T K. unfold class_members. unfold needm in K. assert (X : fields_members rec r (rd_fields (c_record P i)) <> Fuel).
      { apply fields_settle; [assumption|]. intros f Hf. split; [eapply cl_field; eauto|]. assert (Y := rk_field T Hf). nia. }
      destruct (fields_members rec r (rd_fields (c_record P i))) as [[x r1]| | |] eqn:Ef; cbn [bind]; try discriminate; [|congruence]. destruct x as [l|]; [|discriminate]. destruct (fields_ok Hrec I (fun f Hf => cl_field cl T Hf) Ef) as (I1 & _ & _).
      assert (Z : bases_members recm r1 (rd_bases (c_record P i)) <> Fuel).
      { apply bases_settle; [assumption|]. intros b Hb. split; [eapply cl_base; eauto|]. intros j Ej. assert (Y := rk_base T Hb). rewrite (leaf_record Ej) in Y. unfold needm. nia. }
      destruct (bases_members recm r1 (rd_bases (c_record P i))) as [[y r2]| | |]; cbn [bind]; try discriminate. congruence.
    Qed.
    Lemma register_bases_settle : forall bs r, inv r -> (forall b, In b bs -> c_type P (cb_type b) /\ need (cb_type b) <= k) -> register_bases rec r bs <> Fuel.
    Proof.
      induction bs as [|b bs IH]; intros r I T; cbn [register_bases]; [discriminate|]. destruct (T b (or_introl eq_refl)) as [Tb Kb].
      assert (Rest : forall r, inv r -> register_bases rec r bs <> Fuel) by (intros r0 I0; apply IH; [assumption|intros g Hg; apply T; right; assumption]).
      destruct (as_record (cb_type b)) as [j|]; [|auto]. destruct (cb_access b); try discriminate; assert (X := Sr I Tb Kb); destruct (rec r (cb_type b)) as [[x r1]| | |] eqn:Er; cbn [bind]; try discriminate; try congruence; apply Rest; apply (Hrec I Tb Er).
    Qed.
    Lemma record_settle r i : inv r -> c_type P (CRecord i) -> needm i <= k -> add_record P rec recm r i <> Fuel.
    Proof.
      intros I T K. unfold add_record. cbv zeta. destruct (negb (rd_named (c_record P i)) || rd_bad (c_record P i)); [discriminate|]. unfold needm in K. destruct (rd_container (c_record P i)) as [e|] eqn:Ec.
      - unfold register_container. assert (Te := cl_cont cl T Ec). assert (X : rec r e <> Fuel). { apply Sr; [assumption|assumption|]. unfold need. assert (Y := nesting_le Te). assert (Z := rk_cont T Ec). nia. }
        destruct (rec r e) as [[x r1]| | |]; cbn [bind]; try discriminate; [|congruence]. destruct x as [c|]; [|discriminate].
        match goal with |- bind ?x _ <> _ => assert (Y : x <> Fuel); [|destruct x as [[r2 y]| | |]] end; cbn [bind]; try discriminate; [|clear Y|congruence].
        + destruct (get r1 (NBase (c_cont P c))) as [z|]; [destruct (def r1 z) as [[]|]; discriminate|]. assert (Z := @add_no_fuel r1 (NBase (c_cont P c)) (DCont c)). destruct (add_type GP r1 (NBase (c_cont P c)) (DCont c)); cbn [bind]; try discriminate. congruence.
        + destruct (nm_dec y (NBase (rd_name (c_record P i)))); cbn [bind]; [discriminate|]. assert (Z := @alias_settles GP r2 (NBase (rd_name (c_record P i))) y). destruct (alias GP r2 (NBase (rd_name (c_record P i))) y); cbn [bind]; try discriminate. congruence.
      - destruct (negb (rd_defined (c_record P i)) || rd_poly (c_record P i)); [discriminate|]. assert (X : recm r i <> Fuel) by (apply Sm; [assumption|assumption|unfold needm; lia]). destruct (recm r i) as [[x r1]| | |] eqn:Er; cbn [bind]; try discriminate; [|congruence].
        destruct (Hrecm I T Er) as (I1 & _ & _). destruct x as [[|f fs]|]; try discriminate. assert (Y : register_bases rec r1 (rd_bases (c_record P i)) <> Fuel).
        { apply register_bases_settle; [assumption|]. intros b Hb. assert (Tb := cl_base cl T Hb). split; [assumption|]. unfold need. assert (Y := nesting_le Tb). assert (Z := rk_base T Hb). nia. }
        destruct (register_bases rec r1 (rd_bases (c_record P i))) as [[go r2]| | |]; cbn [bind]; try discriminate; [|congruence]. destruct go; [|discriminate].
        assert (Z := @add_no_fuel r2 (NBase (rd_name (c_record P i))) (DComp (rd_size (c_record P i)) (f :: fs))). destruct (add_type GP r2 (NBase (rd_name (c_record P i))) (DComp (rd_size (c_record P i)) (f :: fs))); cbn [bind]; try discriminate. congruence.
    Qed.
    Lemma array_settle r u n : inv r -> c_type P (CArray u n) -> need u <= k -> add_array P rec r u n <> Fuel.
    Proof.
      intros I T K. unfold add_array. destruct (is_array u); [discriminate|]. assert (X := Sr I (cl_arr cl T) K). destruct (rec r u) as [[x r1]| | |]; cbn [bind]; try discriminate; [|congruence]. destruct x as [c|]; [|discriminate].
      assert (Z := @add_no_fuel r1 (NArrOf c n) (DArr c n)). destruct (add_type GP r1 (NArrOf c n) (DArr c n)); cbn [bind]; try discriminate. congruence.
    Qed.
    Lemma typedef_settle r s u : inv r -> c_type P (CTypedef s u) -> need u <= k -> register_typedef P rec r s u <> Fuel.
    Proof.
      intros I T K. unfold register_typedef. destruct (c_valid P (NBase s)); [|discriminate]. assert (X := Sr I (cl_typedef cl T) K). destruct (rec r u) as [[x r1]| | |]; cbn [bind]; try discriminate; [|congruence]. destruct x as [c|]; [|discriminate].
      assert (Z := @alias_settles GP r1 (NBase s) (cname P u)). destruct (alias GP r1 (NBase s) (cname P u)); cbn [bind]; try discriminate. congruence.
    Qed.
  End Settle.
  Lemma register_settles : forall fuel, settles (register_type P fuel) fuel /\ settles_m (add_members P fuel) fuel.
  Proof.
    induction fuel as [|fuel [IH1 IH2]].
    - split; [intros r t I T K; unfold need in K; destruct t; cbn [nesting] in K; lia|intros r i I T K; unfold needm in K; lia].
    - destruct (register_ok fuel) as [R1 R2]. split.
      + intros r t I T K. cbn [register_type]. destruct (get r (cname P t)); [discriminate|]. destruct (is_indirect t); [discriminate|]. destruct t as [s k bits|i|e|u n|s u|u|u|s|s]; try discriminate; unfold need in K; cbn [leaf nesting] in K.
        * apply builtin_no_fuel.
        * eapply record_settle; eauto. unfold needm. nia.
        * apply enum_no_fuel.
        * eapply array_settle; eauto. unfold need. lia.
        * eapply typedef_settle; eauto. unfold need. lia.
        * apply IH1; [assumption|eapply cl_elab; eauto|unfold need; lia].
      + intros r i I T K. cbn [add_members]. eapply class_settle; eauto.
  Qed.
  Lemma import_settles fuel : forall l r, inv r -> (forall t, In t l -> c_type P t /\ need t <= fuel) -> import P fuel r l <> Fuel.
  Proof.
    induction l as [|t l IH]; intros r I T; cbn [import]; [discriminate|]. destruct (T t (or_introl eq_refl)) as [Tt Kt]. destruct (register_ok fuel) as [R1 R2]. destruct (register_settles fuel) as [S1 S2].
    match goal with |- bind ?x _ <> _ => assert (X : x <> Fuel); [|assert (Y : forall o r1, x = Ok (o, r1) -> inv r1); [|destruct x as [[o r1]| | |]]] end.
    { destruct t; try (apply S1; assumption). eapply typedef_settle; eauto. unfold need in *. cbn [leaf nesting] in Kt. lia. }
    { intros o r1 E. destruct t; try (apply (R1 _ _ _ _ I Tt E)). apply (typedef_ok R1 I Tt E). }
    all: cbn [bind]; try discriminate; try congruence. apply IH; [eapply Y; reflexivity|]. intros x Hx. apply T. right. assumption.
  Qed.
End Proofs.
