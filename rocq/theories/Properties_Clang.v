(** * Properties_Clang: C74, importing C++ declarations with clang. *)
From Verif Require Import Base Types Names TypeObj GccxmlSpec Gccxml GccxmlProofs Properties_Gccxml ClangSpec Clang ClangProofs.
From Coq Require Import Permutation.
Local Open Scope nat_scope.

Definition cprogram_ok (P : cprog) (base : areg) : Prop := well_named P (std_of base) /\ closed P.
(** No class has a base at another place than its start (single inheritance). *)
Definition bases_first (P : cprog) : Prop := forall i b, In b (rd_bases (c_record P i)) -> cb_off b = 0%N.

Lemma import_inv P base fuel l r : start_registry base -> cprogram_ok P base -> (forall t, In t l -> c_type P t) -> import P fuel base l = Ok r ->
  inv P base r /\ mono base r /\ forall t, In t l -> excluded P (std_of base) t \/ exists c, get r (cname P t) = Some c /\ forall s u, t = CTypedef s u -> get r (NBase s) = Some c.
Proof. intros [O Pl] [W C] T E. exact (import_ok W C (inv_start P O) T E). Qed.
Lemma own_def P base r s a : start_registry base -> cprogram_ok P base -> inv P base r -> defines P (std_of base) s a -> get r (NBase s) = Some (NBase s) ->
  exists d, def r (NBase s) = Some d /\ describes P base a d.
Proof.
  intros [O Pl] [W C] I D G. assert (X := get_def (iv_reg I) G). destruct (def r (NBase s)) as [d|] eqn:Ed; [|congruence]. exists d. split; [reflexivity|].
  destruct (iv_defs I Ed) as [B|(b & Db & H)].
  - exfalso. assert (Y := wn_std W D). unfold std_of in Y. rewrite (@get_self base (NBase s)) in Y by congruence. discriminate.
  - rewrite (wn_defines W D Db). exact H.
Qed.

(** Partial: with several bases, members are not at their places; and an import can fail or not end (refuted below).
    Every class declared is either one of those without a representation, or becomes a compound of its size, with all its
    data members (those of the bases included), of the types they were declared with, all of them registered; at their places if all
    bases are at the start of the object. *)
Theorem C74_record_partial P base fuel l r i : start_registry base -> cprogram_ok P base -> (forall t, In t l -> c_type P t) ->
  import P fuel base l = Ok r -> In (CRecord i) l -> rd_container (c_record P i) = None ->
  let s := NBase (rd_name (c_record P i)) in
  excluded P (std_of base) (CRecord i) \/
  exists fs ms, get r s = Some s /\ def r s = Some (DComp (rd_size (c_record P i)) fs) /\ cmembers P (std_of base) i ms /\
    Permutation (map fst fs) (map fst ms) /\ (bases_first P -> Permutation fs ms) /\ Forall (fun f => def r (snd (fst f)) <> None) fs.
Proof.
  intros St Ok T E Hi Ec s. destruct (import_inv St Ok T E) as (I & M & H). destruct (H _ Hi) as [X|(c & G & _)]; [left; exact X|right].
  cbn [cname] in G. assert (D1 := iv_from I G). assert (Ti := T _ Hi). assert (c = s) by (eapply (wn_denotes (proj1 Ok)); [exact D1|apply dn_record; assumption]). subst c.
  destruct (own_def St Ok I (df_record (std_of base) Ti Ec) G) as (d & Ed & fs & -> & Hm & _). destruct (proj1 (members_agree P base) i fs Hm) as (ms & M1 & M2 & M3).
  exists fs, ms. split; [exact G|]. split; [exact Ed|]. split; [exact M1|]. split; [exact M2|]. split; [exact M3|]. exact (ro_comp (iv_reg I) Ed).
Qed.
(** Conversely, every compound of the registry is a named, complete class of the program without virtual functions and with data members, all
    of which are there. None of them, and none of its own bases, is private; none is an anonymous one; all are at whole bytes. *)
Theorem C74_compounds P base fuel l r n sz fs : start_registry base -> cprogram_ok P base -> (forall t, In t l -> c_type P t) ->
  import P fuel base l = Ok r -> def r n = Some (DComp sz fs) ->
  exists i ms, n = NBase (rd_name (c_record P i)) /\ c_type P (CRecord i) /\ rd_container (c_record P i) = None /\ sz = rd_size (c_record P i) /\
    cmembers P (std_of base) i ms /\ Permutation (map fst fs) (map fst ms) /\ (bases_first P -> Permutation fs ms) /\ fs <> [] /\
    rd_poly (c_record P i) = false /\ rd_defined (c_record P i) = true /\ rd_named (c_record P i) = true /\
    (forall b, In b (rd_bases (c_record P i)) -> cb_access b <> Priv) /\
    (forall k f, ancestor P i k -> In f (rd_fields (c_record P k)) -> cf_access f <> Priv /\ cf_anon f = false /\ (cf_bits f mod 8 = 0)%N).
Proof.
  intros St Ok T E Ed. destruct (import_inv St Ok T E) as (I & M & _). destruct (iv_defs I Ed) as [X|X]; [destruct St as [_ Pl]; destruct (Pl _ _ _ X)|]. destruct n as [s|m|m k|m a b]; try destruct X as [].
  - destruct H as [D H]. destruct x as [i|e|bits|c]; cbn [describes] in H; try discriminate; [|destruct H; discriminate]. destruct H as (l0 & X & Hm & Hn & [_ Hb] & Hp & Hd & Hnm & _). injection X as -> ->.
    inversion D as [? Ti Ec Es | | |]; subst. destruct (proj1 (members_agree P base) i l0 Hm) as (ms & M1 & M2 & M3). exists i, ms.
    split; [reflexivity|]. split; [assumption|]. split; [assumption|]. split; [reflexivity|]. split; [exact M1|]. split; [exact M2|]. split; [exact M3|]. split; [assumption|]. split; [assumption|]. split; [assumption|]. split; [assumption|]. split; [assumption|].
    intros k f A Hf. exact (proj1 (imembers_fit P base) i l0 Hm k A f Hf).
  - destruct (ro_arr (iv_reg I) Ed). discriminate.
Qed.
(** Every container declared is left out, or becomes a name of the container of what its elements stand for. *)
Theorem C74_container P base fuel l r i e c : start_registry base -> cprogram_ok P base -> (forall t, In t l -> c_type P t) ->
  import P fuel base l = Ok r -> In (CRecord i) l -> rd_container (c_record P i) = Some e -> stands P (std_of base) (cname P e) c ->
  excluded P (std_of base) (CRecord i) \/
  (get r (NBase (rd_name (c_record P i))) = Some (NBase (c_cont P c)) /\ def r (NBase (c_cont P c)) = Some (DCont c)).
Proof.
  intros St Ok T E Hi Ec Sc. destruct (import_inv St Ok T E) as (I & M & H). destruct (H _ Hi) as [X|(x & G & _)]; [left; exact X|right].
  cbn [cname] in G. assert (Ti := T _ Hi). assert (x = NBase (c_cont P c)) by (eapply (wn_denotes (proj1 Ok)); [exact (iv_from I G)|eapply dn_container; eauto]). subst x. split; [exact G|].
  destruct (own_def St Ok I (df_cont Ti Ec Sc) (get_get (iv_reg I) G)) as (d & Ed & ->). exact Ed.
Qed.
(** Every typedef is that of a type without a representation, or becomes a name of the type it stands for. *)
Theorem C74_typedef P base fuel l r s u : start_registry base -> cprogram_ok P base -> (forall t, In t l -> c_type P t) ->
  import P fuel base l = Ok r -> In (CTypedef s u) l ->
  excluded P (std_of base) u \/ exists c, get r (NBase s) = Some c /\ get r (cname P u) = Some c /\ stands P (std_of base) (cname P u) c /\ def r c <> None.
Proof.
  intros St Ok T E Hi. destruct (import_inv St Ok T E) as (I & M & H). destruct (H _ Hi) as [X|(c & G & Gs)]; [left; inversion X; assumption|right].
  exists c. split; [exact (Gs _ _ eq_refl)|]. split; [exact G|]. split; [eapply get_stands; [exact I|apply cname_plain|exact G]|]. eapply get_def; [apply (iv_reg I)|exact G].
Qed.
(** Every enum declared is anonymous or private, or becomes an enum with the same values, if these fit in an int. *)
Theorem C74_enum_partial P base fuel l r e : start_registry base -> cprogram_ok P base -> (forall t, In t l -> c_type P t) ->
  import P fuel base l = Ok r -> In (CEnum e) l ->
  let s := NBase (en_name (c_enum P e)) in
  (en_named (c_enum P e) = false \/ en_access (c_enum P e) = Priv) \/
  (get r s = Some s /\ exists vs, def r s = Some (DEnum vs) /\ map fst vs = map fst (en_values (c_enum P e)) /\
   (Forall (fun p => -2147483648 <= snd p <= 2147483647)%Z (en_values (c_enum P e)) -> vs = en_values (c_enum P e))).
Proof.
  intros St Ok T E Hi s. destruct (import_inv St Ok T E) as (I & M & H). destruct (H _ Hi) as [X|(c & G & _)]; [left; inversion X; assumption|right].
  cbn [cname] in G. assert (Ti := T _ Hi). assert (c = s) by (eapply (wn_denotes (proj1 Ok)); [exact (iv_from I G)|apply dn_enum; assumption]). subst c. split; [exact G|].
  destruct (own_def St Ok I (df_enum (std_of base) Ti) G) as (d & Ed & -> & _). eexists. split; [exact Ed|]. split; [rewrite map_map; reflexivity|].
  intros F. clear - F. induction F as [|[k v] vs Hv F IH]; [reflexivity|]. cbn [map fst snd] in *. rewrite IH. f_equal. f_equal. unfold to_int. rewrite Z.mod_small; lia.
Qed.
(** Every numeric type of the registry that was not there is that of a built-in type of the program, with its size. *)
Theorem C74_numeric P base fuel l r n sz : start_registry base -> cprogram_ok P base -> (forall t, In t l -> c_type P t) ->
  import P fuel base l = Ok r -> def r (NBase n) = Some (DNum sz) ->
  def base (NBase n) = Some (DNum sz) \/ exists s k bits, c_type P (CBuiltin s k bits) /\ numeric_name P s k bits = Some n /\ (sz * 8 = bits)%N.
Proof.
  intros St Ok T E Ed. destruct (import_inv St Ok T E) as (I & M & _). destruct (iv_defs I Ed) as [X|(a & D & H)]; [left; exact X|right].
  destruct a as [i|e|bits|c]; cbn [describes] in H; [destruct H as (? & ? & _); discriminate|destruct H; discriminate| |discriminate]. injection H as ->. inversion D as [| |s k b m Tb Hn H1 H2 Eq1 Eq2|]; subst. exists s, k, bits. split; [assumption|]. split; [assumption|].
  unfold numeric_name in Hn. destruct (bits mod 8 =? 0)%N eqn:Eb; [|discriminate]. apply N.eqb_eq in Eb. rewrite (N.div_mod bits 8) at 2 by discriminate. rewrite Eb. lia.
Qed.
(** Nothing is invented: a plain name of the registry stands for what the program, or the registry at the start, says. *)
Theorem C74_nothing_invented P base fuel l r s c : start_registry base -> cprogram_ok P base -> (forall t, In t l -> c_type P t) ->
  import P fuel base l = Ok r -> get r (NBase s) = Some c -> denotes P (std_of base) s c.
Proof. intros St Ok T E G. destruct (import_inv St Ok T E) as (I & _). exact (iv_from I G). Qed.
(** The types that were there stay as they are; the result is again a consistent registry; arrays are arrays of what they say. *)
Theorem C74_base_kept P base fuel l r : start_registry base -> cprogram_ok P base -> (forall t, In t l -> c_type P t) -> import P fuel base l = Ok r ->
  (forall n c, get base n = Some c -> get r n = Some c) /\ (forall n d, def base n = Some d -> def r n = Some d) /\
  (forall n c, get r n = Some c -> def r c <> None) /\
  (forall c k d, def r (NArrOf c k) = Some d -> d = DArr c k /\ def r c <> None).
Proof.
  intros St Ok T E. destruct (import_inv St Ok T E) as (I & _). destruct (iv_base I) as [B1 B2]. split; [assumption|]. split; [assumption|]. split; [intros n c; apply get_def, (iv_reg I)|apply (ro_arr (iv_reg I))].
Qed.
(** The import ends (with a registry, an exception or a crash) if no class is, through members, bases or the elements of containers, part of
    itself. *)
Theorem C74_terminates_partial P base l (rank : nat -> nat) (D : nat) : start_registry base -> cprogram_ok P base -> (forall t, In t l -> c_type P t) ->
  (forall t, c_type P t -> nesting t <= D) -> (forall i t j, c_type P (CRecord i) -> part_of P i t -> holds t j -> rank j < rank i) ->
  exists bound, forall fuel, bound <= fuel -> import P fuel base l <> Fuel.
Proof.
  intros [O Pl] [W C] T HD HR. assert (L : forall i t, c_type P (CRecord i) -> part_of P i t -> leaf rank t <= rank i).
  { intros i t Ti Hp. assert (X : forall j, holds t j -> rank j < rank i) by (intros j; exact (HR i t j Ti Hp)). clear - X. induction t; cbn [leaf holds] in *; auto with arith. }
  exists (fold_right (fun t n => max (need rank D t) n) 0 l). intros fuel Hf.
  apply (@import_settles P base W C rank D HD); [intros i f Ti Hf'; apply L; [assumption|left; eauto]|intros i b Ti Hb; apply L; [assumption|right; left; eauto]|intros i e Ti He; apply L; [assumption|right; right; assumption]|apply inv_start; assumption|].
  intros t Ht. split; [auto|]. revert Hf. clear - Ht. induction l as [|x l IH]; [destruct Ht|]. cbn [fold_right]. intros Hf. destruct Ht as [<-|Ht]; [lia|]. apply IH; [assumption|lia].
Qed.

(** ** A program *)
Definition int_ := CBuiltin (s_ "/int") KSigned 32.
Definition uchar := CBuiltin (s_ "/unsigned char") KUnsigned 8.
Definition fd (n : string) (t : ctype) (bytes : N) : fieldd := FieldD (s_ n) t (bytes * 8) Pub false.
Definition rc (n : string) (fs : list fieldd) (bs : list cbase) (sz : Z) (cont : option ctype) : record := RecordD (s_ n) fs bs sz true true false false cont.
Definition no_record : record := RecordD [] [] [] 0 false false false false None.
Definition no_enum : enumd := EnumD [] false Pub [].
Definition num_name (sg : bool) (bits : N) : str :=
  (if sg then s_ "/int" else s_ "/uint") ++ (if (bits =? 8)%N then s_ "8" else if (bits =? 16)%N then s_ "16" else if (bits =? 32)%N then s_ "32" else s_ "64") ++ s_ "_t".
Definition vector_of (n : nm) : str := s_ "/std/vector<" ++ text n ++ s_ ">".
Definition cprog_of (types : list ctype) (rs : list record) (es : list enumd) : cprog :=
  CProg (fun t => In t types) (fun i => nth i rs no_record) (fun e => nth e es no_enum) vector_of num_name (fun _ => true).
Definition ex_A_ := rc "/A" [fd "x" int_ 0; fd "c" uchar 4] [] 8 None.
Definition ex_T_ := CTypedef (s_ "/T") (CElab (CRecord 0)).
Definition ex_vec := rc "/std/vector</A,/std/allocator</A>>" [] [] 24 (Some (CRecord 0)).
Definition ex_B_ := rc "/B" [fd "y" (CArray int_ 3) 8; fd "t" ex_T_ 20; fd "v" (CRecord 2) 32] [CBase (CRecord 0) 0 Pub] 56 None.
Definition ex_E_ := EnumD (s_ "/E") true Pub [(s_ "U", -1); (s_ "V", 7)]%Z.
Definition ex_types := [int_; uchar; CRecord 0; CRecord 1; CRecord 2; CEnum 0; CArray int_ 3; ex_T_; CElab (CRecord 0)].
Definition ex_prog := cprog_of ex_types [ex_A_; ex_B_; ex_vec] [ex_E_].
Definition ex_decls := [CRecord 1; ex_T_; CEnum 0; CRecord 2].
Definition i32 := NBase (s_ "/int32_t").
Notation ex_reg := Properties_Gccxml.ex_base.
Example C74_case : exists r, import ex_prog 50 ex_reg ex_decls = Ok r /\
  def r (NBase (s_ "/B")) = Some (DComp 56 [(s_ "y", NArrOf i32 3, 8%Z); (s_ "t", NBase (s_ "/A"), 20%Z); (s_ "v", NBase (s_ "/std/vector</A>"), 32%Z);
    (s_ "x", i32, 0%Z); (s_ "c", NBase (s_ "/uint8_t"), 4%Z)]) /\
  get r (NBase (s_ "/T")) = Some (NBase (s_ "/A")) /\ def r (NBase (s_ "/uint8_t")) = Some (DNum 1) /\ def r (NBase (s_ "/E")) = Some (DEnum [(s_ "U", -1); (s_ "V", 7)]%Z) /\
  get r (NBase (s_ "/std/vector</A,/std/allocator</A>>")) = Some (NBase (s_ "/std/vector</A>")) /\ def r (NBase (s_ "/std/vector</A>")) = Some (DCont (NBase (s_ "/A"))).
Proof. eexists. split; [vm_compute; reflexivity|]. repeat split; vm_compute; reflexivity. Qed.

Notation exD := (denotes ex_prog (std_of ex_reg)).
Lemma ex_in (t : ctype) : c_type ex_prog t -> In t ex_types.
Proof. exact (fun H => H). Qed.
Ltac split_in H := apply ex_in in H; unfold ex_types in H; cbn [In] in H; repeat (destruct H as [H|H]; [try discriminate H|]); try (destruct H; fail).
(** What the names of the program stand for. *)
Definition ex_table : list (str * nm) :=
  [(s_ "/int", i32); (s_ "/int32_t", i32); (s_ "/unsigned char", NBase (s_ "/uint8_t")); (s_ "/uint8_t", NBase (s_ "/uint8_t"));
   (s_ "/A", NBase (s_ "/A")); (s_ "/B", NBase (s_ "/B")); (s_ "/E", NBase (s_ "/E")); (s_ "/T", NBase (s_ "/A"));
   (s_ "/std/vector</A,/std/allocator</A>>", NBase (s_ "/std/vector</A>")); (s_ "/std/vector</A>", NBase (s_ "/std/vector</A>"))].
Lemma ex_std s c : std_of ex_reg s = Some c -> In (s, c) ex_table.
Proof.
  unfold std_of. rewrite get_eq. unfold def, ex_reg. cbn [a_types a_alias assoc]. destruct (nm_dec (NBase (s_ "/int32_t")) (NBase s)) as [X|_].
  - injection X as <-. intros X. injection X as <-. cbn; tauto.
  - destruct (nm_dec (NBase (s_ "/int")) (NBase s)) as [X|_]; [|discriminate]. injection X as <-. intros X. injection X as <-. cbn; tauto.
Qed.
Lemma ex_num s k bits n : c_type ex_prog (CBuiltin s k bits) -> numeric_name ex_prog s k bits = Some n -> std_of ex_reg s = None ->
  s = s_ "/unsigned char" /\ n = s_ "/uint8_t" /\ bits = 8%N.
Proof.
  intros Tb Hn Hs. split_in Tb.
  - injection Tb as <- <- <-. vm_compute in Hs. discriminate.
  - injection Tb as <- <- <-. vm_compute in Hn. injection Hn as <-. repeat split; reflexivity.
Qed.
Lemma ex_rec i : c_type ex_prog (CRecord i) -> i = 0 \/ i = 1 \/ i = 2.
Proof. intros H. split_in H; injection H as <-; auto. Qed.
Lemma ex_enum_ e : c_type ex_prog (CEnum e) -> e = 0.
Proof. intros H. split_in H. injection H as <-. reflexivity. Qed.
Lemma ex_td s u : c_type ex_prog (CTypedef s u) -> s = s_ "/T" /\ u = CElab (CRecord 0).
Proof. intros H. split_in H. injection H as <- <-. split; reflexivity. Qed.
Lemma ex_A_den s c : exD s c -> s = s_ "/A" -> c = NBase (s_ "/A").
Proof.
  intros H Es. destruct H as [s c Hs|s k bits n c Tb Hn Hs1 Hs2|s k bits n Tb Hn Hs1 Hs2|s k bits n Tb Hn Hs1 Hs2|j Tj Hj|j e c Tj Hj Hs|j e c Tj Hj Hs|e Te|s u c Tt Hs].
  - subst s. vm_compute in Hs. discriminate.
  - destruct (ex_num Tb Hn Hs1) as (-> & _). discriminate.
  - destruct (ex_num Tb Hn Hs1) as (-> & _). discriminate.
  - destruct (ex_num Tb Hn Hs1) as (_ & -> & _). discriminate.
  - rewrite Es. reflexivity.
  - destruct (ex_rec Tj) as [-> |[-> | ->]]; discriminate.
  - discriminate Es.
  - rewrite Es. reflexivity.
  - destruct (ex_td Tt) as [-> _]. discriminate.
Qed.
Lemma ex_A_sta c : stands ex_prog (std_of ex_reg) (NBase (s_ "/A")) c -> c = NBase (s_ "/A").
Proof. intros H. inversion H as [s x Hd| |]; subst. eapply ex_A_den; [exact Hd|reflexivity]. Qed.
Lemma ex_den s c : exD s c -> In (s, c) ex_table.
Proof.
  intros H. destruct H as [s c Hs|s k bits n c Tb Hn Hs1 Hs2|s k bits n Tb Hn Hs1 Hs2|s k bits n Tb Hn Hs1 Hs2|j Tj Hj|j e c Tj Hj Hs|j e c Tj Hj Hs|e Te|s u c Tt Hs].
  - apply ex_std. exact Hs.
  - destruct (ex_num Tb Hn Hs1) as (-> & -> & _). vm_compute in Hs2. discriminate.
  - destruct (ex_num Tb Hn Hs1) as (-> & -> & _). cbn; tauto.
  - destruct (ex_num Tb Hn Hs1) as (-> & -> & _). cbn; tauto.
  - destruct (ex_rec Tj) as [-> |[-> | ->]]; [cbn; tauto|cbn; tauto|discriminate].
  - destruct (ex_rec Tj) as [-> |[-> | ->]]; try discriminate. cbn in Hj. injection Hj as <-. apply ex_A_sta in Hs. subst c. cbn; tauto.
  - destruct (ex_rec Tj) as [-> |[-> | ->]]; try discriminate. cbn in Hj. injection Hj as <-. apply ex_A_sta in Hs. subst c. cbn; tauto.
  - rewrite (ex_enum_ Te). cbn; tauto.
  - destruct (ex_td Tt) as [-> ->]. cbn [cname] in Hs. apply ex_A_sta in Hs. subst c. cbn; tauto.
Qed.
Lemma ex_def s a : defines ex_prog (std_of ex_reg) s a -> In (s, a) [(s_ "/A", SRecord 0); (s_ "/B", SRecord 1); (s_ "/E", SEnum 0); (s_ "/uint8_t", SNum 8); (s_ "/std/vector</A>", SCont (NBase (s_ "/A")))].
Proof.
  intros H. destruct H as [i Ti Hc|e Te|s k bits n Tb Hn Hs1 Hs2|i e c Ti Hc Hs].
  - destruct (ex_rec Ti) as [-> |[-> | ->]]; [cbn; tauto|cbn; tauto|discriminate].
  - rewrite (ex_enum_ Te). cbn; tauto.
  - destruct (ex_num Tb Hn Hs1) as (_ & -> & ->). cbn; tauto.
  - destruct (ex_rec Ti) as [-> |[-> | ->]]; try discriminate. cbn in Hc. injection Hc as <-. apply ex_A_sta in Hs. subst c. cbn; tauto.
Qed.
Lemma ex_cok : cprogram_ok ex_prog ex_reg.
Proof.
  split; constructor.
  - intros s c c' H H'. apply ex_den in H, H'. cbn [In ex_table] in H. repeat (destruct H as [H|H]; [injection H as <- <-; cbn [In ex_table] in H'; repeat (destruct H' as [H'|H']; [try discriminate H'; injection H' as <-; reflexivity|]); destruct H'|]). destruct H.
  - intros s a b H H'. apply ex_def in H, H'. cbn [In] in H. repeat (destruct H as [H|H]; [injection H as <- <-; cbn [In] in H'; repeat (destruct H' as [H'|H']; [try discriminate H'; injection H' as <-; reflexivity|]); destruct H'|]). destruct H.
  - intros s a H. apply ex_def in H. cbn [In] in H. repeat (destruct H as [H|H]; [injection H as <- _; vm_compute; reflexivity|]). destruct H.
  - intros t H. change (In (canon t) ex_types). split_in H; subst t; cbn; tauto.
  - intros u n H. split_in H. injection H as <- <-. left. discriminate.
  - intros u n H. split_in H. injection H as <- <-. change (In int_ ex_types). cbn; tauto.
  - intros s u H. destruct (ex_td H) as [-> ->]. change (In (CElab (CRecord 0)) ex_types). cbn; tauto.
  - intros u H. split_in H. injection H as <-. change (In (CRecord 0) ex_types). cbn; tauto.
  - intros i f H Hf. change (In (cf_type f) ex_types). destruct (ex_rec H) as [-> |[-> | ->]]; cbn in Hf; repeat (destruct Hf as [<-|Hf]; [cbn; tauto|]); destruct Hf.
  - intros i b H Hb. change (In (cb_type b) ex_types). destruct (ex_rec H) as [-> |[-> | ->]]; cbn in Hb; repeat (destruct Hb as [<-|Hb]; [cbn; tauto|]); destruct Hb.
  - intros i e H He. change (In e ex_types). destruct (ex_rec H) as [-> |[-> | ->]]; cbn in He; try discriminate. injection He as <-. cbn; tauto.
Qed.
Lemma ex_cdecls t : In t ex_decls -> c_type ex_prog t.
Proof. intros H. change (In t ex_types). cbn [In ex_decls] in H. repeat (destruct H as [<-|H]; [cbn; tauto|]). destruct H. Qed.
Lemma ex_bases_first : bases_first ex_prog.
Proof. intros i b H. cbn in H. do 3 (destruct i as [|i]; [cbn in H; repeat (destruct H as [<-|H]; [reflexivity|]); destruct H|]). destruct i; cbn in H; destruct H. Qed.
Example C74_terminates_case : exists bound, forall fuel, bound <= fuel -> import ex_prog fuel ex_reg ex_decls <> Fuel.
Proof.
  apply (@C74_terminates_partial ex_prog ex_reg ex_decls (fun i => match i with 0 => 0 | 1 => 2 | _ => 1 end) 3); [exact ex_start|exact ex_cok|exact ex_cdecls| |].
  - intros t H. split_in H; subst t; cbn; lia.
  - intros i t j H Hp Hh. unfold part_of in Hp. destruct (ex_rec H) as [-> |[-> | ->]]; destruct Hp as [(f & Hf & <-)|[(b & Hb & <-)|He]]; cbn in *; try contradiction; try discriminate.
    + destruct Hf as [<-|[<-|[]]]; destruct Hh.
    + destruct Hf as [<-|[<-|[<-|[]]]]; cbn in Hh; [destruct Hh| |]; subst j; lia.
    + destruct Hb as [<-|[]]. cbn in Hh. subst j. lia.
    + injection He as <-. cbn in Hh. subst j. lia.
Qed.

(** ** Refuted *)
Definition decls (n : nat) : list ctype := map CRecord (seq 0 n).
(** Several bases: the members of the second one are put at the place of the first one. *)
Definition rf_bases := cprog_of [] [rc "/A" [fd "a" int_ 0] [] 4 None; rc "/B" [fd "b" int_ 0] [] 4 None; rc "/C" [] [CBase (CRecord 0) 0 Pub; CBase (CRecord 1) 4 Pub] 8 None] [].
Theorem C74_second_base_refuted : exists r, import rf_bases 50 ex_reg (decls 3) = Ok r /\
  def r (NBase (s_ "/C")) = Some (DComp 8 [(s_ "a", i32, 0%Z); (s_ "b", i32, 0%Z)]) /\ cmembers rf_bases (std_of ex_reg) 2 [(s_ "a", i32, 0%Z); (s_ "b", i32, 4%Z)].
Proof.
  eexists. split; [vm_compute; reflexivity|]. split; [vm_compute; reflexivity|]. set (P := rf_bases).
  assert (D0 : stands P (std_of ex_reg) (NBase (s_ "/int")) i32) by (apply st_base, dn_std; vm_compute; reflexivity).
  assert (D1 : cmembers P (std_of ex_reg) 0 [(s_ "a", i32, 0%Z)]). { apply (cm_class (P := P) (std := std_of ex_reg) (i := 0) (fb := []) (fo := [(s_ "a", i32, 0%Z)])); [constructor|]. repeat constructor; exact D0. }
  assert (D2 : cmembers P (std_of ex_reg) 1 [(s_ "b", i32, 0%Z)]). { apply (cm_class (P := P) (std := std_of ex_reg) (i := 1) (fb := []) (fo := [(s_ "b", i32, 0%Z)])); [constructor|]. repeat constructor; exact D0. }
  apply (cm_class (P := P) (std := std_of ex_reg) (i := 2) (fb := [(s_ "a", i32, 0%Z); (s_ "b", i32, 4%Z)]) (fo := [])); [|constructor].
  apply (cb_cons (P := P) (std := std_of ex_reg) (b := CBase (CRecord 0) 0 Pub) (bs := [CBase (CRecord 1) 4 Pub]) (j := 0) (fs := [(s_ "a", i32, 0%Z)]) (r := [(s_ "b", i32, 4%Z)]) eq_refl D1).
  apply (cb_cons (P := P) (std := std_of ex_reg) (b := CBase (CRecord 1) 4 Pub) (bs := []) (j := 1) (fs := [(s_ "b", i32, 0%Z)]) (r := []) eq_refl D2). constructor.
Qed.
(** Arrays of two types that are the same to Typelib, char a[2] and signed char b[2]: AlreadyDefined. *)
Definition schar := CBuiltin (s_ "/signed char") KSigned 8.
Definition rf_arrays := cprog_of [] [rc "/S" [fd "a" (CArray (CBuiltin (s_ "/char") KSigned 8) 2) 0; fd "b" (CArray schar 2) 2] [] 4 None] [].
Theorem C74_same_arrays_refuted : import rf_arrays 50 (AR [] []) (decls 1) = Throw EArg.
Proof. vm_compute. reflexivity. Qed.
(** typedef int V[3]; typedef V W[2]: Undefined, as the array of 2 V, /int[2][3] to C++, is /int[3][2] to Typelib. *)
Theorem C74_nested_array_refuted :
  import (cprog_of [] [] []) 50 ex_reg [CTypedef (s_ "/V") (CArray int_ 3); CTypedef (s_ "/W") (CArray (CTypedef (s_ "/V") (CArray int_ 3)) 2)] = Throw ENotFound.
Proof. vm_compute. reflexivity. Qed.
(** struct S { int m[3][3]; } is left out, or not when such an array was registered through typedefs before. *)
Definition rf_order := cprog_of [] [rc "/S" [fd "m" (CArray (CArray int_ 3) 3) 0] [] 36 None] [].
Definition rf_td := [CTypedef (s_ "/V") (CArray int_ 3); CTypedef (s_ "/W") (CArray (CTypedef (s_ "/V") (CArray int_ 3)) 3)].
Theorem C74_order_refuted : exists r1 r2, import rf_order 50 ex_reg (CRecord 0 :: rf_td) = Ok r1 /\ import rf_order 50 ex_reg (rf_td ++ [CRecord 0]) = Ok r2 /\
  get r1 (NBase (s_ "/S")) = None /\ def r2 (NBase (s_ "/S")) = Some (DComp 36 [(s_ "m", NArrOf (NArrOf i32 3) 3, 0%Z)]).
Proof. eexists. eexists. split; [vm_compute; reflexivity|]. split; [vm_compute; reflexivity|]. split; vm_compute; reflexivity. Qed.
(** struct N { std::vector<N> children; }: the import never ends. *)
Definition rf_tree := cprog_of [] [rc "/N" [fd "children" (CRecord 1) 0] [] 24 None; rc "/std/vector</N,/std/allocator</N>>" [] [] 24 (Some (CRecord 0))] [].
Theorem C74_tree_refuted fuel : import rf_tree fuel (AR [] []) [CRecord 0] = Fuel.
Proof.
  cbn [import]. assert (H : register_type rf_tree fuel (AR [] []) (CRecord 0) = Fuel /\ register_type rf_tree fuel (AR [] []) (CRecord 1) = Fuel /\ add_members rf_tree fuel (AR [] []) 0 = Fuel); [|destruct H as [-> _]; reflexivity].
  assert (Eq : forall f r i, register_type rf_tree (S f) r (CRecord i) = match get r (cname rf_tree (CRecord i)) with Some c => Ok (Some c, r) | None => add_record rf_tree (register_type rf_tree f) (add_members rf_tree f) r i end) by reflexivity.
  assert (Em : forall f r i, add_members rf_tree (S f) r i = class_members rf_tree (register_type rf_tree f) (add_members rf_tree f) r i) by reflexivity.
  induction fuel as [|fuel (IH0 & IH1 & IHm)]; [repeat split; reflexivity|]. rewrite !Eq, Em. revert IH0 IH1 IHm. generalize (register_type rf_tree fuel) (add_members rf_tree fuel). intros rec recm IH0 IH1 IHm. split; [|split].
  - cbn. rewrite IHm. reflexivity.
  - cbn. unfold register_container. rewrite IH0. reflexivity.
  - unfold class_members. cbn. rewrite IH1. reflexivity.
Qed.
(** Protected members are imported as if they were public. *)
Definition rf_prot := cprog_of [] [RecordD (s_ "/P") [FieldD (s_ "x") int_ 0 Prot false] [] 4 true true false false None] [].
Theorem C74_protected_refuted : exists r, import rf_prot 50 ex_reg (decls 1) = Ok r /\ def r (NBase (s_ "/P")) = Some (DComp 4 [(s_ "x", i32, 0%Z)]).
Proof. eexists. split; vm_compute; reflexivity. Qed.
(** Private members that are inherited leave the class out, but private bases of a base do not. *)
Definition rf_priv := cprog_of [] [rc "/A" [fd "a" int_ 0] [] 4 None; rc "/B" [] [CBase (CRecord 0) 0 Priv] 4 None; rc "/C" [] [CBase (CRecord 1) 0 Pub] 4 None] [].
Theorem C74_private_base_refuted : exists r, import rf_priv 50 ex_reg (decls 3) = Ok r /\ get r (NBase (s_ "/B")) = None /\ def r (NBase (s_ "/C")) = Some (DComp 4 [(s_ "a", i32, 0%Z)]).
Proof. eexists. split; [vm_compute; reflexivity|]. split; vm_compute; reflexivity. Qed.
(** Values of enums that do not fit in an int are changed. *)
Theorem C74_enum_values_refuted : exists r, import (cprog_of [] [] [EnumD (s_ "/E") true Pub [(s_ "BIG", 4294967297%Z)]]) 50 ex_reg [CEnum 0] = Ok r /\
  def r (NBase (s_ "/E")) = Some (DEnum [(s_ "BIG", 1%Z)]).
Proof. eexists. split; vm_compute; reflexivity. Qed.
