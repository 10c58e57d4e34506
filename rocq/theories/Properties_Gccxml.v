(** * Properties_Gccxml: C73, importing C++ declarations. *)
From Verif Require Import Base Types Names TypeObj GccxmlSpec Gccxml GccxmlProofs.
Local Open Scope nat_scope.

(** The names of the registry the import starts from. *)
Definition std_of (base : areg) (s : str) : option nm := get base (NBase s).
Definition start_registry (base : areg) : Prop := reg_ok base /\ forall n sz fs, def base n <> Some (DComp sz fs).
(** What every C++ program satisfies (one_definition), and what the importer needs besides (no_hiding). *)
Definition program_ok (P : program) (base : areg) : Prop := one_definition P (std_of base) /\ no_hiding P (std_of base).

(** Partial: an import raises for legitimate programs, and lays out members that hide others wrongly (refuted below).
    Every class asked for is either one of those that have no representation, or becomes a compound of its size, with all its data
    members (those of the bases included) at their places, of the types they were declared with, all of them registered. *)
Theorem C73_class_partial P base fuel types typedefs g i s pub bs inc ms sz : start_registry base -> program_ok P base ->
  load P fuel base types typedefs = Ok g -> In i (types ++ typedefs) -> p_node P i = Some (Class s pub bs inc ms sz) ->
  left_out P (std_of base) i \/
  exists fs, get (g_reg g) (NBase s) = Some (NBase s) /\ def (g_reg g) (NBase s) = Some (DComp (sz / 8) fs) /\ data_members P (std_of base) i fs /\
    Forall (fun f => def (g_reg g) (snd (fst f)) <> None) fs.
Proof.
  intros [O Pl] [D Nh] E Hi En. destruct (load_ok O Pl D Nh E) as [I H]. destruct (H i Hi) as [L|(n & c & G & Hd & Hn)]; [left; exact L|right].
  assert (Hnm : names P i s) by (eexists; split; [exact En|reflexivity]). specialize (Hn s Hnm). assert (X : c = NBase s) by (inversion Hd; subst; congruence). subst c.
  assert (Df := get_def (iv_reg I) Hn). destruct (def (g_reg g) (NBase s)) as [d|] eqn:Ed; [|congruence]. destruct (iv_defs I Ed) as [X|(j & [(bs' & ms' & sz' & fs & Hj & -> & Dm & _)|(vs & Hj & _)])].
  - exfalso. assert (Y := od_own D (i := i) (s := s)). unfold std_of in Y. rewrite (@get_self base (NBase s)) in Y by congruence. specialize (Y (or_introl (ex_intro _ pub (ex_intro _ bs (ex_intro _ inc (ex_intro _ ms (ex_intro _ sz En))))))). discriminate.
  - assert (j = i) by (eapply (od_defines D); left; eauto 10). subst j. rewrite En in Hj. injection Hj; intros; subst. exists fs. split; [assumption|]. split; [reflexivity|]. split; [exact Dm|]. exact (ro_comp (iv_reg I) Ed).
  - assert (j = i) by (eapply (od_defines D (s := s)); [right; eauto|left; eauto 10]). subst j. congruence.
Qed.
(** The data members of a class are determined by the program. *)
Theorem C73_members_unique P std i fs fs' : data_members P std i fs -> data_members P std i fs' -> fs = fs'.
Proof. intros A B. apply (proj1 (members_fun P std) i fs' B fs A). Qed.
(** Conversely, every compound of the registry is a complete, public class of the program that has neither virtual members nor members
    that are not public, with exactly its data members; its bases are public and not virtual, or empty. *)
Theorem C73_compounds P base fuel types typedefs g n sz fs : start_registry base -> program_ok P base ->
  load P fuel base types typedefs = Ok g -> def (g_reg g) n = Some (DComp sz fs) ->
  exists i s bs ms bits, n = NBase s /\ p_node P i = Some (Class s true bs false ms bits) /\ sz = (bits / 8)%Z /\ data_members P (std_of base) i fs /\
    (forall m, In m ms -> p_virtual P m = false) /\ (forall m f, In m ms -> p_node P m = Some (Fieldn f) -> fn_public f = true) /\
    (forall b, In b bs -> data_members P (std_of base) (bn_type b) [] \/ (bn_virtual b = false /\ bn_public b = true)).
Proof.
  intros [O Pl] [D Nh] E Ed. destruct (load_ok O Pl D Nh E) as [I _]. destruct (iv_defs I Ed) as [X|X]; [destruct (Pl _ _ _ X)|]. destruct n as [s|m|m k|m a b].
  - destruct X as (i & [(bs & ms & z & fs' & Hi & X & Dm & Hh & Hv & Hf & Hb)|(vs & _ & X & _)]); [|discriminate]. injection X as -> ->. exists i, s, bs, ms, z. split; [reflexivity|]. split; [assumption|]. split; [reflexivity|]. split; [exact Dm|]. split; [|split; assumption].
    intros m Hm. destruct (p_virtual P m) eqn:Ev; [|reflexivity]. assert (Y : existsb (p_virtual P) ms = true) by (apply existsb_exists; eauto). congruence.
  - destruct (ro_ptr (iv_reg I) Ed). discriminate.
  - destruct (ro_arr (iv_reg I) Ed). discriminate.
  - destruct X.
Qed.
(** Every typedef asked for that is not left out becomes a name of the type it stands for. *)
Theorem C73_typedef P base fuel types typedefs g i s pub to : start_registry base -> program_ok P base ->
  load P fuel base types typedefs = Ok g -> In i (types ++ typedefs) -> p_node P i = Some (Typedef s pub to) ->
  left_out P (std_of base) i \/ exists c, get (g_reg g) (NBase s) = Some c /\ designates P (std_of base) to c /\ def (g_reg g) c <> None.
Proof.
  intros [O Pl] [D Nh] E Hi En. destruct (load_ok O Pl D Nh E) as [I H]. destruct (H i Hi) as [L|(n & c & G & Hd & Hn)]; [left; exact L|right].
  exists c. assert (Hnm : names P i s) by (eexists; split; [exact En|reflexivity]). split; [exact (Hn s Hnm)|]. split; [|eapply get_def; [apply (iv_reg I)|exact G]].
  inversion Hd; subst; try congruence. assert (to0 = to) by congruence. subst. assumption.
Qed.
(** Every enum asked for that is not left out becomes an enum with the same values. *)
Theorem C73_enum P base fuel types typedefs g i s pub vs : start_registry base -> program_ok P base ->
  load P fuel base types typedefs = Ok g -> In i (types ++ typedefs) -> p_node P i = Some (Enumn s pub vs) ->
  left_out P (std_of base) i \/ (get (g_reg g) (NBase s) = Some (NBase s) /\ def (g_reg g) (NBase s) = Some (DEnum vs)).
Proof.
  intros [O Pl] [D Nh] E Hi En. destruct (load_ok O Pl D Nh E) as [I H]. destruct (H i Hi) as [L|(n & c & G & Hd & Hn)]; [left; exact L|right].
  assert (Hnm : names P i s) by (eexists; split; [exact En|reflexivity]). specialize (Hn s Hnm). assert (X : c = NBase s) by (inversion Hd; subst; congruence). subst c. split; [assumption|].
  assert (Df := get_def (iv_reg I) Hn). destruct (def (g_reg g) (NBase s)) as [d|] eqn:Ed; [|congruence]. destruct (iv_defs I Ed) as [X|(j & [(bs' & ms' & sz' & fs & Hj & -> & Dm & _)|(vs' & Hj & -> & _)])].
  - exfalso. assert (Y := od_own D (i := i) (s := s)). unfold std_of in Y. rewrite (@get_self base (NBase s)) in Y by congruence. specialize (Y (or_intror (ex_intro _ pub (ex_intro _ vs En)))). discriminate.
  - assert (j = i) by (eapply (od_defines D (s := s)); [left; eauto 10|right; eauto]). subst j. congruence.
  - assert (j = i) by (eapply (od_defines D (s := s)); right; eauto). subst j. congruence.
Qed.
(** Nothing is invented: a plain name of the registry was there before, or is declared by the program and designates what the program
    says. *)
Theorem C73_nothing_invented P base fuel types typedefs g s c : start_registry base -> program_ok P base ->
  load P fuel base types typedefs = Ok g -> get (g_reg g) (NBase s) = Some c ->
  get base (NBase s) = Some c \/ exists i, names P i s /\ designates P (std_of base) i c.
Proof. intros [O Pl] [D Nh] E G. destruct (load_ok O Pl D Nh E) as [I _]. exact (iv_from I G). Qed.
(** The types that were there stay as they are; the result is again a consistent registry. *)
Theorem C73_base_kept P base fuel types typedefs g : start_registry base -> program_ok P base -> load P fuel base types typedefs = Ok g ->
  (forall n c, get base n = Some c -> get (g_reg g) n = Some c) /\ (forall n d, def base n = Some d -> def (g_reg g) n = Some d) /\
  (forall n c, get (g_reg g) n = Some c -> def (g_reg g) c <> None) /\
  (forall c d, def (g_reg g) (NPtrOf c) = Some d -> d = DPtr c /\ def (g_reg g) c <> None) /\
  (forall c k d, def (g_reg g) (NArrOf c k) = Some d -> d = DArr c k /\ def (g_reg g) c <> None).
Proof.
  intros [O Pl] [D Nh] E. destruct (load_ok O Pl D Nh E) as [I _]. destruct (iv_base I) as [B1 B2]. split; [assumption|]. split; [assumption|]. split; [intros n c; apply get_def, (iv_reg I)|]. split; [apply (ro_ptr (iv_reg I))|apply (ro_arr (iv_reg I))].
Qed.
(** What the importer ignores are types without a representation. *)
Theorem C73_ignored P base fuel types typedefs g i : start_registry base -> program_ok P base -> load P fuel base types typedefs = Ok g ->
  In i (g_ign g) -> left_out P (std_of base) i.
Proof. intros [O Pl] [D Nh] E Hi. destruct (load_ok O Pl D Nh E) as [I _]. apply (iv_ign I). unfold inb. apply existsb_exists. exists i. split; [assumption|apply Nat.eqb_refl]. Qed.
(** The import of a finite document ends (with a registry or with an exception), provided no type consists of indirections only. *)
Theorem C73_terminates P base types typedefs (ids : list id) (h : id -> nat) (H : nat) : start_registry base -> program_ok P base ->
  (forall i, p_node P i <> None -> In i ids) -> (forall i, h i <= H) ->
  (forall i to, (p_node P i = Some (Ptr to) \/ (exists m, p_node P i = Some (Arr to m)) \/ (exists a b, p_node P i = Some (Cv to a b))) -> h to < h i) ->
  forall fuel, length ids * (H + 2) + H < fuel -> load P fuel base types typedefs <> Fuel.
Proof. intros [O Pl] [D Nh] Hi Hh Hd fuel. apply (@load_settles P base O Pl D Nh ids h H); try assumption; intros; apply Hd; eauto. Qed.

(** ** A program *)
Definition f_ (n : string) (t : id) (o : Z) : node := Fieldn (FieldN (s_ n) t o true).
Definition ex_base : areg := AR [(NBase (s_ "/int32_t"), DNum 4)] [(NBase (s_ "/int"), NBase (s_ "/int32_t"))].
Definition prog (l : list node) : program := Prog (fun i => nth_error l i) (fun _ => false) (fun _ => false) (fun _ => true).
Definition ex_nodes : list node :=
  [Fund (s_ "/int");
   Class (s_ "/A") true [] false [2] 64; f_ "x" 0 32;
   Class (s_ "/B") true [BaseN 1 4 false true] false [4] 256; f_ "y" 6 128;
   Ptr 1; Arr 5 (Some 2%N); Typedef (s_ "/T") true 8; Cv 3 true false;
   Enumn (s_ "/E") true [(s_ "U", 0%Z); (s_ "V", 7%Z)]; Class (s_ "/P") false [] false [2] 64].
Definition ex_load := load (prog ex_nodes) 50 ex_base [3; 9; 10] [7].
Ltac reg := unfold def, ex_base; cbn [a_types a_alias assoc]; match goal with |- context [nm_dec ?a ?b] => destruct (nm_dec a b) as [<-|] end; try discriminate.
Lemma ex_start : start_registry ex_base.
Proof.
  split; [constructor|].
  - intros k c. reg. intros X. injection X as <-. split; [discriminate|exact I].
  - intros c d. unfold def, ex_base; cbn [a_types assoc]. destruct (nm_dec _ (NPtrOf c)); discriminate.
  - intros c k d. unfold def, ex_base; cbn [a_types assoc]. destruct (nm_dec _ (NArrOf c k)); discriminate.
  - intros n sz fs. reg.
  - intros n sz fs. reg.
Qed.
Notation exP := (prog ex_nodes).
Notation exS := (std_of ex_base).
Lemma ex_A : data_members exP exS 1 [(s_ "x", NBase (s_ "/int32_t"), 4%Z)].
Proof.
  apply (dm_class (std := exS) (P := exP) (i := 1) (fb := []) (fo := [(s_ "x", NBase (s_ "/int32_t"), 4%Z)]) eq_refl); [constructor|].
  apply (of_field (std := exS) (P := exP) (m := 2) (f := FieldN (s_ "x") 0 32 true) eq_refl); [|constructor]. eapply ds_fund; reflexivity.
Qed.
Lemma ex_B : data_members exP exS 3 [(s_ "x", NBase (s_ "/int32_t"), 8%Z); (s_ "y", NArrOf (NPtrOf (NBase (s_ "/A"))) 3, 16%Z)].
Proof.
  apply (dm_class (std := exS) (P := exP) (i := 3) (fb := [(s_ "x", NBase (s_ "/int32_t"), 8%Z)]) (fo := [(s_ "y", NArrOf (NPtrOf (NBase (s_ "/A"))) 3, 16%Z)]) eq_refl).
  - apply (bm_cons (std := exS) (P := exP) (b := BaseN 1 4 false true) (bs := []) (cls := 1) (fs := [(s_ "x", NBase (s_ "/int32_t"), 4%Z)]) (r := [])); [eapply co_class; reflexivity|exact ex_A|constructor].
  - apply (of_field (std := exS) (P := exP) (m := 4) (f := FieldN (s_ "y") 6 128 true) eq_refl); [|constructor].
    apply (ds_arr (std := exS) (P := exP) (i := 6) (to := 5) (m := 2%N) eq_refl). apply (ds_ptr (std := exS) (P := exP) (i := 5) (to := 1) eq_refl). eapply ds_class. reflexivity.
Qed.
Lemma ex_P : data_members exP exS 10 [(s_ "x", NBase (s_ "/int32_t"), 4%Z)].
Proof.
  apply (dm_class (std := exS) (P := exP) (i := 10) (fb := []) (fo := [(s_ "x", NBase (s_ "/int32_t"), 4%Z)]) eq_refl); [constructor|].
  apply (of_field (std := exS) (P := exP) (m := 2) (f := FieldN (s_ "x") 0 32 true) eq_refl); [|constructor]. eapply ds_fund; reflexivity.
Qed.
Lemma ex_names i s : names exP i s -> In (i, s) [(0, s_ "/int"); (1, s_ "/A"); (3, s_ "/B"); (7, s_ "/T"); (9, s_ "/E"); (10, s_ "/P")].
Proof.
  intros (n & E1 & E2). cbn [p_node prog] in E1. do 11 (destruct i as [|i]; [cbn [nth_error ex_nodes] in E1; injection E1 as <-; cbn [declares f_] in E2; try discriminate; injection E2 as <-; cbn; tauto|]).
  cbn [nth_error ex_nodes] in E1. destruct i; discriminate.
Qed.
Lemma ex_defines i s : defines exP i s -> In (i, s) [(1, s_ "/A"); (3, s_ "/B"); (9, s_ "/E"); (10, s_ "/P")].
Proof.
  intros D. assert (N : names exP i s) by (destruct D as [(a & b & c & d & e & E)|(a & b & E)]; eexists; (split; [exact E|reflexivity])). apply ex_names in N. cbn [In] in N |- *.
  destruct N as [E|[E|[E|[E|[E|[E|[]]]]]]]; injection E as <- <-; try tauto; destruct D as [(a & b & c & d & e & E)|(a & b & E)]; discriminate.
Qed.
Lemma ex_ok : program_ok exP ex_base.
Proof.
  split; [constructor|].
  - intros i j s Di Dj. apply ex_defines in Di, Dj. cbn [In] in Di, Dj. destruct Di as [E|[E|[E|[E|[]]]]]; injection E as <- <-; destruct Dj as [E|[E|[E|[E|[]]]]]; try discriminate; injection E as <-; reflexivity.
  - intros i j s c Ni Nj Hd. apply ex_names in Ni, Nj. cbn [In] in Ni, Nj.
    assert (j = i); [|congruence]. destruct Ni as [E|[E|[E|[E|[E|[E|[]]]]]]]; injection E as <- <-; destruct Nj as [E|[E|[E|[E|[E|[E|[]]]]]]]; try discriminate; injection E as <-; reflexivity.
  - intros i s c Ni Hs. apply ex_names in Ni. cbn [In] in Ni. destruct Ni as [E|[E|[E|[E|[E|[E|[]]]]]]]; injection E as <- <-; try discriminate Hs. eapply ds_fund; [reflexivity|exact Hs].
  - intros i s D. apply ex_defines in D. cbn [In] in D. destruct D as [E|[E|[E|[E|[]]]]]; injection E as <- <-; reflexivity.
  - intros i fs Hm. assert (X : i = 1 \/ i = 3 \/ i = 10).
    { inversion Hm as [x s pub bs inc ms sz fb fo En]; subst. cbn [p_node prog] in En. do 11 (destruct i as [|i]; [try discriminate; tauto|]). cbn [nth_error ex_nodes] in En. destruct i; discriminate. }
    destruct X as [-> |[-> | ->]]; [rewrite (C73_members_unique Hm ex_A)|rewrite (C73_members_unique Hm ex_B)|rewrite (C73_members_unique Hm ex_P)]; repeat constructor; cbn; try tauto; intros [X|[]]; discriminate.
Qed.
Example C73_case : exists g, ex_load = Ok g /\
  def (g_reg g) (NBase (s_ "/B")) = Some (DComp 32 [(s_ "x", NBase (s_ "/int32_t"), 8%Z); (s_ "y", NArrOf (NPtrOf (NBase (s_ "/A"))) 3, 16%Z)]) /\
  get (g_reg g) (NBase (s_ "/T")) = Some (NBase (s_ "/B")) /\ get (g_reg g) (NBase (s_ "/P")) = None.
Proof. eexists. split; [vm_compute; reflexivity|]. repeat split; vm_compute; reflexivity. Qed.

(** ** Refuted *)
(** A structure that points to itself (a list) cannot be imported: NotFound. *)
Definition rf_list : list node := [Class (s_ "/N") true [] false [1] 64; f_ "next" 2 0; Ptr 0].
Theorem C73_self_reference_refuted : load (prog rf_list) 50 ex_base [0] [] = Throw ENotFound.
Proof. vm_compute. reflexivity. Qed.
(** A member that hides one of a base: in a class derived from that one, it is at the place of the one it hides. *)
Definition rf_hide : list node :=
  [Fund (s_ "/int"); Class (s_ "/A") true [] false [2] 32; f_ "x" 0 0;
   Class (s_ "/B") true [BaseN 1 0 false true] false [4] 64; f_ "x" 0 32;
   Class (s_ "/C") true [BaseN 3 0 false true] false [] 64].
Theorem C73_hidden_member_refuted : exists g i32, load (prog rf_hide) 50 ex_base [5] [] = Ok g /\
  def (g_reg g) (NBase (s_ "/C")) = Some (DComp 8 [(s_ "x", i32, 0%Z); (s_ "x", i32, 0%Z)]) /\
  data_members (prog rf_hide) exS 5 [(s_ "x", i32, 0%Z); (s_ "x", i32, 4%Z)].
Proof.
  eexists. exists (NBase (s_ "/int32_t")). split; [vm_compute; reflexivity|]. split; [vm_compute; reflexivity|].
  set (i32 := NBase (s_ "/int32_t")). set (P := prog rf_hide).
  assert (D0 : designates P exS 0 i32) by (eapply ds_fund; reflexivity).
  assert (D1 : data_members P exS 1 [(s_ "x", i32, 0%Z)]).
  { apply (dm_class (std := exS) (P := P) (i := 1) (fb := []) (fo := [(s_ "x", i32, 0%Z)]) eq_refl); [constructor|]. apply (of_field (std := exS) (P := P) (m := 2) (f := FieldN (s_ "x") 0 0 true) eq_refl); [exact D0|constructor]. }
  assert (D3 : data_members P exS 3 [(s_ "x", i32, 0%Z); (s_ "x", i32, 4%Z)]).
  { apply (dm_class (std := exS) (P := P) (i := 3) (fb := [(s_ "x", i32, 0%Z)]) (fo := [(s_ "x", i32, 4%Z)]) eq_refl).
    - apply (bm_cons (std := exS) (P := P) (b := BaseN 1 0 false true) (bs := []) (cls := 1) (fs := [(s_ "x", i32, 0%Z)]) (r := [])); [eapply co_class; reflexivity|exact D1|constructor].
    - apply (of_field (std := exS) (P := P) (m := 4) (f := FieldN (s_ "x") 0 32 true) eq_refl); [exact D0|constructor]. }
  apply (dm_class (std := exS) (P := P) (i := 5) (fb := [(s_ "x", i32, 0%Z); (s_ "x", i32, 4%Z)]) (fo := []) eq_refl); [|constructor].
  apply (bm_cons (std := exS) (P := P) (b := BaseN 3 0 false true) (bs := []) (cls := 3) (fs := [(s_ "x", i32, 0%Z); (s_ "x", i32, 4%Z)]) (r := [])); [eapply co_class; reflexivity|exact D3|constructor].
Qed.
(** A virtual base that is empty does not keep a class from being imported. *)
Definition rf_virtual : list node :=
  [Fund (s_ "/int"); Class (s_ "/V") true [] false [] 8; Class (s_ "/W") true [BaseN 1 0 true false] false [3] 128; f_ "x" 0 64].
Theorem C73_virtual_base_refuted : exists g, load (prog rf_virtual) 50 ex_base [2] [] = Ok g /\
  def (g_reg g) (NBase (s_ "/W")) = Some (DComp 16 [(s_ "x", NBase (s_ "/int32_t"), 8%Z)]) /\ left_out (prog rf_virtual) exS 2.
Proof.
  eexists. split; [vm_compute; reflexivity|]. split; [vm_compute; reflexivity|].
  apply (lo_base (std := exS) (P := prog rf_virtual) (i := 2) (b := BaseN 1 0 true false) eq_refl); [left; reflexivity|auto].
Qed.
(** Bit-fields: two members become fields at the same place. *)
Definition rf_bits : list node := [Fund (s_ "/int"); Class (s_ "/F") true [] false [2; 3] 32; f_ "a" 0 0; f_ "b" 0 3].
Theorem C73_bitfields_refuted : exists g i32, load (prog rf_bits) 50 ex_base [1] [] = Ok g /\
  def (g_reg g) (NBase (s_ "/F")) = Some (DComp 4 [(s_ "a", i32, 0%Z); (s_ "b", i32, 0%Z)]).
Proof. eexists. exists (NBase (s_ "/int32_t")). split; vm_compute; reflexivity. Qed.
(** A class derived from a type of the standard registry (std::string): NoMethodError. *)
Definition rf_string : list node := [Fund (s_ "/int"); Typedef (s_ "/Str") true 0; Class (s_ "/D") true [BaseN 1 0 false true] false [3] 64; f_ "x" 0 32].
Theorem C73_standard_base_refuted : load (prog rf_string) 50 ex_base [2] [] = Throw EStd.
Proof. vm_compute. reflexivity. Qed.
(** Pointers to arrays and arrays in qualified types: names Typelib does not accept, hence the import fails. *)
Fixpoint text (n : nm) : str :=
  match n with
  | NBase s => s
  | NPtrOf m => text m ++ s_ "*"
  | NArrOf m k => text m ++ s_ "[3]"
  | NQual m a b => text m ++ s_ " " ++ (if a then s_ "const" else []) ++ (if b then s_ "volatile" else [])
  end.
Definition prog_valid (l : list node) : program := Prog (fun i => nth_error l i) (fun _ => false) (fun _ => false) (fun n => isValidTypename (text n) true).
Definition rf_ptr_arr : list node := [Fund (s_ "/int"); Arr 0 (Some 2%N); Ptr 1; Class (s_ "/G") true [] false [4] 64; f_ "p" 2 0].
Theorem C73_pointer_to_array_refuted : load (prog_valid rf_ptr_arr) 50 ex_base [3] [] = Throw EArg.
Proof. vm_compute. reflexivity. Qed.
