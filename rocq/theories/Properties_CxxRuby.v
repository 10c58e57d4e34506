(** * Properties_CxxRuby: C++ names and Typelib names in the Ruby importers (C71). *)
From Verif Require Import Base CxxRubySpec CxxRuby CxxRubyProofs CxxRubyConv CxxRubyBack.
Local Open Scope char_scope.

(** Full statement: for every C++ type name. Proved for the names made of identifiers, templates with at least one argument
    and numbers; pointers to and arrays of template instances and templates without arguments are missing, as it does not
    hold for them (C71_pointer_refuted, C71_no_arguments_refuted). Whatever the spaces in it and whether names start with ::,
    the Typelib name has the same components and the same arguments. *)
Theorem C71_to_typelib_partial s p : spells s p -> well_named p -> cxx_to_typelib s = Ok (tl_name p).
Proof. apply cxx_to_typelib_ok. Qed.
(** The Typelib name is turned back into the C++ name with the same components and the same arguments, *)
Theorem C71_to_cxx p : well_named p -> typelib_to_cxx (tl_name p) = cxx_name p.
Proof. apply typelib_to_cxx_ok. Qed.
(** so that the conversions are inverses of each other. *)
Theorem C71_round_trip p : well_named p ->
  cxx_to_typelib (typelib_to_cxx (tl_name p)) = Ok (tl_name p) /\ exists t, cxx_to_typelib (cxx_name p) = Ok t /\ typelib_to_cxx t = cxx_name p.
Proof.
  intros W. rewrite C71_to_cxx by exact W. assert (E := cxx_to_typelib_ok (cxx_name_spells p) W). split; [exact E|].
  exists (tl_name p). split; [exact E|apply C71_to_cxx, W].
Qed.
(** Full statement: for every template instance, also nested in others. Proved for those in a namespace; see
    C71_nested_template_refuted. The name of the template and the names of its arguments. *)
Theorem C71_parse_template_partial p a : no_args p -> well_named (with_args p a) ->
  parse_template (tl_name (with_args p a)) = (Some (tl_name p), arg_names a).
Proof. apply parse_template_ok. Qed.
(** The first namespace: '/' for a type that is not in one. *)
Theorem C71_split_first p : well_named p ->
  split_first_namespace (tl_name p) = Ok (match p with PEnd _ _ => (["/"], tl (tl_name p)) | PSub id a q => (tl_name (PEnd id a) ++ ["/"], tl (tl_name q)) end).
Proof. destruct p as [id a|id a q]; intros W; [apply split_first_end, W|apply split_first_sub, W]. Qed.
(** The namespace of the type and its last component. *)
Theorem C71_split_last p : well_named p ->
  split_last_namespace (tl_name p) = (ns_of p, last_of p) /\ ns_of p ++ last_of p = tl_name p.
Proof. intros W. split; [apply split_last_ok, W|symmetry; apply ns_last]. Qed.

Lemma tl_inj :
  (forall p, well_named p -> forall q, well_named q -> tl_name p = tl_name q -> p = q) /\
  (forall a, args_named a -> forall b, args_named b -> arg_names a = arg_names b -> a = b).
Proof.
  assert (E1 : forall id a, (args_named a -> forall b, args_named b -> arg_names a = arg_names b -> a = b) ->
     forall id' b, well_named (PEnd id a) -> well_named (PEnd id' b) -> tl_name (PEnd id a) = tl_name (PEnd id' b) -> id = id' /\ a = b).
  { intros id a IH id' b W W' E. assert (P := @parse_template_ok (PEnd id ANil) a eq_refl W). assert (P' := @parse_template_ok (PEnd id' ANil) b eq_refl W').
    cbn [with_args] in P, P'. rewrite E, P' in P. injection P as A B. rewrite !wr_end in A. cbn [brackets] in A. rewrite !app_nil_r in A. split; [congruence|].
    apply IH; [apply W|apply W'|congruence]. }
  assert (SZ : forall id a q id' b, well_named (PSub id a q) -> well_named (PEnd id' b) -> tl_name (PSub id a q) <> tl_name (PEnd id' b)).
  { intros id a q id' b W W' E. assert (P := C71_split_first W). assert (P' := C71_split_first W'). rewrite E, P' in P. injection P as H _.
    destruct W as [I _]. apply ident_ne in I. rewrite wr_end in H. destruct id; [contradiction|discriminate]. }
  apply cpath_mind.
  - intros id a IH W q W' E. destruct q as [id' b|id' b q]; [|exfalso; exact (SZ _ _ _ _ _ W' W (eq_sym E))].
    destruct (E1 id a IH id' b W W' E) as [-> ->]. reflexivity.
  - intros id a IH q IHq W q' W' E. destruct q' as [id' b|id' b q']; [exfalso; exact (SZ _ _ _ _ _ W W' E)|].
    assert (P := C71_split_first W). assert (P' := C71_split_first W'). rewrite E, P' in P. injection P as Ens Eq. apply app_inv_tail in Ens.
    destruct W as (I & N & W). destruct W' as (I' & N' & W'). destruct (E1 id a IH id' b (conj I N) (conj I' N') ltac:(unfold tl_name; congruence)) as [-> ->].
    f_equal. apply IHq; auto. unfold tl_name. f_equal. symmetry. exact Eq.
  - intros _ b _ E. destruct b; [reflexivity|discriminate|discriminate].
  - intros p IH a IHa [W N] b N' E. destruct b as [|q b|i b]; [discriminate|..]; cbn [arg_names] in E; injection E as Ep Ea.
    + destruct N' as [W' N']. f_equal; [apply IH; auto; unfold tl_name; congruence|apply IHa; auto].
    + exfalso. destruct N' as [[S _] _]. apply (@solid_noc "/" i ltac:(inl) S). rewrite <- Ep. left. reflexivity.
  - intros i a IHa [Ni N] b N' E. destruct b as [|q b|j b]; [discriminate|..]; cbn [arg_names] in E; injection E as Ep Ea.
    + exfalso. destruct Ni as [S _]. apply (@solid_noc "/" i ltac:(inl) S). rewrite Ep. left. reflexivity.
    + destruct N' as [_ N']. f_equal; [congruence|apply IHa; auto].
Qed.
(** Different C++ names get different Typelib names. *)
Theorem C71_distinct s p s' p' t : spells s p -> well_named p -> spells s' p' -> well_named p' ->
  cxx_to_typelib s = Ok t -> cxx_to_typelib s' = Ok t -> p = p'.
Proof.
  intros S W S' W' E E'. rewrite (C71_to_typelib_partial S W) in E. rewrite (C71_to_typelib_partial S' W') in E'.
  apply (proj1 tl_inj); auto. congruence.
Qed.

(** A pointer to a template instance gets a slash in front of the asterisk, and an array one in front of the bracket. *)
Theorem C71_pointer_refuted : cxx_to_typelib (s_ "std::vector<int>*") = Ok (s_ "/std/vector</int>/*") /\
  cxx_to_typelib (s_ "S<std::vector<int>*, int*>") = Ok (s_ "/S</std/vector</int>/*,/int*>").
Proof. split; vm_compute; reflexivity. Qed.
(** A template without arguments is taken for a template with one argument, and swallows the bracket of the template that it is
    an argument of. *)
Theorem C71_no_arguments_refuted : cxx_to_typelib (s_ "A<>") = Ok (s_ "/A</>") /\ parse_template (s_ "/A<>") = (Some (s_ "/A"), [[]]) /\
  cxx_to_typelib (s_ "P<A<>, int>") = Ok (s_ "/P</A</>/,/int/>>") /\ parse_template (s_ "/P</A<>,/int>") = (Some (s_ "/P"), [s_ "/A<>,/int>"]).
Proof. repeat split; vm_compute; reflexivity. Qed.
(** A type nested in a template instance is parsed as the instance: a structure inside of a vector is taken for the vector. *)
Theorem C71_nested_template_refuted :
  parse_template (s_ "/std/vector</int>/Impl") = parse_template (s_ "/std/vector</int>") /\
  parse_template (s_ "/A</int>/B</double>") = (Some (s_ "/A"), [s_ "/int"]).
Proof. split; vm_compute; reflexivity. Qed.

Definition nm (x : string) : cpath := PEnd (s_ x) ANil.
Definition std (p : cpath) : cpath := PSub (s_ "std") ANil p.
(** std::map<unsigned int, Eigen::Matrix<double, -1, 3>>::value_type *)
Definition ex_path : cpath :=
  PSub (s_ "std") ANil (PSub (s_ "map") (AType (nm "unsigned int") (AType (PSub (s_ "Eigen") ANil (PEnd (s_ "Matrix") (AType (nm "double") (ANum (s_ "-1") (ANum (s_ "3") ANil))))) ANil)) (nm "value_type")).
Definition solidb (s : str) : bool :=
  forallb (fun c => negb (existsb (Ascii.eqb c) ("010" :: s_ "<,>/:\"))) s && match s with c :: _ => negb (blankb c) | [] => false end && match rev s with c :: _ => negb (blankb c) | [] => false end.
Lemma solidb_ok s : solidb s = true -> solid s.
Proof.
  unfold solidb. rewrite !andb_true_iff. intros [[A B] C]. split; [|split].
  - apply Forall_forall. intros c I J. rewrite forallb_forall in A. apply A in I. rewrite (proj2 (existsb_in c _) J) in I. discriminate.
  - destruct s as [|c r]; [discriminate|]. exists c, r. split; [reflexivity|]. intros H. apply blankb_iff in H. rewrite H in B. discriminate.
  - destruct (rev s) as [|c r] eqn:E; [discriminate|]. exists (rev r), c. split; [rewrite <- (rev_involutive s), E; reflexivity|]. intros H. apply blankb_iff in H. rewrite H in C. discriminate.
Qed.
Definition identb (s : str) : bool := solidb s && match s with c :: _ => negb (numc c) | [] => false end.
Lemma identb_ok s : identb s = true -> ident s.
Proof.
  unfold identb. rewrite andb_true_iff. intros [A B]. split; [apply solidb_ok, A|]. intros (c & r & -> & I). apply numc_iff in I. rewrite I in B. discriminate.
Qed.
Definition numberb (s : str) : bool := solidb s && match s with c :: _ => numc c | [] => false end.
Lemma numberb_ok s : numberb s = true -> number s.
Proof.
  unfold numberb. rewrite andb_true_iff. intros [A B]. split; [apply solidb_ok, A|]. destruct s as [|c r]; [discriminate|]. exists c, r. split; [reflexivity|]. apply numc_iff, B.
Qed.
Example C71_case_named : well_named ex_path.
Proof. cbn. repeat (split || (apply identb_ok; reflexivity) || (apply numberb_ok; reflexivity) || exact I). Qed.
Example C71_case_spelled : spells (s_ "::std::map <unsigned int ,Eigen::Matrix< double,-1, 3 > >::value_type ") ex_path.
Proof.
  exists [], (s_ "::"), (s_ "std::map <unsigned int ,Eigen::Matrix< double,-1, 3 > >::value_type"), [" "].
  assert (B0 : blanks []) by constructor. assert (B1 : blanks [" "]) by (repeat constructor).
  split; [reflexivity|]. split; [exact B0|]. split; [right; reflexivity|]. split; [|exact B1].
  apply (@cx_sub (s_ "::") _ (s_ "std") (s_ "map <unsigned int ,Eigen::Matrix< double,-1, 3 > >::value_type")).
  apply (@cx_tmpl_sub (s_ "::") _ (s_ "map") [" "] (s_ "unsigned int ,Eigen::Matrix< double,-1, 3 > ") _ [] (s_ "value_type")); [exact B1| |exact B0|constructor].
  apply (@cx_more (s_ "::") _ [] [] (s_ "unsigned int") [" "] _ (s_ "Eigen::Matrix< double,-1, 3 > ")); [exact B0|left; reflexivity|constructor|exact B1|].
  apply (@cx_last (s_ "::") _ [] [] (s_ "Eigen::Matrix< double,-1, 3 >") [" "]); [exact B0|left; reflexivity| |exact B1].
  apply (@cx_sub (s_ "::") _ (s_ "Eigen") (s_ "Matrix< double,-1, 3 >")).
  apply (@cx_tmpl (s_ "::") _ (s_ "Matrix") [] (s_ " double,-1, 3 ")); [exact B0|].
  apply (@cx_more (s_ "::") _ [" "] [] (s_ "double") [] _ (s_ "-1, 3 ")); [exact B1|left; reflexivity|constructor|exact B0|].
  apply (@cx_more_num (s_ "::") _ [] (s_ "-1") [] (s_ " 3 ")); [exact B0|exact B0|].
  apply (@cx_last_num (s_ "::") _ [" "] (s_ "3") [" "]); exact B1.
Qed.
Example C71_case_name : tl_name ex_path = s_ "/std/map</unsigned int,/Eigen/Matrix</double,-1,3>>/value_type". Proof. reflexivity. Qed.
Example C71_case_template : no_args (std (nm "vector")) /\
  tl_name (with_args (std (nm "vector")) (AType (nm "int") (ANum (s_ "4") ANil))) = s_ "/std/vector</int,4>".
Proof. cbn. repeat split. Qed.
