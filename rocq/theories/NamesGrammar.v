(** * NamesGrammar: the names built by the documented grammar are accepted by isValidTypename. *)
From Verif Require Import Base NamesSpec Names NamesProofs.
Local Open Scope char_scope.

Scheme g_elem_mind := Minimality for g_elem Sort Prop
  with g_path_mind := Minimality for g_path Sort Prop
  with g_args_mind := Minimality for g_args Sort Prop.
Combined Scheme g_mutind from g_elem_mind, g_path_mind, g_args_mind.

(** ** Fuel *)
Definition loop_body (L : nat -> nat -> res (bool * nat)) (A : nat -> res (bool * nat)) (s : str) (start i : nat) (absolute ai : bool)
  : res (bool * nat) :=
    if (i <? length s)%nat then
      let c := at_ s i in
      let base := substr s start (i - start) in
      if ceqb c "/" then
        if isValidTypeBasename base absolute ai then L i (S i)
        else Ok (false, i)
      else if ceqb c "<" then
        if isValidTypeBasename base absolute ai then
          '(ok, j) <- A i ;;
          if negb ok then Ok (false, j)
          else if (S j <? length s)%nat then
            if ceqb (at_ s (S j)) "/" then L (S j) (S (S j))
            else if negb (ceqb (at_ s (S j)) ">") && negb (ceqb (at_ s (S j)) "[") && negb (ceqb (at_ s (S j)) ",")
            then Ok (false, S j)
            else L (S j) (S j)
          else L (S j) (S j)
        else Ok (false, i)
      else if ceqb c "[" then
        if negb (start =? i)%nat && negb (isValidTypeBasename base absolute ai) then Ok (false, i)
        else if (S i =? length s)%nat then Ok (false, i)
        else L (S i) (S i)
      else if ceqb c "]" then
        if (start =? i)%nat then Ok (false, start)
        else if negb (forallb isdigit base) then Ok (false, start)
        else if (S i <? length s)%nat then
          if ceqb (at_ s (S i)) "/" then L (S i) (S (S i))
          else if negb (ceqb (at_ s (S i)) ">") && negb (ceqb (at_ s (S i)) "[") then Ok (false, S i)
          else L (S i) (S i)
        else L (S i) (S i)
      else if ceqb c ">" || ceqb c "," then
        Ok (isValidTypeBasename base true true, i)
      else L start (S i)
    else
      if (start =? length s)%nat then Ok (true, length s)
      else Ok (isValidTypeBasename (substr s start (length s - start)) absolute ai, length s).
Definition args_body (V : nat -> res (bool * nat)) (A : nat -> res (bool * nat)) (s : str) (i : nat) : res (bool * nat) :=
  if ceqb (at_ s i) ">" then Ok (true, i)
  else
    '(ok, j) <- V (S i) ;;
    if negb ok then Ok (false, j)
    else if (j =? length s)%nat || (negb (ceqb (at_ s j) ",") && negb (ceqb (at_ s j) ">")) then Ok (false, j)
    else A j.
Lemma vt_loop_S f s st i a ai : vt_loop (S f) s st i a ai = loop_body (fun st i => vt_loop f s st i a ai) (vt_args f s) s st i a ai.
Proof. reflexivity. Qed.
Lemma vt_args_S f s i : vt_args (S f) s i = args_body (fun p => vt f s p true true) (vt_args f s) s i.
Proof. reflexivity. Qed.
Lemma vt_S f s pos a ai : vt (S f) s pos a ai = vt_loop f s pos (if ceqb (at_ s pos) "/" then S pos else pos) a ai.
Proof. reflexivity. Qed.
Lemma vt_mono f :
  (forall s st i a ai r, vt_loop f s st i a ai = Ok r -> vt_loop (S f) s st i a ai = Ok r) /\
  (forall s i r, vt_args f s i = Ok r -> vt_args (S f) s i = Ok r) /\
  (forall s pos a ai r, vt f s pos a ai = Ok r -> vt (S f) s pos a ai = Ok r).
Proof.
  induction f as [|f (IHl & IHa & IHv)]; [repeat split; discriminate|]. split; [|split].
  - intros s st i a ai r H. rewrite vt_loop_S. rewrite vt_loop_S in H. unfold loop_body in *.
    destruct (i <? length s)%nat; [|assumption].
    repeat match type of H with
    | (if ?b then _ else _) = _ => destruct b; try discriminate; try assumption; try (apply IHl; assumption)
    | bind ?x _ = _ => destruct x as [[ok j]| | |] eqn:E; try discriminate; apply IHa in E; rewrite E; cbn [bind] in *
    end.
  - intros s i r H. rewrite vt_args_S. rewrite vt_args_S in H. unfold args_body in *.
    destruct (ceqb (at_ s i) ">"); [assumption|].
    destruct (vt f s (S i) true true) as [[ok j]| | |] eqn:E; try discriminate.
    apply IHv in E. rewrite E. cbn [bind] in *. destruct (negb ok); [assumption|]. destruct (_ || _); [assumption|]. apply IHa. assumption.
  - intros s pos a ai r H. rewrite vt_S. rewrite vt_S in H. apply IHl. assumption.
Qed.
Lemma vt_loop_le f g s st i a ai r : (f <= g)%nat -> vt_loop f s st i a ai = Ok r -> vt_loop g s st i a ai = Ok r.
Proof. induction 1 as [|g _ IH]; auto. intros H. apply vt_mono. auto. Qed.
Lemma vt_args_le f g s i r : (f <= g)%nat -> vt_args f s i = Ok r -> vt_args g s i = Ok r.
Proof. induction 1 as [|g _ IH]; auto. intros H. apply vt_mono. auto. Qed.
Lemma vt_le f g s p a ai r : (f <= g)%nat -> vt f s p a ai = Ok r -> vt g s p a ai = Ok r.
Proof. induction 1 as [|g _ IH]; auto. intros H. apply vt_mono. auto. Qed.

(** ** Runs: the loop at the beginning of [r], with start_pos at the beginning of [b], accepts and stops at [j]. *)
Definition R (a ai : bool) (p b r : str) (j : nat) : Prop :=
  exists f, vt_loop f (p ++ b ++ r) (length p) (length p + length b) a ai = Ok (true, j).
Definition RA (p r : str) (j : nat) : Prop := exists f, vt_args f (p ++ r) (length p) = Ok (true, j).
Definition RV (p r : str) (j : nat) : Prop := exists f, vt f (p ++ r) (length p) true true = Ok (true, j).

Lemma R_intro a ai p b r j : (exists f, loop_body (fun st i => vt_loop f (p ++ b ++ r) st i a ai) (vt_args f (p ++ b ++ r)) (p ++ b ++ r) (length p) (length p + length b) a ai = Ok (true, j)) -> R a ai p b r j.
Proof. intros [f H]. exists (S f). exact H. Qed.
Lemma R_shape a ai p b r j s st i : R a ai p b r j -> s = p ++ b ++ r -> st = length p -> i = (length p + length b)%nat -> exists f, vt_loop f s st i a ai = Ok (true, j).
Proof. intros H -> -> ->. exact H. Qed.
Lemma at_here (p b : str) c r : at_ (p ++ b ++ c :: r) (length p + length b) = c.
Proof. rewrite at_app, <- (Nat.add_0_r (length b)), at_app. reflexivity. Qed.
Lemma lt_here (p b : str) c r : (length p + length b <? length (p ++ b ++ c :: r))%nat = true.
Proof. apply Nat.ltb_lt. rewrite !app_length. cbn [length]. lia. Qed.
Lemma sub_here (p b r : str) : substr (p ++ b ++ r) (length p) (length p + length b - length p) = b.
Proof. replace (length p + length b - length p)%nat with (length b) by lia. apply substr_app. Qed.

Definition passive (c : ascii) : bool := negb (ceqb c "/" || ceqb c "<" || ceqb c "[" || ceqb c "]" || ceqb c ">" || ceqb c ",").
Lemma passive_neq c : passive c = true -> ceqb c "/" = false /\ ceqb c "<" = false /\ ceqb c "[" = false /\ ceqb c "]" = false /\ ceqb c ">" = false /\ ceqb c "," = false.
Proof. unfold passive. rewrite negb_true_iff, !orb_false_iff. tauto. Qed.
Lemma R_char a ai p b c r j : passive c = true -> R a ai p (b ++ [c]) r j -> R a ai p b (c :: r) j.
Proof.
  intros Hc H. apply passive_neq in Hc. destruct Hc as (E1 & E2 & E3 & E4 & E5 & E6).
  destruct (R_shape (s := p ++ b ++ c :: r) (st := length p) (i := S (length p + length b)) H ltac:(rewrite <- app_assoc; reflexivity) eq_refl ltac:(rewrite app_length; cbn [length]; lia)) as [f Hf].
  apply R_intro. exists f. unfold loop_body. rewrite lt_here, at_here. cbn zeta. rewrite E1, E2, E3, E4, E5, E6. cbn [orb]. exact Hf.
Qed.
Lemma R_chars a ai x : forall p b r j, Forall (fun c => passive c = true) x -> R a ai p (b ++ x) r j -> R a ai p b (x ++ r) j.
Proof.
  induction x as [|c x IH]; intros p b r j Hx H; [rewrite app_nil_r in H; exact H|]. inversion Hx; subst. cbn [app]. apply R_char; [assumption|].
  apply IH; [assumption|]. rewrite <- app_assoc. exact H.
Qed.
Lemma R_slash a ai p b r j : isValidTypeBasename b a ai = true -> R a ai (p ++ b) ["/"] r j -> R a ai p b ("/" :: r) j.
Proof.
  intros Hb H.
  destruct (R_shape (s := p ++ b ++ "/" :: r) (st := length p + length b) (i := S (length p + length b)) H ltac:(rewrite <- app_assoc; reflexivity) ltac:(rewrite app_length; reflexivity) ltac:(rewrite app_length; cbn [length]; lia)) as [f Hf].
  apply R_intro. exists f. unfold loop_body. rewrite lt_here, at_here. cbn zeta. rewrite sub_here, Hb. exact Hf.
Qed.
Lemma R_close a ai p b c r : c = ">" \/ c = "," -> isValidTypeBasename b true true = true -> R a ai p b (c :: r) (length p + length b).
Proof.
  intros Hc Hb. apply R_intro. exists 0%nat. unfold loop_body. rewrite lt_here, at_here. cbn zeta. rewrite sub_here, Hb.
  destruct Hc as [-> | ->]; reflexivity.
Qed.
Lemma R_end a ai p b : b = [] \/ isValidTypeBasename b a ai = true -> R a ai p b [] (length p + length b).
Proof.
  intros Hb. apply R_intro. exists 0%nat. unfold loop_body. rewrite app_nil_r, app_length, Nat.ltb_irrefl.
  destruct (Nat.eqb_spec (length p) (length p + length b)) as [E|E]; [reflexivity|].
  assert (X := sub_here p b []). rewrite app_nil_r in X. rewrite X. destruct Hb as [-> | ->]; [cbn [length] in E; lia|reflexivity].
Qed.
Definition next_ok (r : str) : Prop := r = [] \/ exists c r', r = c :: r' /\ (c = ">" \/ c = "," \/ c = "[").
Lemma RA_shape p r j s i : RA p r j -> s = p ++ r -> i = length p -> exists f, vt_args f s i = Ok (true, j).
Proof. intros H -> ->. exact H. Qed.
Lemma R_lt a ai p b x r j : isValidTypeBasename b a ai = true ->
  RA (p ++ b) ("<" :: x ++ ">" :: r) (length (p ++ b ++ "<" :: x)) ->
  match r with
  | c :: r' => if ceqb c "/" then R a ai (p ++ b ++ "<" :: x ++ [">"]) ["/"] r' j
               else (c = ">" \/ c = "," \/ c = "[") /\ R a ai (p ++ b ++ "<" :: x ++ [">"]) [] r j
  | [] => R a ai (p ++ b ++ "<" :: x ++ [">"]) [] [] j
  end -> R a ai p b ("<" :: x ++ ">" :: r) j.
Proof.
  intros Hb HA Hr.
  destruct (RA_shape (s := p ++ b ++ "<" :: x ++ ">" :: r) (i := length p + length b) HA ltac:(rewrite <- app_assoc; reflexivity) ltac:(rewrite app_length; reflexivity)) as [f Hf].
  assert (Hs : p ++ b ++ "<" :: x ++ ">" :: r = (p ++ b ++ "<" :: x ++ [">"]) ++ r) by (rewrite <- !app_assoc; cbn [app]; rewrite <- app_assoc; reflexivity).
  assert (Hn : S (length (p ++ b ++ "<" :: x)) = length (p ++ b ++ "<" :: x ++ [">"])) by (rewrite !app_length; cbn [length]; rewrite app_length; cbn [length]; lia).
  destruct r as [|c r'].
  - destruct (R_shape (s := p ++ b ++ "<" :: x ++ [">"]) (st := S (length (p ++ b ++ "<" :: x))) (i := S (length (p ++ b ++ "<" :: x))) Hr
       ltac:(rewrite !app_nil_r; reflexivity) Hn ltac:(cbn [length]; lia)) as [g Hg].
    apply R_intro. exists (Nat.max f g). unfold loop_body. rewrite lt_here, at_here. cbn zeta. rewrite sub_here, Hb. change (ceqb "<" "/") with false. change (ceqb "<" "<") with true. cbn iota.
    rewrite (vt_args_le (Nat.le_max_l f g) Hf). cbn [bind negb]. destruct (Nat.ltb_spec (S (length (p ++ b ++ "<" :: x))) (length (p ++ b ++ "<" :: x ++ [">"]))) as [L|L]; [lia|].
    apply (vt_loop_le (Nat.le_max_r f g)). exact Hg.
  - assert (Hlt : (S (length (p ++ b ++ "<" :: x)) <? length (p ++ b ++ "<" :: x ++ ">" :: c :: r'))%nat = true).
    { apply Nat.ltb_lt. rewrite Hs, (app_length (p ++ b ++ "<" :: x ++ [">"])), <- Hn. cbn [length]. lia. }
    assert (Hat : at_ (p ++ b ++ "<" :: x ++ ">" :: c :: r') (S (length (p ++ b ++ "<" :: x))) = c).
    { rewrite Hs, Hn, <- (Nat.add_0_r (length (p ++ b ++ "<" :: x ++ [">"]))), at_app. reflexivity. }
    destruct (ceqb c "/") eqn:Ec.
    + apply ceqb_eq in Ec. subst c.
      destruct (R_shape (s := p ++ b ++ "<" :: x ++ ">" :: "/" :: r') (st := S (length (p ++ b ++ "<" :: x))) (i := S (S (length (p ++ b ++ "<" :: x)))) Hr
       ltac:(rewrite Hs; reflexivity) Hn ltac:(cbn [length]; lia)) as [g Hg].
      apply R_intro. exists (Nat.max f g). unfold loop_body. rewrite lt_here, at_here. cbn zeta. rewrite sub_here, Hb. change (ceqb "<" "/") with false. change (ceqb "<" "<") with true. cbn iota.
      rewrite (vt_args_le (Nat.le_max_l f g) Hf). cbn [bind negb]. rewrite Hlt, Hat. change (ceqb "/" "/") with true. cbn iota.
      apply (vt_loop_le (Nat.le_max_r f g)). exact Hg.
    + destruct Hr as [Hc Hr].
      destruct (R_shape (s := p ++ b ++ "<" :: x ++ ">" :: c :: r') (st := S (length (p ++ b ++ "<" :: x))) (i := S (length (p ++ b ++ "<" :: x))) Hr
       ltac:(rewrite Hs; reflexivity) Hn ltac:(cbn [length]; lia)) as [g Hg].
      apply R_intro. exists (Nat.max f g). unfold loop_body. rewrite lt_here, at_here. cbn zeta. rewrite sub_here, Hb. change (ceqb "<" "/") with false. change (ceqb "<" "<") with true. cbn iota.
      rewrite (vt_args_le (Nat.le_max_l f g) Hf). cbn [bind negb]. rewrite Hlt, Hat, Ec.
      replace (negb (ceqb c ">") && negb (ceqb c "[") && negb (ceqb c ",")) with false by (destruct Hc as [-> |[-> | ->]]; reflexivity).
      apply (vt_loop_le (Nat.le_max_r f g)). exact Hg.
Qed.
Lemma R_open a ai p b r j : b = [] \/ isValidTypeBasename b a ai = true -> r <> [] -> R a ai (p ++ b ++ ["["]) [] r j -> R a ai p b ("[" :: r) j.
Proof.
  intros Hb Hr H.
  destruct (R_shape (s := p ++ b ++ "[" :: r) (st := S (length p + length b)) (i := S (length p + length b)) H ltac:(rewrite <- !app_assoc; reflexivity) ltac:(rewrite !app_length; cbn [length]; lia) ltac:(rewrite !app_length; cbn [length]; lia)) as [f Hf].
  apply R_intro. exists f. unfold loop_body. rewrite lt_here, at_here. cbn zeta. rewrite sub_here.
  change (ceqb "[" "/") with false. change (ceqb "[" "<") with false. change (ceqb "[" "[") with true. cbn iota.
  replace (negb (length p =? length p + length b)%nat && negb (isValidTypeBasename b a ai)) with false.
  2:{ destruct Hb as [-> | ->]; [cbn [length]; rewrite Nat.add_0_r, Nat.eqb_refl; reflexivity|rewrite andb_false_r; reflexivity]. }
  destruct (Nat.eqb_spec (S (length p + length b)) (length (p ++ b ++ "[" :: r))) as [E|E]; [|exact Hf].
  rewrite !app_length in E. destruct r; [contradiction|]. cbn [length] in E. lia.
Qed.
Lemma R_shut a ai p b r j : b <> [] -> Forall (fun c => isdigit c = true) b ->
  r = [] \/ (exists c r', r = c :: r' /\ (c = ">" \/ c = "[")) -> R a ai (p ++ b ++ ["]"]) [] r j -> R a ai p b ("]" :: r) j.
Proof.
  intros Hb Hd Hr H.
  destruct (R_shape (s := p ++ b ++ "]" :: r) (st := S (length p + length b)) (i := S (length p + length b)) H ltac:(rewrite <- !app_assoc; reflexivity) ltac:(rewrite !app_length; cbn [length]; lia) ltac:(rewrite !app_length; cbn [length]; lia)) as [f Hf].
  apply R_intro. exists f. unfold loop_body. rewrite lt_here, at_here. cbn zeta. rewrite sub_here.
  change (ceqb "]" "/") with false. change (ceqb "]" "<") with false. change (ceqb "]" "[") with false. change (ceqb "]" "]") with true. cbn iota.
  destruct (Nat.eqb_spec (length p) (length p + length b)) as [E|E]; [destruct b; [contradiction|cbn [length] in E; lia]|].
  replace (forallb isdigit b) with true by (symmetry; apply forallb_forall; rewrite Forall_forall in Hd; exact Hd). cbn [negb].
  destruct Hr as [-> |(c & r' & -> & Hc)].
  - destruct (Nat.ltb_spec (S (length p + length b)) (length (p ++ b ++ ["]"]))) as [L|L]; [rewrite !app_length in L; cbn [length] in L; lia|]. exact Hf.
  - destruct (Nat.ltb_spec (S (length p + length b)) (length (p ++ b ++ "]" :: c :: r'))) as [L|L]; [|rewrite !app_length in L; cbn [length] in L; lia].
    replace (at_ (p ++ b ++ "]" :: c :: r') (S (length p + length b))) with c.
    2:{ replace (p ++ b ++ "]" :: c :: r') with ((p ++ b ++ ["]"]) ++ c :: r') by (rewrite <- !app_assoc; reflexivity).
        replace (S (length p + length b)) with (length (p ++ b ++ ["]"]) + 0)%nat by (rewrite !app_length; cbn [length]; lia). rewrite at_app. reflexivity. }
    replace (ceqb c "/") with false by (destruct Hc as [-> | ->]; reflexivity).
    replace (negb (ceqb c ">") && negb (ceqb c "[")) with false by (destruct Hc as [-> | ->]; reflexivity). exact Hf.
Qed.
Lemma digit_passive c : isdigit c = true -> passive c = true.
Proof.
  intros H. unfold passive. apply negb_true_iff. rewrite !orb_false_iff.
  repeat split; apply ceqb_neq; intros ->; discriminate.
Qed.
Lemma wchar_passive c : wchar c = true -> passive c = true.
Proof.
  intros H. unfold passive. apply negb_true_iff. rewrite !orb_false_iff.
  repeat split; apply ceqb_neq; intros ->; discriminate.
Qed.
Lemma int_passive c : ceqb c "-" || isdigit c = true -> passive c = true.
Proof.
  intros H. unfold passive. apply negb_true_iff. rewrite !orb_false_iff.
  repeat split; apply ceqb_neq; intros ->; discriminate.
Qed.
(** Array dimensions, then the end of the string or '>'. *)
Lemma R_dims a ai d : g_dims d -> forall p b r j, b = [] \/ isValidTypeBasename b a ai = true ->
  r = [] \/ (exists r', r = ">" :: r') ->
  (d = [] -> R a ai p b r j) -> (d <> [] -> R a ai (p ++ b ++ d) [] r j) -> R a ai p b (d ++ r) j.
Proof.
  induction 1 as [|n d Hn Hd Hg IH]; intros p b r j Hb Hr H1 H2; [apply H1; reflexivity|].
  apply (Forall_iff n digit_spec) in Hd. specialize (H2 ltac:(discriminate)). cbn [app]. rewrite <- app_assoc. cbn [app].
  apply R_open; [assumption|destruct n; discriminate|]. apply R_chars; [eapply Forall_impl; [|exact Hd]; apply digit_passive|]. cbn [app].
  apply R_shut; [assumption|assumption| |].
  - inversion Hg; subst; cbn [app]; [|right; eexists _, _; split; [reflexivity|right; reflexivity]].
    destruct Hr as [-> |[r' ->]]; [left; reflexivity|right; eauto].
  - assert (E : p ++ b ++ "[" :: n ++ "]" :: d = ((p ++ b ++ ["["]) ++ n ++ ["]"]) ++ d).
    { rewrite <- !app_assoc. cbn [app]. reflexivity. }
    rewrite E in H2. apply IH; [left; reflexivity|assumption| |].
    + intros ->. rewrite app_nil_r in H2. exact H2.
    + intros _. cbn [app]. exact H2.
Qed.
Lemma base_word a ai w : wordB w -> isValidTypeBasename (slash :: w) a ai = true.
Proof.
  intros Hw. assert (X := @base_abs a w). unfold isValidTypeBasename in *. destruct (ai && _); [reflexivity|].
  cbn [andb] in X. apply X; [apply word_no_slash; assumption| |assumption].
  destruct Hw as [_ Hw]. eapply Forall_impl; [|exact Hw]. intros c Hc. cbn beta in Hc. apply wchar_passive in Hc as Hp. apply passive_neq in Hp.
  unfold special. destruct Hp as (_ & -> & -> & -> & -> & ->). cbn [orb]. apply ceqb_neq. intros ->. discriminate.
Qed.
Lemma before_app w k : Forall (fun c => wchar c = true) w -> before_modifiers (w ++ repeat "*" k) = w.
Proof.
  induction 1 as [|c w Hc _ IH]; cbn [app before_modifiers]; [destruct k; reflexivity|].
  replace (ceqb c "*" || ceqb c "[") with false.
  - rewrite IH. reflexivity.
  - symmetry. apply orb_false_iff. split; apply ceqb_neq; intros ->; discriminate.
Qed.
Lemma base_ptr a ai w k : wordB w -> isValidTypeBasename (slash :: w ++ repeat "*" k) a ai = true.
Proof.
  intros Hw. unfold isValidTypeBasename. destruct (ai && _); [reflexivity|]. cbn [isAbsoluteName tl]. rewrite ceqb_refl. cbn [negb].
  rewrite andb_false_r, before_app by apply Hw. assert (X := @base_word a false w Hw). unfold isValidTypeBasename in X. cbn [andb isAbsoluteName tl] in X.
  rewrite ceqb_refl in X. cbn [negb] in X. rewrite andb_false_r in X. rewrite <- (before_app 0 (proj2 Hw)) at 1. cbn [repeat]. rewrite app_nil_r. exact X.
Qed.
Lemma word_passive w : wordB w -> Forall (fun c => passive c = true) w.
Proof. intros [_ H]. eapply Forall_impl; [|exact H]. apply wchar_passive. Qed.
Lemma star_passive k : Forall (fun c => passive c = true) (repeat "*" k).
Proof. induction k; constructor; auto. Qed.
Lemma base_empty : isValidTypeBasename [] true true = true.
Proof. reflexivity. Qed.
Definition integerB (s : str) : Prop := s <> [] /\ Forall (fun c => ceqb c "-" || isdigit c = true) s.
Lemma integer_B i : integer i <-> integerB i.
Proof.
  unfold integer, integerB. rewrite (@Forall_iff ascii (fun c => c = "-" \/ digit c) (fun c => ceqb c "-" || isdigit c = true)); [tauto|].
  intros c. rewrite orb_true_iff, ceqb_eq, digit_spec. tauto.
Qed.
Lemma base_int i : integerB i -> isValidTypeBasename i true true = true.
Proof.
  intros [_ H]. unfold isValidTypeBasename. replace (forallb _ i) with true; [reflexivity|]. symmetry. apply forallb_forall. rewrite Forall_forall in H. exact H.
Qed.

(** ** The grammar is accepted *)
Definition after (r : str) : Prop := next_ok r \/ exists r', r = "/" :: r'.
Definition PE (e : str) : Prop := exists e', e = slash :: e' /\ forall a ai p r j,
  (next_ok r -> (forall b, (b = [] \/ forall a ai, isValidTypeBasename b a ai = true) -> forall p', p' ++ b = p ++ e -> R a ai p' b r j) -> R a ai p ["/"] (e' ++ r) j) /\
  (forall r', r = "/" :: r' -> R a ai (p ++ e) ["/"] r' j -> R a ai p ["/"] (e' ++ r) j).
Definition PP (x : str) : Prop := exists x', x = slash :: x' /\ forall a ai p r j, next_ok r ->
  (forall b, (b = [] \/ forall a ai, isValidTypeBasename b a ai = true) -> forall p', p' ++ b = p ++ x -> R a ai p' b r j) -> R a ai p ["/"] (x' ++ r) j.
Definition PA (x : str) : Prop := forall p c r, (c = "<" \/ c = ",") -> RA p (c :: x ++ ">" :: r) (length (p ++ c :: x)).

Lemma RA_step p c x d r j : c = "<" \/ c = "," -> d = ">" \/ d = "," ->
  RV (p ++ [c]) (x ++ d :: r) (length (p ++ c :: x)) -> RA (p ++ c :: x) (d :: r) j -> RA p (c :: x ++ d :: r) j.
Proof.
  intros Hc Hd [f Hf] [g Hg].
  assert (E1 : (p ++ [c]) ++ x ++ d :: r = p ++ c :: x ++ d :: r) by (rewrite <- app_assoc; reflexivity).
  assert (E2 : (p ++ c :: x) ++ d :: r = p ++ c :: x ++ d :: r) by (rewrite <- app_assoc; reflexivity).
  rewrite E1 in Hf. rewrite E2 in Hg. exists (S (Nat.max f g)). rewrite vt_args_S. unfold args_body.
  replace (at_ (p ++ c :: x ++ d :: r) (length p)) with c by (rewrite <- (Nat.add_0_r (length p)), at_app; reflexivity).
  replace (ceqb c ">") with false by (destruct Hc as [-> | ->]; reflexivity).
  replace (length (p ++ [c])) with (S (length p)) in Hf by (rewrite app_length; cbn [length]; lia).
  rewrite (vt_le (Nat.le_max_l f g) Hf). cbn [bind negb].
  destruct (Nat.eqb_spec (length (p ++ c :: x)) (length (p ++ c :: x ++ d :: r))) as [E|E].
  { exfalso. rewrite <- E2, (app_length (p ++ c :: x)) in E. cbn [length] in E. lia. }
  cbn [orb]. replace (at_ (p ++ c :: x ++ d :: r) (length (p ++ c :: x))) with d.
  2:{ rewrite <- E2. rewrite <- (Nat.add_0_r (length (p ++ c :: x))), at_app. reflexivity. }
  replace (negb (ceqb d ",") && negb (ceqb d ">")) with false by (destruct Hd as [-> | ->]; reflexivity).
  apply (vt_args_le (Nat.le_max_r f g)). exact Hg.
Qed.
Lemma RA_stop p r : RA p (">" :: r) (length p).
Proof.
  exists 1%nat. rewrite vt_args_S. unfold args_body. replace (at_ (p ++ ">" :: r) (length p)) with ">" by (rewrite <- (Nat.add_0_r (length p)), at_app; reflexivity). reflexivity.
Qed.
Lemma RV_path p x' r j : R true true p ["/"] (x' ++ r) j -> RV p ((slash :: x') ++ r) j.
Proof.
  intros [f H]. exists (S f). rewrite vt_S. cbn [app]. replace (at_ (p ++ slash :: x' ++ r) (length p)) with "/" by (rewrite <- (Nat.add_0_r (length p)), at_app; reflexivity).
  change (ceqb "/" "/") with true. cbn iota. rewrite Nat.add_comm in H. cbn [length Nat.add] in H. exact H.
Qed.
Lemma RV_int p i r d : integerB i -> d = ">" \/ d = "," -> RV p (i ++ d :: r) (length (p ++ i)).
Proof.
  intros Hi Hd.
  assert (H : R true true p [] (i ++ d :: r) (length (p ++ i))).
  { apply R_chars; [eapply Forall_impl; [|apply Hi]; apply int_passive|]. cbn [app]. rewrite app_length. apply R_close; [assumption|]. apply base_int. assumption. }
  destruct H as [f H]. exists (S f). rewrite vt_S. cbn [app length] in H. rewrite Nat.add_0_r in H.
  destruct i as [|c i]; [destruct Hi as [Hi _]; contradiction|]. cbn [app] in *.
  replace (at_ (p ++ c :: i ++ d :: r) (length p)) with c by (rewrite <- (Nat.add_0_r (length p)), at_app; reflexivity).
  replace (ceqb c "/") with false; [exact H|]. destruct Hi as [_ Hi]. inversion Hi as [|? ? Hc _]; subst. symmetry. apply ceqb_neq. intros ->. discriminate.
Qed.
Lemma path_arg x p d r : PP x -> d = ">" \/ d = "," -> RV p (x ++ d :: r) (length (p ++ x)).
Proof.
  intros (x' & -> & H) Hd. apply RV_path. apply H.
  - right. exists d, r. split; [reflexivity|]. destruct Hd as [-> | ->]; auto.
  - intros b Hb p' E. rewrite <- E, app_length. apply R_close; [assumption|]. destruct Hb as [-> |Hb]; [apply base_empty|apply Hb].
Qed.
Lemma dims_arg x dm p r : PP x -> g_dims dm -> RV p ((x ++ dm) ++ ">" :: r) (length (p ++ x ++ dm)).
Proof.
  intros (x' & -> & H) Hg. rewrite <- app_assoc. apply RV_path. apply H.
  - right. inversion Hg; subst; cbn [app]; eauto 6.
  - intros b Hb p' E.
    assert (Eq : p' ++ b ++ dm = p ++ (slash :: x') ++ dm) by (rewrite app_assoc, E, <- app_assoc; reflexivity).
    apply R_dims; [assumption|destruct Hb; [left; assumption|right; auto]|right; eauto| |].
    + intros ->. rewrite !app_nil_r in *. rewrite <- E, app_length. apply R_close; [auto|]. destruct Hb as [-> |Hb]; [apply base_empty|apply Hb].
    + intros _. rewrite <- Eq. rewrite <- (Nat.add_0_r (length _)). apply (@R_close true true (p' ++ b ++ dm) [] ">" r); auto.
Qed.
Lemma app_mid (p : str) c z : (p ++ [c]) ++ z = p ++ c :: z.
Proof. rewrite <- app_assoc. reflexivity. Qed.
Theorem grammar_runs : (forall e, g_elem e -> PE e) /\ (forall x, g_path x -> PP x) /\ (forall x, g_args x -> PA x).
Proof.
  apply g_mutind.
  - (* word *) intros w Hw. apply word_B in Hw. exists w. split; [reflexivity|]. intros a ai p r j. split.
    + intros Hr H. apply R_chars; [apply word_passive; assumption|]. cbn [app]. apply H; [|reflexivity]. right. intros. apply base_word; assumption.
    + intros r' -> H. apply R_chars; [apply word_passive; assumption|]. cbn [app]. apply R_slash; [apply base_word; assumption|]. exact H.
  - (* template *) intros w x Hw _ Hx. apply word_B in Hw. exists (w ++ "<" :: x ++ [">"]). split; [reflexivity|]. intros a ai p r j.
    assert (X : RA (p ++ slash :: w) ("<" :: x ++ ">" :: r) (length (p ++ (slash :: w) ++ "<" :: x))).
    { replace (p ++ (slash :: w) ++ "<" :: x) with ((p ++ slash :: w) ++ "<" :: x) by (rewrite <- app_assoc; reflexivity). apply Hx. auto. }
    split.
    + intros Hr H. rewrite <- app_assoc. apply R_chars; [apply word_passive; assumption|]. cbn [app]. rewrite <- app_assoc. cbn [app]. apply (R_lt (b := slash :: w)); [apply base_word; assumption|exact X|].
      assert (K : R a ai (p ++ (slash :: w) ++ "<" :: x ++ [">"]) [] r j) by (apply H; [left; reflexivity|rewrite app_nil_r; reflexivity]).
      destruct Hr as [-> |(c & r' & -> & Hc)]; [exact K|]. replace (ceqb c "/") with false by (destruct Hc as [-> |[-> | ->]]; reflexivity). auto.
    + intros r' -> H. rewrite <- app_assoc. apply R_chars; [apply word_passive; assumption|]. cbn [app]. rewrite <- app_assoc. cbn [app]. apply (R_lt (b := slash :: w)); [apply base_word; assumption|exact X|].
      change (ceqb "/" "/") with true. cbn iota. exact H.
  - (* one *) intros e _ (e' & -> & H). exists e'. split; [reflexivity|]. intros a ai p r j Hr K. apply H; assumption.
  - (* ptr *) intros w k Hw. apply word_B in Hw. exists (w ++ repeat "*" k). split; [reflexivity|]. intros a ai p r j Hr K.
    apply R_chars; [apply Forall_app; split; [apply word_passive; assumption|apply star_passive]|]. cbn [app]. apply K; [|reflexivity].
    right. intros. apply base_ptr; assumption.
  - (* cons *) intros e x _ (e' & -> & He) _ (x' & -> & Hx). exists (e' ++ slash :: x'). split; [reflexivity|]. intros a ai p r j Hr K.
    rewrite <- app_assoc. cbn [app]. eapply He; [reflexivity|]. apply Hx; [assumption|]. intros b Hb p' E. apply K; [assumption|].
    rewrite E, <- app_assoc. reflexivity.
  - (* last *) intros x dm _ Hx Hg p c r Hc. eapply RA_step; eauto.
    + assert (Y := @dims_arg x dm (p ++ [c]) r Hx Hg). rewrite app_mid in Y. exact Y.
    + apply RA_stop.
  - (* last int *) intros i Hi p c r Hc. apply integer_B in Hi. eapply RA_step; eauto; [|apply RA_stop].
    assert (Y := @RV_int (p ++ [c]) i r ">" Hi (or_introl eq_refl)). rewrite app_mid in Y. exact Y.
  - (* path, ... *) intros x y _ Hx _ Hy p c r Hc. rewrite <- app_assoc. cbn [app]. eapply RA_step; [assumption|right; reflexivity| |].
    + assert (Y := @path_arg x (p ++ [c]) "," (y ++ ">" :: r) Hx (or_intror eq_refl)). rewrite app_mid in Y. exact Y.
    + assert (Y := Hy (p ++ c :: x) "," r (or_intror eq_refl)). rewrite <- app_assoc in Y. exact Y.
  - (* int, ... *) intros i y Hi _ Hy p c r Hc. apply integer_B in Hi. rewrite <- app_assoc. cbn [app]. eapply RA_step; [assumption|right; reflexivity| |].
    + assert (Y := @RV_int (p ++ [c]) i (y ++ ">" :: r) "," Hi (or_intror eq_refl)). rewrite app_mid in Y. exact Y.
    + assert (Y := Hy (p ++ c :: i) "," r (or_intror eq_refl)). rewrite <- app_assoc in Y. exact Y.
Qed.
Theorem grammar_accepted x dm absolute : g_path x -> g_dims dm -> isValidTypename (x ++ dm) absolute = true.
Proof.
  intros Hx Hg. destruct (proj1 (proj2 grammar_runs) x Hx) as (x' & -> & H).
  assert (K : R absolute false [] ["/"] (x' ++ dm) (length ((slash :: x') ++ dm))).
  { apply H.
    - inversion Hg; subst; [left; reflexivity|right; eauto 6].
    - intros b Hb p' E. rewrite <- (app_nil_r dm).
      assert (Eq : p' ++ b ++ dm = (slash :: x') ++ dm) by (rewrite app_assoc, E; reflexivity).
      apply R_dims; [assumption|destruct Hb; [left; assumption|right; auto]|left; reflexivity| |].
      + intros ->. rewrite !app_nil_r in *. cbn [app] in E. rewrite <- E, app_length. apply R_end. destruct Hb; [left; assumption|right; auto].
      + intros _. rewrite app_nil_r, <- Eq. rewrite <- (Nat.add_0_r (length _)). apply (@R_end absolute false (p' ++ b ++ dm) []). left; reflexivity. }
  destruct K as [f K]. cbn [app length Nat.add] in K. unfold isValidTypename. cbn [app].
  destruct (proj2 (proj2 (vt_terminates (vt_fuel (slash :: x' ++ dm)))) (slash :: x' ++ dm) 0%nat absolute false) as (b & j & E & _); [lia|unfold vt_fuel; lia|].
  rewrite E. assert (E2 := vt_le (Nat.le_max_l _ (S f)) E).
  assert (K2 : vt (S f) (slash :: x' ++ dm) 0 absolute false = Ok (true, S (length (x' ++ dm)))) by exact K.
  apply (vt_le (Nat.le_max_r (vt_fuel (slash :: x' ++ dm)) _)) in K2. rewrite E2 in K2. inversion K2. reflexivity.
Qed.
