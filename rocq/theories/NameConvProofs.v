(** * NameConvProofs *)
From Verif Require Import Base Names NamesSpec NamesProofs NameConv NameConvSpec.
Local Open Scope char_scope.
Local Open Scope nat_scope.

(** ** The loops as functions on lists *)
Fixpoint rep (k : nat) (from to s : str) : str :=
  match s with
  | [] => []
  | c :: r => match k with
              | S k' => rep k' from to r
              | 0 => if has_prefix from s then to ++ rep (length from - 1) from to r else c :: rep 0 from to r
              end
  end.
Lemma rep_skip from to u : forall v, rep (length u) from to (u ++ v) = rep 0 from to v.
Proof. induction u as [|c u IH]; intros v; [reflexivity|]. cbn [length app rep]. apply IH. Qed.
Lemma find0_none x to s : find0 x s = None -> rep 0 x to s = s.
Proof.
  induction s as [|c s IH]; intros H; [reflexivity|]. cbn [find0] in H. cbn [rep]. destruct (has_prefix x (c :: s)); [discriminate|]. destruct (find0 x s); [discriminate|]. f_equal. apply IH. reflexivity.
Qed.
Lemma find0_some x to s : x <> [] -> forall i, find0 x s = Some i -> exists u v, s = u ++ x ++ v /\ length u = i /\ rep 0 x to s = u ++ to ++ rep 0 x to v.
Proof.
  intros Hx. induction s as [|c s IH]; intros i H.
  - cbn [find0] in H. destruct (has_prefix x []) eqn:E; [|discriminate]. apply has_prefix_app in E. destruct E as [r E]. destruct x; [congruence|discriminate].
  - cbn [find0] in H. cbn [rep]. destruct (has_prefix x (c :: s)) eqn:E.
    + injection H as <-. apply has_prefix_app in E. destruct E as [r E]. exists [], r. split; [exact E|]. split; [reflexivity|]. cbn [app]. f_equal.
      destruct x as [|y x]; [congruence|]. cbn in E. injection E as -> ->. replace (length (y :: x) - 1) with (length x) by (cbn; lia). apply rep_skip.
    + destruct (find0 x s) as [j|] eqn:Ej; [|discriminate]. injection H as <-. destruct (IH j eq_refl) as (u & v & -> & <- & ->). exists (c :: u), v. auto.
Qed.
Lemma skipn_len {A} (a b : list A) n : n = length a -> skipn n (a ++ b) = b.
Proof. intros ->. induction a; [reflexivity|assumption]. Qed.
Lemma firstn_len {A} (a b : list A) n : n = length a -> firstn n (a ++ b) = a.
Proof. intros ->. induction a as [|x a IH]; [reflexivity|]. cbn. rewrite IH. reflexivity. Qed.
Lemma find_at_app x d s : find_at x (d ++ s) (length d) = option_map (fun i => length d + i) (find0 x s).
Proof. unfold find_at. rewrite (skipn_len (a := d)) by reflexivity. reflexivity. Qed.
Lemma replace_mid a x b to n k : n = length a -> k = length x -> replace (a ++ x ++ b) n k to = a ++ to ++ b.
Proof. intros -> ->. unfold replace. rewrite (firstn_len (a := a)) by reflexivity. rewrite (app_assoc a x b), (skipn_len (a := a ++ x)) by (rewrite app_length; reflexivity). reflexivity. Qed.
Lemma replace_loop_rep x to : x <> [] -> forall f s d, length s < f -> replace_loop f x to (d ++ s) (find_at x (d ++ s) (length d)) = Ok (d ++ rep 0 x to s).
Proof.
  intros Hx. induction f as [|f IH]; intros s d Hf; [lia|]. rewrite find_at_app. destruct (find0 x s) as [i|] eqn:E; cbn [option_map replace_loop].
  - destruct (find0_some to Hx E) as (u & v & -> & <- & ->). rewrite (app_assoc d u), replace_mid by (rewrite ?app_length; reflexivity).
    assert (Es : (d ++ u) ++ to ++ v = ((d ++ u) ++ to) ++ v) by (rewrite app_assoc; reflexivity). rewrite Es. replace (length d + length u + length to) with (length ((d ++ u) ++ to)) by (rewrite !app_length; lia).
    rewrite IH; [rewrite <- !app_assoc; reflexivity|]. rewrite !app_length in Hf. destruct x; [congruence|]. cbn [length] in Hf. lia.
  - rewrite (find0_none to E). reflexivity.
Qed.
Lemma replace_rep s x to : x <> [] -> stringFromToReplace s x to = Ok (rep 0 x to s).
Proof. intros Hx. unfold stringFromToReplace. exact (@replace_loop_rep x to Hx (S (length s)) s [] (Nat.lt_succ_diag_r _)). Qed.

Fixpoint ang (s : str) : option str :=
  match s with
  | [] => Some []
  | c :: r => if ceqb c "<" then match r with
                                 | [] => None
                                 | d :: _ => option_map (fun x => c :: (if ceqb d "/" then x else "/"%char :: x)) (ang r)
                                 end
              else option_map (cons c) (ang r)
  end.
Definition num (d : ascii) : bool := isdigit d || ceqb "-" d.
Fixpoint sl (s : str) : str :=
  match s with
  | [] => []
  | c :: r => if ceqb c "/" then match r with [] => [c] | d :: _ => if num d then sl r else c :: sl r end else c :: sl r
  end.
Lemma find1_split c s : find0 [c] s = match s with [] => None | x :: r => if ceqb c x then Some 0 else option_map S (find0 [c] r) end.
Proof. destruct s as [|x r]; cbn; [reflexivity|]. rewrite andb_true_r. reflexivity. Qed.
Lemma find1_none c s : find0 [c] s = None <-> ~ In c s.
Proof.
  induction s as [|x s IH]; rewrite find1_split; [cbn; tauto|]. unfold ceqb. destruct (Ascii.eqb_spec c x) as [-> |E]; [cbn; split; [discriminate|tauto]|]. cbn [In].
  destruct (find0 [c] s); cbn [option_map]; [split; [discriminate|]|split; [|reflexivity]].
  - intros H. assert (X : Some n = None) by (apply IH; tauto). discriminate.
  - intros _ [X|X]; [congruence|]. apply IH in X; [assumption|reflexivity].
Qed.
Lemma find1_some c s i : find0 [c] s = Some i -> exists u v, s = u ++ c :: v /\ length u = i /\ ~ In c u.
Proof.
  revert i. induction s as [|x s IH]; intros i; rewrite find1_split; [discriminate|]. unfold ceqb. destruct (Ascii.eqb_spec c x) as [-> |E].
  - intros [= <-]. exists [], s. auto.
  - destruct (find0 [c] s) as [j|]; [|discriminate]. intros [= <-]. destruct (IH j eq_refl) as (u & v & -> & <- & Hu). exists (x :: u), v. split; [reflexivity|]. split; [reflexivity|]. intros [X|X]; congruence || contradiction.
Qed.
Lemma ang_pre u s : ~ In "<"%char u -> ang (u ++ s) = option_map (app u) (ang s).
Proof.
  induction u as [|c u IH]; intros H; [cbn; destruct (ang s); reflexivity|]. cbn [app ang]. unfold ceqb. destruct (Ascii.eqb_spec c "<") as [-> |E]; [destruct H; left; reflexivity|]. rewrite IH by (intros X; apply H; right; exact X). destruct (ang s); reflexivity.
Qed.
Lemma angle_loop_ang : forall f s d, length s < f -> angle_loop f (d ++ s) (find_at ["<"%char] (d ++ s) (length d)) = match ang s with Some x => Ok (d ++ x) | None => Throw ERuntime end.
Proof.
  induction f as [|f IH]; intros s d Hf; [lia|]. rewrite find_at_app. destruct (find0 ["<"%char] s) as [i|] eqn:E; cbn [option_map angle_loop].
  - destruct (find1_some E) as (u & v & -> & <- & Hu). rewrite (ang_pre _ Hu). cbn [ang]. change (ceqb "<" "<") with true. cbv iota. destruct v as [|y v].
    + rewrite !app_length. cbn [length]. destruct (Nat.leb_spec (length d + (length u + 1)) (length d + length u + 1)); [reflexivity|lia].
    + set (d' := d ++ u ++ ["<"%char]). assert (Es : d ++ u ++ "<"%char :: y :: v = d' ++ y :: v) by (unfold d'; rewrite <- !app_assoc; reflexivity). assert (El : length d + length u + 1 = length d') by (unfold d'; rewrite !app_length; cbn; lia).
      rewrite Es, El, app_length. cbn [length]. destruct (Nat.leb_spec (length d' + S (length v)) (length d')); [lia|]. assert (At : at_ (d' ++ y :: v) (length d') = y) by (rewrite <- (Nat.add_0_r (length d')), at_app; reflexivity). rewrite At. destruct (ceqb y "/") eqn:Ey; cbv zeta.
      * rewrite IH by (rewrite app_length in Hf; cbn [length] in *; lia). destruct (ang (y :: v)) as [x|]; [|reflexivity]. cbn [option_map]. f_equal. unfold d'. rewrite <- !app_assoc. reflexivity.
      * rewrite (@replace_mid d' [] (y :: v)) by reflexivity. cbn [app].
        assert (Ef : find_at ["<"%char] (d' ++ "/"%char :: y :: v) (length d') = find_at ["<"%char] ((d' ++ ["/"%char]) ++ y :: v) (length (d' ++ ["/"%char]))).
        { rewrite !find_at_app. rewrite (find1_split _ ("/"%char :: y :: v)). change (ceqb "<" "/") with false. cbv iota. rewrite app_length. cbn [length]. destruct (find0 _ (y :: v)); cbn [option_map]; [f_equal; lia|reflexivity]. }
        rewrite Ef. replace (d' ++ "/"%char :: y :: v) with ((d' ++ ["/"%char]) ++ y :: v) by (rewrite <- app_assoc; reflexivity).
        rewrite IH by (rewrite app_length in Hf; cbn [length] in *; lia). destruct (ang (y :: v)) as [x|]; [|reflexivity]. cbn [option_map]. f_equal. unfold d'. rewrite <- !app_assoc. reflexivity.
  - apply find1_none in E. rewrite <- (app_nil_r s) at 2. rewrite (ang_pre _ E). cbn. rewrite app_nil_r. reflexivity.
Qed.
Lemma sl_pre u s : ~ In "/"%char u -> sl (u ++ s) = u ++ sl s.
Proof.
  induction u as [|c u IH]; intros H; [reflexivity|]. cbn [app sl]. unfold ceqb. destruct (Ascii.eqb_spec c "/") as [-> |E]; [destruct H; left; reflexivity|]. rewrite IH by (intros X; apply H; right; exact X). reflexivity.
Qed.
Lemma num_slash : num "/" = false.
Proof. reflexivity. Qed.
Lemma slash_loop_sl : forall f s d, length s < f -> slash_loop f (d ++ s) (find_at ["/"%char] (d ++ s) (length d)) = Ok (d ++ sl s).
Proof.
  induction f as [|f IH]; intros s d Hf; [lia|]. rewrite find_at_app. destruct (find0 ["/"%char] s) as [i|] eqn:E; cbn [option_map slash_loop].
  - destruct (find1_some E) as (u & v & -> & <- & Hu). rewrite (sl_pre _ Hu). cbn [sl]. change (ceqb "/" "/") with true. cbv iota. destruct v as [|y v].
    + rewrite !app_length. cbn [length]. destruct (Nat.leb_spec (length d + (length u + 1)) (length d + length u + 1)); [reflexivity|lia].
    + set (d' := d ++ u). assert (Es : d ++ u ++ "/"%char :: y :: v = d' ++ "/"%char :: y :: v) by (unfold d'; rewrite <- !app_assoc; reflexivity). assert (El : length d + length u = length d') by (unfold d'; rewrite !app_length; cbn; lia).
      rewrite Es, El, app_length. cbn [length]. destruct (Nat.leb_spec (length d' + S (S (length v))) (length d' + 1)); [lia|]. rewrite at_app. change (at_ ("/"%char :: y :: v) 1) with y. fold (num y). destruct (num y) eqn:Ey; cbv zeta.
      * rewrite (@replace_mid d' ["/"%char] (y :: v)) by reflexivity. cbn [app]. replace (length d' + 1) with (length (d' ++ [y])) by (rewrite app_length; reflexivity). replace (d' ++ y :: v) with ((d' ++ [y]) ++ v) by (rewrite <- app_assoc; reflexivity).
        rewrite IH by (rewrite app_length in Hf; cbn [length] in *; lia). f_equal. unfold d'. rewrite <- !app_assoc. do 2 f_equal. cbn [app sl]. unfold ceqb. destruct (Ascii.eqb_spec y "/") as [-> |N]; [rewrite num_slash in Ey; discriminate|reflexivity].
      * replace (length d' + 1) with (length (d' ++ ["/"%char])) by (rewrite app_length; reflexivity). replace (d' ++ "/"%char :: y :: v) with ((d' ++ ["/"%char]) ++ y :: v) by (rewrite <- app_assoc; reflexivity).
        rewrite IH by (rewrite app_length in Hf; cbn [length] in *; lia). f_equal. unfold d'. rewrite <- !app_assoc. reflexivity.
  - apply find1_none in E. rewrite <- (app_nil_r s) at 2. rewrite (sl_pre _ E). cbn [sl]. rewrite app_nil_r. reflexivity.
Qed.
Local Notation P1 := (rep 0 (s_ "::") (s_ "/")).
Local Notation P2 := (rep 0 (s_ " [") (s_ "[")).
Local Notation P3 := (rep 0 (s_ "> ") (s_ ">")).
Local Notation P4 := (rep 0 (s_ "< ") (s_ "<")).
Local Notation P5 := (rep 0 (s_ ", ") (s_ ",/")).
Lemma pipeline n : n <> [] -> cxxToTypelibName n =
  match ang (P5 (P4 (P3 (P2 (P1 n))))) with
  | None => Throw ERuntime
  | Some s6 => match sl s6 with
               | [] => Throw ERuntime
               | c :: r => let s8 := if negb (ceqb c "/") && (1 <? length (c :: r)) then "/"%char :: c :: r else c :: r in
                           '(b, s9) <- isTypeRenamed s8 ;; Ok (if b then s9 else s8)
               end
  end.
Proof.
  intros Hn. unfold cxxToTypelibName. destruct n as [|x n]; [congruence|]. rewrite !replace_rep by discriminate. cbn [bind]. rewrite replace_rep by discriminate. cbn [bind]. rewrite replace_rep by discriminate. cbn [bind]. rewrite replace_rep by discriminate. cbn [bind].
  rewrite replace_rep by discriminate. cbn [bind]. set (s5 := P5 _). assert (A := @angle_loop_ang (S (length s5)) s5 [] (Nat.lt_succ_diag_r _)). cbn [app length] in A. rewrite A. destruct (ang s5) as [s6|]; cbn [bind]; [|reflexivity].
  assert (B := @slash_loop_sl (S (length s6)) s6 [] (Nat.lt_succ_diag_r _)). cbn [app length] in B. rewrite B. cbn [bind]. destruct (sl s6); reflexivity.
Qed.
Lemma rep_absent x to s : x <> [] -> absent x s -> find0 x s = None /\ rep 0 x to s = s.
Proof.
  intros Hx H. destruct (find0 x s) as [i|] eqn:E; [|split; [reflexivity|apply find0_none; exact E]]. destruct (find0_some to Hx E) as (u & v & E' & _). destruct (H u v E').
Qed.
Lemma replaceAll_absent x to t : x <> [] -> absent x t -> replaceAll t x to = Ok (false, t).
Proof. intros Hx A. unfold replaceAll. rewrite replace_rep by exact Hx. cbn [bind]. destruct (@rep_absent x to t Hx A) as [E ->]. unfold find_at. change (skipn 0 t) with t. rewrite E. reflexivity. Qed.
Lemma not_renamed_same t : not_renamed t -> isTypeRenamed t = Ok (false, t).
Proof. intros (A & B & C). unfold isTypeRenamed, type_renames. cbn [rename_loop]. rewrite replaceAll_absent by (try discriminate; exact A). cbn [bind]. rewrite replaceAll_absent by (try discriminate; exact B). cbn [bind]. rewrite replaceAll_absent by (try discriminate; exact C). reflexivity. Qed.

(** ** Seams *)
Lemma rep_app from to a : forall k b, k <= length a ->
  (forall a1 s1 s2 b1, a = a1 ++ s1 -> b = s2 ++ b1 -> from = s1 ++ s2 -> s1 <> [] -> s2 <> [] -> False) -> rep k from to (a ++ b) = rep k from to a ++ rep 0 from to b.
Proof.
  induction a as [|c a IH]; intros k b Hk H; [destruct k; [reflexivity|cbn in Hk; lia]|]. assert (H' : forall a1 s1 s2 b1, a = a1 ++ s1 -> b = s2 ++ b1 -> from = s1 ++ s2 -> s1 <> [] -> s2 <> [] -> False) by (intros a1 s1 s2 b1 -> ; apply (H (c :: a1) s1 s2 b1 eq_refl)).
  cbn [app rep]. destruct k as [|k]; [|apply IH; [cbn in Hk; lia|exact H']]. destruct (has_prefix from (c :: a ++ b)) eqn:E.
  - apply has_prefix_app in E. destruct E as [r E]. destruct (Nat.leb_spec (length from) (length (c :: a))) as [L|L].
    + assert (E2 : c :: a = from ++ firstn (length (c :: a) - length from) r).
      { assert (X := f_equal (firstn (length (c :: a))) E). change (c :: a ++ b) with ((c :: a) ++ b) in X. rewrite (firstn_len (a := c :: a)) in X by reflexivity. rewrite firstn_app in X. rewrite (firstn_all2 from) in X by exact L. exact X. }
      assert (P : has_prefix from (c :: a) = true) by (apply has_prefix_app; eexists; exact E2). rewrite P. rewrite IH by (cbn in L; try lia; exact H'). rewrite <- app_assoc. reflexivity.
    + exfalso. apply (H [] (c :: a) (skipn (length (c :: a)) from) r eq_refl).
      * assert (X := f_equal (skipn (length (c :: a))) E). change (c :: a ++ b) with ((c :: a) ++ b) in X. rewrite (skipn_len (a := c :: a)) in X by reflexivity. rewrite X, skipn_app. replace (length (c :: a) - length from) with 0 by lia. reflexivity.
      * assert (X := f_equal (firstn (length (c :: a))) E). change (c :: a ++ b) with ((c :: a) ++ b) in X. rewrite (firstn_len (a := c :: a)) in X by reflexivity. rewrite firstn_app in X. replace (length (c :: a) - length from) with 0 in X by lia. cbn [firstn] in X. rewrite app_nil_r in X. rewrite X at 1. symmetry. apply firstn_skipn.
      * discriminate.
      * intros Z. apply (f_equal (@length _)) in Z. rewrite skipn_length in Z. cbn [length] in *. lia.
  - assert (P : has_prefix from (c :: a) = false). { destruct (has_prefix from (c :: a)) eqn:P; [|reflexivity]. apply has_prefix_app in P. destruct P as [r P]. assert (X : has_prefix from (c :: a ++ b) = true) by (apply has_prefix_app; exists (r ++ b); rewrite app_assoc, <- P; reflexivity). congruence. }
    rewrite P. cbn [app]. f_equal. apply IH; [lia|exact H'].
Qed.
