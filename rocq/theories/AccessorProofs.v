(** * AccessorProofs: what the paths of an accessor lead to. *)
From Coq Require Import Permutation.
From Verif Require Import Base Types WellFormed ValueOps ValueSpec ValueInst EltOps EltProofs GraphLayout GraphLayoutSpec GraphLayoutProofs AccessorSpec Accessor.
From Verif Require Import Graph GraphSpec GraphProofs.
Local Open Scope N_scope.

Section Acc.
  Variables (H : heap) (p : tid -> bool).

  (** Types along a path of an accessor. *)
  Inductive twalk : tid -> list pstep -> tid -> Prop :=
  | tw_nil t : twalk t [] t
  | tw_call t fs f a u : o_kind (H t) = OComp fs -> In f fs -> twalk (f_type f) a u -> twalk t (PCall (f_name f) :: a) u
  | tw_arr t d x a u : o_kind (H t) = Graph.OArr d x -> twalk x a u -> twalk t (PIterate :: a) u
  | tw_cont t k x a u : o_kind (H t) = Graph.OCont k x -> twalk x a u -> twalk t (PIterate :: a) u.
  (** The path through which one gets to a position. *)
  Fixpoint path_of (t : tid) (q : list nat) : option (list pstep) :=
    match q with
    | [] => Some []
    | i :: q' =>
      match o_kind (H t) with
      | OComp fs => match nth_error fs i with Some f => option_map (cons (PCall (f_name f))) (path_of (f_type f) q') | None => None end
      | Graph.OArr _ x | Graph.OCont _ x => option_map (cons PIterate) (path_of x q')
      | _ => None
      end
    end.
  Lemma path_length : forall q t a, path_of t q = Some a -> length a = length q.
  Proof.
    induction q as [|i q IH]; intros t a E; cbn [path_of] in E; [injection E as <-; reflexivity|].
    destruct (o_kind (H t)) as [| | | | |d x|k x|fs]; try discriminate; try (destruct (path_of x q) eqn:E1; [|discriminate]; injection E as <-; cbn [length]; rewrite (IH _ _ E1); reflexivity).
    destruct (nth_error fs i) as [f|]; [|discriminate]. destruct (path_of (f_type f) q) eqn:E1; [|discriminate]. injection E as <-. cbn [length]. rewrite (IH _ _ E1). reflexivity.
  Qed.

  Lemma apart_inner t x : named_apart H t -> In x (inner H t) -> named_apart H x.
  Proof.
    intros N Hi b fs Hb. apply N. right. destruct Hb as [-> |Hb]; [apply holds_one; assumption|eapply holds_more; eassumption].
  Qed.
  Lemma inner_comp t fs f : o_kind (H t) = OComp fs -> In f fs -> In (f_type f) (inner H t).
  Proof. intros E Hi. unfold inner. rewrite E. apply in_map. assumption. Qed.
  Lemma inner_arr t d x : o_kind (H t) = Graph.OArr d x -> In x (inner H t).
  Proof. intros E. unfold inner. rewrite E. left. reflexivity. Qed.
  Lemma inner_cont t k x : o_kind (H t) = Graph.OCont k x -> In x (inner H t).
  Proof. intros E. unfold inner. rewrite E. left. reflexivity. Qed.
  Lemma same_field fs f g : NoDup (map f_name fs) -> In f fs -> In g fs -> f_name f = f_name g -> f = g.
  Proof.
    induction fs as [|x fs IH]; intros Hn Hf Hg E; [destruct Hf|]. cbn [map] in Hn. inversion Hn as [|? ? Nx Nr]; subst.
    destruct Hf as [-> |Hf], Hg as [-> |Hg]; auto; exfalso; apply Nx; [rewrite E|rewrite <- E]; apply in_map; assumption.
  Qed.

  (** ** The paths that are found *)
  Lemma collect_mono {A C} (f g : A -> res (list C)) l r : (forall x y, f x = Ok y -> g x = Ok y) -> collect f l = Ok r -> collect g l = Ok r.
  Proof.
    intros E. revert r. induction l as [|x l IH]; intros r; cbn [collect]; [auto|].
    destruct (f x) as [a| | |] eqn:Ex; try discriminate. cbn [bind]. destruct (collect f l) as [b| | |] eqn:El; try discriminate. cbn [bind]. rewrite (E _ _ Ex). cbn [bind]. rewrite (IH _ eq_refl). auto.
  Qed.
  Lemma traverse_mono : forall f t l, traverse f H p t = Ok l -> traverse (Datatypes.S f) H p t = Ok l.
  Proof.
    induction f as [|f IH]; intros t l E; [discriminate|]. remember (Datatypes.S f) as n. cbn [traverse]. subst n. cbn [traverse] in E.
    destruct (o_kind (H t)) as [| | | | |d x|k x|fs]; auto.
    - destruct (traverse f H p x) as [r| | |] eqn:Er; try discriminate. rewrite (IH _ _ Er). assumption.
    - destruct (traverse f H p x) as [r| | |] eqn:Er; try discriminate. rewrite (IH _ _ Er). assumption.
    - destruct (collect _ fs) as [r| | |] eqn:Er in E; try discriminate. erewrite collect_mono; [exact E| |exact Er].
      intros x y. cbn beta. destruct (traverse f H p (f_type x)) as [a| | |] eqn:Ea; try discriminate. rewrite (IH _ _ Ea). auto.
  Qed.
  Lemma traverse_mono_le f g t l : (f <= g)%nat -> traverse f H p t = Ok l -> traverse g H p t = Ok l.
  Proof. induction 1; auto. intros E. apply traverse_mono. auto. Qed.
  Lemma traverse_fuel : forall f t, traverse f H p t = Fuel \/ exists l, traverse f H p t = Ok l.
  Proof.
    induction f as [|f IH]; intros t; [left; reflexivity|]. cbn [traverse].
    destruct (o_kind (H t)) as [| | | | |d x|k x|fs]; eauto; try (destruct (IH x) as [-> |[r ->]]; cbn [bind]; eauto).
    assert (X : forall l : list fld, collect (fun x => a <- traverse f H p (f_type x) ;; Ok (map (cons (PCall (f_name x))) a)) l = Fuel \/
                         exists r, collect (fun x => a <- traverse f H p (f_type x) ;; Ok (map (cons (PCall (f_name x))) a)) l = Ok r).
    { induction l as [|x l IHl]; cbn [collect]; [right; eauto|]. destruct (IH (f_type x)) as [-> |[r ->]]; cbn [bind]; [auto|]. destruct IHl as [-> |[r' ->]]; cbn [bind]; eauto. }
    destruct (X fs) as [-> |[r ->]]; cbn [bind]; eauto.
  Qed.
  Lemma traverse_tree_all :
    (forall t T, tree_of H t T -> exists n l, traverse n H p t = Ok l) /\
    (forall fs F, fields_of H fs F -> exists n r, collect (fun x => a <- traverse n H p (f_type x) ;; Ok (map (cons (PCall (f_name x))) a)) fs = Ok r).
  Proof.
    apply tree_fields_ind; try (intros t; intros; exists 1%nat; cbn [traverse]; rewrite H0; eauto; fail).
    - intros t d x e Ek _ (n & l & E). exists (Datatypes.S n). cbn [traverse]. rewrite Ek, E. cbn [bind]. eauto.
    - intros t k x e Ek _ (n & l & E). exists (Datatypes.S n). cbn [traverse]. rewrite Ek, E. cbn [bind]. eauto.
    - intros t fs F Ek _ (n & l & E). exists (Datatypes.S n). cbn [traverse]. rewrite Ek, E. cbn [bind]. eauto.
    - exists O, []. reflexivity.
    - intros f fs T F _ (n & l & E) _ (n' & r & E'). exists (Nat.max n n'). eexists. cbn [collect].
      rewrite (@traverse_mono_le n (Nat.max n n') _ _ ltac:(lia) E). cbn [bind]. erewrite collect_mono; [reflexivity| |exact E'].
      intros x y. cbn beta. destruct (traverse n' H p (f_type x)) as [a| | |] eqn:Ea; try discriminate. rewrite (@traverse_mono_le n' (Nat.max n n') _ _ ltac:(lia) Ea). auto.
  Qed.
  Lemma traverse_conv t T : tree_of H t T -> exists l, conv (fun f => traverse f H p t) (Ok l).
  Proof. intros HT. destruct (proj1 traverse_tree_all _ _ HT) as (n & l & E). exists l, n. intros m Hm. eapply traverse_mono_le; eauto. Qed.
  Lemma traverse_tree : forall f t l, traverse f H p t = Ok l -> exists T, tree_of H t T.
  Proof.
    induction f as [|f IH]; intros t l E; [discriminate|]. apply children_tree. intros b Hb. unfold inner in Hb. cbn [traverse] in E.
    destruct (o_kind (H t)) as [| | | | |d x|k x|fs]; cbn [In] in Hb; try contradiction.
    - destruct Hb as [<- |[]]. destruct (traverse f H p x) eqn:Er; try discriminate. eauto.
    - destruct Hb as [<- |[]]. destruct (traverse f H p x) eqn:Er; try discriminate. eauto.
    - destruct (collect _ fs) as [r| | |] eqn:Er in E; try discriminate. clear E. revert r Er. induction fs as [|x fs IHf]; intros r Er; [destruct Hb|]. cbn [collect] in Er.
      destruct (traverse f H p (f_type x)) as [a| | |] eqn:Ea; try discriminate. cbn [bind] in Er. destruct (collect _ fs) as [c| | |] eqn:Ec in Er; try discriminate.
      destruct Hb as [<- |Hb]; eauto.
  Qed.

  Lemma traverse_spec : forall f t l, traverse f H p t = Ok l -> forall a, In a l <-> exists u, twalk t a u /\ p u = true.
  Proof.
    induction f as [|f IH]; intros t l E a; [discriminate|]. cbn [traverse] in E.
    assert (Own : In a (if p t then [[]] else []) <-> a = [] /\ p t = true).
    { destruct (p t); cbn [In]; [|intuition discriminate]. intuition congruence. }
    assert (Leaf : forall l0, Ok (if p t then [[]] else []) = Ok l0 -> (forall s a' u, ~ twalk t (s :: a') u) -> (In a l0 <-> exists u, twalk t a u /\ p u = true)).
    { intros l0 E0 Hn. injection E0 as <-. rewrite Own. split; [intros [-> P]; exists t; split; [constructor|assumption]|].
      intros (u & W & P). destruct a as [|s a']; [inversion W; subst; auto|destruct (Hn _ _ _ W)]. }
    destruct (o_kind (H t)) as [| | | | |d x|k x|fs] eqn:Ek; try (apply Leaf; [assumption|intros s a' u W; inversion W; congruence]).
    - destruct (traverse f H p x) as [r| | |] eqn:Er; try discriminate. cbn [bind] in E. injection E as <-. rewrite in_app_iff, Own, in_map_iff. split.
      + intros [[-> P]|(a' & <- & Hi)]; [exists t; split; [constructor|assumption]|]. apply (IH _ _ Er) in Hi. destruct Hi as (u & W & P). exists u. split; [eapply tw_arr; eauto|assumption].
      + intros (u & W & P). inversion W; subst; [left; auto|congruence|right|congruence]. rewrite Ek in H0. inversion H0; subst. eexists. split; [reflexivity|]. apply (IH _ _ Er). eauto.
    - destruct (traverse f H p x) as [r| | |] eqn:Er; try discriminate. cbn [bind] in E. injection E as <-. rewrite in_app_iff, Own, in_map_iff. split.
      + intros [[-> P]|(a' & <- & Hi)]; [exists t; split; [constructor|assumption]|]. apply (IH _ _ Er) in Hi. destruct Hi as (u & W & P). exists u. split; [eapply tw_cont; eauto|assumption].
      + intros (u & W & P). inversion W; subst; [left; auto|congruence|congruence|right]. rewrite Ek in H0. inversion H0; subst. eexists. split; [reflexivity|]. apply (IH _ _ Er). eauto.
    - destruct (collect _ fs) as [r| | |] eqn:Er in E; try discriminate. cbn [bind] in E. injection E as <-. rewrite in_app_iff, Own.
      assert (R : In a r <-> exists x a' u, In x fs /\ a = PCall (f_name x) :: a' /\ twalk (f_type x) a' u /\ p u = true).
      { clear Own Leaf Ek. revert r Er. induction fs as [|x fs IHf]; intros r Er; cbn [collect] in Er.
        - injection Er as <-. split; [intros []|]. intros (x & a' & u & [] & _).
        - destruct (traverse f H p (f_type x)) as [b| | |] eqn:Ea; try discriminate. cbn [bind] in Er. destruct (collect _ fs) as [c| | |] eqn:Ec in Er; try discriminate. cbn [bind] in Er. injection Er as <-.
          rewrite in_app_iff, in_map_iff, (IHf _ Ec). split.
          + intros [(a' & <- & Hi)|(y & a' & u & Hi & E & W)]; [|exists y, a', u; split; [right; assumption|auto]].
            apply (IH _ _ Ea) in Hi. destruct Hi as (u & W). exists x, a', u. split; [left; reflexivity|auto].
          + intros (y & a' & u & [<- |Hi] & -> & W); [left|right; exists y, a', u; auto]. exists a'. split; [reflexivity|]. apply (IH _ _ Ea). eauto. }
      rewrite R. split.
      + intros [[-> P]|(x & a' & u & Hi & -> & W & P)]; [exists t; split; [constructor|assumption]|]. exists u. split; [eapply tw_call; eauto|assumption].
      + intros (u & W & P). inversion W; subst; [left; auto|right|congruence|congruence]. rewrite Ek in H0. inversion H0; subst. exists f0, a0, u. auto.
  Qed.
  Lemma NoDup_app' {A} (l m : list A) : NoDup l -> NoDup m -> (forall x, In x l -> In x m -> False) -> NoDup (l ++ m).
  Proof.
    intros A1. induction A1 as [|x l Hx A1 IH]; intros B1 D; [assumption|]. cbn [app]. constructor; [|apply IH; auto; intros y Hy; apply D; right; assumption].
    rewrite in_app_iff. intros [X|X]; [contradiction|]. apply (D x); [left; reflexivity|assumption].
  Qed.
  Lemma NoDup_cons_map {A} (s : A) l : NoDup l -> NoDup (map (cons s) l).
  Proof. intros N. apply FinFun.Injective_map_NoDup; [|assumption]. intros x y E. congruence. Qed.
  Lemma traverse_nodup : forall f t l, named_apart H t -> traverse f H p t = Ok l -> NoDup l.
  Proof.
    induction f as [|f IH]; intros t l Hn E; [discriminate|]. cbn [traverse] in E.
    assert (Own : NoDup (if p t then [@nil pstep] else [])) by (destruct (p t); repeat constructor; intros []).
    assert (Own' : forall a, In a (if p t then [@nil pstep] else []) -> a = []) by (destruct (p t); [intros a [<- |[]]; reflexivity|intros a []]).
    destruct (o_kind (H t)) as [| | | | |d x|k x|fs] eqn:Ek; try (injection E as <-; assumption).
    - destruct (traverse f H p x) as [r| | |] eqn:Er; try discriminate. cbn [bind] in E. injection E as <-.
      apply NoDup_app'; [assumption|apply NoDup_cons_map, (IH _ _ (apart_inner Hn (inner_arr Ek)) Er)|].
      intros a Ha Hb. apply Own' in Ha. subst a. apply in_map_iff in Hb. destruct Hb as (? & ? & _). discriminate.
    - destruct (traverse f H p x) as [r| | |] eqn:Er; try discriminate. cbn [bind] in E. injection E as <-.
      apply NoDup_app'; [assumption|apply NoDup_cons_map, (IH _ _ (apart_inner Hn (inner_cont Ek)) Er)|].
      intros a Ha Hb. apply Own' in Ha. subst a. apply in_map_iff in Hb. destruct Hb as (? & ? & _). discriminate.
    - destruct (collect _ fs) as [r| | |] eqn:Er in E; try discriminate. cbn [bind] in E. injection E as <-.
      assert (Hd := Hn t fs (or_introl eq_refl) Ek).
      assert (Hin : forall x, In x fs -> named_apart H (f_type x)) by (intros x Hi; exact (apart_inner Hn (inner_comp Ek Hi))).
      assert (R : NoDup r /\ forall a, In a r -> exists x a', In x fs /\ a = PCall (f_name x) :: a').
      { clear Own Own' Ek. revert r Er. induction fs as [|x fs IHf]; intros r Er; cbn [collect] in Er.
        - injection Er as <-. split; [constructor|intros a []].
        - destruct (traverse f H p (f_type x)) as [b| | |] eqn:Ea; try discriminate. cbn [bind] in Er. destruct (collect _ fs) as [c| | |] eqn:Ec in Er; try discriminate. cbn [bind] in Er. injection Er as <-.
          cbn [map] in Hd. inversion Hd as [|? ? Nx Nr]; subst. destruct (IHf Nr ltac:(intros; apply Hin; right; assumption) c Ec) as [Nc Fc]. split.
          + apply NoDup_app'; [apply NoDup_cons_map, (IH _ _ (Hin _ (or_introl eq_refl)) Ea)|assumption|].
            intros a Ha Hb. apply in_map_iff in Ha. destruct Ha as (a' & <- & _). apply Fc in Hb. destruct Hb as (y & a2 & Hy & E). injection E as E _. apply Nx. rewrite E. apply in_map. assumption.
          + intros a Ha. apply in_app_iff in Ha. destruct Ha as [Ha|Ha]; [apply in_map_iff in Ha; destruct Ha as (a' & <- & _); exists x, a'; split; [left; reflexivity|reflexivity]|].
            apply Fc in Ha. destruct Ha as (y & a' & Hy & ->). exists y, a'. split; [right; assumption|reflexivity]. }
      apply NoDup_app'; [assumption|apply R|]. intros a Ha Hb. apply Own' in Ha. subst a. apply R in Hb. destruct Hb as (? & ? & _ & ?). discriminate.
  Qed.

  (** ** What a path leads to *)
  Definition pplace (v : pvalue) : list nat := snd (fst v).
  Lemma twalk_fun t a u u' : named_apart H t -> twalk t a u -> twalk t a u' -> u = u'.
  Proof.
    intros Hn W. revert u' Hn. induction W as [t|t fs f a u Ek Hi W IH|t d x a u Ek W IH|t k x a u Ek W IH]; intros u' Hn W'.
    - inversion W'. reflexivity.
    - inversion W' as [|t0 gs g a0 u0 Ek' Hi' W0| |]; subst. rewrite Ek in Ek'. injection Ek' as <-.
      assert (g = f) by (apply (same_field (Hn _ _ (or_introl eq_refl) Ek) Hi' Hi); assumption). subst g. apply (IH _ (apart_inner Hn (inner_comp Ek Hi)) W0).
    - inversion W' as [| |t0 d0 x0 a0 u0 Ek' W0|t0 k0 x0 a0 u0 Ek' W0]; subst; [|congruence]. assert (x0 = x) by congruence. subst x0. apply (IH _ (apart_inner Hn (inner_arr Ek)) W0).
    - inversion W' as [| |t0 d0 x0 a0 u0 Ek' W0|t0 k0 x0 a0 u0 Ek' W0]; subst; [congruence|]. assert (x0 = x) by congruence. subst x0. apply (IH _ (apart_inner Hn (inner_cont Ek)) W0).
  Qed.
  Lemma part_twalk t m q u k : part H t m q u k -> exists a, path_of t q = Some a /\ twalk t a u.
  Proof.
    induction 1 as [t m|t fs i f m q u k Ek Ei P (a & E & W)|t d x i m q u k Ek Hi P (a & E & W)|t x i m s cap cs q u k Ek Em Hi P (a & E & W)|t x i m s bs b q u k Ek Em Hi P (a & E & W)].
    - exists []. split; [reflexivity|constructor].
    - exists (PCall (f_name f) :: a). cbn [path_of]. rewrite Ek, Ei, E. split; [reflexivity|]. eapply tw_call; eauto. apply (nth_error_In _ _ Ei).
    - exists (PIterate :: a). cbn [path_of]. rewrite Ek, E. split; [reflexivity|eapply tw_arr; eauto].
    - exists (PIterate :: a). cbn [path_of]. rewrite Ek, E. split; [reflexivity|eapply tw_cont; eauto].
    - exists (PIterate :: a). cbn [path_of]. rewrite Ek, E. split; [reflexivity|eapply tw_cont; eauto].
  Qed.
  Lemma collect_iter (f : pvalue -> res (list pvalue)) (g : nat -> pvalue) (P : nat -> pvalue -> Prop) n : forall s,
    (forall i, (s <= i < s + n)%nat -> exists rs, f (g i) = Ok rs /\ NoDup (map pplace rs) /\ (forall v, In v rs <-> P i v)) ->
    (forall i j v w, P i v -> P j w -> pplace v = pplace w -> i = j) ->
    exists rs, collect f (map g (seq s n)) = Ok rs /\ NoDup (map pplace rs) /\ (forall v, In v rs <-> exists i, (s <= i < s + n)%nat /\ P i v).
  Proof.
    induction n as [|n IH]; intros s Hf Hd; cbn [seq map collect].
    - exists []. split; [reflexivity|]. split; [constructor|]. intros v. split; [intros []|]. intros (i & Hi & _). lia.
    - destruct (Hf s ltac:(lia)) as (r0 & -> & N0 & S0). cbn [bind].
      destruct (IH (Datatypes.S s) ltac:(intros i Hi; apply Hf; lia) Hd) as (r1 & -> & N1 & S1). cbn [bind]. exists (r0 ++ r1). split; [reflexivity|]. split.
      + rewrite map_app. apply NoDup_app'; [assumption|assumption|]. intros q A1 A2. apply in_map_iff in A1, A2. destruct A1 as (v & <- & A1), A2 as (w & E & A2).
        apply S0 in A1. apply S1 in A2. destruct A2 as (i & Hi & A2). assert (X := Hd _ _ _ _ A1 A2 (eq_sym E)). lia.
      + intros v. rewrite in_app_iff, S0, S1. split.
        * intros [A|(i & Hi & A)]; [exists s; split; [lia|assumption]|exists i; split; [lia|assumption]].
        * intros (i & Hi & A). destruct (Nat.eq_dec i s) as [-> |Hne]; [left; assumption|right; exists i; split; [lia|assumption]].
  Qed.
  Lemma field_memory fs F : fields_of H fs F -> forall cur s mem i f, wf_fields F cur s -> valid_fields F cur s mem -> nth_error fs i = Some f ->
    cur <= f_off f /\ exists Tf, tree_of H (f_type f) Tf /\ wf Tf /\ valid Tf (takeN (sizeof Tf) (dropN (f_off f - cur) mem)).
  Proof.
    induction 1 as [|f fs T gs HT HF IH]; intros cur s mem i g Hw Hv E; [destruct i; discriminate|].
    cbn [wf_fields valid_fields] in Hw, Hv. destruct Hw as (Hc & Hw & Hwr). destruct Hv as (p0 & m & b & -> & Hp & Vm & Vb).
    assert (Lp : lenN p0 = f_off f - cur) by (destruct Hp as (bs & <- & ->); unfold lenN; rewrite map_length; reflexivity).
    assert (Lm := proj1 valid_len _ Hw _ Vm).
    destruct i as [|i]; cbn [nth_error] in E.
    - injection E as <-. split; [assumption|]. exists T. split; [assumption|]. split; [assumption|]. rewrite dropN_app_exact, takeN_app_exact by congruence. assumption.
    - destruct (IH _ _ _ _ _ Hwr Vb E) as (Hc' & Tf & A & A1 & A2). split; [lia|]. exists Tf. split; [assumption|]. split; [assumption|].
      replace (dropN (f_off g - cur) (p0 ++ m ++ b)) with (dropN (f_off g - (f_off f + sizeof T)) b); [assumption|].
      unfold dropN. rewrite app_assoc, skipn_app, (@skipn_all2 _ _ (p0 ++ m)); [cbn [app]; f_equal|]; rewrite ?app_length; unfold lenN in *; lia.
  Qed.
  Lemma piece_concat n ms : Forall (fun y : list cell => lenN y = n) ms -> forall i e, nth_error ms i = Some e -> piece n i (concat ms) = e.
  Proof.
    unfold piece. induction 1 as [|y ms Hy _ IH]; intros i e E; [destruct i; discriminate|]. destruct i as [|i]; cbn [nth_error concat] in *.
    - injection E as <-. rewrite N.mul_0_l. change (dropN 0 (y ++ concat ms)) with (y ++ concat ms). apply takeN_app_exact. congruence.
    - rewrite <- (IH i e E) at 1. f_equal. unfold dropN. rewrite skipn_app, skipn_all2 by (unfold lenN in Hy; lia). cbn [app]. f_equal. unfold lenN in Hy. lia.
  Qed.
  Lemma find_field_spec n fs : forall i j f, find_field n fs i = Some (j, f) -> exists k, j = (i + k)%nat /\ nth_error fs k = Some f /\ f_name f = n.
  Proof.
    induction fs as [|x fs IH]; intros i j f E; cbn [find_field] in E; [discriminate|]. destruct (seqb (f_name x) n) eqn:En.
    - injection E as <- <-. exists O. split; [lia|]. split; [reflexivity|]. apply seqb_eq. assumption.
    - destruct (IH _ _ _ E) as (k & -> & A & A1). exists (Datatypes.S k). split; [lia|auto].
  Qed.
  Lemma find_field_some n fs : forall i f, In f fs -> f_name f = n -> find_field n fs i <> None.
  Proof.
    induction fs as [|x fs IH]; intros i f Hi En; [destruct Hi|]. cbn [find_field]. destruct (seqb (f_name x) n) eqn:Ex; [discriminate|]. destruct Hi as [-> |Hi]; [rewrite <- En in Ex; rewrite seqb_refl in Ex; discriminate|eauto].
  Qed.
  Lemma nth_unique (fs : list fld) i j f g : NoDup (map f_name fs) -> nth_error fs i = Some f -> nth_error fs j = Some g -> f_name f = f_name g -> i = j.
  Proof.
    intros Hn Ei Ej E. apply (proj1 (NoDup_nth_error (map f_name fs)) Hn).
    - rewrite map_length. apply nth_error_Some. congruence.
    - rewrite !nth_error_map, Ei, Ej. cbn. congruence.
  Qed.

  Definition reached (t : tid) (q0 : list nat) (m : list cell) (a : list pstep) (v : pvalue) : Prop :=
    exists q u k, v = (u, q0 ++ q, k) /\ part H t m q u k /\ path_of t q = Some a.
  Lemma reached_apart x q0 (mm : nat -> list cell) a i j v w :
    reached x (q0 ++ [i]) (mm i) a v -> reached x (q0 ++ [j]) (mm j) a w -> pplace v = pplace w -> i = j.
  Proof.
    intros (q & u & k & -> & _) (q' & u' & k' & -> & _). unfold pplace. cbn [fst snd]. rewrite <- !app_assoc. intros E. apply app_inv_head in E. injection E as E _. assumption.
  Qed.
  Lemma not_null t T m : tree_of H t T -> valid T m -> sizeof T = o_size (H t).
  Proof. intros HT V. apply tree_size; [assumption|]. intros ->. destruct V. Qed.
  Lemma resolve_ok : forall a t T m q0 u, twalk t a u -> tree_of H t T -> wf T -> valid T m -> named_apart H t ->
    exists rs, resolve H a (t, q0, m) = Ok rs /\ NoDup (map pplace rs) /\ forall v, In v rs <-> reached t q0 m a v.
  Proof.
    induction a as [|s a IH]; intros t T m q0 u W HT Hw Hv Hn.
    - exists [(t, q0, m)]. split; [reflexivity|]. split; [repeat constructor; intros []|]. intros v. cbn [In]. split.
      + intros [<- |[]]. exists [], t, m. rewrite app_nil_r. split; [reflexivity|]. split; [constructor|reflexivity].
      + intros (q & u' & k & -> & P & E). apply path_length in E. destruct q; [|discriminate]. inversion P; subst. rewrite app_nil_r. left. reflexivity.
    - inversion W as [|t0 fs f a0 u0 Ek Hi W0|t0 d x a0 u0 Ek W0|t0 k x a0 u0 Ek W0]; subst.
      + inversion HT; subst; try congruence. assert (fs0 = fs) by congruence. subst fs0. cbn [wf valid] in Hw, Hv. destruct Hw as [_ Hw].
        assert (Hd := Hn _ _ (or_introl eq_refl) Ek). cbn [resolve raw_get]. rewrite Ek.
        destruct (find_field (f_name f) fs 0) as [[j g]|] eqn:Ef; [|destruct (@find_field_some _ _ 0%nat _ Hi eq_refl Ef)].
        apply find_field_spec in Ef. destruct Ef as (i & -> & Ei & En). cbn [Nat.add bind].
        assert (g = f) by (apply (same_field Hd (nth_error_In _ _ Ei) Hi En)). subst g.
        destruct (field_memory H1 Hw Hv Ei) as (_ & Tf & HTf & Hwf & Vf). rewrite N.sub_0_r, (not_null HTf Vf) in Vf.
        destruct (IH _ _ _ (q0 ++ [i]) _ W0 HTf Hwf Vf (apart_inner Hn (inner_comp Ek Hi))) as (rs & -> & Nd & S). exists rs. split; [reflexivity|]. split; [assumption|].
        intros v. rewrite S. split.
        * intros (q & u' & k & -> & P & E). exists (i :: q), u', k. rewrite <- app_assoc. split; [reflexivity|]. split; [eapply part_field; eauto|]. cbn [path_of]. rewrite Ek, Ei, E. reflexivity.
        * intros (q & u' & k & -> & P & E). destruct q as [|j q]; [discriminate|]. cbn [path_of] in E. rewrite Ek in E. destruct (nth_error fs j) as [g|] eqn:Ej; [|discriminate].
          destruct (path_of (f_type g) q) as [a'|] eqn:Ea; [|discriminate]. injection E as E1 ->. assert (j = i) by (apply (nth_unique Hd Ej Ei); assumption). subst j. rewrite Ei in Ej. injection Ej as <-.
          inversion P; subst; try congruence. exists q, u', k. rewrite <- app_assoc. split; [reflexivity|]. split; [|assumption]. congruence.
      + inversion HT; subst; try congruence. assert (d0 = d /\ x0 = x) as [-> ->] by (split; congruence). cbn [wf valid] in Hw, Hv. destruct Hw as (_ & _ & _ & Hpos & Hwe). destruct Hv as (ms & Ld & -> & Fm).
        cbn [resolve raw_each]. rewrite Ek. cbn [bind].
        assert (Fl : Forall (fun y => lenN y = o_size (H x)) ms).
        { apply Forall_forall. intros y Hy. assert (Vy := proj1 (Forall_forall _ _) Fm y Hy). rewrite (proj1 valid_len _ Hwe _ Vy). apply (not_null H1 Vy). }
        destruct (@collect_iter (resolve H a) (fun i => (x, q0 ++ [i], piece (o_size (H x)) i (concat ms))) (fun i => reached x (q0 ++ [i]) (piece (o_size (H x)) i (concat ms)) a) (N.to_nat d) 0) as (rs & E & Nd & S).
        { intros i Hi. destruct (nth_error ms i) as [y|] eqn:Ey; [|apply nth_error_None in Ey; unfold lenN in Ld; lia].
          apply (IH _ e _ _ u W0 H1 Hwe); [|apply (apart_inner Hn (inner_arr Ek))]. rewrite (piece_concat Fl Ey). apply (proj1 (Forall_forall _ _) Fm), (nth_error_In _ _ Ey). }
        { intros i j v w. exact (@reached_apart x q0 (fun i => piece (o_size (H x)) i (concat ms)) a i j v w). }
        exists rs. split; [exact E|]. split; [assumption|]. intros v. rewrite S. split.
        * intros (i & Hi & q & u' & k & -> & P & E'). exists (i :: q), u', k. rewrite <- app_assoc. split; [reflexivity|]. split; [eapply part_array; eauto; lia|]. cbn [path_of]. rewrite Ek, E'. reflexivity.
        * intros (q & u' & k & -> & P & E'). destruct q as [|i q]; [discriminate|]. cbn [path_of] in E'. rewrite Ek in E'. destruct (path_of x q) as [a'|] eqn:Ea; [|discriminate]. injection E' as ->.
          inversion P as [|? ? ? ? ? ? ? ? Ek'|? d' x' ? ? ? ? ? Ek' Hi P'|? ? ? ? ? ? ? ? ? ? Ek'|? ? ? ? ? ? ? ? ? ? Ek']; subst; try congruence. rewrite Ek in Ek'. injection Ek' as <- <-. exists i. split; [lia|]. exists q, u', k. rewrite <- app_assoc. auto.
      + inversion HT; subst; try congruence. assert (k0 = k /\ x0 = x) as [-> ->] by (split; congruence). cbn [resolve raw_each]. rewrite Ek. destruct k.
        * cbn [wf valid sizeof] in Hw, Hv. destruct Hw as (_ & Hs & Hpos & Hwe). destruct Hv as (cap & ms & -> & Fm & _).
          rewrite <- (app_nil_r (put_obj _ _)), take_obj_put by assumption. rewrite app_nil_r. cbn [bind].
          assert (Sz : sizeof e = o_size (H x)) by (apply tree_size; [assumption|]; intros ->; cbn in Hpos; lia).
          assert (Fl : Forall (fun y => lenN y = o_size (H x)) ms).
          { rewrite <- Sz. apply Forall_forall. intros y Hy. apply (proj1 valid_len _ Hwe), (proj1 (Forall_forall _ _) Fm y Hy). }
          assert (Len : lenN (concat ms) = lenN ms * o_size (H x)) by (rewrite <- Sz; apply (concat_len Hwe Fm)).
          assert (Cnt : lenN (concat ms) / o_size (H x) = lenN ms) by (rewrite Len; apply N.div_mul; lia).
          rewrite Cnt.
          destruct (@collect_iter (resolve H a) (fun i => (x, q0 ++ [i], piece (o_size (H x)) i (concat ms))) (fun i => reached x (q0 ++ [i]) (piece (o_size (H x)) i (concat ms)) a) (N.to_nat (lenN ms)) 0) as (rs & E & Nd & S).
          { intros i Hi. destruct (nth_error ms i) as [y|] eqn:Ey; [|apply nth_error_None in Ey; unfold lenN in Hi; lia].
            apply (IH _ e _ _ u W0 H1 Hwe); [|apply (apart_inner Hn (inner_cont Ek))]. rewrite (piece_concat Fl Ey). apply (proj1 (Forall_forall _ _) Fm), (nth_error_In _ _ Ey). }
          { intros i j v w. exact (@reached_apart x q0 (fun i => piece (o_size (H x)) i (concat ms)) a i j v w). }
          exists rs. split; [exact E|]. split; [assumption|]. intros v. rewrite S. split.
          -- intros (i & Hi & q & u' & k & -> & P & E'). exists (i :: q), u', k. rewrite <- app_assoc. split; [reflexivity|]. split.
             ++ eapply part_vector; eauto. rewrite Len. apply N.mul_le_mono_r. lia.
             ++ cbn [path_of]. rewrite Ek, E'. reflexivity.
          -- intros (q & u' & k & -> & P & E'). destruct q as [|i q]; [discriminate|]. cbn [path_of] in E'. rewrite Ek in E'. destruct (path_of x q) as [a'|] eqn:Ea; [|discriminate]. injection E' as ->.
             inversion P as [|? ? ? ? ? ? ? ? Ek'|? ? ? ? ? ? ? ? Ek'|? x' ? ? s' cap' cs ? ? ? Ek' Em Hi P'|? ? ? ? ? ? ? ? ? ? Ek']; subst; try congruence. assert (x' = x) by congruence. subst x'.
             unfold put_obj in Em. injection Em as _ <- _. exists i. split.
             ++ rewrite Len in Hi. apply N.mul_le_mono_pos_r in Hi; [|lia]. unfold lenN in *. lia.
             ++ exists q, u', k. rewrite <- app_assoc. auto.
        * cbn [wf valid sizeof] in Hw, Hv. destruct Hw as (_ & Hs & c & ->). destruct Hv as (bs & -> & _).
          rewrite <- (app_nil_r (put_obj _ _)), take_obj_put by assumption. rewrite app_nil_r. cbn [bind].
          destruct (@collect_iter (resolve H a) (fun i => (x, q0 ++ [i], [B (nth i bs 0)])) (fun i => reached x (q0 ++ [i]) [B (nth i bs 0)] a) (length bs) 0) as (rs & E & Nd & S).
          { intros i Hi. apply (IH _ (TNum 1 c) _ _ u W0 H1); [cbn; unfold two64; split; [lia|exact Logic.I]|exists [nth i bs 0]; auto|apply (apart_inner Hn (inner_cont Ek))]. }
          { intros i j v w. exact (@reached_apart x q0 (fun i => [B (nth i bs 0)]) a i j v w). }
          exists rs. split; [exact E|]. split; [assumption|]. intros v. rewrite S. split.
          -- intros (i & Hi & q & u' & k & -> & P & E'). exists (i :: q), u', k. rewrite <- app_assoc. split; [reflexivity|]. split.
             ++ eapply part_string; eauto. apply nth_error_nth'. lia.
             ++ cbn [path_of]. rewrite Ek, E'. reflexivity.
          -- intros (q & u' & k & -> & P & E'). destruct q as [|i q]; [discriminate|]. cbn [path_of] in E'. rewrite Ek in E'. destruct (path_of x q) as [a'|] eqn:Ea; [|discriminate]. injection E' as ->.
             inversion P as [|? ? ? ? ? ? ? ? Ek'|? ? ? ? ? ? ? ? Ek'|? ? ? ? ? ? ? ? ? ? Ek'|? x' ? ? s' bs' b ? ? ? Ek' Em Hi P']; subst; try congruence. assert (x' = x) by congruence. subst x'.
             unfold put_obj in Em. injection Em as <- _. exists i. split.
             ++ assert (i < length bs)%nat by (apply nth_error_Some; congruence). lia.
             ++ exists q, u', k. rewrite <- app_assoc, (nth_error_nth _ _ _ Hi). auto.
  Qed.
End Acc.
