(** * WrapperLoop: handle_invalidation keeps exactly the wrappers whose memory stayed. *)
From Coq Require Import Sorted Permutation.
From Verif Require Import Base Wrapper WrapperSpec WrapperProofs WrapperMain.

Definition kept (v : wval) (w : wr) : Prop := exists x, locate root_place v (map kidx (w_path w)) = Some (w_place w, x).
Lemma kept_dec v w : kept v w \/ ~ kept v w.
Proof.
  unfold kept. destruct (locate root_place v (map kidx (w_path w))) as [[pl x]|] eqn:E; [|right; intros (x & H); discriminate].
  destruct (place_eqb pl (w_place w)) eqn:P; [apply place_eqb_eq in P; subst; left; eauto|]. right. intros (y & H). injection H as -> ->. assert (X := proj2 (place_eqb_eq (w_place w) (w_place w)) eq_refl). congruence.
Qed.
Lemma map_kidx_app p k : map kidx (p ++ [k]) = map kidx p ++ [kidx k].
Proof. apply map_app. Qed.

Section Loop.
  Variables (T : wty) (v v' : wval) (L0 : list wr) (p0 : list key).
  Hypothesis Ht : has_type T v.
  Hypothesis Ht' : has_type T v'.
  Hypothesis Ha' : allocated v'.
  Hypothesis Hk : forall w, In w L0 -> kpath T (w_path w) = Some (w_type w).
  Hypothesis Hv : forall w, In w L0 -> kept v w.
  Hypothesis Hc : closed L0.
  Hypothesis Hp : NoDup (map w_path L0).
  Hypothesis Hi : NoDup (map w_id L0).
  Hypothesis Hout : forall w, In w L0 -> (exists k r, w_path w = p0 ++ k :: r) \/ kept v' w.

  (** The value at a kept wrapper, in both states. *)
  Lemma kept_typed u w : has_type T u -> In w L0 -> kept u w -> exists x, locate root_place u (map kidx (w_path w)) = Some (w_place w, x) /\ has_type (w_type w) x.
  Proof. intros Hu Hw (x & L). exists x. split; [exact L|]. eapply locate_typed; [exact Hu|exact (kpath_part (Hk Hw))|exact L]. Qed.
  (** A child that is not kept although its parent is: the parent is a vector. *)
  Lemma lost_child c u k : In c L0 -> In u L0 -> w_path u = w_path c ++ [k] -> kept v' c -> ~ kept v' u -> exists e, w_type c = WVec e.
  Proof.
    intros Hcl Hu E Kc Ku. destruct (kept_typed Ht Hcl (Hv Hcl)) as (x & Lx & Tx). destruct (kept_typed Ht' Hcl Kc) as (x' & Lx' & Tx').
    assert (S := child_type Hk Hcl Hu E). destruct (Hv Hu) as (y & Ly). rewrite E, map_kidx_app, locate_app, Lx in Ly.
    destruct (w_type c) as [|fs|n e|e|] eqn:Et; cbn [kstep] in S; try discriminate; [| |eauto]; exfalso; apply Ku; destruct k as [b i|i]; try discriminate; cbn [kidx] in *.
    - destruct b; [discriminate|]. inversion Tx as [|? l F| | |]; subst. inversion Tx' as [|? l' F'| | |]; subst. destruct (Forall2_nth F S) as (z & Ez & _). destruct (Forall2_nth F' S) as (z' & Ez' & _).
      exists z'. rewrite E, map_kidx_app, locate_app, Lx'. cbn [locate kidx] in *. rewrite Ez in Ly. rewrite Ez'. injection Ly as <- <-. reflexivity.
    - destruct (Nat.ltb_spec i n) as [Li|]; [|discriminate]. inversion Tx as [| |n0 e0 l En F| |]; subst. inversion Tx' as [| |n1 e1 l' En' F'| |]; subst.
      destruct (nth_error l' i) as [z'|] eqn:Ez'; [|apply nth_error_None in Ez'; lia]. exists z'. rewrite E, map_kidx_app, locate_app, Lx'. cbn [locate kidx] in *. rewrite Ez'. destruct (nth_error l i); [injection Ly as <- <-; reflexivity|discriminate].
  Qed.
  (** Children of a vector that is kept. *)
  Lemma vec_child c u i e : In c L0 -> In u L0 -> w_path u = w_path c ++ [Idx i] -> w_type c = WVec e -> kept v' c ->
    exists b l b' l', locate root_place v (map kidx (w_path c)) = Some (w_place c, VVec b l) /\ locate root_place v' (map kidx (w_path c)) = Some (w_place c, VVec b' l') /\ (i < length l)%nat /\
      (kept v' u <-> b = b' /\ (i < length l')%nat).
  Proof.
    intros Hcl Hu E Et Kc. destruct (kept_typed Ht Hcl (Hv Hcl)) as (x & Lx & Tx). destruct (kept_typed Ht' Hcl Kc) as (x' & Lx' & Tx'). rewrite Et in Tx, Tx'.
    inversion Tx as [| | |? b l F|]; subst. inversion Tx' as [| | |? b' l' F'|]; subst. exists b, l, b', l'. split; [exact Lx|]. split; [exact Lx'|].
    destruct (Hv Hu) as (y & Ly). rewrite E, map_kidx_app, locate_app, Lx in Ly. cbn [locate kidx] in Ly. destruct (nth_error l i) as [z|] eqn:Ez; [|discriminate]. injection Ly as Ew <-. split; [apply nth_error_Some; congruence|].
    unfold kept. rewrite E, map_kidx_app, locate_app, Lx', <- Ew. cbn [locate kidx]. split.
    - intros (z' & H). destruct (nth_error l' i) as [y|] eqn:Ey; [|discriminate]. split; [congruence|apply nth_error_Some; congruence].
    - intros [-> H]. destruct (nth_error l' i) as [y|] eqn:Ey; [eauto|apply nth_error_None in Ey; lia].
  Qed.
  (** A wrapper that is not kept lost its place at one of the containers on the way. *)
  Lemma first_loss n : forall w, length (w_path w) = n -> In w L0 -> ~ kept v' w ->
    exists c u i rest, In c L0 /\ In u L0 /\ is_container (w_type c) = true /\ (exists r, w_path c = p0 ++ r) /\ w_path u = w_path c ++ [Idx i] /\ w_path w = w_path u ++ rest /\ kept v' c /\ ~ kept v' u.
  Proof.
    induction n as [n IH] using lt_wf_ind. intros w Hn Hw Kw. destruct (Hout Hw) as [(k & r & E)|K]; [|contradiction].
    destruct (exists_last (l := k :: r) ltac:(discriminate)) as (r' & k' & Er). rewrite Er, app_assoc in E. destruct (Hc Hw E) as (c & Hcl & Ec).
    destruct (kept_dec v' c) as [Kc|Kc].
    - assert (E' : w_path w = w_path c ++ [k']) by congruence. destruct (lost_child Hcl Hw E' Kc Kw) as (e & Et). assert (S := child_type Hk Hcl Hw E'). rewrite Et in S. destruct k' as [|i]; [discriminate|].
      exists c, w, i, []. rewrite app_nil_r, Et. repeat split; auto. exists r'. congruence.
    - destruct (IH (length (w_path c))) with (w := c) as (d & u & i & rest & A1 & A2 & A3 & A4 & A5 & A6 & A7 & A8); auto.
      + rewrite <- Hn, E, Ec, !app_length. cbn [length]. lia.
      + exists d, u, i, (rest ++ [k']). rewrite app_assoc, <- A6, Ec. auto 10.
  Qed.

  (** ** Dropping wrappers *)
  Definition intact (w : wr) : Prop := forall u r, In u L0 -> w_path w = w_path u ++ r -> kept v' u.
  Variables (dead0 : list N) (next0 : N).
  Hypothesis Hd : NoDup (map w_id L0 ++ dead0).
  Record J (L1 : list wr) (s : st) : Prop := {
    J_val : s_val s = v';
    J_live : exists f, s_live s = filter f L0;
    J_intact : forall w, In w L0 -> intact w -> In w (s_live s);
    J_closed : closed (s_live s);
    J_cut : forall w c u i rest, In w (s_live s) -> In c L1 -> In u L0 -> w_path u = w_path c ++ [Idx i] -> w_path w = w_path u ++ rest -> kept v' u;
    J_ids : NoDup (map w_id (s_live s) ++ s_dead s);
    J_all : forall i, In i (map w_id (s_live s) ++ s_dead s) <-> In i (map w_id L0 ++ dead0);
    J_loose : s_loose s = [];
    J_next : s_next s = next0
  }.
  Lemma filter_filter {A} (f g : A -> bool) l : filter f (filter g l) = filter (fun x => g x && f x) l.
  Proof. induction l as [|x l IH]; cbn [filter]; [reflexivity|]. destruct (g x); cbn [filter andb]; [destruct (f x); congruence|exact IH]. Qed.
  Lemma drop_J f L1 c s : J L1 s ->
    (forall w, In w L0 -> intact w -> In w (s_live s) -> f w = false) ->
    (forall w u r, In w L0 -> In u L0 -> w_path w = w_path u ++ r -> f u = true -> f w = true) ->
    (forall w u i rest, In w (s_live s) -> f w = false -> In u L0 -> w_path u = w_path c ++ [Idx i] -> w_path w = w_path u ++ rest -> kept v' u) ->
    J (L1 ++ [c]) (drop f s).
  Proof.
    intros [A (g & B) C D E F G I K] H1 H2 H3. unfold drop. assert (Sub : forall w, In w (s_live s) -> In w L0) by (intros w Hw; rewrite B in Hw; apply filter_In in Hw; apply Hw). split; cbn [s_val s_live s_loose s_dead s_next]; auto.
    - exists (fun x => g x && negb (f x)). rewrite B. apply filter_filter.
    - intros w Hw Iw. apply filter_In. split; [auto|]. rewrite H1; auto.
    - intros w p k Hw Ep. apply filter_In in Hw. destruct Hw as [Hw Fw]. destruct (D w p k Hw Ep) as (u & Hu & Eu). exists u. split; [|exact Eu]. apply filter_In. split; [exact Hu|].
      destruct (f u) eqn:Fu; [|reflexivity]. rewrite (H2 w u [k] (Sub w Hw) (Sub u Hu)) in Fw; [discriminate|congruence|exact Fu].
    - intros w d u i rest Hw Hdl Hu E1 E2. apply filter_In in Hw. destruct Hw as [Hw Fw]. apply in_app_or in Hdl. destruct Hdl as [Hdl|[<- |[]]]; [eapply E; eassumption|]. eapply H3; try eassumption. destruct (f w); [discriminate|reflexivity].
    - clear - F. assert (P : Permutation.Permutation (map w_id (s_live s) ++ s_dead s) (map w_id (filter (fun w => negb (f w)) (s_live s)) ++ s_dead s ++ map w_id (filter f (s_live s)))).
      { assert (Q := Permutation.Permutation_app_head (map w_id (filter (fun w => negb (f w)) (s_live s))) (Permutation.Permutation_app_comm (map w_id (filter f (s_live s))) (s_dead s))). eapply Permutation.Permutation_trans; [|exact Q]. clear Q. rewrite app_assoc. apply Permutation.Permutation_app_tail. rewrite <- map_app. apply Permutation.Permutation_map.
        clear F. induction (s_live s) as [|x l IH]; cbn [filter]; [constructor|]. destruct (f x); cbn [negb app]; [|apply Permutation.perm_skip; exact IH]. eapply Permutation.Permutation_trans; [apply Permutation.perm_skip; exact IH|]. apply Permutation.Permutation_middle. }
      eapply Permutation.Permutation_NoDup; eassumption.
    - intros i. rewrite <- G. rewrite !in_app_iff, !in_map_iff. split.
      + intros [(w & <- & Hw)|[Hd'|(w & <- & Hw)]]; [left; exists w; apply filter_In in Hw; intuition|right; exact Hd'|left; exists w; apply filter_In in Hw; intuition].
      + intros [(w & <- & Hw)|Hd']; [|right; left; exact Hd']. destruct (f w) eqn:Fw; [right; right; exists w; rewrite filter_In; auto|left; exists w; rewrite filter_In, Fw; auto].
  Qed.

  (** ** One container *)
  Lemma is_live_in L1 s w : J L1 s -> In w L0 -> is_live s w = true <-> In w (s_live s).
  Proof.
    intros [A (g & B) _ _ _ F _ _ _] Hw. unfold is_live. split.
    - destruct (by_id (s_live s) (w_id w)) as [u|] eqn:E; [|discriminate]. intros _. apply by_id_in in E. destruct E as [Hu Eu]. assert (u = w). { apply (id_uniq Hi); auto. rewrite B in Hu. apply filter_In in Hu. apply Hu. } subst u. exact Hu.
    - intros H. rewrite in_by_id; [reflexivity| |exact H]. exact (NoDup_app_l F).
  Qed.
  Lemma memory_id_old c : allocated v -> In c L0 -> is_container (w_type c) = true -> exists m, memory_id v c = Ok m /\ (forall e, w_type c = WVec e -> exists b l, locate root_place v (map kidx (w_path c)) = Some (w_place c, VVec b l) /\ m = match l with [] => None | _ => Some b end) /\ (w_type c = WStr -> m = None).
  Proof.
    intros Ha Hcl Ct. unfold memory_id. destruct (kept_typed Ht Hcl (Hv Hcl)) as (x & Lx & Tx). destruct (w_type c) as [|fs|n e|e|]; try discriminate.
    - rewrite (read_ok Ha Lx). cbn [bind]. inversion Tx as [| | |? b l F|]; subst. destruct l as [|y l]; eexists; (split; [reflexivity|split; [|discriminate]]); intros e' _; eauto.
    - exists None. split; [reflexivity|]. split; [discriminate|reflexivity].
  Qed.
  Lemma container_step L1 s c m : allocated v -> J L1 s -> In c L0 -> is_container (w_type c) = true -> memory_id v c = Ok m ->
    (forall u, In u L0 -> is_container (w_type u) = true -> (exists r, w_path u = p0 ++ r) -> (length (w_path u) < length (w_path c))%nat -> In u L1) ->
    exists s', after_container (c, m) s = Ok s' /\ J (L1 ++ [c]) s'.
  Proof.
    intros Ha HJ Hcl Ct Em Hanc. unfold after_container. destruct (is_live s c) eqn:Lc; cbn [negb].
    2: { exists s. split; [reflexivity|]. destruct HJ as [A B C D E F G I K]. split; auto. intros w d u i rest Hw Hdl Hu E1 E2. apply in_app_or in Hdl. destruct Hdl as [Hdl|[<- |[]]]; [eapply E; eassumption|].
         exfalso. destruct (closed_prefix D (r := Idx i :: rest) (w := w) (p := w_path c) Hw) as (c' & Hc' & Ec'); [rewrite E2, E1, <- app_assoc; reflexivity|].
         assert (c' = c). { apply (path_uniq Hp); auto. destruct B as (g & B). rewrite B in Hc'. apply filter_In in Hc'. apply Hc'. } subst c'.
         assert (X : is_live s c = true) by (eapply is_live_in; [split; eassumption|exact Hcl|exact Hc']). congruence. }
    assert (Hlc : In c (s_live s)) by (eapply is_live_in; eassumption). assert (HJ' := HJ). destruct HJ' as [A (g & B) C D E F G I K].
    assert (Kc : kept v' c).
    { destruct (kept_dec v' c) as [|Kc]; [assumption|]. exfalso. destruct (first_loss eq_refl Hcl Kc) as (d & u & i & rest & A1 & A2 & A3 & A4 & A5 & A6 & A7 & A8).
      apply A8. eapply (E c d u i rest Hlc); try assumption. apply Hanc; try assumption. rewrite A6, A5, !app_length. cbn [length]. lia. }
    destruct (kept_typed Ht' Hcl Kc) as (x' & Lx' & Tx'). rewrite A. assert (Sub : forall w, In w (s_live s) -> In w L0) by (intros w Hw; rewrite B in Hw; apply filter_In in Hw; apply Hw).
    destruct (memory_id_old Ha Hcl Ct) as (m' & Em' & Mv & Ms). assert (m' = m) by congruence. subst m'. clear Em'.
    assert (Rd := read_ok Ha' Lx'). destruct (w_type c) as [|fs|n e|e|] eqn:Et; try discriminate.
    - destruct (Mv e eq_refl) as (b & l & Lx & Hm). inversion Tx' as [| | |? b' l' F'|]; subst x'. unfold memory_id, size. rewrite Et, Rd. cbn [bind].
      assert (Ch : forall u i, In u L0 -> w_path u = w_path c ++ [Idx i] -> (i < length l)%nat /\ (kept v' u <-> b = b' /\ (i < length l')%nat)).
      { intros u i Hu Eu. destruct (vec_child Hcl Hu Eu Et Kc) as (b1 & l1 & b2 & l2 & H1 & H2 & H3 & H4). rewrite Lx in H1. rewrite Lx' in H2. injection H1 as <- <-. injection H2 as <- <-. auto. }
      (* the child of the vector on the way to a wrapper below it *)
      assert (Way : forall w k r, In w L0 -> w_path w = w_path c ++ k :: r -> exists u i, k = Idx i /\ In u L0 /\ w_path u = w_path c ++ [Idx i]).
      { intros w k r Hw Ew. destruct (closed_prefix Hc (r := r) (w := w) (p := w_path c ++ [k]) Hw) as (u & Hu & Eu); [rewrite Ew, <- app_assoc; reflexivity|].
        assert (S := child_type Hk Hcl Hu Eu). rewrite Et in S. destruct k as [|i]; [discriminate|]. eauto. }
      assert (Md : (match m with None => Ok false | Some _ => Ok (memory_changed m (match l' with [] => None | _ => Some b' end)) end) = (Ok (memory_changed m (match l' with [] => None | _ => Some b' end)) : res bool)) by (destruct m; reflexivity).
      assert (Rm : (match m with None => Ok false | Some _ => mid' <- match l' with [] => Ok None | _ => Ok (Some b') end ;; Ok (memory_changed m mid') end) = (Ok (memory_changed m (match l' with [] => None | _ => Some b' end)) : res bool)) by (destruct m, l'; reflexivity).
      replace (match l' with [] => Ok None | _ :: _ => Ok (Some b') end) with (match l' with [] => Ok None | _ => Ok (Some b') end) by reflexivity. rewrite Rm. cbn [bind]. clear Md Rm.
      destruct (memory_changed m (match l' with [] => None | _ => Some b' end)) eqn:Ch'.
      + eexists. split; [reflexivity|]. apply drop_J; [exact HJ| | |].
        * intros w Hw Iw Hlw. unfold below. destruct (strip (w_path c) (w_path w)) as [[|k r]|] eqn:S; try reflexivity. apply strip_eq in S. exfalso. destruct (Way w k r Hw S) as (u & i & -> & Hu & Eu).
          destruct (Ch u i Hu Eu) as [Li Ku]. assert (X : kept v' u) by (apply (Iw u r Hu); rewrite Eu, <- app_assoc; exact S). apply Ku in X. destruct X as [<- Li'].
          subst m. destruct l; [cbn [length] in Li; lia|]. destruct l'; [cbn [length] in Li'; lia|]. cbn [memory_changed] in Ch'. rewrite N.eqb_refl in Ch'. discriminate.
        * intros w u r Hw Hu Ew. unfold below. destruct (strip (w_path c) (w_path u)) as [[|k r0]|] eqn:S; try discriminate. intros _. apply strip_eq in S.
          assert (S' : strip (w_path c) (w_path w) = Some (k :: r0 ++ r)) by (apply strip_eq; rewrite Ew, S, <- app_assoc; reflexivity). rewrite S'. reflexivity.
        * intros w u i rest Hw Fw Hu Eu Ew. exfalso. unfold below in Fw. assert (S' : strip (w_path c) (w_path w) = Some (Idx i :: rest)) by (apply strip_eq; rewrite Ew, Eu, <- app_assoc; reflexivity). rewrite S' in Fw. discriminate.
      + eexists. split; [reflexivity|]. apply drop_J; [exact HJ| | |].
        * intros w Hw Iw Hlw. unfold trailing. destruct (strip (w_path c) (w_path w)) as [[|[|i] r]|] eqn:S; try reflexivity. apply strip_eq in S. destruct (Way w (Idx i) r Hw S) as (u & j & Ej & Hu & Eu). injection Ej as <-.
          destruct (Ch u i Hu Eu) as [Li Ku]. assert (X : kept v' u) by (apply (Iw u r Hu); rewrite Eu, <- app_assoc; exact S). apply Ku in X. apply Nat.leb_gt. lia.
        * intros w u r Hw Hu Ew. unfold trailing. destruct (strip (w_path c) (w_path u)) as [[|[|i] r0]|] eqn:S; try discriminate. intros Ti. apply strip_eq in S.
          assert (S' : strip (w_path c) (w_path w) = Some (Idx i :: r0 ++ r)) by (apply strip_eq; rewrite Ew, S, <- app_assoc; reflexivity). rewrite S'. exact Ti.
        * intros w u i rest Hw Fw Hu Eu Ew. unfold trailing in Fw. assert (S' : strip (w_path c) (w_path w) = Some (Idx i :: rest)) by (apply strip_eq; rewrite Ew, Eu, <- app_assoc; reflexivity). rewrite S' in Fw. apply Nat.leb_gt in Fw.
          destruct (Ch u i Hu Eu) as [Li Ku]. apply Ku. split; [|exact Fw]. subst m. destruct l; [cbn [length] in Li; lia|]. destruct l'; [cbn [length] in Fw; lia|]. cbn [memory_changed] in Ch'. destruct (N.eqb_spec b b'); [assumption|discriminate].
    - rewrite (Ms eq_refl). cbn [bind]. unfold size. inversion Tx' as [| | | |b n]; subst x'. rewrite Rd. cbn [bind].
      assert (No : forall w k r, In w L0 -> w_path w = w_path c ++ k :: r -> False).
      { intros w k r Hw Ew. destruct (closed_prefix Hc (r := r) (w := w) (p := w_path c ++ [k]) Hw) as (u & Hu & Eu); [rewrite Ew, <- app_assoc; reflexivity|]. assert (S := child_type Hk Hcl Hu Eu). rewrite Et in S. destruct k; discriminate. }
      eexists. split; [reflexivity|]. apply drop_J; [exact HJ| | |].
      + intros w Hw _ _. unfold trailing. destruct (strip (w_path c) (w_path w)) as [[|[|i] r]|] eqn:S; try reflexivity. apply strip_eq in S. destruct (No w (Idx i) r Hw S).
      + intros w u r Hw Hu Ew. unfold trailing. destruct (strip (w_path c) (w_path u)) as [[|[|i] r0]|] eqn:S; try discriminate. apply strip_eq in S. destruct (No u (Idx i) r0 Hu S).
      + intros w u i rest Hw Fw Hu Eu Ew. destruct (No u (Idx i) [] Hu Eu).
  Qed.
  Lemma containers_loop Ls : allocated v -> forall L1 s, J L1 s -> (forall c m, In (c, m) Ls -> In c L0 /\ is_container (w_type c) = true /\ memory_id v c = Ok m) ->
    (forall A c m B, Ls = A ++ (c, m) :: B -> forall u, In u L0 -> is_container (w_type u) = true -> (exists r, w_path u = p0 ++ r) -> (length (w_path u) < length (w_path c))%nat -> In u (L1 ++ map fst A)) ->
    exists s', after_containers Ls s = Ok s' /\ J (L1 ++ map fst Ls) s'.
  Proof.
    intros Ha. induction Ls as [|[c m] Ls IH]; intros L1 s HJ Hin Hord; cbn [after_containers map fst]; [exists s; rewrite app_nil_r; auto|].
    destruct (Hin c m (or_introl eq_refl)) as (Hcl & Ct & Em). destruct (@container_step L1 s c m Ha HJ Hcl Ct Em) as (s1 & E1 & J1).
    { intros u H1 H2 H3 H4. assert (X := Hord [] c m Ls eq_refl u H1 H2 H3 H4). cbn [map] in X. rewrite app_nil_r in X. exact X. }
    rewrite E1. cbn [bind]. destruct (IH (L1 ++ [c]) s1 J1) as (s' & E' & J').
    - intros c' m' H. apply Hin. right. exact H.
    - intros A c' m' B E u H1 H2 H3 H4. assert (X := Hord ((c, m) :: A) c' m' B). cbn [app map fst] in X. rewrite E in X. specialize (X eq_refl u H1 H2 H3 H4). rewrite <- app_assoc. exact X.
    - exists s'. split; [exact E'|]. rewrite <- app_assoc in J'. exact J'.
  Qed.
  Lemma J_final L1 s : J L1 s -> (forall u, In u L0 -> is_container (w_type u) = true -> (exists r, w_path u = p0 ++ r) -> In u L1) ->
    forall w, In w (s_live s) <-> In w L0 /\ intact w.
  Proof.
    intros [A (g & B) C D E F G I K] Hall w. assert (Sub : forall w, In w (s_live s) -> In w L0) by (intros z Hz; rewrite B in Hz; apply filter_In in Hz; apply Hz). split; [|intros [H1 H2]; auto].
    intros Hw. split; [auto|]. intros u r Hu Ew. destruct (kept_dec v' u) as [|Ku]; [assumption|]. exfalso.
    destruct (first_loss eq_refl Hu Ku) as (d & x & i & rest & A1 & A2 & A3 & A4 & A5 & A6 & A7 & A8). apply A8. eapply (E w d x i (rest ++ r) Hw); auto. rewrite app_assoc, <- A6. exact Ew.
  Qed.
End Loop.
