(** * Properties_Wrapper: Ruby objects that refer to parts of C++ values (C65, C66). *)
From Coq Require Import Permutation.
From Verif Require Import Base Wrapper WrapperSpec WrapperProofs WrapperMain WrapperLoop WrapperInv.

(** ** C65: no wrapper refers to memory that is gone *)

(** After every history of tame operations, each of the wrappers created so far is either invalidated or refers to the part of the value
    it was created for, at the right address. No wrapper is both. *)
Theorem C65_tracked_partial T s : history T s -> forall i, (i < s_next s)%N ->
  (In i (s_dead s) /\ forall w, In w (s_live s) -> w_id w <> i) \/
  (~ In i (s_dead s) /\ exists w, In w (s_live s) /\ w_id w = i /\ refers (s_val s) w).
Proof.
  intros H i Hi. apply history_inv in H. assert (A := proj2 (I_all H i) Hi). apply in_app_or in A. assert (N := I_ids H).
  assert (D : forall w, In w (s_live s) -> In (w_id w) (s_dead s) -> False).
  { intros w Hw Hd. apply (in_map w_id) in Hw. revert Hw Hd N. generalize (map w_id (s_live s)), (s_dead s), (w_id w). clear. intros a b x Ha Hb. induction a as [|y a IH]; [destruct Ha|]. cbn [app]. intros N. inversion N as [|? ? N1 N2]; subst.
    destruct Ha as [-> |Ha]; [apply N1; apply in_or_app; auto|auto]. }
  destruct A as [A|A]; [right|left].
  - apply in_map_iff in A. destruct A as (w & <- & Hw). split; [intros X; exact (D w Hw X)|]. exists w. split; [exact Hw|]. split; [reflexivity|]. exact (Inv_refers H Hw).
  - split; [exact A|]. intros w Hw E. subst i. exact (D w Hw A).
Qed.
(** The tame operations never touch memory that is gone: they succeed or raise a Ruby exception. *)
Theorem C65_no_dangling_access_partial T s o : history T s -> tame s o -> match run o s with UB _ => False | _ => True end.
Proof. intros H Tm. destruct (step_inv (history_inv H) Tm) as [(s' & E & _)|(e & E)]; rewrite E; exact I. Qed.
(** An operation through a valid wrapper succeeds; afterwards a wrapper is invalid exactly if it was invalid before or if the memory of
    the part it is for, or of a part that contains this one and has a wrapper, is not where it was. *)
Theorem C65_exact_partial T s w nv : history T s -> In w (s_live s) -> sound_change s w nv ->
  exists s', protected s (w_id w) nv = Ok s' /\ s_val s' = upd (s_val s) (map kidx (w_path w)) nv /\ s_next s' = s_next s /\
    forall u, In u (s_live s') <-> In u (s_live s) /\
      forall a r, In a (s_live s) -> w_path u = w_path a ++ r -> exists x, locate root_place (s_val s') (map kidx (w_path a)) = Some (w_place a, x).
Proof. intros H Hw Sc. destruct (protected_inv (history_inv H) Hw Sc) as (s' & E & _ & V & Nx & L). exists s'. auto. Qed.
(** clear: the wrappers of elements, and what is below them, become invalid; the others stay. *)
Theorem C65_clear_partial T s w nv : history T s -> In w (s_live s) -> sound_change s w nv ->
  exists s', clear s (w_id w) nv = Ok s' /\ s_val s' = upd (s_val s) (map kidx (w_path w)) nv /\
    forall u, In u (s_live s') <-> In u (s_live s) /\ forall k r, w_path u <> w_path w ++ k :: r.
Proof. intros H Hw Sc. destruct (clear_inv (history_inv H) Hw Sc) as (s' & E & _ & V & _ & L). exists s'. auto. Qed.
(** Numbers, and all else that owns no buffers, can be changed without invalidating anything. *)
Theorem C65_numbers_partial T s w j nv t : history T s -> In w (s_live s) -> part_type (w_type w) j = Some t -> flat t = true -> has_type t nv ->
  (exists s', unprotected s (w_id w) j nv = Ok s' /\ s_live s' = s_live s /\ s_val s' = upd (s_val s) (map kidx (w_path w) ++ j) nv) \/ unprotected s (w_id w) j nv = Throw EArg.
Proof. intros H Hw Pt Fl Hn. destruct (unprotected_inv (history_inv H) Hw Pt Fl Hn) as [(s' & E & _ & L & _ & V)|E]; [left; eauto|auto]. Qed.
(** Asking for a field or element twice gives the same wrapper. *)
Theorem C65_same_wrapper T s i k j s' : history T s -> tame s (OGet i k) -> get s i k = Ok (j, s') -> get s' i k = Ok (j, s').
Proof.
  intros H Tm G. assert (I := history_inv H). assert (Nd := NoDup_app_l (I_ids I)). unfold get in G. destruct (by_id (s_live s) i) as [w|] eqn:Ew; [|discriminate]. destruct (key_type (w_type w) k) as [t|] eqn:Et; [|discriminate].
  assert (Ew' := Ew). apply by_id_in in Ew'. destruct Ew' as [Hw Ei]. destruct (Inv_read I Hw) as (x & R & _). rewrite R in G. cbn [bind] in G. destruct (locate (w_place w) x [kidx k]) as [[pl y]|] eqn:Ly; [|discriminate].
  destruct (by_path (s_live s) (w_path w ++ [k])) as [c|] eqn:Ec; injection G as <- <-.
  - unfold get. rewrite Ew, Et, R. cbn [bind]. rewrite Ly, Ec. reflexivity.
  - assert (F : forall (A : Type) (f : A -> bool) a b, find f (a ++ b) = match find f a with Some z => Some z | None => find f b end) by (intros A f a b; induction a as [|z a IH]; cbn [app find]; [reflexivity|destruct (f z); auto]).
    unfold get, by_id, by_path in *. cbn [s_val s_live s_loose s_dead s_next]. rewrite !F, Ew, Et, R. cbn [bind]. rewrite Ly, F, Ec. cbn [find w_path]. rewrite (proj2 (path_eqb_eq _ _) eq_refl). reflexivity.
Qed.
(** A wrapper never moves: its part, its address and its type are those it was created with, and once invalid it stays so. *)
Theorem C65_fixed_partial T s o s' : history T s -> tame s o -> run o s = Ok s' ->
  (forall w, In w (s_live s') -> (w_id w < s_next s)%N -> In w (s_live s)) /\ (forall i, In i (s_dead s) -> In i (s_dead s')).
Proof.
  intros H Tm R. assert (I := history_inv H). assert (I' : Inv T s') by (exact (history_inv (H_step H Tm R))).
  assert (Mono : (s_next s <= s_next s')%N /\ forall w, In w (s_live s') -> (w_id w < s_next s)%N -> In w (s_live s)).
  { assert (Nd := NoDup_app_l (I_ids I)). destruct o as [i k|i nv|i nv|i j nv|i nv|i t]; cbn [run tame] in R, Tm; try contradiction.
    - destruct (get s i k) as [[c s1]| | |] eqn:G; try discriminate. cbn [bind] in R. injection R as ->. unfold get in G. destruct (by_id (s_live s) i) as [w|] eqn:Ew; [|discriminate]. destruct (key_type (w_type w) k) as [t|]; [|discriminate].
      destruct (read (s_val s) (w_place w)) as [[q x]| | |]; try discriminate. cbn [bind] in G. destruct (locate (w_place w) x [kidx k]) as [[pl y]|]; [|discriminate]. destruct (by_path (s_live s) (w_path w ++ [k])); injection G as <- <-; [split; [lia|auto]|].
      cbn [s_next s_live]. split; [lia|]. intros u Hu Lu. apply in_app_or in Hu. destruct Hu as [Hu|[<- |[]]]; [exact Hu|]. cbn [w_id] in Lu. lia.
    - destruct (by_id (s_live s) i) as [w|] eqn:Ew; [|unfold protected in R; rewrite Ew in R; discriminate]. specialize (Tm w eq_refl). apply by_id_in in Ew. destruct Ew as [Hw <-]. destruct (protected_inv I Hw Tm) as (s1 & E & _ & _ & Nx & L). assert (s1 = s') by congruence. subst s1. split; [lia|]. intros u Hu _. apply L. exact Hu.
    - destruct (by_id (s_live s) i) as [w|] eqn:Ew; [|unfold clear in R; rewrite Ew in R; discriminate]. specialize (Tm w eq_refl). apply by_id_in in Ew. destruct Ew as [Hw <-]. destruct (clear_inv I Hw (proj2 Tm)) as (s1 & E & _ & _ & Nx & L). assert (s1 = s') by congruence. subst s1. split; [lia|]. intros u Hu _. apply L. exact Hu.
    - unfold unprotected in R. destruct (by_id (s_live s) i) as [w|]; [|discriminate]. destruct (read (s_val s) (w_place w)) as [[q x]| | |]; try discriminate. cbn [bind] in R. destruct (locate (w_place w) x j); [|discriminate]. injection R as <-. cbn [s_next s_live]. split; [lia|auto]. }
  destruct Mono as [Nx Lv]. split; [exact Lv|]. intros i Hd. assert (Li : (i < s_next s)%N) by (apply (I_all I); apply in_or_app; auto). assert (X : In i (map w_id (s_live s') ++ s_dead s')) by (apply (I_all I'); lia).
  apply in_app_or in X. destruct X as [X|X]; [|exact X]. exfalso. apply in_map_iff in X. destruct X as (w & <- & Hw). assert (Y := Lv w Hw Li). destruct (C65_tracked_partial H Li) as [[_ Z]|[Z _]]; [exact (Z w Y eq_refl)|exact (Z Hd)].
Qed.

(** A concrete history: struct { vector<struct { vector<int> }>; int } with one element that has one element; the wrappers of the
    field, its element, the inner vector and the inner element; then the outer vector grows and moves from buffer 1 to 3. *)
Definition ex_T : wty := WComp [WVec (WComp [WVec WLeaf]); WLeaf].
Definition ex_v : wval := VComp [VVec 1 [VComp [VVec 2 [VLeaf]]]; VLeaf].
Definition ex_ops : list op := [OGet 0 (Fld false 0); OGet 1 (Idx 0); OGet 2 (Fld false 0); OGet 3 (Idx 0)].
Fixpoint runs (os : list op) (s : st) : res st := match os with [] => Ok s | o :: r => s' <- run o s ;; runs r s' end.
Example C65_case : exists s s',
  history ex_T s /\ runs ex_ops (new_root ex_T ex_v) = Ok s /\ length (s_live s) = 5%nat /\
  history ex_T s' /\ run (OProtected 1 (VVec 3 [VComp [VVec 2 [VLeaf]]; VComp [VVec 4 []]])) s = Ok s' /\
  map w_id (s_live s') = [0%N; 1%N] /\ s_dead s' = [2%N; 3%N; 4%N].
Proof.
  assert (T0 : has_type ex_T ex_v) by (repeat constructor). assert (A0 : allocated ex_v) by (repeat constructor; cbn; intuition; discriminate).
  assert (H0 := @H_new ex_T ex_v T0 A0). set (s0 := new_root ex_T ex_v) in *.
  destruct (run (OGet 0 (Fld false 0)) s0) as [s1| | |] eqn:R1; try (vm_compute in R1; discriminate).
  assert (H1 := fun t => @H_step ex_T s0 (OGet 0 (Fld false 0)) s1 H0 t R1). specialize (H1 ltac:(split; [discriminate|intros w E; vm_compute in E; injection E as <-; discriminate])).
  vm_compute in R1. injection R1 as <-.
  destruct (run (OGet 1 (Idx 0)) (St ex_v [Wr [] 0 root_place ex_T; Wr [Fld false 0] 1 (0%N, [0%nat]) (WVec (WComp [WVec WLeaf]))] [] [] 2)) as [s2| | |] eqn:R2; try (vm_compute in R2; discriminate).
  assert (H2 := fun t => @H_step ex_T _ (OGet 1 (Idx 0)) s2 H1 t R2). specialize (H2 ltac:(split; [discriminate|intros w E; vm_compute in E; injection E as <-; discriminate])).
  vm_compute in R2. injection R2 as <-.
  match type of H2 with history _ ?x => destruct (run (OGet 2 (Fld false 0)) x) as [s3| | |] eqn:R3; try (vm_compute in R3; discriminate) end.
  assert (H3 := fun t => @H_step ex_T _ (OGet 2 (Fld false 0)) s3 H2 t R3). specialize (H3 ltac:(split; [discriminate|intros w E; vm_compute in E; injection E as <-; discriminate])).
  vm_compute in R3. injection R3 as <-.
  match type of H3 with history _ ?x => destruct (run (OGet 3 (Idx 0)) x) as [s4| | |] eqn:R4; try (vm_compute in R4; discriminate) end.
  assert (H4 := fun t => @H_step ex_T _ (OGet 3 (Idx 0)) s4 H3 t R4). specialize (H4 ltac:(split; [discriminate|intros w E; vm_compute in E; injection E as <-; discriminate])).
  vm_compute in R4. injection R4 as <-.
  match type of H4 with history _ ?x => destruct (run (OProtected 1 (VVec 3 [VComp [VVec 2 [VLeaf]]; VComp [VVec 4 []]])) x) as [s5| | |] eqn:R5; try (vm_compute in R5; discriminate) end.
  assert (H5 := fun t => @H_step ex_T _ (OProtected 1 (VVec 3 [VComp [VVec 2 [VLeaf]]; VComp [VVec 4 []]])) s5 H4 t R5).
  specialize (H5 ltac:(intros w E; vm_compute in E; injection E as <-; split; [repeat constructor|]; intros q x E; vm_compute in E; injection E as <- <-; repeat constructor; cbn; intuition; discriminate)).
  do 2 eexists. split; [exact H4|]. split; [vm_compute; reflexivity|]. split; [reflexivity|]. split; [exact H5|]. split; [exact R5|]. vm_compute in R5. injection R5 as <-. split; reflexivity.
Qed.

(** Different objects have different identities, whatever the operations (tame or not): those in use, those no cache knows and
    those that are invalid. *)
Lemma NoDup_app_i {A} (a b : list A) : NoDup a -> NoDup b -> (forall x, In x a -> In x b -> False) -> NoDup (a ++ b).
Proof.
  induction 1 as [|x a Nx Na IH]; intros Nb D; cbn [app]; [exact Nb|]. constructor; [|apply IH; [exact Nb|intros y I; apply D; right; exact I]].
  intros I. apply in_app_or in I. destruct I as [I|I]; [contradiction|apply (D x); [left; reflexivity|exact I]].
Qed.
Definition identities (s : st) : list N := map w_id (s_live s) ++ map w_id (s_loose s) ++ s_dead s.
Definition unique_ids (s : st) : Prop := NoDup (identities s) /\ forall i, In i (identities s) -> (i < s_next s)%N.
Lemma unique_perm s s' : Permutation (identities s) (identities s') -> s_next s' = s_next s -> unique_ids s -> unique_ids s'.
Proof.
  intros P E [N L]. split; [exact (Permutation_NoDup P N)|]. intros i I. rewrite E. apply L. exact (Permutation_in _ (Permutation_sym P) I).
Qed.
Lemma filter_perm {A} (f : A -> bool) l : Permutation l (filter (fun x => negb (f x)) l ++ filter f l).
Proof.
  induction l as [|x l IH]; cbn [filter]; [constructor|]. destruct (f x); cbn [negb app]; [|constructor; exact IH].
  etransitivity; [constructor; exact IH|]. apply Permutation_middle.
Qed.
Lemma unique_drop f s : unique_ids s -> unique_ids (drop f s).
Proof.
  apply unique_perm; [|reflexivity]. unfold identities, drop. cbn [s_live s_loose s_dead].
  etransitivity; [apply Permutation_app_tail, Permutation_map, (filter_perm f)|]. rewrite map_app, <- app_assoc. apply Permutation_app_head.
  etransitivity; [apply Permutation_app_comm|]. rewrite <- app_assoc. reflexivity.
Qed.
Lemma unique_containers l : forall s s', after_containers l s = Ok s' -> unique_ids s -> unique_ids s'.
Proof.
  induction l as [|[w mid] l IH]; intros s s' E U; cbn [after_containers] in E; [congruence|].
  destruct (after_container (w, mid) s) as [s1| | |] eqn:E1; cbn [bind] in E; try discriminate. apply (IH s1 s' E). clear IH E.
  unfold after_container in E1. destruct (negb (is_live s w)); [congruence|].
  match type of E1 with bind ?x _ = _ => destruct x as [ch| | |]; cbn [bind] in E1; try discriminate end.
  destruct ch; [injection E1 as <-; apply unique_drop, U|]. destruct (size (s_val s) w) as [n| | |]; cbn [bind] in E1; try discriminate. injection E1 as <-. apply unique_drop, U.
Qed.
Lemma unique_protected s i nv s' : protected s i nv = Ok s' -> unique_ids s -> unique_ids s'.
Proof.
  unfold protected. intros E U. destruct (by_id (s_live s) i) as [w|]; [|discriminate].
  destruct (map_res _ _) as [ids| | |]; cbn [bind] in E; try discriminate. destruct (read _ _) as [[q x]| | |]; cbn [bind] in E; try discriminate.
  apply (unique_containers E). exact U.
Qed.
Lemma loose_ids p b t n : forall next i, (forall j, In j (map w_id (loose_elements p b t next i n)) -> next <= j < next + N.of_nat n)%N /\ NoDup (map w_id (loose_elements p b t next i n)).
Proof.
  induction n as [|n IH]; intros next i; cbn [loose_elements map w_id]; [split; [intros j []|constructor]|].
  destruct (IH (next + 1)%N (S i)) as [A B]. split; [intros j [<- |I]; [lia|specialize (A j I); lia]|]. constructor; [|exact B]. intros I. specialize (A _ I). lia.
Qed.
Lemma unique_more s ids loose n : unique_ids s -> map w_id loose = ids -> NoDup ids -> (forall j, In j ids -> s_next s <= j < s_next s + n)%N ->
  unique_ids (St (s_val s) (s_live s) (s_loose s ++ loose) (s_dead s) (s_next s + n)%N).
Proof.
  intros [N L] <- Nd B. unfold unique_ids, identities in *. cbn [s_live s_loose s_dead s_next].
  assert (P : Permutation (map w_id loose ++ map w_id (s_live s) ++ map w_id (s_loose s) ++ s_dead s) (map w_id (s_live s) ++ map w_id (s_loose s ++ loose) ++ s_dead s)).
  { rewrite map_app, <- (app_assoc (map w_id (s_loose s))). etransitivity; [apply Permutation_app_swap_app|]. apply Permutation_app_head. apply Permutation_app_swap_app. }
  split.
  - apply (Permutation_NoDup P). apply NoDup_app_i; [exact Nd|exact N|]. intros j I1 I2. apply B in I1. apply L in I2. lia.
  - intros j I. apply (Permutation_in _ (Permutation_sym P)) in I. apply in_app_or in I. destruct I as [I|I]; [apply B in I; lia|apply L in I; lia].
Qed.
Lemma unique_run o s s' : run o s = Ok s' -> unique_ids s -> unique_ids s'.
Proof.
  intros R U. destruct o as [i k|i nv|i nv|i j nv|i nv|i t]; cbn [run] in R.
  - destruct (get s i k) as [[c s1]| | |] eqn:G; cbn [bind] in R; try discriminate. injection R as <-. unfold get in G. destruct (by_id (s_live s) i) as [w|]; [|discriminate].
    destruct (key_type (w_type w) k) as [t|]; [|discriminate]. destruct (read (s_val s) (w_place w)) as [[q x]| | |]; cbn [bind] in G; try discriminate.
    destruct (locate (w_place w) x [kidx k]) as [[pl y]|]; [|discriminate]. destruct (by_path (s_live s) (w_path w ++ [k])); injection G as <- <-; [exact U|].
    destruct U as [N L]. unfold unique_ids, identities in *. cbn [s_live s_loose s_dead s_next].
    assert (P : Permutation (s_next s :: map w_id (s_live s) ++ map w_id (s_loose s) ++ s_dead s) (map w_id (s_live s ++ [Wr (w_path w ++ [k]) (s_next s) pl t]) ++ map w_id (s_loose s) ++ s_dead s)).
    { rewrite map_app, <- app_assoc. cbn [map w_id app]. apply Permutation_middle. }
    split.
    + apply (Permutation_NoDup P). constructor; [|exact N]. intros I. apply L in I. lia.
    + intros j I. apply (Permutation_in _ (Permutation_sym P)) in I. destruct I as [<- |I]; [lia|apply L in I; lia].
  - exact (unique_protected R U).
  - unfold clear in R. destruct (by_id (s_live s) i) as [w|]; [|discriminate]. destruct (read _ _) as [[q x]| | |]; cbn [bind] in R; try discriminate. injection R as <-. apply unique_drop. exact U.
  - unfold unprotected in R. destruct (by_id (s_live s) i) as [w|]; [|discriminate]. destruct (read _ _) as [[q x]| | |]; cbn [bind] in R; try discriminate. destruct (locate _ _ _); [|discriminate]. injection R as <-. exact U.
  - unfold delete_if in R. destruct (by_id (s_live s) i) as [w|]; [|discriminate]. destruct (read _ _) as [[q x]| | |]; cbn [bind] in R; try discriminate.
    destruct x as [| |b l|]; try discriminate. destruct (w_type w) as [| | |t|]; try discriminate. apply (unique_protected R).
    destruct (@loose_ids (w_path w) b t (length l) (s_next s) 0) as [A B]. eapply unique_more; [exact U|reflexivity|exact B|]. intros j I. apply A in I. unfold lenN. lia.
  - unfold cast in R. destruct (by_id (s_live s) i) as [w|]; cbn [bind] in R; [|discriminate]. injection R as <-.
    eapply unique_more; [exact U|reflexivity|cbn [map]; repeat constructor; intros []|]. cbn [map w_id]. intros j [<- |[]]. lia.
Qed.
Theorem C65_identities T v os s : runs os (new_root T v) = Ok s ->
  NoDup (map w_id (s_live s) ++ map w_id (s_loose s) ++ s_dead s) /\ forall i, In i (map w_id (s_live s) ++ map w_id (s_loose s) ++ s_dead s) -> (i < s_next s)%N.
Proof.
  assert (G : forall os s0 s, runs os s0 = Ok s -> unique_ids s0 -> unique_ids s).
  { clear. induction os as [|o os IH]; intros s0 s R U; cbn [runs] in R; [congruence|]. destruct (run o s0) as [s1| | |] eqn:R1; cbn [bind] in R; try discriminate. exact (IH s1 s R (unique_run R1 U)). }
  intros R. apply (G os _ s R). split; cbn; [repeat constructor; intros []|intros i [<- |[]]; lia].
Qed.

(** *** What is not tracked. *)
Definition stale (s : st) : Prop := exists w, In w (s_live s ++ s_loose s) /\ ~ In (w_id w) (s_dead s) /\ ~ refers (s_val s) w /\ read (s_val s) (w_place w) = UB UOob.
Ltac stale w := eexists; (split; [vm_compute; reflexivity|]); exists w; (split; [vm_compute; tauto|]); (split; [vm_compute; intuition; discriminate|]); (split; [|vm_compute; reflexivity]); intros (x & L & _); vm_compute in L; discriminate.

(** A vector field was asked for with a Symbol, s[:vec]; then the struct is copied over. *)
Theorem C65_symbols_refuted : exists s, runs [OGet 0 (Fld true 0); OGet 1 (Idx 0); OProtected 0 (VComp [VVec 3 [VComp [VVec 2 [VLeaf]]]; VLeaf])] (new_root ex_T ex_v) = Ok s /\ stale s.
Proof. stale (Wr [Fld true 0; Idx 0] 2 (1%N, [0%nat]) (WComp [WVec WLeaf])). Qed.
(** The same vector asked for with a Symbol and with a String: elements of the one stay when the other grows. *)
Theorem C65_two_names_refuted : exists s, runs [OGet 0 (Fld true 0); OGet 0 (Fld false 0); OGet 1 (Idx 0); OProtected 2 (VVec 3 [VComp [VVec 2 [VLeaf]]; VComp [VVec 4 []]])] (new_root ex_T ex_v) = Ok s /\ stale s.
Proof. stale (Wr [Fld true 0; Idx 0] 3 (1%N, [0%nat]) (WComp [WVec WLeaf])). Qed.
(** vector[0] = v with a struct that contains a vector. *)
Theorem C65_set_element_refuted : exists s, runs (ex_ops ++ [OUnprotected 1 [0%nat] (VComp [VVec 3 [VLeaf; VLeaf]])]) (new_root ex_T ex_v) = Ok s /\ stale s.
Proof. stale (Wr [Fld false 0; Idx 0; Fld false 0; Idx 0] 4 (2%N, [0%nat]) WLeaf). Qed.
(** zero! on the struct. *)
Theorem C65_zero_refuted : exists s, runs (ex_ops ++ [OUnprotected 0 [] (VComp [VVec 0 []; VLeaf])]) (new_root ex_T ex_v) = Ok s /\ stale s.
Proof. stale (Wr [Fld false 0; Idx 0] 2 (1%N, [0%nat]) (WComp [WVec WLeaf])). Qed.
(** The elements given to the block of delete_if, when it removes all of them. *)
Theorem C65_delete_if_refuted : exists s, runs [OGet 0 (Fld false 0); ODeleteIf 1 (VVec 0 [])] (new_root ex_T ex_v) = Ok s /\ stale s.
Proof. stale (Wr [Fld false 0; Idx 0] 2 (1%N, [0%nat]) (WComp [WVec WLeaf])). Qed.
(** The result of cast on an element of a vector that is cleared. *)
Theorem C65_cast_refuted : exists s, runs [OGet 0 (Fld false 0); OGet 1 (Idx 0); OCast 2 (WComp [WVec WLeaf]); OClear 1 (VVec 0 [])] (new_root ex_T ex_v) = Ok s /\ stale s.
Proof. stale (Wr [Fld false 0; Idx 0] 3 (1%N, [0%nat]) (WComp [WVec WLeaf])). Qed.
(** The characters of a std::string that grows. *)
Theorem C65_string_refuted : exists s, runs [OGet 0 (Idx 0); OProtected 0 (VStr 2 2)] (new_root WStr (VStr 1 1)) = Ok s /\ stale s.
Proof. stale (Wr [Idx 0] 1 (1%N, [0%nat]) WLeaf). Qed.

(** ** C66: push *)

(** vector.push(v) of a value [y] of the element type appends a copy of it if the value is not an element of the vector itself, or if the buffer of
    the vector does not move. *)
Theorem C66_push_partial T v c src q b l init b' copy e qs y :
  has_type T v -> allocated v -> read v c = Ok (q, VVec b l) -> part_type T q = Some (WVec e) -> read v src = Ok (qs, y) -> part_type T qs = Some e ->
  allocated (upd v q (VVec b' (l ++ [init]))) -> (b' = b \/ forall i, qs <> q ++ [i]) ->
  vector_push v c src init b' copy = Ok (upd v q (VVec b' (l ++ [copy y]))).
Proof.
  intros Ht Ha Rc Tc Rs Ts Ha' Hb. unfold vector_push. rewrite Rc. cbn [bind]. apply read_inv in Rc, Rs.
  assert (Lv : locate root_place (upd v q (VVec b' (l ++ [init]))) qs = Some (src, y)).
  { destruct (position_cases q qs) as [(r & ->)|[(r & Er & ->)|Ap]].
    - assert (Er := part_inside Tc Ts). destruct Er as (i & ->). destruct Hb as [-> |Hb]; [|destruct (Hb i eq_refl)]. rewrite locate_app in Rs |- *. rewrite Rc in Rs. rewrite (@upd_locate _ _ _ _ _ (VVec b (l ++ [init])) Rc ltac:(discriminate)).
      cbn [locate] in *. destruct (nth_error l i) as [z|] eqn:Ez; [|discriminate]. rewrite nth_error_app1 by (apply nth_error_Some; congruence). rewrite Ez. exact Rs.
    - exfalso. rewrite part_type_app, Ts in Tc. exact (part_not_self Tc).
    - rewrite (@upd_apart _ _ _ _ _ Ap). exact Rs. }
  rewrite (read_ok Ha' Lv). cbn [bind]. f_equal. assert (Ln := @upd_locate _ _ _ _ _ (VVec b' (l ++ [init])) Rc ltac:(discriminate)). rewrite (@upd_app _ _ _ _ _ [length l] (copy y) Ln). cbn [upd]. rewrite (@upd_upd _ _ _ _ _ _ _ Rc). f_equal.
  rewrite nth_error_app2, Nat.sub_diag by lia. cbn [nth_error]. f_equal. clear. induction l as [|z l IH]; [reflexivity|]. cbn [app length nth_upd]. congruence.
Qed.
(** Otherwise it reads memory that was just freed: vector.push(vector[i]). *)
Theorem C66_push_own_element_refuted T v c src q b l init b' copy e y i :
  has_type T v -> allocated v -> read v c = Ok (q, VVec b l) -> part_type T q = Some (WVec e) -> read v src = Ok (q ++ [i], y) ->
  ~ In b (bufs (upd v q (VVec b' (l ++ [init])))) ->
  vector_push v c src init b' copy = UB UOob.
Proof.
  intros Ht Ha Rc Tc Rs Nb. unfold vector_push. rewrite Rc. cbn [bind]. apply read_inv in Rc, Rs. rewrite locate_app, Rc in Rs. cbn [locate] in Rs. destruct (nth_error l i) as [z|] eqn:Ez; [|discriminate]. injection Rs as <- <-.
  unfold read. destruct (search (upd v q (VVec b' (l ++ [init]))) root_place (b, [i])) as [q'|] eqn:Es; [|reflexivity]. exfalso. destruct (search_sound Es) as (z' & Lz). apply locate_place in Lz. cbn [fst snd root_place] in Lz.
  destruct Lz as [[E _]|[E _]]; [|contradiction]. subst b. assert (X : In 0%N (bufs v)) by (eapply vec_owner; [exact Rc|]; destruct l; [destruct i; discriminate|discriminate]).
  inversion Ha. contradiction.
Qed.
Example C66_case : vector_push (VComp [VVec 1 [VLeaf; VLeaf]; VLeaf]) (0%N, [0%nat]) (1%N, [0%nat]) VLeaf 1 (fun x => x) = Ok (VComp [VVec 1 [VLeaf; VLeaf; VLeaf]; VLeaf]) /\
  vector_push (VComp [VVec 1 [VLeaf; VLeaf]; VLeaf]) (0%N, [0%nat]) (0%N, [1%nat]) VLeaf 2 (fun x => x) = Ok (VComp [VVec 2 [VLeaf; VLeaf; VLeaf]; VLeaf]) /\
  vector_push (VComp [VVec 1 [VLeaf; VLeaf]; VLeaf]) (0%N, [0%nat]) (1%N, [0%nat]) VLeaf 2 (fun x => x) = UB UOob.
Proof. repeat split. Qed.
