(** * WrapperInv: the invariant of the histories of wrappers. *)
From Coq Require Import Sorted Permutation.
From Verif Require Import Base Wrapper WrapperSpec WrapperProofs WrapperMain WrapperLoop.

Record Inv (T : wty) (s : st) : Prop := {
  I_type : has_type T (s_val s);
  I_alloc : allocated (s_val s);
  I_path : forall w, In w (s_live s) -> kpath T (w_path w) = Some (w_type w);
  I_kept : forall w, In w (s_live s) -> kept (s_val s) w;
  I_closed : closed (s_live s);
  I_paths : NoDup (map w_path (s_live s));
  I_ids : NoDup (map w_id (s_live s) ++ s_dead s);
  I_all : forall i, In i (map w_id (s_live s) ++ s_dead s) <-> (i < s_next s)%N;
  I_loose : s_loose s = []
}.
Lemma Inv_refers T s w : Inv T s -> In w (s_live s) -> refers (s_val s) w.
Proof. intros I H. destruct (I_kept I H) as (x & L). exists x. split; [exact L|]. eapply locate_typed; [exact (I_type I)|exact (kpath_part (I_path I H))|exact L]. Qed.
Lemma Inv_read T s w : Inv T s -> In w (s_live s) -> exists x, read (s_val s) (w_place w) = Ok (map kidx (w_path w), x) /\ locate root_place (s_val s) (map kidx (w_path w)) = Some (w_place w, x) /\ has_type (w_type w) x.
Proof. intros I H. destruct (Inv_refers I H) as (x & L & Tx). exists x. split; [exact (read_ok (I_alloc I) L)|auto]. Qed.
Lemma new_inv T v : has_type T v -> allocated v -> Inv T (new_root T v).
Proof.
  intros H A. split; cbn [new_root s_val s_live s_loose s_dead s_next map app]; auto.
  - intros w [<- |[]]. reflexivity.
  - intros w [<- |[]]. exists v. reflexivity.
  - intros w p k [<- |[]] E. destruct p; discriminate.
  - repeat constructor. intros [].
  - repeat constructor. intros [].
  - intros i. cbn [In w_id]. lia.
Qed.

(** ** Looking at fields and elements *)
Lemma get_inv T s i k : Inv T s -> tame s (OGet i k) ->
  (exists c s', get s i k = Ok (c, s') /\ Inv T s' /\ s_val s' = s_val s /\ s_dead s' = s_dead s) \/ (exists e, get s i k = Throw e).
Proof.
  intros I [Hk Hs]. unfold get. destruct (by_id (s_live s) i) as [w|] eqn:Ew; [|right; eauto]. specialize (Hs w eq_refl). apply by_id_in in Ew. destruct Ew as [Hw <-].
  destruct (key_type (w_type w) k) as [t|] eqn:Et; [|right; eauto]. destruct (Inv_read I Hw) as (x & R & L & Tx). rewrite R. cbn [bind].
  destruct (locate (w_place w) x [kidx k]) as [[pl y]|] eqn:Ly; [|right; eauto].
  assert (Kt : kstep (w_type w) k = Some t). { destruct (w_type w); cbn [key_type kstep] in *; try discriminate; destruct k as [[|] j|j]; try discriminate; try assumption; [destruct (Hk j eq_refl)|destruct (Hs eq_refl)]. }
  left. destruct (by_path (s_live s) (w_path w ++ [k])) as [c|] eqn:Ec; [exists (w_id c), s; auto|].
  do 2 eexists. split; [reflexivity|]. split; [|auto].
  assert (Fresh : ~ In (s_next s) (map w_id (s_live s) ++ s_dead s)) by (intros H; apply (I_all I) in H; lia).
  split; cbn [s_val s_live s_loose s_dead s_next]; try apply I.
  - intros u Hu. apply in_app_or in Hu. destruct Hu as [Hu|[<- |[]]]; [exact (I_path I Hu)|]. cbn [w_path w_type]. rewrite kpath_app, (I_path I Hw). cbn [kpath]. rewrite Kt. reflexivity.
  - intros u Hu. apply in_app_or in Hu. destruct Hu as [Hu|[<- |[]]]; [exact (I_kept I Hu)|]. exists y. cbn [w_path w_place]. rewrite map_kidx_app, locate_app, L. exact Ly.
  - intros u p k' Hu E. apply in_app_or in Hu. destruct Hu as [Hu|[<- |[]]].
    + destruct (I_closed I Hu E) as (z & Hz & Ez). exists z. rewrite in_app_iff. auto.
    + cbn [w_path] in E. apply app_inj_tail in E. destruct E as [E _]. exists w. rewrite in_app_iff. auto.
  - rewrite map_app. cbn [map w_path]. apply (Permutation_NoDup (Permutation_app_comm [w_path w ++ [k]] (map w_path (s_live s)))). cbn [app]. constructor; [|apply I].
    intros H. apply in_map_iff in H. destruct H as (u & Eu & Hu). exact (by_path_none Ec Hu Eu).
  - rewrite map_app, <- app_assoc. cbn [map w_id]. apply (Permutation_NoDup (Permutation_middle (map w_id (s_live s)) (s_dead s) (s_next s))). constructor; [exact Fresh|apply I].
  - intros j. rewrite map_app, <- app_assoc. cbn [map w_id]. rewrite in_app_iff. cbn [app In]. assert (X := I_all I j). rewrite in_app_iff in X. split; [intros [H|[<- |H]]; [|lia|]; assert (j < s_next s)%N by (apply X; auto); lia|].
    intros H. destruct (N.eq_dec (s_next s) j) as [|Nj]; [auto|]. assert (Lj : (j < s_next s)%N) by lia. apply X in Lj. tauto.
Qed.

(** ** Changing the memory of a wrapper *)
Lemma map_split {A B} (f : A -> B) l : forall a b, map f l = a ++ b -> exists x y, l = x ++ y /\ map f x = a /\ map f y = b.
Proof.
  induction l as [|z l IH]; intros a b H; cbn [map] in H.
  - symmetry in H. apply app_eq_nil in H. destruct H as [-> ->]. exists [], []. auto.
  - destruct a as [|y a]; cbn [app] in H; [exists [], (z :: l); auto|]. injection H as <- H. destruct (IH a b H) as (x & y & -> & <- & <-). exists (z :: x), y. auto.
Qed.
Lemma path_prefix T p p' t t' r : kpath T p = Some t -> kpath T p' = Some t' -> map kidx p' = map kidx p ++ r -> exists r', p' = p ++ r' /\ map kidx r' = r.
Proof.
  intros K K' E. apply map_split in E. destruct E as (a & b & -> & Ea & Eb). rewrite kpath_app in K'. destruct (kpath T a) as [ta|] eqn:Ka; [|discriminate]. assert (X := kpath_inj Ka K Ea). subst a. eauto.
Qed.
Lemma change T s w nv : Inv T s -> In w (s_live s) -> has_type (w_type w) nv ->
  let v' := upd (s_val s) (map kidx (w_path w)) nv in
  has_type T v' /\ locate root_place v' (map kidx (w_path w)) = Some (w_place w, nv) /\
  (forall u, In u (s_live s) -> (exists k r, w_path u = w_path w ++ k :: r) \/ kept v' u).
Proof.
  intros I Hw Hn v'. destruct (Inv_read I Hw) as (x & R & L & Tx). destruct (upd_typed (I_type I) (kpath_part (I_path I Hw)) L Hn) as [A B]. split; [exact A|]. split; [exact B|].
  intros u Hu. destruct (strip (w_path w) (w_path u)) as [[|k r]|] eqn:S.
  - right. apply strip_eq in S. rewrite app_nil_r in S. assert (u = w) by (apply (path_uniq (I_paths I)); assumption). subst u. exists nv. exact B.
  - left. apply strip_eq in S. eauto.
  - right. destruct (I_kept I Hu) as (y & Ly). destruct (@upd_other (map kidx (w_path w)) (s_val s) root_place nv (map kidx (w_path u)) (w_place u) y) as (y' & Ly'); [|exact Ly|exists y'; exact Ly'].
    intros r E. destruct (path_prefix (I_path I Hw) (I_path I Hu) E) as (r' & E' & _). assert (X := proj2 (strip_eq (w_path w) (w_path u) r') E'). congruence.
Qed.
Lemma map_res_ok {A B} (f : A -> res B) l : (forall x, In x l -> exists y, f x = Ok y) -> exists ys, map_res f l = Ok ys /\ Forall2 (fun x y => f x = Ok y) l ys.
Proof.
  induction l as [|x l IH]; intros H; cbn [map_res]; [exists []; auto|]. destruct (H x (or_introl eq_refl)) as (y & E). destruct IH as (ys & E' & F); [intros z Hz; apply H; right; exact Hz|]. exists (y :: ys). rewrite E, E'. auto.
Qed.
(** What the caller sees of handle_invalidation: the wrappers that survive. *)
Definition stays (L : list wr) (v' : wval) (u : wr) : Prop := forall a r, In a L -> w_path u = w_path a ++ r -> kept v' a.
Lemma protected_inv T s w nv : Inv T s -> In w (s_live s) -> sound_change s w nv ->
  exists s', protected s (w_id w) nv = Ok s' /\ Inv T s' /\ s_val s' = upd (s_val s) (map kidx (w_path w)) nv /\ s_next s' = s_next s /\
    (forall u, In u (s_live s') <-> In u (s_live s) /\ stays (s_live s) (s_val s') u).
Proof.
  intros I Hw [Hn Ha]. assert (Nd := NoDup_app_l (I_ids I)). unfold protected. rewrite (in_by_id Nd Hw). destruct (change I Hw Hn) as (Ht' & _ & Hout). destruct (Inv_read I Hw) as (x & R & L & Tx).
  destruct (cached_spec (I_closed I) (I_paths I) (I_path I) Hw) as [Cs _].
  destruct (@map_res_ok _ _ (fun c => m <- memory_id (s_val s) c ;; Ok (c, m)) (cached_containers (s_live s) w)) as (ids & Eids & F).
  { intros c Hc. apply Cs in Hc. destruct Hc as (Hc & Ct & _). destruct (memory_id_old (I_type I) (I_path I) (I_kept I) (I_alloc I) Hc Ct) as (m & Em & _). rewrite Em. cbn [bind]. eauto. }
  rewrite Eids. cbn [bind]. rewrite R. cbn [bind]. specialize (Ha _ _ R). set (v' := upd (s_val s) (map kidx (w_path w)) nv) in *.
  assert (Mf : map fst ids = cached_containers (s_live s) w). { clear - F. induction F as [|c [c' m] l ids E F IH]; [reflexivity|]. cbn [map fst]. destruct (memory_id (s_val s) c); cbn [bind] in E; try discriminate. injection E as <- _. congruence. }
  assert (Mm : forall c m, In (c, m) ids -> memory_id (s_val s) c = Ok m). { clear - F. induction F as [|c [c' m] l ids E F IH]; intros d n H; [destruct H|]. destruct H as [H|H]; [|auto]. injection H as <- <-. destruct (memory_id (s_val s) c) eqn:Ec; cbn [bind] in E; try discriminate. injection E as <- <-. exact Ec. }
  assert (J0 : J v' (s_live s) (s_dead s) (s_next s) [] (St v' (s_live s) (s_loose s) (s_dead s) (s_next s))).
  { split; cbn [s_val s_live s_loose s_dead s_next]; try reflexivity; try apply I; [|auto|intros ? ? ? ? ? ? []].
    exists (fun _ => true). clear. induction (s_live s) as [|y l IH]; cbn [filter]; congruence. }
  destruct (@containers_loop T (s_val s) v' (s_live s) (w_path w) (I_type I) Ht' Ha (I_path I) (I_kept I) (I_closed I) (I_paths I) Nd Hout (s_dead s) (s_next s) ids (I_alloc I) [] _ J0) as (s' & Es' & Js').
  { intros c m H. split; [|split; [|exact (Mm c m H)]]; assert (X : In c (cached_containers (s_live s) w)) by (rewrite <- Mf; apply in_map_iff; exists (c, m); auto); apply Cs in X; intuition. }
  { intros A c m B E u Hu Ct Pu Lu. cbn [app]. assert (Mf' := Mf). rewrite E, map_app in Mf'. cbn [map fst] in Mf'. eapply (cached_order (I_closed I) (I_paths I) (I_path I) Hw (eq_sym Mf')); [|exact Lu]. apply Cs. auto. }
  rewrite Es'. exists s'. split; [reflexivity|]. cbn [app] in Js'.
  assert (Fin : forall u, In u (s_live s') <-> In u (s_live s) /\ stays (s_live s) v' u).
  { apply (@J_final T (s_val s) v' (s_live s) (w_path w) (I_type I) Ht' (I_path I) (I_kept I) (I_closed I) Hout (s_dead s) (s_next s) _ _ Js').
    intros u Hu Ct Pu. rewrite Mf. apply Cs. auto. }
  destruct Js' as [A (g & B) C D E F' G Lo Nx]. rewrite A. split; [|auto]. split; rewrite ?A, ?Nx; auto.
  - intros u Hu. apply Fin in Hu. exact (I_path I (proj1 Hu)).
  - intros u Hu. apply Fin in Hu. destruct Hu as [Hu Su]. apply (Su u []); [exact Hu|rewrite app_nil_r; reflexivity].
  - rewrite B. assert (P := I_paths I). clear - P. induction (s_live s) as [|y l IH]; cbn [filter map] in *; [constructor|]. inversion P as [|? ? P1 P2]; subst. destruct (g y); [|auto]. cbn [map]. constructor; [|auto]. intros H. apply P1. apply in_map_iff in H. destruct H as (z & <- & Hz). apply filter_In in Hz. apply in_map. apply Hz.
  - intros i. rewrite G. apply I.
Qed.

(** ** clear *)
Lemma drop_inv T s f v' : has_type T v' -> allocated v' -> Inv T s -> (forall w, In w (s_live s) -> f w = false -> kept v' w) ->
  (forall w u r, In w (s_live s) -> In u (s_live s) -> w_path w = w_path u ++ r -> f u = true -> f w = true) ->
  Inv T (drop f (St v' (s_live s) (s_loose s) (s_dead s) (s_next s))).
Proof.
  intros Ht Ha I Hk Hf. unfold drop. cbn [s_val s_live s_loose s_dead s_next].
  assert (P : Permutation (map w_id (s_live s) ++ s_dead s) (map w_id (filter (fun w => negb (f w)) (s_live s)) ++ s_dead s ++ map w_id (filter f (s_live s)))).
  { assert (Q := Permutation_app_head (map w_id (filter (fun w => negb (f w)) (s_live s))) (Permutation_app_comm (map w_id (filter f (s_live s))) (s_dead s))). eapply Permutation_trans; [|exact Q]. clear. rewrite app_assoc. apply Permutation_app_tail. rewrite <- map_app. apply Permutation_map.
    induction (s_live s) as [|x l IH]; cbn [filter]; [constructor|]. destruct (f x); cbn [negb app]; [|apply perm_skip; exact IH]. eapply Permutation_trans; [apply perm_skip; exact IH|]. apply Permutation_middle. }
  split; cbn [s_val s_live s_loose s_dead s_next]; auto; try apply I.
  - intros w Hw. apply filter_In in Hw. exact (I_path I (proj1 Hw)).
  - intros w Hw. apply filter_In in Hw. destruct Hw as [Hw Fw]. apply Hk; [exact Hw|]. destruct (f w); [discriminate|reflexivity].
  - intros w p k Hw E. apply filter_In in Hw. destruct Hw as [Hw Fw]. destruct (I_closed I Hw E) as (u & Hu & Eu). exists u. split; [|exact Eu]. apply filter_In. split; [exact Hu|]. destruct (f u) eqn:Fu; [|reflexivity]. rewrite (Hf w u [k] Hw Hu) in Fw; [discriminate|congruence|exact Fu].
  - assert (Q := I_paths I). clear - Q. induction (s_live s) as [|y l IH]; cbn [filter map] in *; [constructor|]. inversion Q as [|? ? P1 P2]; subst. destruct (f y); cbn [negb]; [auto|]. cbn [map]. constructor; [|auto]. intros H. apply P1. apply in_map_iff in H. destruct H as (z & <- & Hz). apply filter_In in Hz. apply in_map. apply Hz.
  - exact (Permutation_NoDup P (I_ids I)).
  - intros i. rewrite <- (I_all I). split; apply Permutation_in; [apply Permutation_sym|]; exact P.
Qed.
Lemma clear_inv T s w nv : Inv T s -> In w (s_live s) -> sound_change s w nv ->
  exists s', clear s (w_id w) nv = Ok s' /\ Inv T s' /\ s_val s' = upd (s_val s) (map kidx (w_path w)) nv /\ s_next s' = s_next s /\
    (forall u, In u (s_live s') <-> In u (s_live s) /\ forall k r, w_path u <> w_path w ++ k :: r).
Proof.
  intros I Hw [Hn Ha]. assert (Nd := NoDup_app_l (I_ids I)). unfold clear. rewrite (in_by_id Nd Hw). destruct (change I Hw Hn) as (Ht' & _ & Hout). destruct (Inv_read I Hw) as (x & R & L & Tx).
  rewrite R. cbn [bind]. specialize (Ha _ _ R). eexists. split; [reflexivity|]. unfold invalidate_children.
  assert (Bl : forall u, below (w_path w) u = true <-> exists k r, w_path u = w_path w ++ k :: r).
  { intros u. unfold below. destruct (strip (w_path w) (w_path u)) as [[|k r]|] eqn:S.
    - apply strip_eq in S. split; [discriminate|]. intros (k & r & E). rewrite S in E. apply app_inv_head in E. discriminate.
    - apply strip_eq in S. split; eauto.
    - split; [discriminate|]. intros (k & r & E). rewrite (proj2 (strip_eq _ _ _) E) in S. discriminate. }
  split; [|split; [reflexivity|split; [reflexivity|]]].
  - apply drop_inv; auto.
    + intros u Hu Fu. destruct (Hout u Hu) as [E|K]; [|exact K]. apply Bl in E. congruence.
    + intros u z r Hu Hz E Fz. apply Bl in Fz. destruct Fz as (k & r' & Ez). apply Bl. exists k, (r' ++ r). rewrite E, Ez, <- app_assoc. reflexivity.
  - intros u. cbn [drop s_live]. rewrite filter_In. split; intros [Hu Fu]; (split; [exact Hu|]).
    + intros k r E. assert (X : below (w_path w) u = true) by (apply Bl; eauto). rewrite X in Fu. discriminate.
    + destruct (below (w_path w) u) eqn:B; [|reflexivity]. apply Bl in B. destruct B as (k & r & E). destruct (Fu k r E).
Qed.

(** ** Changing numbers *)
Fixpoint wty_size (t : wty) : nat := match t with WComp fs => S (fold_right (fun x n => wty_size x + n)%nat O fs) | WArr _ e | WVec e => S (wty_size e) | _ => 1%nat end.
Lemma wty_size_in fs t : In t fs -> (wty_size t < wty_size (WComp fs))%nat.
Proof. cbn [wty_size]. induction fs as [|x fs IH]; intros H; [destruct H|]. cbn [fold_right]. destruct H as [-> |H]; [lia|]. specialize (IH H). lia. Qed.
Lemma flat_bufs n : forall t v, (wty_size t < n)%nat -> flat t = true -> has_type t v -> bufs v = [].
Proof.
  induction n as [|n IH]; intros t v Hs Fl H; [lia|]. inversion H as [|fs l F|m e l E F|e b l F|b m]; subst; cbn [flat] in Fl; try discriminate; [reflexivity| |]; cbn [bufs].
  - rewrite forallb_forall in Fl. assert (G : forall x, In x fs -> (wty_size x < n)%nat /\ flat x = true) by (intros x Hx; assert (Y := wty_size_in Hx); split; [lia|auto]). clear - F G IH. induction F as [|x v fs l Hx F IHF]; [reflexivity|]. cbn [flat_map].
    destruct (G x (or_introl eq_refl)) as [G1 G2]. rewrite (IH x v G1 G2 Hx), IHF; [reflexivity|]. intros y Hy. apply G. right. exact Hy.
  - cbn [wty_size] in Hs. assert (Se : (wty_size e < n)%nat) by lia. clear - F IH Fl Se. induction F as [|x l Hx F IHF]; [reflexivity|]. cbn [flat_map]. rewrite (IH e x Se Fl Hx), IHF. reflexivity.
Qed.
Lemma nth_upd_split {A} (l : list A) i x y : nth_error l i = Some y -> exists a b, l = a ++ y :: b /\ nth_upd l i x = a ++ x :: b.
Proof.
  revert i. induction l as [|z l IH]; intros [|i] H; try discriminate; cbn [nth_error nth_upd] in *; [injection H as ->; exists [], l; auto|]. destruct (IH i H) as (a & b & -> & ->). exists (z :: a), b. auto.
Qed.
Lemma upd_bufs q : forall v pl pl' x nv, locate pl v q = Some (pl', x) -> bufs nv = bufs x -> bufs (upd v q nv) = bufs v.
Proof.
  induction q as [|i q IH]; intros v pl pl' x nv L B; cbn [upd]; [injection L as <- <-; exact B|]. cbn [locate] in L. destruct v as [|l|b l|b n]; try reflexivity.
  - destruct (nth_error l i) as [y|] eqn:E; [|reflexivity]. destruct (@nth_upd_split _ l i (upd y q nv) y E) as (l1 & l2 & -> & ->). cbn [bufs]. rewrite !flat_map_app. cbn [flat_map]. rewrite (IH _ _ _ _ _ L B). reflexivity.
  - destruct (nth_error l i) as [y|] eqn:E; [|reflexivity]. destruct (@nth_upd_split _ l i (upd y q nv) y E) as (l1 & l2 & -> & ->).
    cbn [bufs]. rewrite !flat_map_app. cbn [flat_map]. rewrite (IH _ _ _ _ _ L B). destruct l1; reflexivity.
Qed.
Lemma flat_locate r : forall t x y pl pl' z, flat t = true -> has_type t x -> has_type t y -> locate pl x r = Some (pl', z) -> exists z', locate pl y r = Some (pl', z').
Proof.
  induction r as [|i r IH]; intros t x y pl pl' z Fl Hx Hy L; cbn [locate] in *; [injection L as <- <-; eauto|].
  inversion Hx as [|fs l F|n e l E F|e b l F|b n]; subst; cbn [flat] in Fl; try discriminate.
  - inversion Hy as [|? l' F'| | |]; subst. destruct (nth_error l i) as [a|] eqn:Ea; [|discriminate]. destruct (Forall2_nth_r F Ea) as (t & Et & Ta). destruct (Forall2_nth F' Et) as (a' & Ea' & Ta'). rewrite Ea'. rewrite forallb_forall in Fl. exact (IH t a a' _ _ _ (Fl t (nth_error_In _ _ Et)) Ta Ta' L).
  - inversion Hy as [| |? ? l' E' F'| |]; subst. destruct (nth_error l i) as [a|] eqn:Ea; [|discriminate]. destruct (nth_error l' i) as [a'|] eqn:Ea'; [|apply nth_error_None in Ea'; assert (X : (i < length l)%nat) by (apply nth_error_Some; congruence); lia].
    rewrite Forall_forall in F, F'. exact (IH e a a' _ _ _ Fl (F a (nth_error_In _ _ Ea)) (F' a' (nth_error_In _ _ Ea')) L).
Qed.
Lemma unprotected_inv T s w j nv t : Inv T s -> In w (s_live s) -> part_type (w_type w) j = Some t -> flat t = true -> has_type t nv ->
  (exists s', unprotected s (w_id w) j nv = Ok s' /\ Inv T s' /\ s_live s' = s_live s /\ s_dead s' = s_dead s /\ s_val s' = upd (s_val s) (map kidx (w_path w) ++ j) nv) \/ unprotected s (w_id w) j nv = Throw EArg.
Proof.
  intros I Hw Pt Fl Hn. assert (Nd := NoDup_app_l (I_ids I)). unfold unprotected. rewrite (in_by_id Nd Hw). destruct (Inv_read I Hw) as (x & R & L & Tx). rewrite R. cbn [bind].
  destruct (locate (w_place w) x j) as [[pl y]|] eqn:Ly; [|right; reflexivity]. left. eexists. split; [reflexivity|]. split; [|auto].
  assert (L2 : locate root_place (s_val s) (map kidx (w_path w) ++ j) = Some (pl, y)) by (rewrite locate_app, L; exact Ly).
  assert (P2 : part_type T (map kidx (w_path w) ++ j) = Some t) by (rewrite part_type_app, (kpath_part (I_path I Hw)); exact Pt).
  destruct (upd_typed (I_type I) P2 L2 Hn) as [A B]. assert (Ty := locate_typed (I_type I) P2 L2).
  split; cbn [s_val s_live s_loose s_dead s_next]; try apply I; [exact A| |].
  - unfold allocated. rewrite (upd_bufs L2); [apply I|]. rewrite (flat_bufs (Nat.lt_succ_diag_r (wty_size t)) Fl Hn), (flat_bufs (Nat.lt_succ_diag_r (wty_size t)) Fl Ty). reflexivity.
  - intros u Hu. destruct (I_kept I Hu) as (z & Lz). unfold kept.
    assert (D : (exists r, map kidx (w_path u) = (map kidx (w_path w) ++ j) ++ r) \/ forall r, map kidx (w_path u) <> (map kidx (w_path w) ++ j) ++ r).
    { clear. generalize (map kidx (w_path w) ++ j), (map kidx (w_path u)). induction l as [|a l IH]; intros m; [left; exists m; reflexivity|]. destruct m as [|b m]; [right; discriminate|]. destruct (Nat.eq_dec a b) as [-> |Nab]; [|right; cbn [app]; congruence].
      destruct (IH m) as [(r & ->)|H]; [left; exists r; reflexivity|right]. intros r E. apply (H r). cbn [app] in E. congruence. }
    destruct D as [(r & E)|H]; [|eapply upd_other; eassumption]. rewrite E in *. rewrite locate_app in Lz |- *. rewrite L2 in Lz. rewrite B. eapply flat_locate; eassumption.
Qed.

(** ** All of them *)
Lemma step_inv T s o : Inv T s -> tame s o -> (exists s', run o s = Ok s' /\ Inv T s') \/ (exists e, run o s = Throw e).
Proof.
  intros I. assert (Nd := NoDup_app_l (I_ids I)). destruct o as [i k|i nv|i nv|i j nv|i nv|i t]; cbn [run tame]; intros Tm; try contradiction.
  - destruct (@get_inv T s i k I Tm) as [(c & s' & E & I' & _)|(e & E)]; rewrite E; cbn [bind]; eauto.
  - destruct (by_id (s_live s) i) as [w|] eqn:Ew; [|right; unfold protected; rewrite Ew; eauto]. specialize (Tm w eq_refl). apply by_id_in in Ew. destruct Ew as [Hw <-]. destruct (protected_inv I Hw Tm) as (s' & E & I' & _). eauto.
  - destruct (by_id (s_live s) i) as [w|] eqn:Ew; [|right; unfold clear; rewrite Ew; eauto]. specialize (Tm w eq_refl). apply by_id_in in Ew. destruct Ew as [Hw <-]. destruct (clear_inv I Hw (proj2 Tm)) as (s' & E & I' & _). eauto.
  - destruct (by_id (s_live s) i) as [w|] eqn:Ew; [|right; unfold unprotected; rewrite Ew; eauto]. specialize (Tm w eq_refl). apply by_id_in in Ew. destruct Ew as [Hw <-]. destruct Tm as (t & Pt & Fl & Hn). destruct (unprotected_inv I Hw Pt Fl Hn) as [(s' & E & I' & _)|E]; eauto.
Qed.
Lemma history_inv T s : history T s -> Inv T s.
Proof.
  induction 1 as [v Ht Ha|s o s' H IH Tm R]; [apply new_inv; assumption|]. destruct (step_inv IH Tm) as [(s1 & R1 & I1)|(e & R1)]; [|congruence]. assert (s1 = s') by congruence. subst s1. exact I1.
Qed.

(** ** Positions, for push *)
Lemma position_cases (q p : list nat) : (exists r, p = q ++ r) \/ (exists r, r <> [] /\ q = p ++ r) \/ ((forall r, p <> q ++ r) /\ (forall r, q <> p ++ r)).
Proof.
  revert p. induction q as [|i q IH]; intros p; [left; exists p; reflexivity|]. destruct p as [|j p]; [right; left; exists (i :: q); split; [discriminate|reflexivity]|].
  destruct (Nat.eq_dec i j) as [<- |Nij]; [|right; right; split; intros r E; injection E; congruence].
  destruct (IH p) as [(r & ->)|[(r & Er & ->)|[A B]]]; [left; exists r; reflexivity|right; left; exists r; auto|right; right; split; intros r E; injection E; intros E'; [exact (A r E')|exact (B r E')]].
Qed.
Lemma part_size j : forall t t', part_type t j = Some t' -> (wty_size t' <= wty_size t)%nat /\ (j <> [] -> (wty_size t' < wty_size t)%nat).
Proof.
  induction j as [|i j IH]; intros t t' H; cbn [part_type] in H; [injection H as <-; split; [lia|congruence]|].
  destruct t; try discriminate.
  - destruct (nth_error fs i) as [x|] eqn:E; [|discriminate]. apply nth_error_In, wty_size_in in E. destruct (IH _ _ H) as [A _]. lia.
  - destruct (Nat.ltb i n); [|discriminate]. destruct (IH _ _ H) as [A _]. cbn [wty_size]. lia.
  - destruct (IH _ _ H) as [A _]. cbn [wty_size]. lia.
Qed.
Lemma part_not_self e r : part_type e r = Some (WVec e) -> False.
Proof. intros H. destruct (part_size H) as [A _]. cbn [wty_size] in A. lia. Qed.
Lemma part_inside T q r e : part_type T q = Some (WVec e) -> part_type T (q ++ r) = Some e -> exists i, r = [i].
Proof.
  intros H H'. rewrite part_type_app, H in H'. destruct r as [|i r]; cbn [part_type] in H'.
  - injection H' as H'. exfalso. assert (X : wty_size (WVec e) = wty_size e) by (rewrite H'; reflexivity). cbn [wty_size] in X. lia.
  - destruct r as [|j r]; [eauto|]. destruct (part_size H') as [_ B]. specialize (B ltac:(discriminate)). lia.
Qed.
Lemma upd_locate q : forall v pl pl' x nv, locate pl v q = Some (pl', x) -> x <> VLeaf -> locate pl (upd v q nv) q = Some (pl', nv).
Proof.
  induction q as [|i q IH]; intros v pl pl' x nv L B; cbn [locate upd] in *; [injection L as <- <-; reflexivity|]. destruct v as [|l|b l|b n]; try discriminate.
  - destruct (nth_error l i) as [y|] eqn:E; [|discriminate]. cbn [locate]. rewrite (nth_upd_same _ E). eapply IH; eauto.
  - destruct (nth_error l i) as [y|] eqn:E; [|discriminate]. cbn [locate]. rewrite (nth_upd_same _ E). eapply IH; eauto.
  - destruct (Nat.ltb i n); [|discriminate]. destruct q; [|discriminate]. injection L as <- <-. congruence.
Qed.
Lemma upd_apart q : forall v pl nv p, (forall r, p <> q ++ r) /\ (forall r, q <> p ++ r) -> locate pl (upd v q nv) p = locate pl v p.
Proof.
  induction q as [|i q IH]; intros v pl nv p [A B]; [destruct (A p eq_refl)|]. destruct p as [|j p]; [destruct (B (i :: q) eq_refl)|]. cbn [upd].
  assert (X : i = j -> (forall r, p <> q ++ r) /\ (forall r, q <> p ++ r)). { intros <-. split; intros r E; [apply (A r)|apply (B r)]; rewrite E; reflexivity. }
  destruct v as [|l|b l|b n]; try reflexivity; (destruct (nth_error l i) as [y|] eqn:E; [|reflexivity]); cbn [locate]; (destruct (Nat.eq_dec i j) as [<- |Nij]; [rewrite (nth_upd_same _ E), E; apply IH; auto|rewrite nth_upd_other by exact Nij; reflexivity]).
Qed.
Lemma nth_upd_upd {A} (l : list A) i x y : nth_upd (nth_upd l i x) i y = nth_upd l i y.
Proof. revert i. induction l as [|z l IH]; intros [|i]; cbn [nth_upd]; congruence. Qed.
Lemma upd_upd q : forall v pl pl' x a c, locate pl v q = Some (pl', x) -> upd (upd v q a) q c = upd v q c.
Proof.
  induction q as [|i q IH]; intros v pl pl' x a c L; cbn [locate upd] in *; [reflexivity|]. destruct v as [|l|b l|b n]; try reflexivity.
  - destruct (nth_error l i) as [y|] eqn:E; [|discriminate]. rewrite (nth_upd_same _ E), nth_upd_upd, (IH _ _ _ _ _ _ L). reflexivity.
  - destruct (nth_error l i) as [y|] eqn:E; [|discriminate]. rewrite (nth_upd_same _ E), nth_upd_upd, (IH _ _ _ _ _ _ L). reflexivity.
Qed.
Lemma upd_app q : forall v pl pl' x r c, locate pl v q = Some (pl', x) -> upd v (q ++ r) c = upd v q (upd x r c).
Proof.
  induction q as [|i q IH]; intros v pl pl' x r c L; cbn [locate upd app] in *; [injection L as <- <-; reflexivity|]. destruct v as [|l|b l|b n]; try reflexivity.
  - destruct (nth_error l i) as [y|] eqn:E; [|discriminate]. rewrite (IH _ _ _ _ _ _ L). reflexivity.
  - destruct (nth_error l i) as [y|] eqn:E; [|discriminate]. rewrite (IH _ _ _ _ _ _ L). reflexivity.
Qed.
(** A vector that is not empty owns its buffer. *)
Lemma vec_owner q : forall v pl pl' b l, locate pl v q = Some (pl', VVec b l) -> l <> [] -> In b (bufs v).
Proof.
  induction q as [|i q IH]; intros v pl pl' b l L Hl; cbn [locate] in L; [injection L as <- ->; destruct l; [congruence|left; reflexivity]|].
  destruct v as [|m|b0 m|b0 n]; try discriminate.
  - destruct (nth_error m i) as [y|] eqn:E; [|discriminate]. cbn [bufs]. apply in_flat_map. exists y. split; [eapply nth_error_In; eassumption|eapply IH; eassumption].
  - destruct (nth_error m i) as [y|] eqn:E; [|discriminate]. assert (X : In b (flat_map bufs m)) by (apply in_flat_map; exists y; split; [eapply nth_error_In; eassumption|eapply IH; eassumption]). cbn [bufs]. destruct m; [destruct X|right; exact X].
  - destruct (Nat.ltb i n); [|discriminate]. destruct q; discriminate.
Qed.
