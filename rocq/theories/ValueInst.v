(** * ValueInst: valid, same, image and zeroed as atom relations; basic facts about them. *)
From Verif Require Import Base Types WellFormed Layout LayoutProofs LayoutMain ValueOps ValueSpec ValueAtoms.
Local Open Scope N_scope.

(** ** valid *)
Definition vb (c : cell) (x : list unit) : Prop := (exists b, c = B b) /\ x = [].
Definition cvalid (k : ckind) (e : ty) (o : cobj) : Prop :=
  match k, o with
  | KVec, VecObj cap cs => exists ms, cs = concat ms /\ Forall (valid e) ms /\ lenN cs <= cap /\ cap <= max_size
  | KStr, StrObj bs => lenN bs <= max_size
  | _, _ => False
  end.
Definition vc (k : ckind) (s : N) (e : ty) (o : cobj) (x : list unit) : Prop := cvalid k e o /\ x = [].
Definition avalid (l : list atom) (m : list cell) : Prop := arel vb vb vc l m [].

Lemma vb_nil (m : list cell) (xs : list (list unit)) : Forall2 vb m xs -> concat xs = [].
Proof. induction 1 as [|? ? ? ? [_ ->] ? IH]; simpl; auto. Qed.
Lemma vb_bytes n m x l : (l = AByte \/ l = APad) ->
  (bytes n m /\ x = [] <-> arel vb vb vc (repN n l) m x).
Proof.
  intros Hl. rewrite (@arel_repN_1 unit vb vb vc l n m x vb) by (destruct Hl; subst; auto). split.
  - intros [(bs & <- & ->) ->]. exists (map (fun _ => []) bs). repeat split.
    + induction bs; simpl; auto.
    + induction bs; simpl; constructor; auto. split; eauto.
    + unfold lenN. rewrite map_length. reflexivity.
  - intros (xs & -> & H & <-). split; [|eapply vb_nil; eauto].
    induction H as [|c y m ys [[b ->] _] H IH]; [apply bytes_0; reflexivity|].
    rewrite lenN_cons. replace (1 + lenN m) with (N.succ (lenN m)) by lia. apply bytes_cons. eauto.
Qed.

Lemma valid_unfolds : unfolds vb vb vc (fun t m x => valid t m /\ x = []) (fun fs cur s m x => valid_fields fs cur s m /\ x = []).
Proof.
  constructor.
  - intros. apply vb_bytes. auto.
  - intros. apply vb_bytes. auto.
  - intros. apply vb_bytes. auto.
  - intros s d e m x. simpl. split.
    + intros [(ms & H1 & H2 & H3) ->]. exists ms, (map (fun _ => []) ms). repeat split; auto.
      * clear; induction ms; simpl; auto.
      * clear -H3; induction H3; simpl; constructor; auto.
    + intros (ms & xs & H1 & H2 & -> & H3). split.
      * exists ms. repeat split; auto. clear -H3; induction H3 as [|? ? ? ? [? ?]]; constructor; auto.
      * clear -H3; induction H3 as [|? ? ? ? [? ->]]; simpl; auto.
  - intros k s e m x. simpl. destruct k; split.
    + intros [(cap & ms & H1 & H2 & H3 & H4) ->]. exists (VecObj cap (concat ms)). split; [assumption|].
      split; [|reflexivity]. simpl. exists ms. auto.
    + intros (o & -> & Hc & ->). split; [|reflexivity]. simpl in Hc. destruct o as [cap cs|]; [|contradiction].
      destruct Hc as (ms & -> & ? & ? & ?). exists cap, ms. auto.
    + intros [(bs & H1 & H2) ->]. exists (StrObj bs). split; [assumption|]. split; [assumption|reflexivity].
    + intros (o & -> & Hc & ->). split; [|reflexivity]. simpl in Hc. destruct o as [cap cs|bs]; [contradiction|]. eauto.
  - intros; simpl; reflexivity.
  - intros; simpl. apply vb_bytes. auto.
  - intros nm off t r cur s m x. cbn [valid_fields]. split.
    + intros [(p & a & b & -> & H1 & H2 & H3) ->]. exists p, a, b, [], [], []. repeat split; auto. apply vb_bytes; auto.
    + intros (p & a & b & xp & xa & xb & -> & -> & H1 & [H2 ->] & [H3 ->]). apply vb_bytes in H1; [|auto]. destruct H1 as [H1 ->].
      split; [|reflexivity]. exists p, a, b. auto.
Qed.
Lemma valid_atoms ap t m : supported ap t = true -> (valid t m <-> avalid (tatoms t) m).
Proof.
  intros Hs. unfold avalid. rewrite <- (proj1 (trel_arel valid_unfolds) t ap Hs m []). tauto.
Qed.

(** ** same *)
Definition sb (c : cell) (x : list cell) : Prop := exists b, c = B b /\ x = [B b].
Definition sp (c : cell) (x : list cell) : Prop := exists b b', c = B b /\ x = [B b'].
Definition csame (k : ckind) (e : ty) (o o' : cobj) : Prop :=
  match k, o, o' with
  | KVec, VecObj ca cs, VecObj cb cs' => exists xs ys, cs = concat xs /\ cs' = concat ys /\ Forall2 (same e) xs ys /\
       lenN cs <= ca /\ ca <= max_size /\ lenN cs' <= cb /\ cb <= max_size
  | KStr, StrObj bs, StrObj bs' => bs = bs' /\ lenN bs <= max_size
  | _, _, _ => False
  end.
Definition sc (k : ckind) (s : N) (e : ty) (o : cobj) (x : list cell) : Prop := exists o', x = put_obj s o' /\ csame k e o o'.
Definition asame (l : list atom) (a b : list cell) : Prop := arel sb sp sc l a b.

Lemma sb_bytes n m x : bytes n m /\ m = x <-> asame (repN n AByte) m x.
Proof.
  unfold asame. rewrite (@arel_repN_1 cell sb sp sc AByte n m x sb) by auto. split.
  - intros [(bs & <- & ->) <-]. exists (map (fun b => [B b]) bs). repeat split.
    + induction bs; simpl; congruence.
    + induction bs; simpl; constructor; auto. exists a; auto.
    + unfold lenN. rewrite map_length. reflexivity.
  - intros (xs & -> & H & <-).
    induction H as [|c y m ys [b [-> ->]] H IH]; [split; [apply bytes_0|]; reflexivity|].
    destruct IH as [IH1 IH2]. split; [|simpl; congruence].
    rewrite lenN_cons. replace (1 + lenN m) with (N.succ (lenN m)) by lia. apply bytes_cons. eauto.
Qed.
Lemma sp_bytes n m x : bytes n m /\ bytes n x <-> asame (repN n APad) m x.
Proof.
  unfold asame. rewrite (@arel_repN_1 cell sb sp sc APad n m x sp) by auto. split.
  - intros [(bs & <- & ->) (bs' & H & ->)]. exists (map (fun b => [B b]) bs'). repeat split.
    + clear; induction bs'; simpl; congruence.
    + unfold lenN in H. apply Nat2N.inj in H. revert bs H; induction bs'; intros [|b bs] H; simpl in *; try discriminate; constructor; auto.
      exists b, a; auto.
    + unfold lenN. rewrite map_length. reflexivity.
  - intros (xs & -> & H & <-).
    induction H as [|c y m ys [b [b' [-> ->]]] H IH]; [split; apply bytes_0; reflexivity|].
    destruct IH as [IH1 IH2].
    rewrite lenN_cons. replace (1 + lenN m) with (N.succ (lenN m)) by lia. split; apply bytes_cons; simpl; eauto.
Qed.

Lemma same_unfolds : unfolds sb sp sc same same_fields.
Proof.
  constructor.
  - intros. apply sb_bytes.
  - intros. apply sb_bytes.
  - intros. apply sb_bytes.
  - intros s d e m x. simpl. reflexivity.
  - intros k s e m x. simpl. destruct k; split.
    + intros (ca & cb & xs & ys & -> & -> & H1 & H2 & H3 & H4 & H5). exists (VecObj ca (concat xs)). split; [reflexivity|].
      exists (VecObj cb (concat ys)). split; [reflexivity|]. simpl. exists xs, ys. auto 10.
    + intros (o & -> & o' & -> & H). simpl in H. destruct o as [ca cs|]; [|contradiction]. destruct o' as [cb cs'|]; [|contradiction].
      destruct H as (xs & ys & -> & -> & H). exists ca, cb, xs, ys. tauto.
    + intros (bs & -> & -> & H). exists (StrObj bs). split; [reflexivity|]. exists (StrObj bs). simpl; auto.
    + intros (o & -> & o' & -> & H). simpl in H. destruct o as [ca cs|bs]; [contradiction|]. destruct o' as [cb cs'|bs']; [contradiction|].
      destruct H as [-> H]. eauto.
  - intros; simpl; reflexivity.
  - intros; simpl. apply sp_bytes.
  - intros nm off t r cur s m x. cbn [same_fields]. split.
    + intros (p & a & b & q & z & w & -> & -> & H1 & H2 & H3 & H4). exists p, a, b, q, z, w. repeat split; auto. apply sp_bytes; auto.
    + intros (p & a & b & q & z & w & -> & -> & H1 & H3 & H4). apply sp_bytes in H1. destruct H1.
      exists p, a, b, q, z, w. auto 10.
Qed.
Lemma same_atoms ap t a b : supported ap t = true -> (same t a b <-> asame (tatoms t) a b).
Proof. intros Hs. apply (proj1 (trel_arel same_unfolds) t ap Hs). Qed.

(** ** image *)
Definition ib (c : cell) (x : list N) : Prop := exists b, c = B b /\ x = [b].
Definition cimage (k : ckind) (e : ty) (o : cobj) (x : list N) : Prop :=
  match k, o with
  | KVec, VecObj cap cs => exists ms bss, cs = concat ms /\ lenN cs <= cap /\ cap <= max_size /\
       Forall2 (image e) ms bss /\ x = le_bytes 8 (lenN ms) ++ concat bss
  | KStr, StrObj bs => lenN bs <= max_size /\ x = le_bytes 8 (lenN bs) ++ bs
  | _, _ => False
  end.
Definition ic (k : ckind) (s : N) (e : ty) (o : cobj) (x : list N) : Prop := cimage k e o x.
Definition aimage (l : list atom) (m : list cell) (bs : list N) : Prop := arel ib ib ic l m bs.

Lemma ib_bytes n m x l : (l = AByte \/ l = APad) -> (lenN x = n /\ m = map B x) <-> aimage (repN n l) m x.
Proof.
  intros Hl. unfold aimage. rewrite (@arel_repN_1 N ib ib ic l n m x ib) by (destruct Hl; subst; auto). split.
  - intros [<- ->]. exists (map (fun b => [b]) x). repeat split.
    + induction x; simpl; congruence.
    + induction x; simpl; constructor; auto. exists a; auto.
    + unfold lenN. rewrite map_length. reflexivity.
  - intros (xs & -> & H & <-).
    induction H as [|c y m ys [b [-> ->]] H IH]; [split; reflexivity|].
    destruct IH as [IH1 IH2]. simpl. rewrite !lenN_cons, IH1. split; congruence.
Qed.
Lemma image_unfolds : unfolds ib ib ic image image_fields.
Proof.
  constructor.
  - intros; apply ib_bytes; auto.
  - intros; apply ib_bytes; auto.
  - intros; apply ib_bytes; auto.
  - intros; simpl; reflexivity.
  - intros k s e m x. simpl. unfold ic. destruct k; split.
    + intros (cap & ms & bss & -> & H1 & H2 & H3 & ->). exists (VecObj cap (concat ms)). split; [reflexivity|]. simpl. exists ms, bss. auto 10.
    + intros (o & -> & H). destruct o as [cap cs|]; [|contradiction]. destruct H as (ms & bss & -> & H). exists cap, ms, bss. tauto.
    + intros (cs & -> & H1 & ->). exists (StrObj cs). simpl; auto.
    + intros (o & -> & H). destruct o as [cap cs|bs]; [contradiction|]. destruct H as [H ->]. eauto.
  - intros; simpl; reflexivity.
  - intros; simpl; apply ib_bytes; auto.
  - intros nm off t r cur s m x. cbn [image_fields]. split.
    + intros (p & a & b & q & z & w & -> & -> & H1 & H2 & H3). exists p, a, b, q, z, w. repeat split; auto. apply ib_bytes; auto.
    + intros (p & a & b & q & z & w & -> & -> & H1 & H2 & H3). exists p, a, b, q, z, w. apply ib_bytes in H1; [|auto]. auto 10.
Qed.
Lemma image_atoms ap t m x : supported ap t = true -> (image t m x <-> aimage (tatoms t) m x).
Proof. intros Hs. apply (proj1 (trel_arel image_unfolds) t ap Hs). Qed.

(** ** zeroed (with the condition that the padding is bytes) *)
Definition zb (c : cell) (x : list unit) : Prop := c = B 0 /\ x = [].
Definition czero (k : ckind) (o : cobj) : Prop :=
  match k, o with
  | KVec, VecObj cap cs => cs = [] /\ cap <= max_size
  | KStr, StrObj bs => bs = []
  | _, _ => False
  end.
Definition zc (k : ckind) (s : N) (e : ty) (o : cobj) (x : list unit) : Prop := czero k o /\ x = [].
Definition azero (l : list atom) (m : list cell) : Prop := arel zb vb zc l m [].
Lemma zb_bytes n m x : m = repN n (B 0) /\ x = [] <-> arel zb vb zc (repN n AByte) m x.
Proof.
  rewrite (@arel_repN_1 unit zb vb zc AByte n m x zb) by auto. split.
  - intros [-> ->]. exists (repN n []). rewrite lenN_repN. unfold repN. repeat split.
    + induction (N.to_nat n); simpl; auto.
    + induction (N.to_nat n); simpl; constructor; auto. split; reflexivity.
  - intros (xs & -> & H & <-).
    induction H as [|c y m ys [-> ->] H IH]; [split; reflexivity|].
    destruct IH as [IH1 IH2]. rewrite lenN_cons, repN_add. simpl. split; [congruence|assumption].
Qed.
Lemma zvb_bytes n m x : bytes n m /\ x = [] <-> arel zb vb zc (repN n APad) m x.
Proof.
  rewrite (@arel_repN_1 unit zb vb zc APad n m x vb) by auto.
  rewrite <- (@arel_repN_1 unit vb vb vc APad n m x vb) by auto. apply vb_bytes; auto.
Qed.
Lemma zeroed_unfolds : unfolds zb vb zc (fun t m x => zeroed t m /\ x = []) (fun fs cur s m x => zeroed_fields fs cur s m /\ x = []).
Proof.
  constructor.
  - intros. apply zb_bytes.
  - intros. apply zb_bytes.
  - intros. apply zb_bytes.
  - intros s d e m x. simpl. split.
    + intros [(ms & H1 & H2 & H3) ->]. exists ms, (map (fun _ => []) ms). repeat split; auto.
      * clear; induction ms; simpl; auto.
      * clear -H3; induction H3; simpl; constructor; auto.
    + intros (ms & xs & H1 & H2 & -> & H3). split.
      * exists ms. repeat split; auto. clear -H3; induction H3 as [|? ? ? ? [? ?]]; constructor; auto.
      * clear -H3; induction H3 as [|? ? ? ? [? ->]]; simpl; auto.
  - intros k s e m x. simpl. destruct k; split.
    + intros [(cap & H1 & H2) ->]. exists (VecObj cap []). split; [assumption|]. split; [|reflexivity]. simpl. auto.
    + intros (o & -> & Hc & ->). split; [|reflexivity]. simpl in Hc. destruct o as [cap cs|]; [|contradiction].
      destruct Hc as (-> & ?). exists cap. auto.
    + intros [-> ->]. exists (StrObj []). split; [reflexivity|]. split; reflexivity.
    + intros (o & -> & Hc & ->). split; [|reflexivity]. simpl in Hc. destruct o as [cap cs|bs]; [contradiction|]. congruence.
  - intros; simpl; reflexivity.
  - intros; simpl. apply zvb_bytes.
  - intros nm off t r cur s m x. cbn [zeroed_fields]. split.
    + intros [(p & a & b & -> & H1 & H2 & H3) ->]. exists p, a, b, [], [], []. repeat split; auto. apply zvb_bytes; auto.
    + intros (p & a & b & xp & xa & xb & -> & -> & H1 & [H2 ->] & [H3 ->]). apply zvb_bytes in H1. destruct H1 as [H1 ->].
      split; [|reflexivity]. exists p, a, b. auto.
Qed.
Lemma zeroed_atoms ap t m : supported ap t = true -> (zeroed t m <-> azero (tatoms t) m).
Proof.
  intros Hs. unfold azero. rewrite <- (proj1 (trel_arel zeroed_unfolds) t ap Hs m []). tauto.
Qed.

(** ** fresh and full *)
Definition fc (k : ckind) (s : N) (e : ty) (o : cobj) (x : list unit) : Prop := czero k o /\ x = [].
Definition afresh (l : list atom) (m : list cell) : Prop := arel vb vb fc l m [].
Lemma fb_bytes RC n m x l : (l = AByte \/ l = APad) -> (bytes n m /\ x = [] <-> arel vb vb RC (repN n l) m x).
Proof.
  intros Hl. rewrite (@arel_repN_1 unit vb vb RC l n m x vb) by (destruct Hl; subst; auto).
  rewrite <- (@arel_repN_1 unit vb vb vc l n m x vb) by (destruct Hl; subst; auto). apply vb_bytes; assumption.
Qed.
Lemma fresh_unfolds : unfolds vb vb fc (fun t m x => fresh t m /\ x = []) (fun fs cur s m x => fresh_fields fs cur s m /\ x = []).
Proof.
  constructor.
  - intros. apply fb_bytes; auto.
  - intros. apply fb_bytes; auto.
  - intros. apply fb_bytes; auto.
  - intros s d e m x. simpl. split.
    + intros [(ms & H1 & H2 & H3) ->]. exists ms, (map (fun _ => []) ms). repeat split; auto.
      * clear; induction ms; simpl; auto.
      * clear -H3; induction H3; simpl; constructor; auto.
    + intros (ms & xs & H1 & H2 & -> & H3). split.
      * exists ms. repeat split; auto. clear -H3; induction H3 as [|? ? ? ? [? ?]]; constructor; auto.
      * clear -H3; induction H3 as [|? ? ? ? [? ->]]; simpl; auto.
  - intros k s e m x. simpl. destruct k; split.
    + intros [(cap & H1 & H2) ->]. exists (VecObj cap []). split; [assumption|]. split; [|reflexivity]. simpl. auto.
    + intros (o & -> & Hc & ->). split; [|reflexivity]. simpl in Hc. destruct o as [cap cs|]; [|contradiction].
      destruct Hc as (-> & ?). exists cap. auto.
    + intros [-> ->]. exists (StrObj []). split; [reflexivity|]. split; reflexivity.
    + intros (o & -> & Hc & ->). split; [|reflexivity]. simpl in Hc. destruct o as [cap cs|bs]; [contradiction|]. congruence.
  - intros; simpl; reflexivity.
  - intros; simpl. apply fb_bytes; auto.
  - intros nm off t r cur s m x. cbn [fresh_fields]. split.
    + intros [(p & a & b & -> & H1 & H2 & H3) ->]. exists p, a, b, [], [], []. repeat split; auto. apply fb_bytes; auto.
    + intros (p & a & b & xp & xa & xb & -> & -> & H1 & [H2 ->] & [H3 ->]). apply fb_bytes in H1; [|auto]. destruct H1 as [H1 ->].
      split; [|reflexivity]. exists p, a, b. auto.
Qed.
Lemma fresh_atoms ap t m : supported ap t = true -> (fresh t m <-> afresh (tatoms t) m).
Proof.
  intros Hs. unfold afresh. rewrite <- (proj1 (trel_arel fresh_unfolds) t ap Hs m []). tauto.
Qed.
Definition cfull (k : ckind) (e : ty) (o : cobj) : Prop :=
  match k, o with
  | KVec, VecObj cap cs => exists ms, cs = concat ms /\ ms <> [] /\ Forall (full e) ms /\ lenN cs <= cap /\ cap <= max_size
  | KStr, StrObj bs => bs <> [] /\ lenN bs <= max_size
  | _, _ => False
  end.
Definition uc (k : ckind) (s : N) (e : ty) (o : cobj) (x : list unit) : Prop := cfull k e o /\ x = [].
Definition afull (l : list atom) (m : list cell) : Prop := arel vb vb uc l m [].
Lemma full_unfolds : unfolds vb vb uc (fun t m x => full t m /\ x = []) (fun fs cur s m x => full_fields fs cur s m /\ x = []).
Proof.
  constructor.
  - intros. apply fb_bytes; auto.
  - intros. apply fb_bytes; auto.
  - intros. apply fb_bytes; auto.
  - intros s d e m x. simpl. split.
    + intros [(ms & H1 & H2 & H3) ->]. exists ms, (map (fun _ => []) ms). repeat split; auto.
      * clear; induction ms; simpl; auto.
      * clear -H3; induction H3; simpl; constructor; auto.
    + intros (ms & xs & H1 & H2 & -> & H3). split.
      * exists ms. repeat split; auto. clear -H3; induction H3 as [|? ? ? ? [? ?]]; constructor; auto.
      * clear -H3; induction H3 as [|? ? ? ? [? ->]]; simpl; auto.
  - intros k s e m x. simpl. destruct k; split.
    + intros [(cap & ms & H1 & H2 & H3 & H4 & H5) ->]. exists (VecObj cap (concat ms)). split; [assumption|].
      split; [|reflexivity]. simpl. exists ms. auto.
    + intros (o & -> & Hc & ->). split; [|reflexivity]. simpl in Hc. destruct o as [cap cs|]; [|contradiction].
      destruct Hc as (ms & -> & ? & ? & ? & ?). exists cap, ms. auto.
    + intros [(bs & H1 & H2 & H3) ->]. exists (StrObj bs). split; [assumption|]. split; [simpl; auto|reflexivity].
    + intros (o & -> & Hc & ->). split; [|reflexivity]. simpl in Hc. destruct o as [cap cs|bs]; [contradiction|]. destruct Hc. eauto.
  - intros; simpl; reflexivity.
  - intros; simpl. apply fb_bytes; auto.
  - intros nm off t r cur s m x. cbn [full_fields]. split.
    + intros [(p & a & b & -> & H1 & H2 & H3) ->]. exists p, a, b, [], [], []. repeat split; auto. apply fb_bytes; auto.
    + intros (p & a & b & xp & xa & xb & -> & -> & H1 & [H2 ->] & [H3 ->]). apply fb_bytes in H1; [|auto]. destruct H1 as [H1 ->].
      split; [|reflexivity]. exists p, a, b. auto.
Qed.
Lemma full_atoms ap t m : supported ap t = true -> (full t m <-> afull (tatoms t) m).
Proof.
  intros Hs. unfold afull. rewrite <- (proj1 (trel_arel full_unfolds) t ap Hs m []). tauto.
Qed.

(** ** Relations between them *)
Lemma Forall2_diag {A} (R : A -> A -> Prop) l : Forall (fun x => R x x) l -> Forall2 R l l.
Proof. induction 1; constructor; auto. Qed.

Lemma same_refl :
  (forall t m, valid t m -> same t m m) /\ (forall fs cur s m, valid_fields fs cur s m -> same_fields fs cur s m m).
Proof.
  apply ty_fields_ind; try (simpl; intros; solve [auto]).
  - intros s d e IH m (ms & H1 & H2 & H3). exists ms, ms. repeat split; auto. apply Forall2_diag.
    eapply Forall_impl; [|exact H3]; auto.
  - intros k s e IH m H. destruct k; simpl in *.
    + destruct H as (cap & ms & H1 & H2 & H3 & H4). exists cap, cap, ms, ms. repeat split; auto. apply Forall2_diag.
      eapply Forall_impl; [|exact H2]; auto.
    + destruct H as (bs & H1 & H2). eauto.
  - intros nm off t IHt fs IHf cur s m (p & a & b & -> & H1 & H2 & H3). exists p, a, b, p, a, b. auto 10.
Qed.
Lemma same_sym :
  (forall t a b, same t a b -> same t b a) /\ (forall fs cur s a b, same_fields fs cur s a b -> same_fields fs cur s b a).
Proof.
  apply ty_fields_ind; try (simpl; intros; solve [intuition eauto]).
  - simpl. intros n c a b [H ->]. auto.
  - simpl. intros n c a b [H ->]. auto.
  - simpl. intros n a b [H ->]. auto.
  - intros s d e IH a b (xs & ys & H1 & -> & -> & H2). exists ys, xs. repeat split; auto.
    + unfold lenN in *. rewrite <- (F2_length H2). assumption.
    + apply F2_flip. eapply F2_impl; [|exact H2]. intros; apply IH; assumption.
  - intros k s e IH a b H. destruct k; simpl in *.
    + destruct H as (ca & cb & xs & ys & -> & -> & H1 & H2). exists cb, ca, ys, xs. repeat split; try tauto.
      apply F2_flip. eapply F2_impl; [|exact H1]. intros; apply IH; assumption.
    + destruct H as (bs & -> & -> & H). eauto.
  - intros nm off t IHt fs IHf cur s a b (p & x & y & q & z & w & -> & -> & H1 & H2 & H3 & H4).
    exists q, z, w, p, x, y. auto 10.
Qed.
Lemma same_valid_l :
  (forall t a b, same t a b -> valid t a) /\ (forall fs cur s a b, same_fields fs cur s a b -> valid_fields fs cur s a).
Proof.
  apply ty_fields_ind; try (simpl; intros; solve [intuition eauto]).
  - intros s d e IH a b (xs & ys & H1 & -> & -> & H2). exists xs. repeat split; auto.
    clear - IH H2; induction H2; constructor; eauto.
  - intros k s e IH a b H. destruct k; simpl in *.
    + destruct H as (ca & cb & xs & ys & -> & -> & H1 & H2 & H3 & H4). exists ca, xs. repeat split; auto.
      clear - IH H1; induction H1; constructor; eauto.
    + destruct H as (bs & -> & -> & H). eauto.
  - intros nm off t IHt fs IHf cur s a b (p & x & y & q & z & w & -> & -> & H1 & H2 & H3 & H4).
    exists p, x, y. eauto 10.
Qed.
Lemma same_valid t a b : same t a b -> valid t a /\ valid t b.
Proof. intros H. split; [eapply same_valid_l; eauto|]. apply same_sym in H. eapply same_valid_l; eauto. Qed.

Lemma image_valid :
  (forall t m x, image t m x -> valid t m) /\ (forall fs cur s m x, image_fields fs cur s m x -> valid_fields fs cur s m).
Proof.
  apply ty_fields_ind; try (simpl; intros; solve [intuition eauto]).
  - simpl. intros n c m x [H ->]. exists x; auto.
  - simpl. intros n c m x [H ->]. exists x; auto.
  - simpl. intros n m x [H ->]. exists x; auto.
  - intros s d e IH m x (ms & bss & H1 & -> & -> & H2). exists ms. repeat split; auto.
    clear - IH H2; induction H2; constructor; eauto.
  - intros k s e IH m x H. destruct k; simpl in *.
    + destruct H as (cap & ms & bss & -> & H1 & H2 & H3 & ->). exists cap, ms. repeat split; auto.
      clear - IH H3; induction H3; constructor; eauto.
    + destruct H as (bs & -> & H & ->). eauto.
  - simpl. intros cur s m x [H ->]. exists x; auto.
  - intros nm off t IHt fs IHf cur s m x0 (p & x & y & q & z & w & -> & -> & [H1 ->] & H2 & H3).
    exists (map B q), x, y. repeat split; eauto. exists q; auto.
Qed.
Lemma Forall_exists2 {A C} (R : A -> C -> Prop) l : Forall (fun a => exists b, R a b) l -> exists l', Forall2 R l l'.
Proof. induction 1 as [|a l [b Hb] _ [l' IH]]; [exists []|exists (b :: l')]; constructor; auto. Qed.
Lemma valid_image :
  (forall t m, valid t m -> exists x, image t m x) /\ (forall fs cur s m, valid_fields fs cur s m -> exists x, image_fields fs cur s m x).
Proof.
  apply ty_fields_ind; try (simpl; intros; contradiction).
  - simpl. intros n c m (x & H & ->); eauto.
  - simpl. intros n c m (x & H & ->); eauto.
  - simpl. intros n m (x & H & ->); eauto.
  - intros s d e IH m (ms & H1 & -> & H2).
    assert (H : exists bss, Forall2 (image e) ms bss) by (apply Forall_exists2; eapply Forall_impl; [|exact H2]; auto).
    destruct H as [bss H]. exists (concat bss), ms, bss. auto.
  - intros k s e IH m H. destruct k; simpl in *.
    + destruct H as (cap & ms & -> & H1 & H2 & H3).
      assert (H : exists bss, Forall2 (image e) ms bss) by (apply Forall_exists2; eapply Forall_impl; [|exact H1]; auto).
      destruct H as [bss H]. eexists _, cap, ms, bss. auto 10.
    + destruct H as (bs & -> & H). eauto.
  - simpl. intros s fs IH m H. eauto.
  - simpl. intros cur s m (x & H & ->); eauto.
  - intros nm off t IHt fs IHf cur s m (p & x & y & -> & (q & H1 & ->) & H2 & H3).
    destruct (IHt _ H2) as [bx Hx]. destruct (IHf _ _ _ H3) as [by_ Hy].
    exists (q ++ bx ++ by_), (map B q), x, y, q, bx, by_. auto 10.
Qed.

Lemma zeroed_valid :
  (forall t m, zeroed t m -> valid t m) /\ (forall fs cur s m, zeroed_fields fs cur s m -> valid_fields fs cur s m).
Proof.
  apply ty_fields_ind; try (simpl; intros; solve [intuition eauto]).
  - simpl. intros n c m ->. apply bytes_repN.
  - simpl. intros n c m ->. apply bytes_repN.
  - simpl. intros n m ->. apply bytes_repN.
  - intros s d e IH m (ms & H1 & -> & H2). exists ms. repeat split; auto. eapply Forall_impl; [|exact H2]; auto.
  - intros k s e IH m H. destruct k; simpl in *.
    + destruct H as (cap & -> & H). exists cap, []. repeat split; auto. simpl. unfold lenN. simpl. lia.
    + subst. exists []. unfold lenN; simpl. split; [reflexivity|lia].
  - intros nm off t IHt fs IHf cur s m (p & x & y & -> & H1 & H2 & H3). exists p, x, y. auto.
Qed.

Lemma fresh_valid :
  (forall t m, fresh t m -> valid t m) /\ (forall fs cur s m, fresh_fields fs cur s m -> valid_fields fs cur s m).
Proof.
  apply ty_fields_ind; try (simpl; intros; solve [intuition eauto]).
  - intros s d e IH m (ms & H1 & -> & H2). exists ms. repeat split; auto. eapply Forall_impl; [|exact H2]; auto.
  - intros k s e IH m H. destruct k; simpl in *.
    + destruct H as (cap & -> & H). exists cap, []. repeat split; auto. simpl. unfold lenN. simpl. lia.
    + subst. exists []. unfold lenN; simpl. split; [reflexivity|lia].
  - intros nm off t IHt fs IHf cur s m (p & x & y & -> & H1 & H2 & H3). exists p, x, y. auto.
Qed.
Lemma zeroed_fresh :
  (forall t m, zeroed t m -> fresh t m) /\ (forall fs cur s m, zeroed_fields fs cur s m -> fresh_fields fs cur s m).
Proof.
  apply ty_fields_ind; try (simpl; intros; solve [intuition eauto]).
  - simpl. intros n c m ->. apply bytes_repN.
  - simpl. intros n c m ->. apply bytes_repN.
  - simpl. intros n m ->. apply bytes_repN.
  - intros s d e IH m (ms & H1 & -> & H2). exists ms. repeat split; auto. eapply Forall_impl; [|exact H2]; auto.
  - intros nm off t IHt fs IHf cur s m (p & x & y & -> & H1 & H2 & H3). exists p, x, y. auto.
Qed.
Lemma full_valid :
  (forall t m, full t m -> valid t m) /\ (forall fs cur s m, full_fields fs cur s m -> valid_fields fs cur s m).
Proof.
  apply ty_fields_ind; try (simpl; intros; solve [intuition eauto]).
  - intros s d e IH m (ms & H1 & -> & H2). exists ms. repeat split; auto. eapply Forall_impl; [|exact H2]; auto.
  - intros k s e IH m H. destruct k; simpl in *.
    + destruct H as (cap & ms & -> & H1 & H2 & H3). exists cap, ms. repeat split; try tauto. eapply Forall_impl; [|exact H2]; auto.
    + destruct H as (bs & -> & H1 & H2). eauto.
  - intros nm off t IHt fs IHf cur s m (p & x & y & -> & H1 & H2 & H3). exists p, x, y. auto.
Qed.

(** Lengths. *)
Lemma put_obj_len s o : 1 <= s -> lenN (put_obj s o) = s.
Proof. intros H. unfold put_obj. rewrite lenN_cons, lenN_repN. lia. Qed.
Lemma wf_cont_size k s e : wf (TCont k s e) -> 1 <= s.
Proof. simpl. destruct k; tauto. Qed.
Lemma valid_len :
  (forall t, wf t -> forall m, valid t m -> lenN m = sizeof t) /\
  (forall fs cur s, wf_fields fs cur s -> forall m, valid_fields fs cur s m -> lenN m = s - cur).
Proof.
  apply ty_fields_ind; try (simpl; intros; contradiction).
  - intros n c _ m H. apply bytes_len. exact H.
  - intros n vs _ m H. apply bytes_len. exact H.
  - intros n _ m H. apply bytes_len. exact H.
  - intros s d e IH (_ & Hs & _ & _ & He) m (ms & H1 & -> & H2). simpl. subst s d.
    clear - IH He H2. induction H2 as [|x l Hx Hl IHl]; [reflexivity|].
    cbn [concat]. rewrite lenN_app, lenN_cons, IHl, (IH He _ Hx). lia.
  - intros k s e IH Hw m H. apply wf_cont_size in Hw. destruct k; simpl in *.
    + destruct H as (? & ? & -> & _). apply put_obj_len; assumption.
    + destruct H as (? & -> & _). apply put_obj_len; assumption.
  - intros s fs IH [_ Hw] m H. simpl in *. rewrite (IH _ _ Hw _ H). lia.
  - intros cur s Hw m H. simpl in H. apply bytes_len in H. exact H.
  - intros nm off t IHt fs IHf cur s (H1 & H2 & H3) m (p & x & y & -> & Hp & Hx & Hy).
    rewrite !lenN_app, (bytes_len Hp), (IHt H2 _ Hx), (IHf _ _ H3 _ Hy). assert (X := wf_fields_le H3). lia.
Qed.
