(** * MemoryProofs *)
From Verif Require Import Base Memory MemorySpec.
From Verif Require Import Graph.
Local Open Scope nat_scope.

Definition keys {K A} (l : list (K * A)) : list K := map fst l.
(** ** Lookups *)
Lemma afind_app {A} p (a b : list (addr * A)) : ~ In p (keys a) -> afind p (a ++ b) = afind p b.
Proof. induction a as [|[x v] a IH]; intros Hn; [reflexivity|]. cbn in *. destruct (N.eqb_spec x p) as [-> |E]; [destruct Hn; auto|]. apply IH. tauto. Qed.
Lemma aupdate_app {A} p v (a b : list (addr * A)) : ~ In p (keys a) -> aupdate p v (a ++ b) = a ++ aupdate p v b.
Proof. induction a as [|[x w] a IH]; intros Hn; [reflexivity|]. cbn in *. destruct (N.eqb_spec x p) as [-> |E]; [destruct Hn; auto|]. f_equal. apply IH. tauto. Qed.
Lemma aremove_app {A} p (a b : list (addr * A)) : ~ In p (keys a) -> aremove p (a ++ b) = a ++ aremove p b.
Proof. induction a as [|[x w] a IH]; intros Hn; [reflexivity|]. cbn in *. destruct (N.eqb_spec x p) as [-> |E]; [destruct Hn; auto|]. f_equal. apply IH. tauto. Qed.
Lemma afind_none {A} p (l : list (addr * A)) : afind p l = None <-> ~ In p (keys l).
Proof. induction l as [|[x v] l IH]; cbn; [tauto|]. destruct (N.eqb_spec x p) as [-> |E]; [split; [discriminate|tauto]|]. rewrite IH. tauto. Qed.
Lemma afind_in {A} p v (l : list (addr * A)) : afind p l = Some v -> In (p, v) l.
Proof. induction l as [|[x w] l IH]; cbn; [discriminate|]. destruct (N.eqb_spec x p) as [-> |E]; [intros [= ->]; auto|auto]. Qed.
Lemma afind_head {A} p v (l : list (addr * A)) : afind p ((p, v) :: l) = Some v.
Proof. cbn. rewrite N.eqb_refl. reflexivity. Qed.
Lemma afind_remove {A} p q (l : list (addr * A)) : NoDup (keys l) -> afind q (aremove p l) = if N.eqb q p then None else afind q l.
Proof.
  induction l as [|[x v] l IH]; intros Hn; [cbn; destruct (N.eqb q p); reflexivity|]. inversion Hn as [|? ? Hx Hl]; subst. cbn. destruct (N.eqb_spec x p) as [-> |E].
  - destruct (N.eqb_spec q p) as [-> |E']; [apply afind_none; assumption|]. destruct (N.eqb_spec p q) as [E2|_]; [congruence|reflexivity].
  - cbn. destruct (N.eqb_spec x q) as [-> |E2]; [destruct (N.eqb_spec q p); [congruence|reflexivity]|]. apply IH. assumption.
Qed.
Lemma keys_remove {A} p q (l : list (addr * A)) : In q (keys (aremove p l)) -> In q (keys l).
Proof. induction l as [|[x v] l IH]; [auto|]. cbn. destruct (N.eqb x p); cbn; tauto. Qed.
Lemma nodup_remove {A} p (l : list (addr * A)) : NoDup (keys l) -> NoDup (keys (aremove p l)).
Proof.
  induction l as [|[x v] l IH]; intros Hn; [constructor|]. inversion Hn as [|? ? Hx Hl]; subst. cbn. destruct (N.eqb x p); [assumption|]. cbn. constructor; [|auto]. intros Hi. apply Hx. eapply keys_remove. exact Hi.
Qed.

(** ** The table is right *)
Definition hc (z : list (zid * option addr)) (p : addr) : nat := length (filter (fun x => match snd x with Some q => N.eqb q p | None => false end) z).
Definition oeq (o : option addr) (p : addr) : bool := match o with Some q => N.eqb q p | None => false end.
(** [c]: the references from outside of the list. *)
Fixpoint okT (root : addr -> option addr) (owned : addr -> bool) (T : list (addr * mentry)) (c : addr -> nat) : Prop :=
  match T with
  | [] => forall p, c p = 0
  | (p, e) :: b => me_count e = Z.of_nat (c p) /\ 0 < c p /\ p <> 0%N /\ me_root e = root p /\ me_owned e = owned p /\ ~ In p (keys b) /\ root p <> Some p /\
      okT root owned b (fun q => if N.eqb q p then 0 else c q + (if oeq (me_root e) q then 1 else 0))
  end.
Section Table.
Variables (root : addr -> option addr) (owned : addr -> bool).
Notation ok := (okT root owned).
Lemma okT_ext T : forall c c', (forall p, c p = c' p) -> ok T c -> ok T c'.
Proof.
  induction T as [|[p e] b IH]; intros c c' E H; [intros q; rewrite <- E; apply H|]. destruct H as (A & B & C & D & F & F' & G & H). cbn [okT]. rewrite <- !E. repeat (split; [assumption|]). eapply IH; [|exact H].
  intros q. cbv beta. rewrite E. reflexivity.
Qed.
Lemma okT_in T : forall c p, ok T c -> 0 < c p -> In p (keys T).
Proof.
  induction T as [|[x e] b IH]; intros c p H Hp; [rewrite (H p) in Hp; lia|]. destruct H as (_ & _ & _ & _ & _ & _ & _ & H). cbn. destruct (N.eq_dec x p) as [-> |E]; [auto|]. right.
  apply (IH _ p H). cbv beta. destruct (N.eqb_spec p x); [congruence|]. lia.
Qed.
Lemma okT_zero T : forall c, ok T c -> ~ In 0%N (keys T).
Proof. induction T as [|[x e] b IH]; intros c H; [intros []|]. destruct H as (_ & _ & Hx & _ & _ & _ & _ & H). cbn. intros [E|E]; [congruence|exact (IH _ H E)]. Qed.
Lemma okT_nodup T : forall c, ok T c -> NoDup (keys T).
Proof. induction T as [|[x e] b IH]; intros c H; [constructor|]. destruct H as (_ & _ & _ & _ & _ & Hx & _ & H). cbn. constructor; [exact Hx|exact (IH _ H)]. Qed.
Lemma okT_entry T : forall c p e, ok T c -> In (p, e) T -> me_root e = root p /\ me_owned e = owned p /\ root p <> Some p /\ (0 < me_count e)%Z.
Proof.
  induction T as [|[x f] b IH]; intros c p e H Hi; [destruct Hi|]. destruct H as (A & B & _ & C & D & _ & E & H). destruct Hi as [[= -> ->]|Hi]; [repeat split; auto; lia|]. apply (IH _ _ _ H Hi).
Qed.
Lemma okT_root T : forall c p q, ok T c -> In p (keys T) -> root p = Some q -> In q (keys T).
Proof.
  induction T as [|[x e] b IH]; intros c p q H Hp Hr; [destruct Hp|]. destruct H as (_ & _ & _ & Er & _ & _ & Ns & H). cbn in Hp. cbn. destruct Hp as [-> |Hp].
  - right. apply (@okT_in _ _ q H). cbv beta. destruct (N.eqb_spec q p) as [-> |E]; [congruence|]. rewrite Er, Hr. cbn. rewrite N.eqb_refl. lia.
  - right. apply (IH _ p q H Hp Hr).
Qed.
(** Everything in the table is referenced from outside, directly or through its parts. *)
Inductive reach : addr -> addr -> Prop := reach_refl p : reach p p | reach_step p q x : reach p q -> root q = Some x -> reach p x.
Lemma reach_trans p q x : reach p q -> reach q x -> reach p x.
Proof. intros A B. induction B as [|q y x B IH E]; [assumption|]. apply reach_step with y; auto. Qed.
Lemma okT_reach T : forall c p, ok T c -> In p (keys T) -> exists p0, 0 < c p0 /\ reach p0 p.
Proof.
  induction T as [|[x e] b IH]; intros c p H Hp; [destruct Hp|]. destruct H as (_ & Hx & _ & Er & _ & _ & _ & H). cbn in Hp. destruct Hp as [-> |Hp]; [exists p; split; [assumption|constructor]|].
  destruct (IH _ p H Hp) as (p0 & A & B). cbv beta in A. destruct (N.eqb_spec p0 x); [lia|]. destruct (oeq (me_root e) p0) eqn:Eo; [|exists p0; split; [lia|assumption]].
  exists x. split; [assumption|]. apply reach_trans with p0; [|assumption]. apply reach_step with x; [constructor|]. rewrite <- Er. unfold oeq in Eo. destruct (me_root e) as [y|]; [|discriminate]. apply N.eqb_eq in Eo. congruence.
Qed.
Lemma reach_in T c p q : ok T c -> In p (keys T) -> reach p q -> In q (keys T).
Proof. intros H Hp R. induction R as [|p q x R IH E]; [assumption|]. exact (@okT_root _ _ _ _ H (IH Hp) E). Qed.

(** ** Dropping one reference *)
(** The list without it, and the blocks that are gone, in order. *)
Fixpoint unrefT (T : list (addr * mentry)) (p : addr) : list (addr * mentry) * list addr :=
  match T with
  | [] => ([], [])
  | (x, e) :: b =>
      if N.eqb x p then
        if negb (me_count e - 1 =? 0)%Z then ((x, with_count e (me_count e - 1)%Z) :: b, [])
        else match me_root e with Some q => let '(b', r) := unrefT b q in (b', p :: r) | None => (b, [p]) end
      else let '(b', r) := unrefT b p in ((x, e) :: b', r)
  end.
Definition less (c : addr -> nat) (p : addr) : addr -> nat := fun q => if N.eqb q p then c q - 1 else c q.
Lemma unrefT_ok T : forall c p T' R, ok T c -> 0 < c p -> unrefT T p = (T', R) ->
  ok T' (less c p) /\ (forall q, In q (keys T) <-> In q (keys T') \/ In q R) /\ (forall q, In q (keys T') -> ~ In q R) /\ NoDup R.
Proof.
  induction T as [|[x e] b IH]; intros c p T' R H Hp E; [rewrite (H p) in Hp; lia|]. cbn [okT] in H. destruct H as (H1 & H2 & H3 & H4 & H5 & H6 & H7 & H8). cbn [unrefT] in E.
  destruct (N.eqb_spec x p) as [-> |Ex].
  - destruct (Z.eqb_spec (me_count e - 1) 0) as [Ec|Ec]; cbn [negb] in E.
    + assert (Cp : c p = 1) by lia. destruct (me_root e) as [q|] eqn:Er.
      * destruct (unrefT b q) as [b' r] eqn:Eu. injection E as <- <-. assert (Nq : q <> p) by (intros ->; congruence).
        destruct (IH _ q b' r H8) as (A & B & C & D); [cbv beta; destruct (N.eqb_spec q p); [congruence|]; cbn; rewrite N.eqb_refl; lia|exact Eu|].
        assert (Np : ~ In p r) by (intros X; apply H6; apply B; auto). split; [|split; [|split]].
        -- eapply okT_ext; [|exact A]. intros y. unfold less. cbn [oeq]. destruct (N.eqb_spec y q) as [-> |E1]; [destruct (N.eqb_spec q p); [congruence|]; rewrite N.eqb_refl; lia|].
           destruct (N.eqb_spec y p) as [-> |E2]; [lia|]. destruct (N.eqb_spec q y); [congruence|lia].
        -- intros y. cbn. rewrite B. tauto.
        -- intros y Hy [<- |Hr]; [apply H6; apply B; auto|exact (C y Hy Hr)].
        -- constructor; assumption.
      * injection E as <- <-. split; [|split; [|split]].
        -- eapply okT_ext; [|exact H8]. intros y. unfold less. cbn [oeq]. destruct (N.eqb_spec y p) as [-> |E2]; lia.
        -- intros y. cbn. tauto.
        -- intros y Hy [<- |[]]. contradiction.
        -- constructor; [intros []|constructor].
    + injection E as <- <-. split; [|split; [|split]].
      * cbn [okT with_count me_count me_root me_owned]. unfold less at 1 2. rewrite N.eqb_refl. repeat split; try assumption; try lia.
        eapply okT_ext; [|exact H8]. intros y. cbv beta. unfold less. destruct (N.eqb_spec y p); lia.
      * intros y. cbn. tauto.
      * intros y _ [].
      * constructor.
  - destruct (unrefT b p) as [b' r] eqn:Eu. injection E as <- <-.
    destruct (IH _ p b' r H8) as (A & B & C & D); [cbv beta; destruct (N.eqb_spec p x); [congruence|lia]|exact Eu|].
    assert (Nx : ~ In x r) by (intros X; apply H6; apply B; auto). assert (Nx' : ~ In x (keys b')) by (intros X; apply H6; apply B; auto). split; [|split; [|split]].
    + cbn [okT]. unfold less at 1 2. destruct (N.eqb_spec x p); [congruence|]. repeat split; try assumption. eapply okT_ext; [|exact A]. intros y. unfold less. destruct (N.eqb_spec y p) as [-> |E1]; [|reflexivity].
      destruct (N.eqb_spec p x) as [E2|_]; [congruence|]. lia.
    + intros y. cbn. rewrite B. tauto.
    + intros y [<- |Hy]; [assumption|apply C; exact Hy].
    + assumption.
Qed.
End Table.

(** ** Types and layouts *)
Definition cntT (t : tid) (l : list (addr * tid)) : nat := length (filter (fun x => snd x =? t) l).
Record tyInv (ty : list (addr * tid)) (ly : list (tid * Z)) : Prop := {
  ti_keys : NoDup (keys ty);
  ti_lkeys : NoDup (keys ly);
  ti_count : forall t, nfind t ly = if cntT t ty =? 0 then None else Some (Z.of_nat (cntT t ty))
}.
Lemma nfind_none {A} p (l : list (nat * A)) : nfind p l = None <-> ~ In p (keys l).
Proof. induction l as [|[x v] l IH]; cbn; [tauto|]. destruct (Nat.eqb_spec x p) as [-> |E]; [split; [discriminate|tauto]|]. rewrite IH. tauto. Qed.
Lemma nfind_in {A} p v (l : list (nat * A)) : nfind p l = Some v -> In (p, v) l.
Proof. induction l as [|[x w] l IH]; cbn; [discriminate|]. destruct (Nat.eqb_spec x p) as [-> |E]; [intros [= ->]; auto|auto]. Qed.
Lemma in_nfind {A} p v (l : list (nat * A)) : NoDup (keys l) -> In (p, v) l -> nfind p l = Some v.
Proof.
  induction l as [|[x w] l IH]; intros Hn Hi; [destruct Hi|]. inversion Hn as [|? ? Hx Hl]; subst. cbn. destruct Hi as [[= -> ->]|Hi]; [rewrite Nat.eqb_refl; reflexivity|].
  destruct (Nat.eqb_spec x p) as [-> |E]; [|auto]. exfalso. apply Hx. apply (in_map fst) in Hi. exact Hi.
Qed.
Lemma nfind_remove {A} p q (l : list (nat * A)) : NoDup (keys l) -> nfind q (nremove p l) = if q =? p then None else nfind q l.
Proof.
  induction l as [|[x v] l IH]; intros Hn; [cbn; destruct (q =? p); reflexivity|]. inversion Hn as [|? ? Hx Hl]; subst. cbn. destruct (Nat.eqb_spec x p) as [-> |E].
  - destruct (Nat.eqb_spec q p) as [-> |E']; [apply nfind_none; assumption|]. destruct (Nat.eqb_spec p q) as [E2|_]; [congruence|reflexivity].
  - cbn. destruct (Nat.eqb_spec x q) as [-> |E2]; [destruct (Nat.eqb_spec q p); [congruence|reflexivity]|]. apply IH. assumption.
Qed.
Lemma nfind_update {A} p q v (l : list (nat * A)) : nfind p l <> None -> nfind q (nupdate p v l) = if q =? p then Some v else nfind q l.
Proof.
  induction l as [|[x w] l IH]; cbn; [congruence|]. destruct (Nat.eqb_spec x p) as [-> |E]; intros Hn.
  - cbn. rewrite (Nat.eqb_sym p q). destruct (q =? p); reflexivity.
  - cbn. destruct (Nat.eqb_spec x q) as [-> |E2]; [destruct (Nat.eqb_spec q p); [congruence|reflexivity]|]. apply IH. exact Hn.
Qed.
Lemma keys_nremove {A} p q (l : list (nat * A)) : In q (keys (nremove p l)) -> In q (keys l).
Proof. induction l as [|[x v] l IH]; [auto|]. cbn. destruct (x =? p); cbn; tauto. Qed.
Lemma nodup_nremove {A} p (l : list (nat * A)) : NoDup (keys l) -> NoDup (keys (nremove p l)).
Proof.
  induction l as [|[x v] l IH]; intros Hn; [constructor|]. inversion Hn as [|? ? Hx Hl]; subst. cbn. destruct (x =? p); [assumption|]. cbn. constructor; [|auto]. intros Hi. apply Hx. eapply keys_nremove. exact Hi.
Qed.
Lemma keys_nupdate {A} p v (l : list (nat * A)) : keys (nupdate p v l) = keys l.
Proof. unfold keys. induction l as [|[x w] l IH]; [reflexivity|]. cbn. destruct (x =? p); cbn; [reflexivity|]. f_equal. exact IH. Qed.
Lemma cnt_remove p t u (l : list (addr * tid)) : afind p l = Some t -> cntT u l = cntT u (aremove p l) + (if t =? u then 1 else 0).
Proof.
  unfold cntT. induction l as [|[x v] l IH]; cbn; [discriminate|]. destruct (N.eqb x p).
  - intros [= ->]. destruct (t =? u); cbn; lia.
  - intros E. cbn. specialize (IH E). destruct (v =? u); cbn; lia.
Qed.
Lemma aremove_none {A} p (l : list (addr * A)) : afind p l = None -> aremove p l = l.
Proof. induction l as [|[x v] l IH]; cbn; [reflexivity|]. destruct (N.eqb x p); [discriminate|]. intros E. f_equal. auto. Qed.
Lemma ty_layout ty ly p t : tyInv ty ly -> afind p ty = Some t -> 0 < cntT t ty /\ nfind t ly = Some (Z.of_nat (cntT t ty)).
Proof.
  intros [_ _ C] E. assert (P := cnt_remove t E). rewrite Nat.eqb_refl in P. split; [lia|]. rewrite C. destruct (Nat.eqb_spec (cntT t ty) 0); [lia|reflexivity].
Qed.
Lemma forget_ok m p : tyInv (mm_types m) (mm_layouts m) -> exists ly', forget_type m p = (set_types m (aremove p (mm_types m)) ly', Ok tt) /\ tyInv (aremove p (mm_types m)) ly'.
Proof.
  intros I. unfold forget_type. destruct (afind p (mm_types m)) as [t|] eqn:E.
  - destruct (ty_layout I E) as [Hp Hl]. rewrite Hl. eexists. split; [reflexivity|]. assert (P := fun u => cnt_remove u E). destruct I as [K1 K2 C]. split; [apply nodup_remove; assumption| |].
    + destruct (_ =? 0)%Z; [apply nodup_nremove; assumption|rewrite keys_nupdate; assumption].
    + intros u. specialize (P u). destruct (Z.eqb_spec (Z.of_nat (cntT t (mm_types m)) - 1) 0) as [E1|E1].
      * rewrite nfind_remove by assumption. destruct (Nat.eqb_spec u t) as [-> |E2]; [rewrite Nat.eqb_refl in P; replace (cntT t (aremove p (mm_types m))) with 0 by lia; reflexivity|].
        rewrite C. destruct (Nat.eqb_spec t u); [congruence|]. rewrite Nat.add_0_r in P. rewrite P. reflexivity.
      * rewrite nfind_update by (rewrite Hl; discriminate). destruct (Nat.eqb_spec u t) as [-> |E2].
        -- rewrite Nat.eqb_refl in P. destruct (Nat.eqb_spec (cntT t (aremove p (mm_types m))) 0); [lia|]. f_equal. lia.
        -- rewrite C. destruct (Nat.eqb_spec t u); [congruence|]. rewrite Nat.add_0_r in P. rewrite P. reflexivity.
  - rewrite (aremove_none E). exists (mm_layouts m). split; [|assumption]. destruct m; reflexivity.
Qed.

(** ** memory_unref *)
Definition evs (owned : addr -> bool) (ty : list (addr * tid)) (p : addr) : list mevent :=
  if owned p then (match afind p ty with Some t => [EvDestroy p t] | None => [] end) ++ [EvFree p] else [].
Definition minus (ty : list (addr * tid)) (R : list addr) : list (addr * tid) := fold_right (fun p l => aremove p l) ty R.
Lemma mem_eta m : Mem (mm_table m) (mm_types m) (mm_layouts m) (mm_zones m) (mm_next m) (mm_log m) = m.
Proof. destruct m; reflexivity. Qed.
Lemma unref_model root owned T : forall f c p T' R m a, okT root owned T c -> 0 < c p -> unrefT T p = (T', R) -> length T < f -> mm_table m = a ++ T ->
  (forall x, In x (keys T) -> ~ In x (keys a)) -> tyInv (mm_types m) (mm_layouts m) ->
  exists ly', memory_unref f m p = (Mem (a ++ T') (minus (mm_types m) R) ly' (mm_zones m) (mm_next m) (mm_log m ++ concat (map (evs owned (mm_types m)) R)), Ok tt) /\
    tyInv (minus (mm_types m) R) ly'.
Proof.
  induction T as [|[x e] b IH]; intros f c p T' R m a H Hp E Hf Et Hd I; [rewrite (H p) in Hp; lia|]. cbn [okT] in H. destruct H as (H1 & H2 & H3 & H4 & H5 & H6 & H7 & H8). cbn [unrefT] in E.
  destruct (N.eqb_spec x p) as [-> |Ex].
  - destruct f as [|f]; [lia|]. cbn [memory_unref]. assert (Na : ~ In p (keys a)) by (apply Hd; left; reflexivity). rewrite Et, (afind_app _ Na), afind_head. cbv zeta. rewrite (aupdate_app _ _ Na). cbn [mupdate]. rewrite N.eqb_refl.
    destruct (me_count e - 1 =? 0)%Z eqn:Ec; cbn [negb] in E |- *.
    + set (e0 := with_count e (me_count e - 1)%Z). set (m1 := set_table m (a ++ (p, e0) :: b)).
      match goal with |- context [if me_owned e then ?A else ?B] => replace (if me_owned e then A else B) with (Mem (a ++ (p, e0) :: b) (mm_types m) (mm_layouts m) (mm_zones m) (mm_next m) (mm_log m ++ evs owned (mm_types m) p)) end.
      2: { unfold evs. rewrite H5. destruct (owned p); [|unfold set_table; rewrite app_nil_r; reflexivity]. unfold memory_delete. cbn [set_table mm_types mm_layouts].
        destruct (afind p (mm_types m)) as [t|] eqn:Ep; [|reflexivity]. destruct (ty_layout I Ep) as [_ ->]. reflexivity. }
      destruct (me_root e) as [q|] eqn:Er.
      * destruct (unrefT b q) as [b' r] eqn:Eu. injection E as <- <-. assert (Nq : q <> p) by (intros ->; congruence).
        set (m2 := Mem _ _ _ _ _ _).
        destruct (IH f _ q b' r m2 (a ++ [(p, e0)]) H8) as (ly' & X & Y); [cbv beta; destruct (N.eqb_spec q p); [congruence|]; cbn; rewrite N.eqb_refl; lia|exact Eu|cbn in Hf; lia|cbn [m2 mm_table]; rewrite <- app_assoc; reflexivity| |exact I|].
        { intros y Hy. unfold keys. rewrite map_app. intros Hi. apply in_app_or in Hi. destruct Hi as [Hi|[<- |[]]]; [apply (Hd y); [right; exact Hy|exact Hi]|]. contradiction. }
        rewrite X. cbn [m2 mm_types mm_log mm_zones mm_next] in *. cbn [set_table mm_table mm_types mm_layouts mm_zones mm_next mm_log].
        rewrite <- app_assoc, (aremove_app _ Na). cbn [app mremove]. rewrite N.eqb_refl.
        destruct (forget_ok (m := Mem (a ++ b') (minus (mm_types m) r) ly' (mm_zones m) (mm_next m) ((mm_log m ++ evs owned (mm_types m) p) ++ concat (map (evs owned (mm_types m)) r))) p Y) as (ly2 & Z1 & Z2).
        exists ly2. unfold set_table. cbn [mm_table mm_types mm_layouts mm_zones mm_next mm_log]. rewrite Z1. split; [|exact Z2]. cbn [set_types mm_table mm_types mm_layouts mm_zones mm_next mm_log map concat]. rewrite <- app_assoc. reflexivity.
      * injection E as <- <-. cbn [set_table mm_table mm_types mm_layouts mm_zones mm_next mm_log]. rewrite (aremove_app _ Na). cbn [mremove]. rewrite N.eqb_refl.
        destruct (forget_ok (m := Mem (a ++ b) (mm_types m) (mm_layouts m) (mm_zones m) (mm_next m) (mm_log m ++ evs owned (mm_types m) p)) p I) as (ly2 & Z1 & Z2).
        exists ly2. unfold set_table. cbn [mm_table mm_types mm_layouts mm_zones mm_next mm_log]. rewrite Z1. split; [|exact Z2]. cbn [set_types mm_table mm_types mm_layouts mm_zones mm_next mm_log map concat]. rewrite app_nil_r. reflexivity.
    + injection E as <- <-. exists (mm_layouts m). split; [|exact I]. unfold set_table. cbn [map concat minus fold_right]. rewrite app_nil_r. reflexivity.
  - destruct (unrefT b p) as [b' r] eqn:Eu. injection E as <- <-.
    destruct (IH f _ p b' r m (a ++ [(x, e)]) H8) as (ly' & X & Y); [cbv beta; destruct (N.eqb_spec p x); [congruence|lia]|exact Eu|cbn in Hf; lia|rewrite <- app_assoc; exact Et| |exact I|].
    { intros y Hy. unfold keys. rewrite map_app. intros Hi. apply in_app_or in Hi. destruct Hi as [Hi|[<- |[]]]; [apply (Hd y); [right; exact Hy|exact Hi]|]. contradiction. }
    exists ly'. rewrite X, <- app_assoc. split; [reflexivity|exact Y].
Qed.

(** ** The invariant *)
Definition zptr (x : zid * option addr) : zid * addr := (fst x, match snd x with Some p => p | None => 0%N end).
Definition alive (owned : addr -> bool) (T : list (addr * mentry)) (p : addr) : nat := match afind p T with Some _ => if owned p then 1 else 0 | None => 0 end.
Record mInv (m : mem) (s : refs) : Prop := {
  mi_tab : okT (rf_root s) (rf_owned s) (mm_table m) (hc (rf_zones s));
  mi_zones : mm_zones m = map zptr (rf_zones s);
  mi_next : mm_next m = rf_next s;
  mi_znd : NoDup (keys (rf_zones s));
  mi_zlt : forall z, In z (keys (rf_zones s)) -> z < rf_next s;
  mi_ty : tyInv (mm_types m) (mm_layouts m);
  mi_known : forall p, In p (keys (mm_table m)) -> afind p (mm_types m) = rf_type s p;
  mi_unknown : forall p, ~ In p (keys (mm_table m)) -> afind p (mm_types m) = None;
  mi_obj : forall z p, In (z, Some p) (rf_zones s) -> memory_aref m p = Some z;
  mi_count : forall p, times (EvAlloc p) (mm_log m) = times (EvFree p) (mm_log m) + alive (rf_owned s) (mm_table m) p
}.
Lemma hc_in z p : 0 < hc z p <-> exists k, In (k, Some p) z.
Proof.
  unfold hc. split.
  - induction z as [|[k [q|]] z IH]; cbn; [lia| |intros Hp; destruct (IH Hp) as (j & Hj); exists j; auto]. destruct (N.eqb_spec q p) as [-> |E]; [intros _; exists k; auto|]. intros Hp. destruct (IH Hp) as (j & Hj). exists j; auto.
  - intros (k & Hk). apply (in_split) in Hk. destruct Hk as (a & b & ->). rewrite filter_app, app_length. cbn. rewrite N.eqb_refl. cbn. lia.
Qed.
Lemma referenced_reach s p : referenced s p <-> exists p0, 0 < hc (rf_zones s) p0 /\ reach (rf_root s) p0 p.
Proof.
  split.
  - induction 1 as [z p Hz|p q Hp (p0 & A & B) E]; [exists p; split; [apply hc_in; eauto|constructor]|]. exists p0. split; [exact A|]. apply reach_step with p; assumption.
  - intros (p0 & A & B). apply hc_in in A. destruct A as (k & Hk). induction B as [p0|p0 q x B IH E]; [eapply ref_zone; exact Hk|]. apply ref_part with q; auto.
Qed.
Lemma referenced_in m s p : mInv m s -> (referenced s p <-> In p (keys (mm_table m))).
Proof.
  intros I. rewrite referenced_reach. split.
  - intros (p0 & A & B). eapply reach_in; [exact (mi_tab I)| |exact B]. eapply okT_in; [exact (mi_tab I)|exact A].
  - intros Hi. apply (okT_reach (mi_tab I) Hi).
Qed.
Lemma mInv0 : mInv mem0 refs0.
Proof.
  constructor; cbn; try reflexivity; try tauto; try (constructor; fail).
  split; [constructor|constructor|]. intros t. reflexivity.
Qed.
Lemma zone_find s z o : NoDup (keys (rf_zones s)) -> In (z, o) (rf_zones s) -> nfind z (map zptr (rf_zones s)) = Some (match o with Some p => p | None => 0%N end).
Proof.
  intros Hn Hi. apply in_nfind; [|apply (in_map zptr) in Hi; exact Hi]. unfold keys. rewrite map_map. exact Hn.
Qed.
Lemma drop_model z (l : list (zid * option addr)) : NoDup (keys l) -> nremove z (map zptr l) = map zptr (drop_zone z l).
Proof.
  induction l as [|[k o] l IH]; intros Hn; [reflexivity|]. inversion Hn as [|? ? Hk Hl]; subst. cbn. destruct (Nat.eqb_spec k z) as [-> |E]; cbn; [|f_equal; auto].
  f_equal. symmetry. clear IH Hn. assert (X : forall k o, In (k, o) l -> k <> z) by (intros k o' Hi ->; apply Hk; apply (in_map fst) in Hi; exact Hi). clear -X. unfold drop_zone. induction l as [|[k o] l IH]; [reflexivity|]. cbn.
  destruct (Nat.eqb_spec k z) as [E|E]; [destruct (X k o); [left; reflexivity|exact E]|]. cbn. f_equal. apply IH. intros j o' Hj. apply (X j o'). right. exact Hj.
Qed.
Lemma null_model z (l : list (zid * option addr)) : NoDup (keys l) -> nupdate z 0%N (map zptr l) = map zptr (null_zone z l).
Proof.
  induction l as [|[k o] l IH]; intros Hn; [reflexivity|]. inversion Hn as [|? ? Hk Hl]; subst. cbn. destruct (Nat.eqb_spec k z) as [-> |E]; cbn; [|f_equal; auto].
  f_equal. symmetry. clear IH Hn. assert (X : forall k o, In (k, o) l -> k <> z) by (intros k o' Hi ->; apply Hk; apply (in_map fst) in Hi; exact Hi). clear -X. unfold null_zone. induction l as [|[k o] l IH]; [reflexivity|]. cbn.
  destruct (Nat.eqb_spec k z) as [E|E]; [destruct (X k o); [left; reflexivity|exact E]|]. cbn. f_equal. apply IH. intros j o' Hj. apply (X j o'). right. exact Hj.
Qed.
Lemma hc_cons k o l p : hc ((k, o) :: l) p = (if oeq o p then 1 else 0) + hc l p.
Proof. unfold hc. cbn. destruct o as [q|]; cbn; [destruct (N.eqb q p); reflexivity|reflexivity]. Qed.
Lemma hc_drop z l : NoDup (keys l) -> forall o p, In (z, o) l -> hc l p = hc (drop_zone z l) p + (if oeq o p then 1 else 0).
Proof.
  induction l as [|[k o] l IH]; intros Hn o0 p Hi; [destruct Hi|]. inversion Hn as [|? ? Hk Hl]; subst. rewrite hc_cons. unfold drop_zone. cbn [filter fst]. destruct Hi as [[= -> ->]|Hi].
  - rewrite Nat.eqb_refl. cbn [negb]. rewrite (Nat.add_comm (if oeq o0 p then 1 else 0)). f_equal. f_equal. symmetry.
    assert (X : forall x, In x l -> negb (fst x =? z) = true). { intros x Hx. destruct (Nat.eqb_spec (fst x) z) as [E|E]; [|reflexivity]. exfalso. apply Hk. rewrite <- E. apply in_map. exact Hx. }
    clear -X. induction l as [|x l IH]; [reflexivity|]. cbn. rewrite X by (left; reflexivity). f_equal. apply IH. intros y Hy. apply X. right. exact Hy.
  - destruct (Nat.eqb_spec k z) as [-> |E]; [exfalso; apply Hk; apply (in_map fst) in Hi; exact Hi|]. cbn [negb]. rewrite hc_cons, (IH Hl o0 p Hi). unfold drop_zone. lia.
Qed.
Lemma hc_null z l : NoDup (keys l) -> forall p, hc (null_zone z l) p = hc (drop_zone z l) p.
Proof.
  induction l as [|[k o] l IH]; intros Hn p; [reflexivity|]. inversion Hn as [|? ? Hk Hl]; subst. specialize (IH Hl p). unfold null_zone, drop_zone in *. cbn [map filter fst]. destruct (Nat.eqb_spec k z) as [-> |E]; cbn [negb]; rewrite ?hc_cons; cbn [oeq]; rewrite IH; reflexivity.
Qed.
Lemma keys_null z l : keys (null_zone z l) = keys l.
Proof. unfold keys, null_zone. rewrite map_map. apply map_ext. intros [k o]. cbn. destruct (Nat.eqb_spec k z); [subst|]; reflexivity. Qed.
Lemma keys_drop z k l : In k (keys (drop_zone z l)) -> In k (keys l) /\ k <> z.
Proof. unfold keys, drop_zone. rewrite !in_map_iff. intros ((j & o) & <- & Hi). apply filter_In in Hi. destruct Hi as [A B]. cbn in *. split; [exists (j, o); auto|]. intros ->. rewrite Nat.eqb_refl in B. discriminate. Qed.
Lemma nodup_drop z l : NoDup (keys l) -> NoDup (keys (drop_zone z l)).
Proof.
  induction l as [|[k o] l IH]; intros Hn; [constructor|]. inversion Hn as [|? ? Hk Hl]; subst. unfold drop_zone. cbn [filter fst]. destruct (k =? z); cbn [negb]; [auto|]. cbn. constructor; [|apply IH; assumption]. intros Hi. apply Hk. apply (keys_drop Hi).
Qed.
Lemma in_null z k p l : In (k, Some p) (null_zone z l) -> In (k, Some p) l /\ k <> z.
Proof. unfold null_zone. rewrite in_map_iff. intros ((j & o) & E & Hi). cbn in E. destruct (Nat.eqb_spec j z); [discriminate|]. injection E as -> ->. auto. Qed.
Lemma in_drop z k p l : In (k, Some p) (drop_zone z l) -> In (k, Some p) l /\ k <> z.
Proof. unfold drop_zone. rewrite filter_In. cbn. intros [A B]. split; [exact A|]. intros ->. rewrite Nat.eqb_refl in B. discriminate. Qed.

(** ** Events of a drop *)
Ltac evdec := cbn [count_occ app]; repeat match goal with |- context [mevent_dec ?a ?b] => destruct (mevent_dec a b); try congruence; try discriminate end; try reflexivity.
Lemma evs_free owned ty R q : NoDup R -> times (EvFree q) (concat (map (evs owned ty) R)) = if in_dec N.eq_dec q R then if owned q then 1 else 0 else 0.
Proof.
  unfold times. induction R as [|p R IH]; intros Hn; [reflexivity|]. inversion Hn as [|? ? Hp Hr]; subst. cbn [map concat]. rewrite count_occ_app, (IH Hr). clear IH.
  assert (E : count_occ mevent_dec (evs owned ty p) (EvFree q) = if N.eq_dec p q then if owned q then 1 else 0 else 0).
  { unfold evs. destruct (N.eq_dec p q) as [-> |E]; destruct (owned _); try reflexivity; [|]; destruct (afind _ ty) as [t|]; evdec. }
  rewrite E. destruct (N.eq_dec p q) as [-> |E1]; destruct (in_dec N.eq_dec q R) as [E2|E2]; destruct (in_dec N.eq_dec q _) as [E3|E3]; cbn in E3; try tauto; lia.
Qed.
Lemma evs_alloc owned ty R q : times (EvAlloc q) (concat (map (evs owned ty) R)) = 0.
Proof.
  unfold times. induction R as [|p R IH]; [reflexivity|]. cbn [map concat]. rewrite count_occ_app, IH, Nat.add_0_r. unfold evs. destruct (owned p); [|reflexivity]. destruct (afind p ty) as [t|]; evdec.
Qed.
Lemma evs_in owned ty R q : In (EvFree q) (concat (map (evs owned ty) R)) <-> In q R /\ owned q = true.
Proof.
  rewrite in_concat. split.
  - intros (l & Hl & Hi). apply in_map_iff in Hl. destruct Hl as (p & <- & Hp). unfold evs in Hi. destruct (owned p) eqn:Eo; [|destruct Hi]. apply in_app_or in Hi. destruct Hi as [Hi|[[= <-]|[]]]; [destruct (afind p ty); cbn in Hi; [destruct Hi as [Hi|[]]; discriminate|destruct Hi]|auto].
  - intros [Hr Eo]. exists (evs owned ty q). split; [apply in_map; exact Hr|]. unfold evs. rewrite Eo. apply in_or_app. right. left. reflexivity.
Qed.
Lemma evs_destroy owned ty R q t : In (EvDestroy q t) (concat (map (evs owned ty) R)) -> In q R /\ owned q = true /\ afind q ty = Some t.
Proof.
  rewrite in_concat. intros (l & Hl & Hi). apply in_map_iff in Hl. destruct Hl as (p & <- & Hp). unfold evs in Hi. destruct (owned p) eqn:Eo; [|destruct Hi]. apply in_app_or in Hi.
  destruct Hi as [Hi|[Hi|[]]]; [|discriminate]. destruct (afind p ty) as [u|] eqn:E; [|destruct Hi]. destruct Hi as [[= <- <-]|[]]. auto.
Qed.
Lemma evs_order owned ty R q t : In q R -> owned q = true -> afind q ty = Some t -> exists a b, concat (map (evs owned ty) R) = a ++ EvDestroy q t :: EvFree q :: b.
Proof.
  intros Hr Eo E. apply in_split in Hr. destruct Hr as (a & b & ->). rewrite map_app, concat_app. cbn [map concat]. unfold evs at 2. rewrite Eo, E. eexists _, _. reflexivity.
Qed.
Lemma minus_find ty R p : NoDup (keys ty) -> NoDup (keys (minus ty R)) /\ afind p (minus ty R) = if in_dec N.eq_dec p R then None else afind p ty.
Proof.
  intros Hn. induction R as [|q R [A B]]; [auto|]. change (minus ty (q :: R)) with (aremove q (minus ty R)). split; [apply nodup_remove; exact A|]. rewrite afind_remove by exact A. rewrite B. destruct (N.eqb_spec p q) as [-> |E].
  - destruct (in_dec N.eq_dec q (q :: R)) as [_|X]; [reflexivity|destruct X; left; reflexivity].
  - destruct (in_dec N.eq_dec p R) as [X|X], (in_dec N.eq_dec p (q :: R)) as [Y|Y]; cbn in Y; try reflexivity; [tauto|]. destruct Y as [Y|Y]; [congruence|contradiction].
Qed.

(** ** One call *)
Definition freed (al : option addr) (s s' : refs) (ev : list mevent) : Prop :=
  (forall p, times (EvFree p) ev <= 1 /\ times (EvAlloc p) ev = if oeq al p then 1 else 0) /\
  (forall p, In (EvFree p) ev <-> rf_owned s p = true /\ referenced s p /\ ~ referenced s' p) /\
  (forall p t, In (EvDestroy p t) ev <-> In (EvFree p) ev /\ rf_type s p = Some t) /\
  (forall p t, In (EvDestroy p t) ev -> exists a b, ev = a ++ EvDestroy p t :: EvFree p :: b).
(** Removing the reference of a zone to [p]. *)
Lemma drop_ok m s f z p s' : mInv m s -> In (z, Some p) (rf_zones s) -> length (mm_table m) < f ->
  rf_root s' = rf_root s -> rf_owned s' = rf_owned s -> rf_type s' = rf_type s -> rf_next s' = rf_next s -> NoDup (keys (rf_zones s')) ->
  (forall k, In k (keys (rf_zones s')) -> In k (keys (rf_zones s))) -> (forall q, hc (rf_zones s') q = less (hc (rf_zones s)) p q) -> (forall k q, In (k, Some q) (rf_zones s') -> In (k, Some q) (rf_zones s)) ->
  exists m' ev, memory_unref f m p = (m', Ok tt) /\ mm_zones m' = mm_zones m /\ mm_next m' = mm_next m /\ mm_log m' = mm_log m ++ ev /\ mInv (set_zones m' (map zptr (rf_zones s')) (mm_next m')) s' /\ freed None s s' ev.
Proof.
  intros I Hz Hf Er Eo Ety En Nd Kz Hh Zz. destruct (unrefT (mm_table m) p) as [T' R] eqn:Eu. assert (Hp : 0 < hc (rf_zones s) p) by (apply hc_in; eauto).
  destruct (unrefT_ok (mi_tab I) Hp Eu) as (A & B & C & D).
  destruct (unref_model (a := []) (mi_tab I) Hp Eu Hf eq_refl (fun _ _ X => X) (mi_ty I)) as (ly' & X & Y). eexists. exists (concat (map (evs (rf_owned s) (mm_types m)) R)). split; [exact X|]. cbn [mm_zones mm_next mm_log app]. do 3 (split; [reflexivity|]).
  assert (J : mInv (set_zones (Mem T' (minus (mm_types m) R) ly' (mm_zones m) (mm_next m) (mm_log m ++ concat (map (evs (rf_owned s) (mm_types m)) R))) (map zptr (rf_zones s')) (mm_next m)) s').
  { constructor; unfold set_zones; cbn [mm_table mm_types mm_layouts mm_zones mm_next mm_log].
    - rewrite Er, Eo. eapply okT_ext; [|exact A]. intros q. symmetry. apply Hh.
    - reflexivity.
    - rewrite En. apply (mi_next I).
    - exact Nd.
    - intros k Hk. rewrite En. apply (mi_zlt I). apply Kz. exact Hk.
    - exact Y.
    - intros q Hq. rewrite (proj2 (minus_find R q (ti_keys (mi_ty I)))). destruct (in_dec N.eq_dec q R) as [X1|X1]; [destruct (C q Hq X1)|]. rewrite Ety. apply (mi_known I). apply B. auto.
    - intros q Hq. rewrite (proj2 (minus_find R q (ti_keys (mi_ty I)))). destruct (in_dec N.eq_dec q R) as [X1|X1]; [reflexivity|]. apply (mi_unknown I). intros Hi. apply B in Hi. tauto.
    - intros k q Hk. assert (O := mi_obj I (Zz k q Hk)). unfold memory_aref in *. cbn [mm_table] in *. destruct (afind q (mm_table m)) as [e|] eqn:Ee; [|discriminate].
      assert (Hq : In q (keys T')) by (eapply okT_in; [exact A|]; rewrite <- Hh; apply hc_in; eauto).
      assert (O' : forall T c, okT (rf_root s) (rf_owned s) T c -> forall q p T' R, unrefT T p = (T', R) -> In q (keys T') -> option_map me_object (afind q T') = option_map me_object (afind q T)).
      { clear. induction T as [|[x e] b IH]; intros c H q p T' R E Hq; [injection E as <- <-; reflexivity|]. destruct H as (_ & _ & _ & _ & _ & Hx & _ & H). cbn [unrefT] in E. destruct (N.eqb_spec x p) as [-> |Ex].
        - destruct (me_count e - 1 =? 0)%Z; cbn [negb] in E.
          + assert (Sub : forall y, In y (keys T') -> In y (keys b)).
            { destruct (me_root e) as [r|]; [|injection E as <- <-; auto]. destruct (unrefT b r) as [b' R'] eqn:Eb. injection E as <- <-. clear -Eb. revert r b' R' Eb. induction b as [|[y f] b IH]; intros r b' R' Eb; [injection Eb as <- <-; auto|].
              cbn [unrefT] in Eb. intros v Hv. destruct (N.eqb y r).
              - destruct (negb _); [injection Eb as <- <-; exact Hv|]. destruct (me_root f) as [w|]; [|injection Eb as <- <-; right; exact Hv]. destruct (unrefT b w) as [b2 R2] eqn:E2. injection Eb as <- <-. right. eapply IH; eauto.
              - destruct (unrefT b r) as [b2 R2] eqn:E2. injection Eb as <- <-. destruct Hv as [Hv|Hv]; [left; exact Hv|right; eapply IH; eauto]. }
            cbn [mfind]. destruct (N.eqb_spec p q) as [-> |Ne]; [destruct (Hx (Sub q Hq))|]. destruct (me_root e) as [r|]; [|injection E as <- <-; reflexivity]. destruct (unrefT b r) as [b' R'] eqn:Eb. injection E as <- <-. apply (IH _ H q r b' R' Eb Hq).
          + injection E as <- <-. cbn [mfind]. destruct (N.eqb p q); reflexivity.
        - destruct (unrefT b p) as [b' R'] eqn:Eb. injection E as <- <-. cbn [mfind]. destruct (N.eqb_spec x q) as [-> |Ne]; [reflexivity|]. destruct Hq as [Hq|Hq]; [cbn in Hq; congruence|]. apply (IH _ H q p b' R' Eb Hq). }
      rewrite (O' _ _ (mi_tab I) q p T' R Eu Hq). rewrite Ee. exact O.
    - intros q. rewrite Eo. unfold times. rewrite !count_occ_app. fold (times (EvAlloc q) (mm_log m)) (times (EvFree q) (mm_log m)) (times (EvAlloc q) (concat (map (evs (rf_owned s) (mm_types m)) R))) (times (EvFree q) (concat (map (evs (rf_owned s) (mm_types m)) R))).
      rewrite evs_alloc, evs_free by exact D. rewrite (mi_count I q). unfold alive. specialize (B q). specialize (C q).
      destruct (afind q (mm_table m)) as [e|] eqn:E1, (afind q T') as [e'|] eqn:E2.
      + apply afind_in, (in_map fst) in E2. cbn [fst] in E2. destruct (in_dec N.eq_dec q R); [destruct (C E2 i)|]. lia.
      + apply afind_in, (in_map fst) in E1. cbn [fst] in E1. apply afind_none in E2. apply B in E1. destruct E1 as [E1|E1]; [contradiction|]. destruct (in_dec N.eq_dec q R); [lia|contradiction].
      + apply afind_none in E1. apply afind_in, (in_map fst) in E2. destruct E1. apply B. auto.
      + apply afind_none in E1. destruct (in_dec N.eq_dec q R) as [i|i]; [destruct E1; apply B; auto|lia]. }
  split; [exact J|]. assert (Ref : forall q, referenced s' q <-> In q (keys T')) by (intros q; apply (referenced_in q J)).
  split; [intros q; rewrite evs_alloc, evs_free by exact D; split; [destruct (in_dec N.eq_dec q R); destruct (rf_owned s q); lia|reflexivity]|].
  split; [|split].
  - intros q. rewrite evs_in, Ref, (referenced_in q I), (B q). specialize (C q). tauto.
  - intros q t. split.
    + intros Hi. apply evs_destroy in Hi. destruct Hi as (E1 & E2 & E3). split; [apply evs_in; auto|]. rewrite <- E3. symmetry. apply (mi_known I). apply B. auto.
    + intros [E1 E2]. apply evs_in in E1. destruct E1 as [E1 E3]. destruct (@evs_order (rf_owned s) (mm_types m) R q t E1 E3) as (a & b & ->); [rewrite <- E2; apply (mi_known I); apply B; auto|]. apply in_or_app. right. left. reflexivity.
  - intros q t Hi. apply evs_destroy in Hi. destruct Hi as (E1 & E2 & E3). apply (evs_order E1 E2 E3).
Qed.
(** ** New blocks *)
Lemma okT_agree root owned root' owned' T : (forall x, In x (keys T) -> root' x = root x /\ owned' x = owned x) -> forall c, okT root owned T c -> okT root' owned' T c.
Proof.
  induction T as [|[p e] b IH]; intros Ha c H; [exact H|]. cbn [okT] in *. destruct H as (H1 & H2 & H3 & H4 & H5 & H6 & H7 & H8). destruct (Ha p) as [-> ->]; [left; reflexivity|]. repeat (split; [assumption|]). apply IH; [|exact H8].
  intros x Hx. apply Ha. right. exact Hx.
Qed.
Lemma keys_update {A} p (v : A) (l : list (addr * A)) : keys (aupdate p v l) = keys l.
Proof. unfold keys. induction l as [|[x w] l IH]; [reflexivity|]. cbn. destruct (N.eqb x p); cbn; [reflexivity|]. f_equal. exact IH. Qed.
Definition more (c : addr -> nat) (p : addr) : addr -> nat := fun q => if N.eqb q p then S (c q) else c q.
Lemma okT_more root owned T : forall c q, okT root owned T c -> In q (keys T) -> exists e, afind q T = Some e /\ okT root owned (aupdate q (with_count e (me_count e + 1)%Z) T) (more c q).
Proof.
  induction T as [|[p e] b IH]; intros c q H Hi; [destruct Hi|]. cbn [okT] in H. destruct H as (H1 & H2 & H3 & H4 & H5 & H6 & H7 & H8). cbn [mfind mupdate]. destruct (N.eqb_spec p q) as [-> |E].
  - exists e. split; [reflexivity|]. cbn [okT with_count me_count me_root me_owned]. unfold more at 1 2. rewrite N.eqb_refl. repeat split; try assumption; try lia. eapply okT_ext; [|exact H8]. intros y. unfold more. cbv beta. destruct (N.eqb y q); reflexivity.
  - destruct Hi as [Hi|Hi]; [cbn in Hi; congruence|]. destruct (IH _ q H8 Hi) as (e' & A & B). exists e'. split; [exact A|]. cbn [okT]. unfold more at 1 2. destruct (N.eqb_spec p q); [congruence|]. repeat split; try assumption.
    + intros X. apply H6. rewrite <- (keys_update q (with_count e' (me_count e' + 1)%Z) b). exact X.
    + eapply okT_ext; [|exact B]. intros y. unfold more. destruct (N.eqb_spec y q) as [-> |E2]; [|reflexivity]. destruct (N.eqb_spec q p); [congruence|]. lia.
Qed.
Lemma afind_update {A} p q (v : A) (l : list (addr * A)) : afind q (aupdate p v l) = if N.eqb q p then match afind p l with Some _ => Some v | None => None end else afind q l.
Proof.
  induction l as [|[x w] l IH]; cbn; [destruct (N.eqb q p); reflexivity|]. destruct (N.eqb_spec x p) as [-> |E].
  - cbn. rewrite (N.eqb_sym p q). destruct (N.eqb q p); reflexivity.
  - cbn. destruct (N.eqb_spec x q) as [-> |E2]; [destruct (N.eqb_spec q p); [congruence|reflexivity]|]. exact IH.
Qed.
Lemma count_bound root owned T : forall c k, okT root owned T c -> (forall p, c p <= k) -> forall p e, In (p, e) T -> (me_count e <= Z.of_nat (k + length T))%Z.
Proof.
  induction T as [|[x f] b IH]; intros c k H Hk p e Hi; [destruct Hi|]. cbn [okT] in H. destruct H as (H1 & H2 & H3 & H4 & H5 & H6 & H7 & H8). destruct Hi as [[= -> ->]|Hi]; [specialize (Hk p); cbn [length]; lia|].
  assert (X := IH _ (S k) H8). cbn [length]. replace (k + S (length b)) with (S k + length b) by lia. apply (X) with p; [|exact Hi]. intros q. cbv beta. specialize (Hk q). destruct (N.eqb q x); [lia|]. destruct (oeq _ q); lia.
Qed.
Lemma hc_bound z p : hc z p <= length z.
Proof. unfold hc. induction z as [|x z IH]; [apply Nat.le_refl|]. cbn [filter length]. match goal with |- context [if ?b then _ else _] => destruct b end; cbn [length]; [apply le_n_S; exact IH|apply Nat.le_le_succ_r; exact IH]. Qed.

Definition added (s : refs) (p : addr) (root : option addr) (owned : bool) : refs :=
  Refs ((rf_next s, Some p) :: rf_zones s) (S (rf_next s)) (aset (rf_root s) p root) (aset (rf_owned s) p owned) (aset (rf_type s) p None).
Lemma register_ok m s p root owned n : mInv m s -> p <> 0%N -> ~ referenced s p -> (forall q, root = Some q -> referenced s q) -> owned && match root with Some _ => true | None => false end = false ->
  length (rf_zones s) <= n -> length (mm_table m) <= n -> (Z.of_nat n <= 1000000000)%Z ->
  exists m', memory_wrap (if owned then add_log m [EvAlloc p] else m) p owned root = (m', Ok (rf_next s)) /\ mInv m' (added s p root owned) /\ mm_log m' = mm_log m ++ (if owned then [EvAlloc p] else []) /\
    length (mm_table m') = S (length (mm_table m)).
Proof.
  intros I Hp Hr Hq Ho Zn Tn Bn. assert (Np : ~ In p (keys (mm_table m))) by (intros X; apply Hr; apply (referenced_in p I); exact X).
  assert (Fp : afind p (mm_table m) = None) by (apply afind_none; exact Np). set (m0 := if owned then add_log m [EvAlloc p] else m).
  assert (E0 : m0 = Mem (mm_table m) (mm_types m) (mm_layouts m) (mm_zones m) (mm_next m) (mm_log m ++ (if owned then [EvAlloc p] else []))) by (unfold m0, add_log; destruct owned; [reflexivity|rewrite app_nil_r, mem_eta; reflexivity]).
  assert (C0 : hc (rf_zones s) p = 0). { destruct (hc (rf_zones s) p) eqn:E; [reflexivity|]. exfalso. apply Np. eapply okT_in; [exact (mi_tab I)|lia]. }
  (* the new table *)
  assert (HT : exists T', okT (rf_root (added s p root owned)) (rf_owned (added s p root owned)) ((p, ME 1 (rf_next s) owned root) :: T') (hc (rf_zones (added s p root owned))) /\ keys T' = keys (mm_table m) /\
     (forall q, option_map me_object (afind q T') = option_map me_object (afind q (mm_table m))) /\
     memory_wrap m0 p owned root = (Mem ((p, ME 1 (rf_next s) owned root) :: T') (mm_types m) (mm_layouts m) ((rf_next s, p) :: mm_zones m) (S (rf_next s)) (mm_log m ++ (if owned then [EvAlloc p] else [])), Ok (rf_next s))).
  { unfold memory_wrap. rewrite E0. unfold memory_aref at 1. cbn [mm_table]. rewrite Fp. cbn [option_map]. cbv zeta. unfold set_zones. cbn [mm_table mm_types mm_layouts mm_zones mm_next mm_log]. rewrite (mi_next I).
    unfold memory_aset, memory_aref. cbn [mm_table]. rewrite Fp. cbn [option_map].
    assert (Sf : N.eqb p (match root with Some q => q | None => 0%N end) = false). { destruct root as [q|]; [|apply N.eqb_neq; exact Hp]. destruct (N.eqb_spec p q) as [-> |E]; [|reflexivity]. exfalso. apply Hr. apply Hq. reflexivity. }
    rewrite Sf. unfold memory_ref. cbn [mm_table]. rewrite Fp, Ho. unfold set_table. cbn [mm_table mm_types mm_layouts mm_zones mm_next mm_log].
    assert (Agree : forall c, okT (rf_root s) (rf_owned s) (mm_table m) c -> okT (aset (rf_root s) p root) (aset (rf_owned s) p owned) (mm_table m) c).
    { intros c. apply okT_agree. intros x Hx. unfold aset. destruct (N.eqb_spec x p) as [-> |E]; [contradiction|]. auto. }
    assert (Tab := Agree _ (mi_tab I)). clear Agree.
    assert (Rp : aset (rf_root s) p root p = root) by (unfold aset; rewrite N.eqb_refl; reflexivity). assert (Op : aset (rf_owned s) p owned p = owned) by (unfold aset; rewrite N.eqb_refl; reflexivity).
    assert (Nroot : root <> Some p) by (intros ->; rewrite N.eqb_refl in Sf; discriminate).
    destruct root as [q|].
    - assert (Nq : p <> q) by (intros ->; rewrite N.eqb_refl in Sf; discriminate). assert (Hqi : In q (keys (mm_table m))) by (apply (referenced_in q I); apply Hq; reflexivity).
      destruct (okT_more Tab Hqi) as (e & Ee & Tm). cbn [mfind]. destruct (N.eqb_spec p q) as [X|_]; [congruence|]. rewrite Ee.
      assert (B := count_bound Tab (fun x => Nat.le_trans _ _ _ (hc_bound (rf_zones s) x) Zn) (afind_in Ee)).
      unfold incr. destruct (Z.ltb_spec (me_count e) 2147483647) as [_|X]; [|exfalso; lia]. cbn [mupdate]. destruct (N.eqb_spec p q) as [X|_]; [congruence|].
      exists (aupdate q (with_count e (me_count e + 1)%Z) (mm_table m)). split; [|split; [apply keys_update|split; [|reflexivity]]].
      + cbn [okT added rf_root rf_owned rf_zones me_count me_root me_owned]. rewrite Rp, Op, hc_cons. cbn [oeq]. rewrite N.eqb_refl, C0. repeat split; try assumption; try lia.
        * intros X. apply Np. rewrite <- (keys_update q (with_count e (me_count e + 1)%Z)). exact X.
        * eapply okT_ext; [|exact Tm]. intros y. unfold more. rewrite hc_cons. cbn [oeq]. destruct (N.eqb_spec y p) as [-> |E1].
          -- destruct (N.eqb_spec p q); [congruence|exact C0].
          -- destruct (N.eqb_spec p y); [congruence|]. rewrite (N.eqb_sym q y). destruct (N.eqb_spec y q); lia.
      + intros y. rewrite afind_update. destruct (N.eqb_spec y q) as [-> |E1]; [rewrite Ee; reflexivity|reflexivity].
    - exists (mm_table m). split; [|auto]. cbn [okT added rf_root rf_owned rf_zones me_count me_root me_owned]. rewrite Rp, Op, hc_cons. cbn [oeq]. rewrite N.eqb_refl, C0. repeat split; try assumption; try lia.
      eapply okT_ext; [|exact Tab]. intros y. rewrite hc_cons. cbn [oeq]. destruct (N.eqb_spec y p) as [-> |E1]; [exact C0|]. destruct (N.eqb_spec p y); [congruence|]. lia. }
  destruct HT as (T' & Tok & Kt & Ob & E). eexists. split; [exact E|]. cbn [mm_log mm_table length]. split; [|split; [reflexivity|]].
  2: { f_equal. assert (L : length (keys T') = length (keys (mm_table m))) by (rewrite Kt; reflexivity). unfold keys in L. rewrite !map_length in L. exact L. }
  constructor; cbn [mm_table mm_types mm_layouts mm_zones mm_next mm_log].
  - exact Tok.
  - cbn [added rf_zones map]. rewrite (mi_zones I). reflexivity.
  - reflexivity.
  - cbn [added rf_zones keys map fst]. constructor; [|apply (mi_znd I)]. intros X. apply (mi_zlt I) in X. lia.
  - cbn [added rf_zones keys map fst rf_next]. intros k [<- |Hk]; [lia|]. apply (mi_zlt I) in Hk. lia.
  - apply (mi_ty I).
  - intros x Hx. cbn [added rf_type]. unfold aset. assert (Hx' : p = x \/ In x (keys (mm_table m))) by (rewrite <- Kt; exact Hx). clear Hx. rename Hx' into Hx. destruct (N.eqb_spec x p) as [-> |Ne]; [apply (mi_unknown I); exact Np|]. destruct Hx as [Hx|Hx]; [congruence|]. apply (mi_known I). exact Hx.
  - intros x Hx. apply (mi_unknown I). intros X. apply Hx. right. rewrite <- Kt in X. exact X.
  - intros z x Hz. unfold memory_aref. cbn [mm_table mfind]. cbn [added rf_zones] in Hz. destruct Hz as [[= <- <-]|Hz]; [rewrite N.eqb_refl; reflexivity|].
    destruct (N.eqb_spec p x) as [-> |Ne]; [destruct Hr; eapply ref_zone; exact Hz|]. rewrite Ob. apply (mi_obj I Hz).
  - intros x. cbn [added rf_owned]. unfold times. rewrite !count_occ_app. fold (times (EvAlloc x) (mm_log m)) (times (EvFree x) (mm_log m)). rewrite (mi_count I x). unfold alive. cbn [mfind]. unfold aset. rewrite (N.eqb_sym x p).
    destruct (N.eqb_spec p x) as [<- |Ne].
    + rewrite Fp. destruct owned; [|reflexivity]. cbn [count_occ]. destruct (mevent_dec (EvAlloc p) (EvAlloc p)); [|congruence]. destruct (mevent_dec (EvAlloc p) (EvFree p)); [discriminate|]. lia.
    + assert (A : match afind x T' with Some _ => if rf_owned s x then 1 else 0 | None => 0 end = match afind x (mm_table m) with Some _ => if rf_owned s x then 1 else 0 | None => 0 end) by (specialize (Ob x); destruct (afind x T'), (afind x (mm_table m)); try discriminate; reflexivity).
      rewrite A. destruct owned; [|cbn [count_occ]; lia]. cbn [count_occ]. destruct (mevent_dec (EvAlloc p) (EvAlloc x)) as [[=]|_]; [congruence|]. destruct (mevent_dec (EvAlloc p) (EvFree x)); [discriminate|]. lia.
Qed.
(** ** All calls *)
Lemma referenced_same s s' : rf_zones s' = rf_zones s -> rf_root s' = rf_root s -> forall p, referenced s p <-> referenced s' p.
Proof. intros Ez Er p. rewrite !referenced_reach, Ez, Er. tauto. Qed.
Lemma referenced_added s p root owned : ~ referenced s p -> forall q, referenced s q -> referenced (added s p root owned) q.
Proof.
  intros Hp q H. induction H as [z q Hz|q x Hq IH E]; [apply ref_zone with z; right; exact Hz|]. apply ref_part with q; [exact IH|]. cbn [added rf_root]. unfold aset. destruct (N.eqb_spec q p) as [-> |Ne]; [contradiction|exact E].
Qed.
Lemma freed_none s s' : (forall p, referenced s p -> referenced s' p) -> freed None s s' [].
Proof. intros Hm. split; [intros p; cbn; lia|]. split; [|split]; [intros p|intros p t|intros p t []]; cbn; [|tauto]. split; [tauto|]. intros (_ & A & B). apply B, Hm, A. Qed.
Lemma types_bound m s : mInv m s -> length (mm_types m) <= length (mm_table m).
Proof.
  intros I. assert (X : length (keys (mm_types m)) <= length (keys (mm_table m))).
  { apply NoDup_incl_length; [exact (ti_keys (mi_ty I))|]. intros p Hp. destruct (in_dec N.eq_dec p (keys (mm_table m))) as [Y|Y]; [exact Y|]. exfalso. apply (mi_unknown I) in Y. apply afind_none in Y. contradiction. }
  unfold keys in X. rewrite !map_length in X. exact X.
Qed.
Lemma cnt_bound t ty : cntT t ty <= length ty.
Proof. unfold cntT. induction ty as [|x z IH]; [apply Nat.le_refl|]. cbn [filter length]. match goal with |- context [if ?b then _ else _] => destruct b end; cbn [length]; [apply le_n_S; exact IH|apply Nat.le_le_succ_r; exact IH]. Qed.
Definition sized (m : mem) (s : refs) (n : nat) : Prop := length (rf_zones s) <= n /\ length (mm_table m) <= n.
Lemma null_same z l : NoDup (keys l) -> In (z, None) l -> null_zone z l = l.
Proof.
  intros Hn Hi. unfold null_zone. rewrite <- (map_id l) at 2. apply map_ext_in. intros [k o] Hk. cbn. destruct (Nat.eqb_spec k z) as [-> |E]; [|reflexivity]. f_equal.
  assert (X : forall a b : option addr, In (z, a) l -> In (z, b) l -> a = b). { intros a b Ha Hb. apply (in_nfind Hn) in Ha. apply (in_nfind Hn) in Hb. congruence. } apply X; assumption.
Qed.
Lemma filter_len {A} (f : A -> bool) l : length (filter f l) <= length l.
Proof. induction l as [|x l IH]; cbn; [lia|]. destruct (f x); cbn; lia. Qed.
Lemma rezone m s z' : mInv m s -> NoDup (keys z') -> (forall k, In k (keys z') -> In k (keys (rf_zones s))) -> (forall q, hc z' q = hc (rf_zones s) q) -> (forall k q, In (k, Some q) z' -> In (k, Some q) (rf_zones s)) ->
  mInv (set_zones m (map zptr z') (mm_next m)) (Refs z' (rf_next s) (rf_root s) (rf_owned s) (rf_type s)).
Proof.
  intros I Nd Kz Hh Zz. destruct I as [A B C D E F G G' H J]. constructor; unfold set_zones; cbn [mm_table mm_types mm_layouts mm_zones mm_next mm_log rf_root rf_owned rf_type rf_next rf_zones]; auto.
  - eapply okT_ext; [|exact A]. intros q. symmetry. apply Hh.
  - intros k p Hk. apply (H k p). auto.
Qed.
Lemma unref_len T : forall p T' R, unrefT T p = (T', R) -> length T' <= length T.
Proof.
  induction T as [|[x e] b IH]; intros p T' R E; [injection E as <- <-; auto|]. cbn [unrefT] in E. destruct (N.eqb x p).
  - destruct (negb _); [injection E as <- <-; cbn; lia|]. destruct (me_root e) as [q|]; [|injection E as <- <-; cbn; lia]. destruct (unrefT b q) as [b' r] eqn:Eu. injection E as <- <-. apply IH in Eu. cbn; lia.
  - destruct (unrefT b p) as [b' r] eqn:Eu. injection E as <- <-. apply IH in Eu. cbn; lia.
Qed.
Lemma table_shrinks m m' s s' : mInv m s -> mInv m' s' -> (forall p, referenced s' p -> referenced s p) -> length (mm_table m') <= length (mm_table m).
Proof.
  intros I I' Hr. assert (X : length (keys (mm_table m')) <= length (keys (mm_table m))).
  { apply NoDup_incl_length; [exact (okT_nodup (mi_tab I'))|]. intros p Hp. apply (referenced_in p I), Hr, (referenced_in p I'). exact Hp. }
  unfold keys in X. rewrite !map_length in X. exact X.
Qed.
Lemma fewer s s' : rf_root s' = rf_root s -> (forall k q, In (k, Some q) (rf_zones s') -> In (k, Some q) (rf_zones s)) -> forall p, referenced s' p -> referenced s p.
Proof. intros Er Hz p H. induction H as [z p Hi|p q Hp IH E]; [eapply ref_zone; eauto|]. apply ref_part with p; [exact IH|]. rewrite <- Er. exact E. Qed.
Lemma step_ok m s o s' n f : mInv m s -> call s o s' -> sized m s n -> (Z.of_nat n <= 1000000000)%Z -> n < f ->
  exists m' ev, mexec f m o = (m', Ok tt) /\ mInv m' s' /\ sized m' s' (S n) /\ mm_log m' = mm_log m ++ ev /\ freed (match o with MAlloc p => Some p | _ => None end) s s' ev.
Proof.
  intros I Hc [Zn Tn] Bn Hf. destruct Hc as [p Hp Hr|p root Hr|p root Hp Hr Hq|z p t Hz Ht|z o Hz|z o Hz]; cbn [mexec].
  - destruct (@register_ok m s p None true n I Hp Hr) as (m' & E & I' & L & Lt); try assumption; try discriminate; try reflexivity. exists m', [EvAlloc p]. unfold memory_allocate. rewrite E. split; [reflexivity|]. split; [exact I'|]. split; [split; [cbn; lia|lia]|]. split; [exact L|].
    split; [intros q; unfold times; cbn [count_occ oeq]; destruct (N.eqb_spec p q) as [-> |Ne]; evdec; lia|].
    split; [|split]; [intros q|intros q t|intros q t [X|[]]; discriminate]; cbn.
    + split; [intros [X|[]]; discriminate|]. intros (_ & A & B). destruct B. exact (referenced_added None true Hr A).
    + split; [intros [X|[]]; discriminate|]. intros [[X|[]] _]. discriminate.
  - exists m, []. assert (Hi := Hr). apply (referenced_in p I) in Hi. unfold memory_wrap, memory_aref. destruct (afind p (mm_table m)) as [e|] eqn:E; [|apply afind_none in E; contradiction]. cbn [option_map to_unit]. split; [reflexivity|]. split; [exact I|]. split; [split; lia|].
    split; [rewrite app_nil_r; reflexivity|]. apply freed_none. auto.
  - destruct (@register_ok m s p root false n I Hp Hr Hq eq_refl) as (m' & E & I' & L & Lt); try assumption. exists m', []. rewrite E. split; [reflexivity|]. split; [exact I'|]. split; [split; [cbn; lia|lia]|]. split; [exact L|].
    apply freed_none. intros q Hqr. exact (referenced_added root false Hr Hqr).
  - assert (Hpt : In p (keys (mm_table m))) by (apply (referenced_in p I); eapply ref_zone; exact Hz). unfold memory_init. rewrite (mi_zones I), (zone_find (mi_znd I) Hz), (mi_known I Hpt), Ht.
    set (s' := Refs _ _ _ _ _). assert (Rs := @referenced_same s s' eq_refl eq_refl). assert (Tc : forall u, cntT u ((p, t) :: mm_types m) = cntT u (mm_types m) + (if t =? u then 1 else 0)) by (intros u; unfold cntT; cbn; destruct (t =? u); cbn; lia).
    assert (Np : ~ In p (keys (mm_types m))) by (apply afind_none; rewrite (mi_known I Hpt); exact Ht).
    assert (Fin : forall ly', tyInv ((p, t) :: mm_types m) ly' -> mInv (set_types m ((p, t) :: mm_types m) ly') s').
    { intros ly' Y. destruct I as [A B C D E F G G' H J]. constructor; unfold set_types; cbn [mm_table mm_types mm_layouts mm_zones mm_next mm_log]; try assumption.
      - intros q Hq. cbn [mfind s' rf_type]. unfold aset. rewrite (N.eqb_sym q p). destruct (N.eqb p q); [reflexivity|]. apply G. exact Hq.
      - intros q Hq. cbn [mfind]. destruct (N.eqb_spec p q) as [-> |Ne]; [contradiction|]. apply G'. exact Hq. }
    assert (Ok1 : exists ly', tyInv ((p, t) :: mm_types m) ly' /\ (match nfind t (mm_layouts m) with Some c => match incr c with Ok c' => (set_types m ((p, t) :: mm_types m) (nupdate t c' (mm_layouts m)), Ok tt) | _ => (m, UB UOther) end
        | None => (set_types m ((p, t) :: mm_types m) ((t, 1%Z) :: mm_layouts m), Ok tt) end) = (set_types m ((p, t) :: mm_types m) ly', Ok tt)).
    { destruct (mi_ty I) as [K1 K2 C]. assert (Ct := C t). assert (B1 := cnt_bound t (mm_types m)). assert (B2 := types_bound I). destruct (Nat.eqb_spec (cntT t (mm_types m)) 0) as [E0|E0]; rewrite Ct.
      - eexists. split; [|reflexivity]. split; [constructor; assumption|cbn; constructor; [apply nfind_none; exact Ct|exact K2]|]. intros u. rewrite Tc. cbn [mfind]. destruct (Nat.eqb_spec t u) as [-> |Ne]; [rewrite E0; reflexivity|]. rewrite Nat.add_0_r. apply C.
      - unfold incr. destruct (Z.ltb_spec (Z.of_nat (cntT t (mm_types m))) 2147483647) as [_|X]; [|exfalso; lia]. eexists. split; [|reflexivity]. split; [constructor; assumption|rewrite keys_nupdate; exact K2|].
        intros u. rewrite Tc, nfind_update by (rewrite Ct; discriminate). rewrite (Nat.eqb_sym u t). destruct (Nat.eqb_spec t u) as [<- |Ne]; [|rewrite Nat.add_0_r; apply C]. destruct (Nat.eqb_spec (cntT t (mm_types m) + 1) 0); [lia|]. f_equal. lia. }
    destruct Ok1 as (ly' & Y & E). exists (set_types m ((p, t) :: mm_types m) ly'), []. split; [exact E|]. split; [apply Fin; exact Y|]. split; [split; cbn; lia|]. split; [cbn; rewrite app_nil_r; reflexivity|]. apply freed_none. intros q. apply Rs.
  - unfold zone_invalidate. rewrite (mi_zones I), (zone_find (mi_znd I) Hz). set (s' := Refs _ _ _ _ _). assert (Zz : forall k q, In (k, Some q) (rf_zones s') -> In (k, Some q) (rf_zones s)) by (intros k q Hk; apply (in_null Hk)).
    assert (Zl : length (rf_zones s') <= S n) by (cbn [s' rf_zones]; unfold null_zone; rewrite map_length; apply Nat.le_le_succ_r; exact Zn). assert (Hx := hc_null z (mi_znd I)). assert (Kn := keys_null z (rf_zones s)).
    assert (Nn : NoDup (keys (rf_zones s'))) by (cbn [s' rf_zones]; rewrite Kn; apply (mi_znd I)).
    destruct o as [p|].
    + assert (P0 : p <> 0%N). { intros ->. apply (okT_zero (mi_tab I)). eapply okT_in; [exact (mi_tab I)|]. apply hc_in. eauto. } destruct (N.eqb_spec p 0) as [X|_]; [congruence|].
      destruct (@drop_ok m s f z p s' I Hz) as (m' & ev & E & Ez & En & L & I' & Fr); try reflexivity; try assumption; try lia; [intros k; cbn [s' rf_zones]; rewrite Kn; auto|intros q; cbn [s' rf_zones]; rewrite Hx; unfold less; rewrite (hc_drop (mi_znd I) q Hz); cbn [oeq]; rewrite (N.eqb_sym q p); destruct (N.eqb p q); lia|].
      rewrite E. exists (set_zones m' (map zptr (rf_zones s')) (mm_next m')), ev. rewrite Ez, (mi_zones I), (null_model z (mi_znd I)). split; [reflexivity|]. split; [exact I'|]. split; [split; [exact Zl|]|split; [exact L|exact Fr]].
      assert (X := table_shrinks I I' (@fewer s s' eq_refl Zz)). lia.
    + cbn. exists m, []. split; [reflexivity|]. assert (Es : rf_zones s' = rf_zones s) by (apply (null_same (mi_znd I) Hz)).
      assert (I' : mInv m s') by (unfold s'; cbn [s' rf_zones] in Es; rewrite Es; destruct s; exact I). split; [exact I'|]. split; [split; lia|]. split; [rewrite app_nil_r; reflexivity|]. apply freed_none. intros q. apply (@referenced_same s s' Es eq_refl).
  - unfold zone_finalize. rewrite (mi_zones I), (zone_find (mi_znd I) Hz). set (s' := Refs _ _ _ _ _). assert (Zz : forall k q, In (k, Some q) (rf_zones s') -> In (k, Some q) (rf_zones s)) by (intros k q Hk; apply (in_drop Hk)).
    assert (Zl : length (rf_zones s') <= S n) by (cbn [s' rf_zones]; unfold drop_zone; assert (X := filter_len (fun x : zid * option addr => negb (fst x =? z)) (rf_zones s)); apply Nat.le_le_succ_r; exact (Nat.le_trans _ _ _ X Zn)).
    assert (Nn : NoDup (keys (rf_zones s'))) by (apply nodup_drop; apply (mi_znd I)). assert (Kn : forall k, In k (keys (rf_zones s')) -> In k (keys (rf_zones s))) by (intros k Hk; apply (keys_drop Hk)).
    destruct o as [p|].
    + assert (P0 : p <> 0%N). { intros ->. apply (okT_zero (mi_tab I)). eapply okT_in; [exact (mi_tab I)|]. apply hc_in. eauto. } destruct (N.eqb_spec p 0) as [X|_]; [congruence|].
      destruct (@drop_ok m s f z p s' I Hz) as (m' & ev & E & Ez & En & L & I' & Fr); try reflexivity; try assumption; try lia; [intros q; cbn [s' rf_zones]; unfold less; rewrite (hc_drop (mi_znd I) q Hz); cbn [oeq]; rewrite (N.eqb_sym q p); destruct (N.eqb p q); lia|].
      rewrite E. exists (set_zones m' (map zptr (rf_zones s')) (mm_next m')), ev. rewrite Ez, (mi_zones I), (drop_model z (mi_znd I)). split; [reflexivity|]. split; [exact I'|]. split; [split; [exact Zl|]|split; [exact L|exact Fr]].
      assert (X := table_shrinks I I' (@fewer s s' eq_refl Zz)). lia.
    + rewrite N.eqb_refl. rewrite (drop_model z (mi_znd I)). assert (Hh : forall q, hc (rf_zones s') q = hc (rf_zones s) q) by (intros q; rewrite (hc_drop (mi_znd I) q Hz); cbn [oeq s' rf_zones]; lia).
      assert (I' := @rezone m s (drop_zone z (rf_zones s)) I Nn Kn Hh Zz). eexists. exists []. split; [reflexivity|]. split; [exact I'|]. split; [split; [exact Zl|cbn; lia]|]. split; [cbn; rewrite app_nil_r; reflexivity|]. apply freed_none. intros q. rewrite !referenced_reach. cbn [s' rf_root]. intros (p0 & A & B). exists p0. split; [rewrite Hh; exact A|exact B].
Qed.
