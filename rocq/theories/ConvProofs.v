(** * ConvProofs: the model implements the specification. *)
From Verif Require Import Base ConvSpec Conv.
Local Open Scope nat_scope.

Lemma upd_length {A} (l : list A) : forall i x, length (upd l i x) = length l.
Proof. induction l as [|a l IH]; intros [|i] x; cbn [upd length]; auto. Qed.
Lemma nth_upd {A} (l : list A) : forall i j x, nth_error (upd l i x) j = if (i =? j) && (i <? length l) then Some x else nth_error l j.
Proof.
  induction l as [|a l IH]; intros [|i] [|j] x; cbn [upd nth_error length]; try reflexivity.
  - destruct ((S i =? S j) && (S i <? 0)) eqn:E; [apply Bool.andb_true_iff in E as [_ E]; apply Nat.ltb_lt in E; lia|reflexivity].
  - rewrite IH. reflexivity.
Qed.
Lemma map_upd {A B} (f : A -> B) (l : list A) : forall i x, map f (upd l i x) = upd (map f l) i (f x).
Proof. induction l as [|a l IH]; intros [|i] x; cbn [upd map]; congruence. Qed.
Lemma upd_same {A} (l : list A) : forall i x, nth_error l i = Some x -> upd l i x = l.
Proof. induction l as [|a l IH]; intros [|i] x; cbn [upd nth_error]; intros E; [reflexivity|reflexivity|congruence|rewrite IH by assumption; reflexivity]. Qed.
Lemma upd_upd {A} (l : list A) : forall i x y, upd (upd l i x) i y = upd l i y.
Proof. induction l as [|a l IH]; intros [|i] x y; cbn [upd]; congruence. Qed.
Lemma upd_out {A} (l : list A) : forall i x, length l <= i -> upd l i x = l.
Proof. induction l as [|a l IH]; intros [|i] x H; cbn [upd length] in *; try reflexivity; [lia|rewrite IH by lia; reflexivity]. Qed.
Lemma ltb_nth {A} (l : list A) i : (i <? length l) = match nth_error l i with Some _ => true | None => false end.
Proof. destruct (nth_error l i) eqn:E; [apply Nat.ltb_lt, nth_error_Some; congruence|apply Nat.ltb_ge, nth_error_None; assumption]. Qed.
Lemma Forall_upd {A} (P : A -> Prop) (l : list A) : forall i x, Forall P l -> P x -> Forall P (upd l i x).
Proof. induction l as [|a l IH]; intros [|i] x F H; cbn [upd]; auto; inversion F; subst; constructor; auto. Qed.
Lemma nth_Forall {A} (P : A -> Prop) (l : list A) i x : Forall P l -> nth_error l i = Some x -> P x.
Proof. intros F E. eapply Forall_forall; [exact F|eapply nth_error_In; eauto]. Qed.

Section Proofs.
  Variable converted : nat -> bool.
  Variable conv : nat -> Z -> Z.
  Variable back : nat -> Z -> option Z.
  Notation r_step := (r_step converted conv back).
  Notation s_step := (s_step converted conv back).
  Notation apply_fields := (apply_fields converted back).
  Notation apply := (apply converted back).
  Notation cells_raw := (cells_raw back).
  Notation contents := (contents back).
  Fixpoint mkcells (i : nat) (mem : list Z) (iv : list (option ref)) : list cell :=
    match mem, iv with
    | z :: mem', x :: iv' => match (if converted i then x else None) with Some r => Object r | None => Stored z end :: mkcells (S i) mem' iv'
    | _, _ => []
    end.
  Definition aval (x : rval) : list cell := mkcells 0 (v_mem x) (v_ivar x).
  Definition abs (m : rstate) : sstate := SS (map aval (r_vals m)) (r_heap m).
  Definition wfv (x : rval) : Prop := length (v_mem x) = length (v_ivar x).
  Definition wf (m : rstate) : Prop := Forall wfv (r_vals m).

  Lemma mkcells_length : forall mem i iv, length mem = length iv -> length (mkcells i mem iv) = length mem.
  Proof. induction mem as [|z mem IH]; intros i [|x iv] E; cbn [mkcells length] in *; try discriminate; auto. Qed.
  Lemma nth_mkcells : forall mem i iv j, length mem = length iv ->
    nth_error (mkcells i mem iv) j = match nth_error mem j, nth_error iv j with
      | Some z, Some x => Some (match (if converted (i + j) then x else None) with Some r => Object r | None => Stored z end) | _, _ => None end.
  Proof.
    induction mem as [|z mem IH]; intros i [|x iv] [|j] E; cbn [mkcells nth_error length] in *; try discriminate; try reflexivity.
    - rewrite Nat.add_0_r. reflexivity.
    - rewrite IH by lia. replace (S i + j) with (i + S j) by lia. reflexivity.
  Qed.
  Lemma mkcells_iv : forall mem i iv j r, length mem = length iv -> converted (i + j) = true -> mkcells i mem (upd iv j (Some r)) = upd (mkcells i mem iv) j (Object r).
  Proof.
    induction mem as [|z mem IH]; intros i [|x iv] [|j] r E C; cbn [mkcells upd length] in *; try discriminate; try reflexivity.
    - rewrite Nat.add_0_r in C. rewrite C. reflexivity.
    - rewrite IH; [reflexivity|lia|]. replace (S i + j) with (i + S j) by lia. assumption.
  Qed.
  Lemma mkcells_mem : forall mem i iv j z, length mem = length iv -> converted (i + j) = false -> mkcells i (upd mem j z) iv = upd (mkcells i mem iv) j (Stored z).
  Proof.
    induction mem as [|y mem IH]; intros i [|x iv] [|j] z E C; cbn [mkcells upd length] in *; try discriminate; try reflexivity.
    - rewrite Nat.add_0_r in C. rewrite C. reflexivity.
    - rewrite IH; [reflexivity|lia|]. replace (S i + j) with (i + S j) by lia. assumption.
  Qed.
  Lemma mkcells_none : forall mem i, mkcells i mem (map (fun _ => None) mem) = map Stored mem.
  Proof. induction mem as [|z mem IH]; intros i; cbn [mkcells map]; [reflexivity|]. destruct (converted i); rewrite IH; reflexivity. Qed.
  Lemma aval_fresh mem : aval (fresh mem) = map Stored mem.
  Proof. apply mkcells_none. Qed.
  Lemma wf_fresh mem : wfv (fresh mem).
  Proof. unfold wfv, fresh. cbn [v_mem v_ivar]. rewrite map_length. reflexivity. Qed.

  Lemma apply_fields_abs : forall mem heap i iv m ok, length mem = length iv -> apply_fields heap i mem iv = (m, ok) ->
    length m = length mem /\ mkcells i m iv = mkcells i mem iv /\ opt_all (cells_raw heap i (mkcells i mem iv)) = if ok then Some m else None.
  Proof.
    induction mem as [|z mem IH]; intros heap i [|x iv] m ok E A; cbn [Conv.apply_fields length] in *; try discriminate.
    - injection A as <- <-. repeat split; reflexivity.
    - cbn [mkcells ConvSpec.cells_raw]. destruct (if converted i then x else None) as [r|] eqn:Ex.
      + cbn [cell_raw]. destruct (match nth_error heap r with Some c => back i c | None => None end) as [z'|].
        * destruct (apply_fields heap (S i) mem iv) as [m' ok'] eqn:E'. injection A as <- <-. destruct (IH heap (S i) iv m' ok' ltac:(lia) E') as (L & M & O). cbn [length mkcells opt_all]. rewrite Ex, M, O. split; [lia|]. split; [reflexivity|]. destruct ok'; reflexivity.
        * injection A as <- <-. cbn [length mkcells opt_all]. rewrite Ex. repeat split; reflexivity.
      + destruct (apply_fields heap (S i) mem iv) as [m' ok'] eqn:E'. injection A as <- <-. destruct (IH heap (S i) iv m' ok' ltac:(lia) E') as (L & M & O). cbn [length mkcells cell_raw opt_all]. rewrite Ex, M, O. split; [lia|]. split; [reflexivity|]. destruct ok'; reflexivity.
  Qed.
  Lemma nth_abs m v : nth_error (s_vals (abs m)) v = option_map aval (nth_error (r_vals m) v).
  Proof. unfold abs. cbn [s_vals]. apply nth_error_map. Qed.
  Lemma apply_abs m v m' o : wf m -> apply m v = (m', o) -> abs m' = abs m /\ wf m' /\ contents (abs m) v = o /\ (forall l, o = Some l -> exists iv, nth_error (r_vals m') v = Some (RV l iv)) /\
    (forall w, w <> v -> nth_error (r_vals m') w = nth_error (r_vals m) w) /\ length (r_vals m') = length (r_vals m).
  Proof.
    intros W A. unfold Conv.apply in A. unfold ConvSpec.contents. rewrite nth_abs. destruct (nth_error (r_vals m) v) as [x|] eqn:Ev; cbn [option_map].
    - destruct (apply_fields (r_heap m) 0 (v_mem x) (v_ivar x)) as [l ok] eqn:Ef. injection A as <- <-. assert (Wx : wfv x) by (eapply nth_Forall; eauto). destruct (apply_fields_abs Wx Ef) as (L & M & O).
      assert (Lt : (v <? length (r_vals m)) = true) by (rewrite ltb_nth, Ev; reflexivity).
      split; [|split; [|split; [|split; [|split]]]].
      + unfold abs, set_val. cbn [r_vals r_heap]. rewrite map_upd. f_equal. apply upd_same. rewrite nth_error_map, Ev. cbn [option_map]. unfold aval. cbn [v_mem v_ivar]. rewrite M. reflexivity.
      + apply Forall_upd; [assumption|]. unfold wfv. cbn [v_mem v_ivar]. rewrite L. exact Wx.
      + unfold aval. cbn [s_heap abs]. exact O.
      + intros l' El. destruct ok; [|discriminate]. injection El as <-. exists (v_ivar x). unfold set_val. cbn [r_vals]. rewrite nth_upd, Nat.eqb_refl, Lt. reflexivity.
      + intros w Hw. unfold set_val. cbn [r_vals]. rewrite nth_upd. destruct (Nat.eqb_spec v w) as [-> |]; [congruence|reflexivity].
      + unfold set_val. cbn [r_vals]. apply upd_length.
    - injection A as <- <-. repeat split; auto. intros l X. discriminate.
  Qed.
  Lemma contents_mem m v m' l : wf m -> apply m v = (m', Some l) -> mem_of m' v = Some l.
  Proof. intros W A. destruct (apply_abs W A) as (_ & _ & _ & H & _). destruct (H l eq_refl) as (iv & E). unfold mem_of. rewrite E. reflexivity. Qed.
  Lemma get_abs m v i : converted i = false -> wf m -> let (m', x) := get conv m v i in let (s', y) := s_read converted conv (abs m) v i in x = y /\ wf m' /\ s' = abs m'.
  Proof.
    intros C W. unfold get, s_read. rewrite nth_abs. destruct (nth_error (r_vals m) v) as [x|] eqn:Ev; cbn [option_map]; [|auto]. assert (Wx : wfv x) by (eapply nth_Forall; eauto).
    unfold aval. rewrite (nth_mkcells 0 i Wx). cbn [Nat.add]. destruct (nth_error (v_mem x) i) as [z|] eqn:Ez; [|auto].
    destruct (nth_error (v_ivar x) i) as [y|] eqn:Ey; [|apply nth_error_None in Ey; rewrite <- Wx in Ey; apply nth_error_None in Ey; congruence].
    rewrite C. cbn [new_obj abs s_heap s_vals]. repeat split. exact W.
  Qed.
  Lemma set_abs m v i r : converted i = false -> wf m -> let (m', x) := set back m v i r in let (s', y) := s_write converted back (abs m) v i r in x = y /\ wf m' /\ s' = abs m'.
  Proof.
    intros C W. unfold set, raw_set, s_write. rewrite nth_abs. destruct (nth_error (r_vals m) v) as [x|] eqn:Ev; cbn [option_map]; [|auto]. assert (Wx : wfv x) by (eapply nth_Forall; eauto).
    cbn [abs s_heap]. rewrite ltb_nth. unfold aval. rewrite (nth_mkcells 0 i Wx). cbn [Nat.add]. destruct (nth_error (v_mem x) i) as [z|] eqn:Ez.
    - destruct (nth_error (v_ivar x) i) as [y|] eqn:Ey; [|apply nth_error_None in Ey; rewrite <- Wx in Ey; apply nth_error_None in Ey; congruence].
      destruct (nth_error (r_heap m) r) as [c|]; [|auto]. rewrite C. destruct (back i c) as [z'|]; [|auto]. split; [reflexivity|]. split.
      + apply Forall_upd; [assumption|]. unfold wfv. cbn [v_mem v_ivar]. rewrite upd_length. exact Wx.
      + unfold abs, with_cell, set_val. cbn [r_vals r_heap s_vals s_heap]. rewrite map_upd. f_equal. f_equal. unfold aval. cbn [v_mem v_ivar]. rewrite mkcells_mem by assumption. reflexivity.
    - destruct (nth_error (r_heap m) r); auto.
  Qed.

  Definition usual (o : op) : Prop :=
    match o with
    | OGet v i | OSet v i _ => converted i = false
    | OCopy to from => to <> from
    | ORawSet _ _ _ | OLoad _ _ | ODup _ | OArray _ => False
    | _ => True
    end.
  Definition is_copy (o : op) : bool := match o with OCopy _ _ => true | _ => false end.
  Lemma step_abs m o : wf m -> usual o -> let (m', x) := r_step m o in let (s', y) := s_step (abs m) o in
    x = y /\ wf m' /\ (is_copy o = false \/ x <> RRaise -> s' = abs m').
  Proof.
    intros W U. destruct o as [raw|c|r c|v i|v i r|v|a b|to from|v i|v i r|v i z|v raw|v|vs]; cbn [usual] in U; try contradiction; cbn [Conv.r_step ConvSpec.s_step].
    - cbn [abs s_vals s_heap]. rewrite map_length. split; [reflexivity|]. split; [apply Forall_app; split; [assumption|constructor; [apply wf_fresh|constructor]]|]. intros _. unfold abs. cbn [r_vals r_heap]. rewrite map_app. cbn [map]. rewrite aval_fresh. reflexivity.
    - cbn [new_obj abs s_vals s_heap]. repeat split; auto.
    - cbn [abs s_vals s_heap]. destruct (r <? length (r_heap m)); repeat split; auto.
    - unfold attr_read. destruct (converted i) eqn:C.
      + unfold s_read. rewrite nth_abs. destruct (nth_error (r_vals m) v) as [x|] eqn:Ev; cbn [option_map]; [|auto]. assert (Wx : wfv x) by (eapply nth_Forall; eauto).
        unfold aval. rewrite (nth_mkcells 0 i Wx). cbn [Nat.add]. destruct (nth_error (v_ivar x) i) as [y|] eqn:Ey.
        * destruct (nth_error (v_mem x) i) as [z|] eqn:Ez; [|apply nth_error_None in Ez; rewrite Wx in Ez; apply nth_error_None in Ez; congruence]. rewrite C. destruct y as [r|]; [auto|].
          unfold get. rewrite Ev, Ez. cbn [new_obj abs s_heap s_vals]. split; [reflexivity|]. split.
          -- apply Forall_upd; [assumption|]. unfold wfv. cbn [v_mem v_ivar]. rewrite upd_length. exact Wx.
          -- intros _. unfold abs, set_val. cbn [r_vals r_heap]. rewrite map_upd. f_equal. f_equal. unfold aval. cbn [v_mem v_ivar]. rewrite mkcells_iv by assumption. reflexivity.
        * destruct (nth_error (v_mem x) i); auto.
      + assert (X := get_abs v C W). destruct (get conv m v i) as [m' x], (s_read converted conv (abs m) v i) as [s' y]. destruct X as (X1 & X2 & X3). auto.
    - unfold attr_write. destruct (converted i) eqn:C.
      + unfold s_write. rewrite nth_abs. destruct (nth_error (r_vals m) v) as [x|] eqn:Ev; cbn [option_map]; [|auto]. assert (Wx : wfv x) by (eapply nth_Forall; eauto).
        cbn [abs s_heap]. destruct (nth_error (r_heap m) r) as [c|]; [|auto]. rewrite ltb_nth. unfold aval. rewrite (nth_mkcells 0 i Wx). cbn [Nat.add]. destruct (nth_error (v_ivar x) i) as [y|] eqn:Ey.
        * destruct (nth_error (v_mem x) i) as [z|] eqn:Ez; [|apply nth_error_None in Ez; rewrite Wx in Ez; apply nth_error_None in Ez; congruence]. rewrite C. split; [reflexivity|]. split.
          -- apply Forall_upd; [assumption|]. unfold wfv. cbn [v_mem v_ivar]. rewrite upd_length. exact Wx.
          -- intros _. unfold abs, set_val, with_cell. cbn [r_vals r_heap s_vals s_heap]. rewrite map_upd. f_equal. f_equal. unfold aval. cbn [v_mem v_ivar]. rewrite mkcells_iv by assumption. reflexivity.
        * destruct (nth_error (v_mem x) i); auto.
      + assert (X := set_abs v r C W). destruct (set back m v i r) as [m' x], (s_write converted back (abs m) v i r) as [s' y]. destruct X as (X1 & X2 & X3). auto.
    - destruct (apply m v) as [m' o] eqn:A. destruct (apply_abs W A) as (E & W' & O & _). rewrite O. destruct o as [l|]; (split; [reflexivity|]); (split; [assumption|]); intros _; symmetry; assumption.
    - destruct (apply m a) as [m1 o1] eqn:A1. destruct (apply_abs W A1) as (E1 & W1 & O1 & H1 & _). rewrite O1. destruct o1 as [l1|].
      + destruct (apply m1 b) as [m2 o2] eqn:A2. destruct (apply_abs W1 A2) as (E2 & W2 & O2 & H2 & K2 & _). rewrite E1 in O2. rewrite O2. destruct o2 as [l2|].
        * assert (X : mem_of m2 a = Some l1).
          { destruct (Nat.eq_dec a b) as [-> |Hne]; [rewrite (contents_mem W1 A2); congruence|]. unfold mem_of. rewrite (K2 a Hne). fold (mem_of m1 a). exact (contents_mem W A1). }
          rewrite X. split; [reflexivity|]. split; [assumption|]. intros _. congruence.
        * split; [reflexivity|]. split; [assumption|]. intros _. congruence.
      + split; [reflexivity|]. split; [assumption|]. intros _. congruence.
    - unfold copy. cbn [abs s_vals]. rewrite map_length. destruct (to <? length (r_vals m)) eqn:Lt; [|auto]. cbv zeta.
      assert (X : contents (abs (invalidate m to)) from = contents (abs m) from /\ wf (invalidate m to) /\ r_heap (invalidate m to) = r_heap m /\ forall y, upd (s_vals (abs (invalidate m to))) to y = upd (s_vals (abs m)) to y).
      { unfold invalidate. rewrite ltb_nth in Lt. destruct (nth_error (r_vals m) to) as [x|] eqn:Ev; [|discriminate]. split; [|split; [|split]].
        - unfold ConvSpec.contents. rewrite !nth_abs. unfold set_val. cbn [r_vals]. rewrite nth_upd. destruct (Nat.eqb_spec to from); [congruence|]. reflexivity.
        - apply Forall_upd; [assumption|apply wf_fresh].
        - reflexivity.
        - intros y. unfold abs, set_val. cbn [r_vals s_vals]. rewrite map_upd, upd_upd. reflexivity. }
      destruct X as (X1 & X2 & X3 & X4). destruct (apply (invalidate m to) from) as [m2 o2] eqn:A2. destruct (apply_abs X2 A2) as (E2 & W2 & O2 & H2 & K2 & L2). rewrite X1 in O2. rewrite O2. destruct o2 as [l|].
      + assert (Lt2 : to < length (r_vals m2)).
        { rewrite L2. apply Nat.ltb_lt in Lt. unfold invalidate. destruct (nth_error (r_vals m) to); [unfold set_val; cbn [r_vals]; rewrite upd_length|]; assumption. }
        destruct (nth_error (r_vals m2) to) as [x|] eqn:Ev; [|apply nth_error_None in Ev; lia]. split; [reflexivity|]. split; [apply Forall_upd; [assumption|apply (wf_fresh l)]|].
        intros _. unfold abs, set_val. cbn [r_vals r_heap s_vals s_heap]. rewrite map_upd. assert (Y := f_equal s_vals E2). assert (Z := f_equal s_heap E2). unfold abs in Y, Z. cbn [s_vals s_heap] in Y, Z. rewrite Y, Z, X3. change (aval (RV l (map (fun _ => None) l))) with (aval (fresh l)). rewrite aval_fresh. f_equal. symmetry. apply X4.
      + split; [reflexivity|]. split; [assumption|]. intros [X|X]; [discriminate|congruence].
    - assert (X := get_abs v U W). destruct (get conv m v i) as [m' x], (s_read converted conv (abs m) v i) as [s' y]. destruct X as (X1 & X2 & X3). auto.
    - assert (X := set_abs v r U W). destruct (set back m v i r) as [m' x], (s_write converted back (abs m) v i r) as [s' y]. destruct X as (X1 & X2 & X3). auto.
  Qed.
  (** Every state a program reaches has one instance variable per field, and they are objects that exist. *)
  Definition refs_ok (n : nat) (x : rval) : Prop := forall r, In (Some r) (v_ivar x) -> r < n.
  Definition inv (m : rstate) : Prop := wf m /\ Forall (refs_ok (length (r_heap m))) (r_vals m).
  Lemma refs_mono n k x : n <= k -> refs_ok n x -> refs_ok k x.
  Proof. intros L H r Hr. assert (X := H r Hr). lia. Qed.
  Lemma refs_fresh n mem : refs_ok n (fresh mem).
  Proof. intros r Hr. unfold fresh in Hr. cbn [v_ivar] in Hr. apply in_map_iff in Hr as (z & X & _). discriminate. Qed.
  Lemma inv_set m v x : inv m -> wfv x -> refs_ok (length (r_heap m)) x -> inv (set_val m v x).
  Proof. intros [W F] Wx Fx. split; [apply Forall_upd; assumption|apply Forall_upd; assumption]. Qed.
  Lemma inv_heap m c : inv m -> inv (RS (r_vals m) (r_heap m ++ [c])).
  Proof. intros [W F]. split; [exact W|]. cbn [r_heap r_vals]. eapply Forall_impl; [|exact F]. intros x. apply refs_mono. rewrite app_length. lia. Qed.
  Lemma inv_nth m v x : inv m -> nth_error (r_vals m) v = Some x -> wfv x /\ refs_ok (length (r_heap m)) x.
  Proof. intros [W F] E. split; eapply nth_Forall; eauto. Qed.
  Lemma inv_apply m v : inv m -> inv (fst (apply m v)) /\ r_heap (fst (apply m v)) = r_heap m.
  Proof.
    intros I. unfold Conv.apply. destruct (nth_error (r_vals m) v) as [x|] eqn:Ev; [|auto]. destruct (inv_nth I Ev) as [Wx Fx].
    destruct (apply_fields (r_heap m) 0 (v_mem x) (v_ivar x)) as [l ok] eqn:Ef. destruct (apply_fields_abs Wx Ef) as (L & _). split; [|reflexivity]. apply inv_set; [assumption| |exact Fx]. unfold wfv. cbn [v_mem v_ivar]. rewrite L. exact Wx.
  Qed.
  Lemma in_upd {A} (l : list A) : forall i x y, In y (upd l i x) -> y = x \/ In y l.
  Proof. induction l as [|a l IH]; intros [|i] x y; cbn [upd In]; intros H; [contradiction|contradiction|destruct H; auto|destruct H as [H|H]; [auto|destruct (IH _ _ _ H); auto]]. Qed.
  Lemma inv_ivar m v x i r : inv m -> nth_error (r_vals m) v = Some x -> r < length (r_heap m) -> inv (set_val m v (RV (v_mem x) (upd (v_ivar x) i (Some r)))).
  Proof.
    intros I E Hr. destruct (inv_nth I E) as [Wx Fx]. apply inv_set; [assumption| |].
    - unfold wfv. cbn [v_mem v_ivar]. rewrite upd_length. exact Wx.
    - intros r' H. cbn [v_ivar] in H. apply in_upd in H as [H|H]; [congruence|apply Fx; assumption].
  Qed.
  Lemma inv_mem m v x l : inv m -> nth_error (r_vals m) v = Some x -> length l = length (v_mem x) -> inv (set_val m v (RV l (v_ivar x))).
  Proof. intros I E L. destruct (inv_nth I E) as [Wx Fx]. apply inv_set; [assumption| |exact Fx]. unfold wfv. cbn [v_mem v_ivar]. rewrite L. exact Wx. Qed.
  Lemma inv_get m v i : inv m -> inv (fst (get conv m v i)).
  Proof. intros I. unfold get. destruct (nth_error (r_vals m) v) as [x|]; [|exact I]. destruct (nth_error (v_mem x) i); [|exact I]. cbn [new_obj fst]. apply inv_heap. exact I. Qed.
  Lemma inv_raw m v i z : inv m -> inv (fst (raw_set m v i z)).
  Proof. intros I. unfold raw_set. destruct (nth_error (r_vals m) v) as [x|] eqn:E; [|exact I]. destruct (i <? length (v_mem x)); [|exact I]. cbn [fst]. apply (inv_mem I E). apply upd_length. Qed.
  Lemma inv_put m v i r : inv m -> inv (fst (set back m v i r)).
  Proof. intros I. unfold set. destruct (nth_error (r_vals m) v) as [x|] eqn:E; [|exact I]. destruct (i <? length (v_mem x)); [|exact I]. destruct (nth_error (r_heap m) r); [|exact I]. destruct (back i z); [|exact I]. apply inv_raw. exact I. Qed.
  (** Objects made by dup have the contents of those they were made from. *)
  Lemma dup_ivars_abs : forall iv mem heap i l h, length mem = length iv -> dup_ivars converted heap i iv = (l, h) ->
    length l = length iv /\ (exists e, h = heap ++ e) /\
    ((forall r, In (Some r) iv -> r < length heap) -> cells_raw h i (mkcells i mem l) = cells_raw heap i (mkcells i mem iv) /\ forall r, In (Some r) l -> r < length h).
  Proof.
    assert (Mono : forall mem iv i heap e, (forall r, In (Some r) iv -> r < length heap) -> cells_raw (heap ++ e) i (mkcells i mem iv) = cells_raw heap i (mkcells i mem iv)).
    { induction mem as [|z mem IH]; intros [|x iv] i heap e H; cbn [mkcells ConvSpec.cells_raw]; try reflexivity. rewrite IH by (intros r Hr; apply H; right; assumption). f_equal.
      destruct (converted i); [|reflexivity]. destruct x as [r|]; [|reflexivity]. cbn [cell_raw]. rewrite nth_error_app1 by (apply H; left; reflexivity). reflexivity. }
    induction iv as [|x iv IH]; intros [|z mem] heap i l h E D; cbn [dup_ivars length] in *; try discriminate.
    - injection D as <- <-. split; [reflexivity|]. split; [exists []; rewrite app_nil_r; reflexivity|]. intros H. split; [reflexivity|exact H].
    - destruct (if converted i then x else None) as [r|] eqn:Ex.
      + destruct (dup_ivars converted (heap ++ [nth r heap 0%Z]) (S i) iv) as [l' h'] eqn:D'. injection D as <- <-. destruct (IH mem _ _ _ _ ltac:(lia) D') as (L & (e & ->) & H). cbn [length]. split; [lia|]. split; [exists (nth r heap 0%Z :: e); rewrite <- app_assoc; reflexivity|].
        intros Hv. destruct (converted i) eqn:C; [|discriminate]. subst x. assert (Hr : r < length heap) by (apply Hv; left; reflexivity).
        destruct H as [H1 H2]. { intros r' Hr'. rewrite app_length. cbn [length]. assert (X := Hv r' (or_intror Hr')). lia. }
        cbn [mkcells ConvSpec.cells_raw]. rewrite C, H1. split.
        * f_equal; [|apply Mono; intros r' Hr'; apply Hv; right; assumption]. cbn [cell_raw]. rewrite nth_error_app1 by (rewrite app_length; cbn [length]; lia). rewrite nth_error_app2 by lia. rewrite Nat.sub_diag. cbn [nth_error]. rewrite (nth_error_nth' heap 0%Z Hr). reflexivity.
        * intros r' [X|X]; [injection X as <-; rewrite !app_length; cbn [length]; lia|apply H2; assumption].
      + destruct (dup_ivars converted heap (S i) iv) as [l' h'] eqn:D'. injection D as <- <-. destruct (IH mem _ _ _ _ ltac:(lia) D') as (L & (e & ->) & H). cbn [length]. split; [lia|]. split; [exists e; reflexivity|].
        intros Hv. destruct H as [H1 H2]; [intros r' Hr'; apply Hv; right; assumption|]. cbn [mkcells ConvSpec.cells_raw]. rewrite Ex, H1. split; [reflexivity|]. intros r' [X|X]; [rewrite app_length; assert (Y := Hv r' (or_introl X)); lia|apply H2; assumption].
  Qed.
  Lemma inv_step m o : inv m -> inv (fst (r_step m o)).
  Proof.
    intros I. destruct o as [raw|c|r c|v i|v i r|v|a b|to from|v i|v i r|v i z|v raw|v|vs]; cbn [Conv.r_step].
    - destruct I as [W F]. split; cbn [fst r_vals r_heap]; apply Forall_app; (split; [assumption|constructor; [|constructor]]); [apply wf_fresh|apply refs_fresh].
    - cbn [new_obj fst]. apply inv_heap. exact I.
    - destruct (r <? length (r_heap m)); [|exact I]. destruct I as [W F]. split; [exact W|]. cbn [fst r_vals r_heap]. rewrite upd_length. exact F.
    - unfold attr_read. destruct (converted i); [|apply inv_get; exact I]. destruct (nth_error (r_vals m) v) as [x|] eqn:E; [|exact I]. destruct (nth_error (v_ivar x) i) as [[r|]|]; [exact I| |exact I].
      unfold get. rewrite E. destruct (nth_error (v_mem x) i) as [z|]; [|exact I]. cbn [new_obj fst]. apply (inv_ivar (m := RS (r_vals m) (r_heap m ++ [conv i z]))); [apply inv_heap; exact I|exact E|]. cbn [r_heap]. rewrite app_length. cbn [length]. lia.
    - unfold attr_write. destruct (converted i); [|apply inv_put; exact I]. destruct (nth_error (r_vals m) v) as [x|] eqn:E; [|exact I]. destruct (nth_error (r_heap m) r) eqn:Er; [|exact I]. destruct (i <? length (v_ivar x)); [|exact I]. cbn [fst]. apply inv_ivar; [exact I|exact E|]. apply nth_error_Some. congruence.
    - destruct (inv_apply v I) as [X _]. destruct (apply m v) as [m' [l|]]; exact X.
    - destruct (inv_apply a I) as [X _]. destruct (apply m a) as [m1 [l|]]; [|exact X]. destruct (inv_apply b X) as [Y _]. cbn [fst] in *. destruct (apply m1 b) as [m2 [l2|]]; exact Y.
    - unfold copy. destruct (to <? length (r_vals m)); [|exact I]. cbv zeta. assert (J : inv (invalidate m to)) by (unfold invalidate; destruct (nth_error (r_vals m) to); [apply inv_set; [exact I|apply wf_fresh|apply refs_fresh]|exact I]).
      destruct (inv_apply from J) as [X _]. destruct (apply (invalidate m to) from) as [m2 [l|]]; cbn [fst] in *; [|exact X]. destruct (nth_error (r_vals m2) to); [|exact X]. apply inv_set; [exact X|apply (wf_fresh l)|apply (@refs_fresh (length (r_heap m2)) l)].
    - apply inv_get. exact I.
    - apply inv_put. exact I.
    - apply inv_raw. exact I.
    - destruct (nth_error (r_vals m) v) as [x|] eqn:E; [|exact I]. destruct (Nat.eqb_spec (length raw) (length (v_mem x))); [|exact I]. cbn [fst]. apply (inv_mem I E). assumption.
    - unfold dup. destruct (inv_apply v I) as [X _]. destruct (apply m v) as [m1 [l|]]; cbn [fst] in X; [|exact X]. destruct (nth_error (r_vals m1) v) as [x|] eqn:E; [|exact X]. destruct (inv_nth X E) as [Wx Fx].
      destruct (dup_ivars converted (r_heap m1) 0 (v_ivar x)) as [iv h] eqn:D. destruct (dup_ivars_abs Wx D) as (L & (e & He) & H). destruct (H Fx) as [_ H2]. cbn [fst]. destruct X as [W F]. split; cbn [r_vals r_heap]; apply Forall_app; split.
      + apply Forall_upd; [exact W|]. unfold wfv. cbn [v_mem v_ivar]. rewrite L. exact Wx.
      + constructor; [apply wf_fresh|constructor].
      + apply Forall_upd; [|exact H2]. eapply Forall_impl; [|exact F]. intros y. apply refs_mono. rewrite He, app_length. lia.
      + constructor; [apply refs_fresh|constructor].
    - exact I.
  Qed.
  Lemma inv_states : forall l m, inv m -> inv (Conv.r_states converted conv back m l).
  Proof. induction l as [|o l IH]; intros m I; cbn [r_states]; [exact I|]. apply IH, inv_step, I. Qed.
  Lemma bytes_abs m v : inv m -> snd (r_step m (OBytes v)) = match contents (abs m) v with Some l => RBytes l | None => RRaise end.
  Proof. intros [W _]. cbn [Conv.r_step]. destruct (apply m v) as [m' o] eqn:A. destruct (apply_abs W A) as (_ & _ & O & _). rewrite O. destruct o; reflexivity. Qed.
  Lemma cells_raw_mono : forall mem iv i heap e, (forall r, In (Some r) iv -> r < length heap) -> cells_raw (heap ++ e) i (mkcells i mem iv) = cells_raw heap i (mkcells i mem iv).
  Proof.
    induction mem as [|z mem IH]; intros [|x iv] i heap e H; cbn [mkcells ConvSpec.cells_raw]; try reflexivity. rewrite IH by (intros r Hr; apply H; right; assumption). f_equal.
    destruct (converted i); [|reflexivity]. destruct x as [r|]; [|reflexivity]. cbn [cell_raw]. rewrite nth_error_app1 by (apply H; left; reflexivity). reflexivity.
  Qed.
  Lemma cells_raw_upd heap : forall l i j c c', nth_error l j = Some c -> cell_raw back heap (i + j) c' = cell_raw back heap (i + j) c -> cells_raw heap i (upd l j c') = cells_raw heap i l.
  Proof.
    induction l as [|a l IH]; intros i [|j] c c' E H; cbn [upd nth_error ConvSpec.cells_raw] in *; try discriminate.
    - injection E as ->. rewrite Nat.add_0_r in H. rewrite H. reflexivity.
    - f_equal. apply (IH (S i) j c c' E). replace (S i + j) with (i + S j) by lia. exact H.
  Qed.
  Lemma contents_heap m v c : inv m -> contents (abs (RS (r_vals m) (r_heap m ++ [c]))) v = contents (abs m) v.
  Proof.
    intros I. unfold ConvSpec.contents. rewrite !nth_abs. cbn [r_vals]. destruct (nth_error (r_vals m) v) as [x|] eqn:E; cbn [option_map]; [|reflexivity]. cbn [abs s_heap r_heap]. destruct (inv_nth I E) as [_ Fx]. unfold aval. rewrite cells_raw_mono by exact Fx. reflexivity.
  Qed.
  Lemma read_contents m v i w : inv m -> (forall z, back i (conv i z) = Some z) -> contents (abs (fst (r_step m (ORead v i)))) w = contents (abs m) w.
  Proof.
    intros I RT. cbn [Conv.r_step]. unfold attr_read. destruct (converted i) eqn:C.
    - destruct (nth_error (r_vals m) v) as [x|] eqn:E; [|reflexivity]. destruct (nth_error (v_ivar x) i) as [[r|]|] eqn:Ei; [reflexivity| |reflexivity]. unfold get. rewrite E. destruct (nth_error (v_mem x) i) as [z|] eqn:Ez; [|reflexivity]. cbn [new_obj fst].
      rewrite <- (contents_heap w (conv i z) I). unfold ConvSpec.contents. rewrite !nth_abs. unfold set_val. cbn [r_vals r_heap]. rewrite nth_upd. destruct (Nat.eqb_spec v w) as [<- |]; [|reflexivity]. rewrite ltb_nth, E. cbn [andb option_map abs s_heap r_heap].
      destruct (inv_nth I E) as [Wx _]. unfold aval. cbn [v_mem v_ivar]. rewrite mkcells_iv by assumption. rewrite (@cells_raw_upd _ (mkcells 0 (v_mem x) (v_ivar x)) 0 i (Stored z)); [reflexivity| |].
      + rewrite (nth_mkcells 0 i Wx), Ez, Ei. cbn [Nat.add]. rewrite C. reflexivity.
      + cbn [cell_raw Nat.add]. rewrite nth_error_app2 by lia. rewrite Nat.sub_diag. cbn [nth_error]. apply RT.
    - unfold get. destruct (nth_error (r_vals m) v) as [x|]; [|reflexivity]. destruct (nth_error (v_mem x) i); [|reflexivity]. cbn [new_obj fst]. apply contents_heap. exact I.
  Qed.
  (** dup *)
  Lemma cells_stored heap : forall l i, opt_all (cells_raw heap i (map Stored l)) = Some l.
  Proof. induction l as [|z l IH]; intros i; cbn [map ConvSpec.cells_raw cell_raw opt_all]; [reflexivity|]. rewrite IH. reflexivity. Qed.
  Lemma dup_contents m v m' w : inv m -> r_step m (ODup v) = (m', RVal w) ->
    w = length (r_vals m) /\ exists b, contents (abs m) v = Some b /\ contents (abs m') v = Some b /\ nth_error (r_vals m') w = Some (fresh b).
  Proof.
    intros I. cbn [Conv.r_step]. unfold dup. destruct (inv_apply v I) as [X _]. destruct (apply m v) as [m1 [l|]] eqn:A; cbn [fst] in X; [|discriminate]. destruct I as [W _]. destruct (apply_abs W A) as (E1 & _ & O & H1 & _ & L1). destruct (H1 l eq_refl) as (iv & E). rewrite E.
    cbn [v_ivar v_mem]. destruct (inv_nth X E) as [Wx Fx]. destruct (dup_ivars converted (r_heap m1) 0 iv) as [iv' h] eqn:D. intros Q. injection Q as <- <-. rewrite L1. split; [reflexivity|]. exists l. split; [assumption|].
    destruct (dup_ivars_abs Wx D) as (L & (e & He) & H). destruct (H Fx) as [H2 _].
    assert (Lv : v < length (r_vals m1)) by (apply nth_error_Some; congruence). split.
    - unfold ConvSpec.contents. rewrite nth_abs. cbn [r_vals]. rewrite nth_error_app1 by (rewrite upd_length; lia). rewrite nth_upd, Nat.eqb_refl. replace (v <? length (r_vals m1)) with true by (symmetry; apply Nat.ltb_lt; lia). cbn [andb option_map abs s_heap r_heap]. unfold aval. cbn [v_mem v_ivar].
      cbn [v_mem] in H2. rewrite H2. rewrite <- O, <- E1. unfold ConvSpec.contents. rewrite nth_abs, E. reflexivity.
    - cbn [r_vals]. rewrite nth_error_app2 by (rewrite upd_length; lia). rewrite upd_length, L1, Nat.sub_diag. reflexivity.
  Qed.
  (** Operations on other values leave a value that has no object of its own alone. *)
  Definition touches (w : nat) (o : op) : Prop :=
    match o with ORead v _ | OWrite v _ _ | OCopy v _ | OSet v _ _ | ORawSet v _ _ | OLoad v _ => v = w | _ => False end.
  Lemma apply_fresh_fields heap : forall b i, apply_fields heap i b (map (fun _ => None) b) = (b, true).
  Proof. induction b as [|z b IH]; intros i; cbn [Conv.apply_fields map]; [reflexivity|]. rewrite IH. destruct (converted i); reflexivity. Qed.
  Lemma apply_keeps m w b v : nth_error (r_vals m) w = Some (fresh b) -> nth_error (r_vals (fst (apply m v))) w = Some (fresh b).
  Proof.
    intros E. unfold Conv.apply. destruct (nth_error (r_vals m) v) as [x|] eqn:Ev; [|exact E]. destruct (apply_fields (r_heap m) 0 (v_mem x) (v_ivar x)) as [l ok] eqn:Ef. cbn [fst set_val r_vals]. rewrite nth_upd. destruct (Nat.eqb_spec v w) as [-> |]; [|exact E].
    rewrite ltb_nth, Ev. cbn [andb]. rewrite E in Ev. injection Ev as <-. unfold fresh in Ef. cbn [v_mem v_ivar] in Ef. rewrite apply_fresh_fields in Ef. injection Ef as <- _. reflexivity.
  Qed.
  Lemma dup_fresh : forall (b : list Z) heap i, dup_ivars converted heap i (map (fun _ => None) b) = (map (fun _ => None) b, heap).
  Proof. induction b as [|z b IH]; intros heap i; cbn [dup_ivars map]; [reflexivity|]. destruct (converted i); rewrite IH; reflexivity. Qed.
  Lemma step_keeps m w b o : nth_error (r_vals m) w = Some (fresh b) -> ~ touches w o -> nth_error (r_vals (fst (r_step m o))) w = Some (fresh b).
  Proof.
    intros E T. assert (Lw : w < length (r_vals m)) by (apply nth_error_Some; congruence).
    assert (SV : forall m0 v x, v <> w -> nth_error (r_vals m0) w = Some (fresh b) -> nth_error (r_vals (set_val m0 v x)) w = Some (fresh b)).
    { intros m0 v x N E0. unfold set_val. cbn [r_vals]. rewrite nth_upd. destruct (Nat.eqb_spec v w); [congruence|exact E0]. }
    assert (G : forall v i, nth_error (r_vals (fst (get conv m v i))) w = Some (fresh b)).
    { intros v i. unfold get. destruct (nth_error (r_vals m) v) as [x|]; [|exact E]. destruct (nth_error (v_mem x) i); exact E. }
    assert (R : forall v i z, v <> w -> nth_error (r_vals (fst (raw_set m v i z))) w = Some (fresh b)).
    { intros v i z N. unfold raw_set. destruct (nth_error (r_vals m) v) as [x|]; [|exact E]. destruct (i <? length (v_mem x)); [|exact E]. apply SV; assumption. }
    assert (P : forall v i r, v <> w -> nth_error (r_vals (fst (set back m v i r))) w = Some (fresh b)).
    { intros v i r N. unfold set. destruct (nth_error (r_vals m) v) as [x|]; [|exact E]. destruct (i <? length (v_mem x)); [|exact E]. destruct (nth_error (r_heap m) r); [|exact E]. destruct (back i z); [|exact E]. apply R; assumption. }
    destruct o as [raw|c|r c|v i|v i r|v|a b'|to from|v i|v i r|v i z|v raw|v|vs]; cbn [touches] in T; cbn [Conv.r_step].
    - cbn [fst r_vals]. rewrite nth_error_app1 by lia. exact E.
    - exact E.
    - destruct (r <? length (r_heap m)); exact E.
    - unfold attr_read. destruct (converted i); [|apply G]. destruct (nth_error (r_vals m) v) as [x|] eqn:Ev; [|exact E]. destruct (nth_error (v_ivar x) i) as [[r|]|]; [exact E| |exact E]. assert (X := G v i). destruct (get conv m v i) as [m' [|r| | | |]]; try exact X. apply SV; [assumption|exact X].
    - unfold attr_write. destruct (converted i); [|apply P; assumption]. destruct (nth_error (r_vals m) v) as [x|]; [|exact E]. destruct (nth_error (r_heap m) r); [|exact E]. destruct (i <? length (v_ivar x)); [|exact E]. apply SV; assumption.
    - assert (X := apply_keeps v E). destruct (apply m v) as [m' [l|]]; exact X.
    - assert (X := apply_keeps a E). destruct (apply m a) as [m1 [l|]]; [|exact X]. assert (Y := apply_keeps b' X). cbn [fst] in Y. destruct (apply m1 b') as [m2 [l2|]]; exact Y.
    - unfold copy. destruct (to <? length (r_vals m)); [|exact E]. cbv zeta. assert (X : nth_error (r_vals (invalidate m to)) w = Some (fresh b)) by (unfold invalidate; destruct (nth_error (r_vals m) to); [apply SV; assumption|exact E]).
      assert (Y := apply_keeps from X). destruct (apply (invalidate m to) from) as [m2 [l|]]; cbn [fst] in *; [|exact Y]. destruct (nth_error (r_vals m2) to); [apply SV; assumption|exact Y].
    - apply G.
    - apply P; assumption.
    - apply R; assumption.
    - destruct (nth_error (r_vals m) v) as [x|]; [|exact E]. destruct (length raw =? length (v_mem x)); [|exact E]. apply SV; assumption.
    - unfold dup. assert (X := apply_keeps v E). destruct (apply m v) as [m1 [l|]]; cbn [fst] in X; [|exact X]. destruct (nth_error (r_vals m1) v) as [x|] eqn:Ev; [|exact X]. destruct (dup_ivars converted (r_heap m1) 0 (v_ivar x)) as [iv h] eqn:D. cbn [fst r_vals].
      rewrite nth_error_app1 by (rewrite upd_length; apply nth_error_Some; congruence). rewrite nth_upd. destruct (Nat.eqb_spec v w) as [-> |]; [|exact X]. rewrite ltb_nth, Ev. cbn [andb]. rewrite X in Ev. injection Ev as <-. unfold fresh in D. cbn [v_ivar v_mem] in D. rewrite dup_fresh in D. injection D as <- _. reflexivity.
    - exact E.
  Qed.
  Lemma states_keep w b : forall l m, nth_error (r_vals m) w = Some (fresh b) -> Forall (fun o => ~ touches w o) l -> nth_error (r_vals (Conv.r_states converted conv back m l)) w = Some (fresh b).
  Proof. induction l as [|o l IH]; intros m E F; [exact E|]. inversion F; subst. cbn [r_states]. apply IH; [apply step_keeps; assumption|assumption]. Qed.
  Lemma fresh_contents m w b : nth_error (r_vals m) w = Some (fresh b) -> contents (abs m) w = Some b.
  Proof. intros E. unfold ConvSpec.contents. rewrite nth_abs, E. cbn [option_map]. rewrite aval_fresh. apply cells_stored. Qed.
End Proofs.
