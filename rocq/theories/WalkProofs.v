(** * WalkProofs: a Hoare-style rule for the bytecode walk, in terms of atoms. *)
From Verif Require Import Base Types WellFormed Layout LayoutProofs LayoutMain ValueOps.
Local Open Scope N_scope.

(** Convergence in two fuels. *)
Definition conv2 {A} (f : nat -> nat -> res A) (r : res A) : Prop :=
  exists n, forall a b, (n <= a)%nat -> (n <= b)%nat -> f a b = r.
Lemma conv2_const {A} (r : res A) : conv2 (fun _ _ => r) r.
Proof. exists 0%nat; auto. Qed.
Lemma conv2_bind {A C} (f : nat -> nat -> res A) (g : nat -> nat -> A -> res C) x r :
  conv2 f (Ok x) -> conv2 (fun a b => g a b x) r -> conv2 (fun a b => bind (f a b) (g a b)) r.
Proof.
  intros [n1 H1] [n2 H2]. exists (Nat.max n1 n2); intros a b Ha Hb.
  rewrite H1 by lia. simpl. apply H2; lia.
Qed.
Lemma conv2_bind_throw {A C} (f : nat -> nat -> res A) (g : nat -> nat -> A -> res C) e :
  conv2 f (Throw e) -> conv2 (fun a b => bind (f a b) (g a b)) (Throw e).
Proof. intros [n1 H1]. exists n1; intros a b Ha Hb. rewrite H1 by lia. reflexivity. Qed.
Lemma conv2_ext {A} (f g : nat -> nat -> res A) r : (forall a b, g a b = f a b) -> conv2 f r -> conv2 g r.
Proof. intros H [n H1]. exists n; intros. rewrite H. auto. Qed.
Lemma conv2_diag {A} (f : nat -> nat -> res A) r : conv2 f r -> conv (fun n => f n n) r.
Proof. intros [n H]. exists n; intros; apply H; assumption. Qed.
Lemma conv_conv2_l {A} (f : nat -> res A) r : conv f r -> conv2 (fun a _ => f a) r.
Proof. intros [n H]. exists n; intros; apply H; assumption. Qed.
Lemma conv_conv2_r {A} (f : nat -> res A) r : conv f r -> conv2 (fun _ b => f b) r.
Proof. intros [n H]. exists n; intros; apply H; assumption. Qed.

Definition lift {S} (rest : list word) (r : res S) : res (S * list word) := bind r (fun s => Ok (s, rest)).
Definition at_end (rest : list word) : Prop := rest = [] \/ exists r, rest = W FLAG_END :: r.

Section Walk.
  Context {St : Type}.
  Variable h : nat -> handlers St.
  Variable merge : bool.
  Variable pre : list atom -> St -> Prop.
  Variable post : list atom -> St -> res St -> Prop.
  Variables hm hs : N -> St -> res St.

  Record walk_spec : Prop := {
    ws_mem_eq : forall a n s, h_mem (h a) n s = hm n s;
    ws_skip_eq : forall a n s, h_skip (h a) n s = hs n s;
    ws_arr_end : forall a r, h_arr_end (h a) (W FLAG_END :: r) = Ok r;
    ws_nil : forall s, pre [] s -> post [] s (Ok s);
    ws_pre : forall l1 l2 s, pre (l1 ++ l2) s -> pre l1 s /\ forall s1, post l1 s (Ok s1) -> pre l2 s1;
    ws_seq : forall l1 l2 s s1 r, pre (l1 ++ l2) s -> post l1 s (Ok s1) -> post l2 s1 r -> post (l1 ++ l2) s r;
    ws_throw : forall l1 l2 s e, pre (l1 ++ l2) s -> post l1 s (Throw e) -> post (l1 ++ l2) s (Throw e);
    ws_safe : forall l s r, post l s r -> (exists s', r = Ok s') \/ (exists e, r = Throw e);
    ws_mem : forall n s, pre (repN n AByte) s -> post (repN n AByte) s (hm n s);
    ws_skip : forall n s, pre (repN n APad) s -> post (repN n APad) s (hs n s);
    ws_cont : forall k sz e s rest, wf e -> 1 <= sz -> pre [ACont k sz e] s ->
      exists r, conv2 (fun a f => '(s', it') <- h_cont (h a) f k sz e s (flat (sblock merge (rops e)) ++ W FLAG_END :: rest) ;;
                                  it'' <- h_cont_end (h a) it' ;; Ok (s', it'')) (lift rest r) /\
                post [ACont k sz e] s r
  }.

  Lemma walk_rep (WS : walk_spec) b rest' body
    (IHb : forall s, pre (atoms b) s ->
       exists r, conv2 (fun a f => walk f (h a) s body) (lift (W FLAG_END :: rest') r) /\ post (atoms b) s r) :
    forall n s it0, pre (rep_list n (atoms b)) s ->
    exists r, (exists N0, forall a f c, (N0 <= a)%nat -> (N0 <= f)%nat -> (N0 <= c)%nat ->
         loopN c n (fun p => walk f (h a) (fst p) body) (s, it0)
         = lift (if n =? 0 then it0 else W FLAG_END :: rest') r) /\ post (rep_list n (atoms b)) s r.
  Proof.
    induction n as [|n IH] using N.peano_ind; intros s it0 Hp.
    - exists (Ok s). split; [|apply (ws_nil WS); exact Hp]. exists 1%nat. intros a f [|c] _ _ Hc; [lia|]. reflexivity.
    - rewrite rep_list_S in *. destruct (ws_pre WS Hp) as [Hp1 Hp2].
      destruct (IHb _ Hp1) as (r1 & [n1 C1] & P1).
      assert (Ez : (N.succ n =? 0) = false) by (apply N.eqb_neq; lia).
      destruct (ws_safe WS P1) as [[s1 ->]|[e ->]].
      + destruct (IH s1 (W FLAG_END :: rest') (Hp2 _ P1)) as (r & [n2 C2] & P2).
        exists r. split; [|apply (ws_seq WS) with (s1 := s1); assumption].
        exists (S (Nat.max n1 n2)). intros a f [|c] Ha Hf Hc; [lia|]. cbn [loopN]. rewrite Ez. cbn [fst].
        rewrite C1 by lia. cbn [lift bind]. rewrite N.pred_succ. rewrite C2 by lia.
        destruct (n =? 0); reflexivity.
      + exists (Throw e). split; [|apply (ws_throw WS); assumption].
        exists (S n1). intros a f [|c] Ha Hf Hc; [lia|]. cbn [loopN]. rewrite Ez. cbn [fst].
        rewrite C1 by lia. reflexivity.
  Qed.

  Theorem walk_rule (WS : walk_spec) o : forall s rest, wf_out merge o -> at_end rest -> pre (atoms o) s ->
    exists r, conv2 (fun a f => walk f (h a) s (flat o ++ rest)) (lift rest r) /\ post (atoms o) s r.
  Proof.
    induction o as [|n o IH|n o IH|n b IHb o IH|k sz e b IHb o IH]; intros s rest Hw Hr Hp.
    - exists (Ok s). split; [|apply (ws_nil WS); exact Hp]. exists 1%nat. intros a [|f] _ Hf; [lia|]. cbn [flat app].
      destruct Hr as [-> | [r ->]]; reflexivity.
    - cbn [wf_out] in Hw. cbn [atoms] in *. destruct (ws_pre WS Hp) as [Hp1 Hp2].
      assert (P1 := ws_mem WS Hp1).
      destruct (ws_safe WS P1) as [[s1 E]|[e E]]; rewrite E in P1.
      + destruct (IH s1 rest Hw Hr (Hp2 _ P1)) as (r & [n2 C2] & P2).
        exists r. split; [|apply (ws_seq WS) with (s1 := s1); assumption].
        exists (S n2). intros a [|f] Ha Hf; [lia|]. cbn [flat app walk]. change (decode (W FLAG_MEMCPY)) with OMem. cbv iota.
        rewrite (ws_mem_eq WS), E. cbn [bind]. apply C2; lia.
      + exists (Throw e). split; [|apply (ws_throw WS); assumption].
        exists 1%nat. intros a [|f] Ha Hf; [lia|]. cbn [flat app walk]. change (decode (W FLAG_MEMCPY)) with OMem. cbv iota.
        rewrite (ws_mem_eq WS), E. reflexivity.
    - cbn [wf_out] in Hw. cbn [atoms] in *. destruct (ws_pre WS Hp) as [Hp1 Hp2].
      assert (P1 := ws_skip WS Hp1).
      destruct (ws_safe WS P1) as [[s1 E]|[e E]]; rewrite E in P1.
      + destruct (IH s1 rest Hw Hr (Hp2 _ P1)) as (r & [n2 C2] & P2).
        exists r. split; [|apply (ws_seq WS) with (s1 := s1); assumption].
        exists (S n2). intros a [|f] Ha Hf; [lia|]. cbn [flat app walk]. change (decode (W FLAG_SKIP)) with OSkip. cbv iota.
        rewrite (ws_skip_eq WS), E. cbn [bind]. apply C2; lia.
      + exists (Throw e). split; [|apply (ws_throw WS); assumption].
        exists 1%nat. intros a [|f] Ha Hf; [lia|]. cbn [flat app walk]. change (decode (W FLAG_SKIP)) with OSkip. cbv iota.
        rewrite (ws_skip_eq WS), E. reflexivity.
    - cbn [wf_out] in Hw. destruct Hw as (Hn & Hwb & Hwo). cbn [atoms] in *. destruct (ws_pre WS Hp) as [Hp1 Hp2].
      set (body := flat b ++ W FLAG_END :: flat o ++ rest).
      destruct (@walk_rep WS b (flat o ++ rest) body) with (n := n) (s := s) (it0 := body) as (r1 & [n1 C1] & P1); [|assumption|].
      { intros s0 Hp0. destruct (IHb s0 (W FLAG_END :: flat o ++ rest) Hwb) as (r & C & P); [right; eauto|assumption|]. eauto. }
      assert (Ez : (n =? 0) = false) by (apply N.eqb_neq; lia). rewrite Ez in C1.
      destruct (ws_safe WS P1) as [[s1 ->]|[e ->]].
      + destruct (IH s1 rest Hwo Hr (Hp2 _ P1)) as (r & [n2 C2] & P2).
        exists r. split; [|apply (ws_seq WS) with (s1 := s1); assumption].
        exists (S (Nat.max n1 n2)). intros a [|f] Ha Hf; [lia|]. cbn [flat app walk]. rewrite <- app_assoc. cbn [app].
        change (decode (W FLAG_ARRAY)) with OArr. cbv iota. rewrite Ez. cbn [andb]. fold body. rewrite C1 by lia.
        cbn [lift bind]. rewrite (ws_arr_end WS). cbn [bind]. apply C2; lia.
      + exists (Throw e). split; [|apply (ws_throw WS); assumption].
        exists (S n1). intros a [|f] Ha Hf; [lia|]. cbn [flat app walk]. rewrite <- app_assoc. cbn [app].
        change (decode (W FLAG_ARRAY)) with OArr. cbv iota. rewrite Ez. cbn [andb]. fold body. rewrite C1 by lia. reflexivity.
    - cbn [wf_out] in Hw. destruct Hw as (-> & Ha & Hs & He & Hwb & Hwo). cbn [atoms] in *.
      change (ACont k sz e :: atoms o) with ([ACont k sz e] ++ atoms o) in *. destruct (ws_pre WS Hp) as [Hp1 Hp2].
      destruct (ws_cont WS (flat o ++ rest) He Hs Hp1) as (r1 & [n1 C1] & P1).
      assert (Hbind : forall (A : Type) (x : res (St * list word)) (g : list word -> res (list word)) (w : St * list word -> res A),
        bind x (fun p => let '(s', it') := p in bind (g it') (fun it'' => w (s', it''))) =
        bind (bind x (fun p => let '(s', it') := p in bind (g it') (fun it'' => Ok (s', it'')))) w).
      { intros A [[s' it']| | |] g w; simpl; try reflexivity. destruct (g it'); reflexivity. }
      destruct (ws_safe WS P1) as [[s1 ->]|[ex ->]].
      + destruct (IH s1 rest Hwo Hr (Hp2 _ P1)) as (r & [n2 C2] & P2).
        exists r. split; [|apply (ws_seq WS) with (s1 := s1); assumption].
        exists (S (Nat.max n1 n2)). intros a [|f] Haa Hf; [lia|]. cbn [flat app walk]. rewrite <- app_assoc. cbn [app].
        change (decode (W FLAG_CONTAINER)) with OCont. cbv iota.
        specialize (C1 a f ltac:(lia) ltac:(lia)).
        pose proof (Hbind _ (h_cont (h a) f k sz e s (flat (sblock merge (rops e)) ++ W FLAG_END :: flat o ++ rest)) (h_cont_end (h a))
                     (fun p => walk f (h a) (fst p) (snd p))) as HB. cbn [fst snd] in HB. rewrite HB, C1.
        cbn [lift bind fst snd]. apply C2; lia.
      + exists (Throw ex). split; [|apply (ws_throw WS); assumption].
        exists (S n1). intros a [|f] Haa Hf; [lia|]. cbn [flat app walk]. rewrite <- app_assoc. cbn [app].
        change (decode (W FLAG_CONTAINER)) with OCont. cbv iota.
        specialize (C1 a f ltac:(lia) ltac:(lia)).
        pose proof (Hbind _ (h_cont (h a) f k sz e s (flat (sblock merge (rops e)) ++ W FLAG_END :: flat o ++ rest)) (h_cont_end (h a))
                     (fun p => walk f (h a) (fst p) (snd p))) as HB. cbn [fst snd] in HB. rewrite HB, C1. reflexivity.
  Qed.
End Walk.

(** skipBlock skips a block. *)
Lemma skip_block_flat o : forall rest nest, skip_block (flat o ++ rest) nest = skip_block rest nest.
Proof.
  induction o as [|n r IH|n r IH|n b IHb r IH|k s e b IHb r IH]; intros rest nest; cbn [flat app skip_block]; auto.
  - change (decode (W FLAG_MEMCPY)) with OMem. cbv iota. apply IH.
  - change (decode (W FLAG_SKIP)) with OSkip. cbv iota. apply IH.
  - change (decode (W FLAG_ARRAY)) with OArr. cbv iota. rewrite <- app_assoc, IHb. cbn [app skip_block].
    change (decode (W FLAG_END)) with OEnd. cbv iota. apply IH.
  - change (decode (W FLAG_CONTAINER)) with OCont. cbv iota. rewrite <- app_assoc, IHb. cbn [app skip_block].
    change (decode (W FLAG_END)) with OEnd. cbv iota. apply IH.
Qed.
Lemma skip_block_block o rest : skip_block (flat o ++ W FLAG_END :: rest) 0 = Ok (W FLAG_END :: rest).
Proof. rewrite skip_block_flat. reflexivity. Qed.
Lemma skip_block_wc k s e o rest : skip_block (WC k s e :: flat o ++ W FLAG_END :: rest) 0 = Ok (W FLAG_END :: rest).
Proof. cbn [skip_block decode]. apply skip_block_block. Qed.
