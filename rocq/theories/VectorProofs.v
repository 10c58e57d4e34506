(** * VectorProofs: push, erase, delete_if and element access. *)
From Verif Require Import Base Types WellFormed Layout LayoutProofs LayoutMain InitProofs LayoutFinal
     ValueOps ValueSpec ValueAtoms ValueInst WalkProofs InitRun EltOps EltProofs CmpProofs DumpProofs LoadProofs LoadSafe ValueMain Vector VectorSpec.
Local Open Scope N_scope.

Lemma F2_same_valid e xs ys : Forall2 (same e) xs ys -> Forall (valid e) xs /\ Forall (valid e) ys.
Proof. induction 1 as [|x y xs ys H _ [IH1 IH2]]; split; constructor; auto; apply same_valid in H; tauto. Qed.
Lemma F2_app_inv {A C} (R : A -> C -> Prop) l a b : Forall2 R l (a ++ b) -> exists x y, l = x ++ y /\ Forall2 R x a /\ Forall2 R y b.
Proof. intros H. apply Forall2_app_inv_r in H. destruct H as (x & y & H1 & H2 & ->). eauto. Qed.

Section V.
  Variable e : ty.
  Hypothesis Hw : wf e.
  Hypothesis Hp : plain e.
  Hypothesis Hs : 1 <= sizeof e.
  Let EO : elt_ok e := elt_ok_all Hw Hp.

  Lemma vc_ok ms : Forall (valid e) ms -> vec_count e (concat ms) = Ok (lenN ms).
  Proof.
    intros Hv. unfold vec_count. destruct (N.eqb_spec (sizeof e) 0); [lia|].
    rewrite (concat_len Hw Hv), N.div_mul by lia. reflexivity.
  Qed.
  Lemma count_lt ms cap : Forall (valid e) ms -> lenN (concat ms) <= cap -> cap <= max_size ->
    lenN ms * sizeof e <= max_size /\ lenN ms + 1 < two64.
  Proof. intros Hv H1 H2. rewrite (concat_len Hw Hv) in H1. split; [nia|]. assert (lenN ms <= max_size) by nia. unfold max_size, two64 in *. lia. Qed.

  (** Shrinking: in place, the elements before the new end are untouched. *)
  Lemma vec_shrink_ok new cap ms : Forall (valid e) ms -> lenN (concat ms) <= cap -> cap <= max_size -> new <= lenN ms ->
    conv2 (fun a f => vec_resize f (eops_at a) e new cap (concat ms)) (Ok (cap, concat (takeN new ms))).
  Proof.
    intros Hv Hc1 Hc2 Hle. assert (M := max_size_lt).
    destruct (elt_layout_ok Hw Hp Hs) as (HL1 & HL2 & HL3 & HL4).
    assert (Hlen := concat_len Hw Hv).
    assert (HvT : Forall (valid e) (takeN new ms)).
    { rewrite <- (takeN_dropN new ms) in Hv. apply Forall_app in Hv. tauto. }
    assert (HvD : Forall (valid e) (dropN new ms)).
    { rewrite <- (takeN_dropN new ms) in Hv. apply Forall_app in Hv. tauto. }
    unfold vec_resize. rewrite HL4, (@wmul_small new (sizeof e)) by nia. rewrite HL2, (vc_ok Hv). cbn [negb bind].
    destruct (concat_takeN Hw Hv Hle) as [HcT HcD].
    assert (HlT : lenN (concat (takeN new ms)) = new * sizeof e).
    { rewrite (concat_len Hw HvT), lenN_takeN. f_equal. lia. }
    destruct (hasc (rops e)) eqn:Eh; cbn [negb].
    - destruct (@destroy_loop e Hs EO (dropN new ms) (concat (takeN new ms)) HvD) as (y & By & [n1 C1]).
      rewrite HlT, lenN_dropN in C1. rewrite lenN_dropN in By.
      exists (S n1). intros a f Ha Hf.
      assert (Hd : (if new <? lenN ms
          then for_range f (new * sizeof e) (lenN (concat ms)) (sizeof e) (fun i c => at_index i (e_destroy (eops_at a) (elt_layout e)) c) (concat ms)
          else Ok (concat ms)) = Ok (concat (takeN new ms) ++ y)).
      { destruct (N.ltb_spec new (lenN ms)) as [Hlt|Hge].
        - rewrite <- (takeN_dropN new ms) at 2. rewrite concat_app.
          replace (lenN (concat ms)) with (new * sizeof e + (lenN ms - new) * sizeof e) by nia.
          apply C1; lia.
        - assert (new = lenN ms) by lia. subst new. rewrite N.sub_diag in By. apply bytes_0 in By. subst y.
          rewrite app_nil_r, takeN_all by lia. reflexivity. }
      rewrite Hd. cbn [bind].
      destruct (N.leb_spec (new * sizeof e) cap); [|nia].
      unfold vec_raw_resize. rewrite lenN_app, HlT. destruct (N.leb_spec (new * sizeof e) (new * sizeof e + lenN y)); [|lia].
      rewrite dropN_app_exact, takeN_app_exact by (symmetry; exact HlT). rewrite (bytes_all By). cbn [bind].
      destruct (N.ltb_spec (lenN ms) new); [lia|]. reflexivity.
    - assert (Hb : Forall (bytes (sizeof e)) ms).
      { eapply Forall_impl; [|exact Hv]. intros m Hm. apply (hasc_valid m Hw Hp Eh). exact Hm. }
      assert (HB := bytes_concat Hw Hv Hb).
      unfold vec_raw_resize. rewrite Hlen.
      destruct (N.leb_spec (new * sizeof e) (lenN ms * sizeof e)) as [_|Hgt]; [|nia].
      rewrite HcT, HcD.
      assert (Hall : forallb is_byte (concat (dropN new ms)) = true).
      { apply bytes_all in HB. rewrite <- (takeN_dropN new ms), concat_app, forallb_app in HB. apply andb_true_iff in HB. tauto. }
      rewrite Hall. apply conv2_const.
  Qed.

  (** ** push *)
  Lemma vec_push_ok v v2 cap ms : Forall (valid e) ms -> lenN (concat ms) <= cap -> cap <= max_size -> valid e v ->
    (lenN ms + 1) * sizeof e <= max_size ->
    exists cap' ms' v', conv2 (fun a f => vec_push f (eops_at a) e true (v ++ v2) cap (concat ms)) (Ok (cap', concat (ms' ++ [v']))) /\
      Forall2 (same e) ms' ms /\ same e v' v /\ lenN (concat (ms' ++ [v'])) <= cap' /\ cap' <= max_size.
  Proof.
    intros Hv Hc1 Hc2 Vv Hn. assert (M := max_size_lt). destruct (count_lt Hv Hc1 Hc2) as [B1 B2].
    destruct (@vec_resize_ok e (lenN ms + 1) cap ms Hw Hp Hs EO Hv Hc1 Hc2 Hn) as (cap' & ms1 & [n C] & L & V & L1 & L2 & xs & ys & -> & F & Fy).
    rewrite takeN_all in F by lia. assert (Lx := F2_lenN F). rewrite lenN_app in L.
    destruct ys as [|y [|z ys]]; [change (lenN (@nil (list cell))) with 0 in L; lia| |rewrite !lenN_cons in L; lia].
    assert (Vx := proj1 (F2_same_valid F)). apply Forall_app in V. destruct V as [_ Vy]. inversion Vy as [|? ? Vy1 _]; subst.
    destruct (eo_copy EO [] v2 Vy1 Vv) as (y' & [n2 C2] & S2). rewrite !app_nil_r in C2.
    destruct (elt_layout_ok Hw Hp Hs) as (HL & _).
    assert (Ly : lenN y' = sizeof e) by (apply (proj1 valid_len); [assumption|]; apply same_valid in S2; tauto).
    assert (Ly0 : lenN y = sizeof e) by (apply (proj1 valid_len); assumption).
    exists cap', xs, y'. split; [|repeat split; auto].
    - exists (Nat.max n n2). intros a f Ha Hf. unfold vec_push. cbn [negb]. rewrite (vc_ok Hv). cbn [bind].
      rewrite wadd_small by lia. rewrite C by lia. cbn [bind]. rewrite HL. cbn [bind].
      rewrite wmul_small by lia. rewrite !concat_app. cbn [concat]. rewrite !app_nil_r.
      replace (lenN ms * sizeof e) with (lenN (concat xs)) by (rewrite (concat_len Hw Vx); lia).
      assert (AI := @at_index_app (concat xs) y [] y' (fun d => e_copy (eops_at a) (elt_layout e) d (v ++ v2))).
      rewrite !app_nil_r in AI. rewrite AI by (apply C2; lia). reflexivity.
    - rewrite concat_app in *. rewrite lenN_app in *. cbn [concat] in *. rewrite !app_nil_r in *. lia.
  Qed.

  Lemma vec_resize_too_long new cap ms : Forall (valid e) ms -> lenN (concat ms) <= cap -> cap <= max_size ->
    max_size < new * sizeof e -> new * sizeof e < two64 ->
    conv2 (fun a f => vec_resize f (eops_at a) e new cap (concat ms)) (Throw ELength).
  Proof.
    intros Hv Hc1 Hc2 H1 H2. destruct (elt_layout_ok Hw Hp Hs) as (HL1 & HL2 & HL3 & HL4).
    assert (Hlen := concat_len Hw Hv).
    unfold vec_resize. rewrite HL4, wmul_small by lia. rewrite HL2, (vc_ok Hv). cbn [negb bind].
    destruct (hasc (rops e)) eqn:Eh; cbn [negb].
    - destruct (N.ltb_spec new (lenN ms)); [nia|]. cbn [bind]. destruct (N.leb_spec (new * sizeof e) cap); [lia|].
      unfold vec_raw_resize at 1. change (lenN (@nil cell)) with 0.
      destruct (N.leb_spec (new * sizeof e) 0); [lia|]. destruct (N.ltb_spec max_size (new * sizeof e)); [|lia].
      cbn [bind]. apply conv2_const.
    - unfold vec_raw_resize. destruct (N.leb_spec (new * sizeof e) (lenN (concat ms))); [lia|].
      destruct (N.leb_spec (new * sizeof e) cap); [lia|]. destruct (N.ltb_spec max_size (new * sizeof e)); [|lia].
      apply conv2_const.
  Qed.
  Lemma vec_push_too_long v cap ms : Forall (valid e) ms -> lenN (concat ms) <= cap -> cap <= max_size ->
    max_size < (lenN ms + 1) * sizeof e ->
    conv2 (fun a f => vec_push f (eops_at a) e true v cap (concat ms)) (Throw ELength).
  Proof.
    intros Hv Hc1 Hc2 H. destruct (count_lt Hv Hc1 Hc2) as [B1 B2]. assert (M := max_size_lt).
    assert (Hw2 : (lenN ms + 1) * sizeof e < two64).
    { assert (sizeof e < two64) by (destruct e; apply Hw). destruct (N.eq_dec (lenN ms) 0) as [-> |]; [lia|].
      assert (sizeof e <= max_size) by nia. unfold max_size, two64 in *. lia. }
    destruct (vec_resize_too_long Hv Hc1 Hc2 H Hw2) as [n C].
    exists n. intros a f Ha Hf. unfold vec_push. cbn [negb]. rewrite (vc_ok Hv). cbn [bind].
    rewrite wadd_small by lia. rewrite C by lia. reflexivity.
  Qed.

  (** ** erase *)
  Lemma move_elts_loop ys : forall i pd x, lenN pd = i * sizeof e -> valid e x -> Forall (valid e) ys ->
    exists ys' z, Forall2 (same e) ys' ys /\ valid e z /\
      conv2 (fun a f => for_range f i (i + lenN ys) 1
        (fun i c => l <- layout_default e ;;
           if lenN c <? (1 + i) * sizeof e then UB UOob
           else at_index (i * sizeof e) (fun x => e_copy (eops_at a) l x (dropN ((1 + i) * sizeof e) c)) c)
        (pd ++ x ++ concat ys)) (Ok (pd ++ concat ys' ++ z)).
  Proof.
    destruct (elt_layout_ok Hw Hp Hs) as (HL & _). rewrite HL. cbn [bind].
    induction ys as [|y ys IH]; intros i pd x Ld Vx Vys.
    - exists [], x. split; [constructor|]. split; [assumption|]. exists 1%nat. intros a [|f] _ Hf; [lia|]. cbn [for_range].
      change (lenN (@nil (list cell))) with 0. destruct (N.ltb_spec i (i + 0)); [lia|]. cbn [concat app]. rewrite app_nil_r. reflexivity.
    - inversion Vys as [|? ? Vy Vys']; subst.
      destruct (eo_copy EO (y ++ concat ys) (concat ys) Vx Vy) as (x' & [n1 C1] & S1).
      assert (Lx' : lenN x' = sizeof e) by (apply (proj1 valid_len); [assumption|]; apply same_valid in S1; tauto).
      assert (Lx : lenN x = sizeof e) by (apply (proj1 valid_len); assumption).
      destruct (IH (i + 1) (pd ++ x') y) as (ys' & z & F & Vz & [n2 C2]); auto.
      { rewrite lenN_app. lia. }
      exists (x' :: ys'), z. split; [constructor; assumption|]. split; [assumption|].
      exists (S (Nat.max n1 n2)). intros a [|f] Ha Hf; [lia|]. cbn [for_range]. rewrite lenN_cons.
      destruct (N.ltb_spec i (i + (1 + lenN ys))); [|lia]. cbn [concat].
      destruct (N.ltb_spec (lenN (pd ++ x ++ y ++ concat ys)) ((1 + i) * sizeof e)) as [Hb|Hb]; [rewrite !lenN_app in Hb; lia|].
      assert (Ed : dropN ((1 + i) * sizeof e) (pd ++ x ++ y ++ concat ys) = y ++ concat ys).
      { rewrite (app_assoc pd x). apply dropN_app_exact. rewrite lenN_app. lia. }
      rewrite Ed. rewrite <- Ld.
      rewrite (@at_index_app pd x (y ++ concat ys) x') by (apply C1; lia). cbn [bind].
      specialize (C2 a f ltac:(lia) ltac:(lia)). rewrite <- !app_assoc in C2.
      replace (i + 1 + lenN ys) with (i + (1 + lenN ys)) in C2 by lia. rewrite C2. rewrite <- !app_assoc. reflexivity.
  Qed.

  Lemma for_range_shift {A} (body body' : N -> A -> res A) d : (forall i a, body (i + d) a = body' i a) ->
    forall f lo hi a, for_range f lo hi 1 body' a = for_range f (lo + d) (hi + d) 1 body a.
  Proof.
    intros H f. induction f as [|f IH]; intros lo hi a; [reflexivity|]. cbn [for_range].
    rewrite <- H. destruct (N.ltb_spec lo hi); destruct (N.ltb_spec (lo + d) (hi + d)); try lia; [|reflexivity].
    destruct (body (lo + d) a); cbn [bind]; auto. rewrite IH. f_equal. lia.
  Qed.

  Lemma vec_move_ok pre x post cap : Forall (valid e) (pre ++ x :: post) -> lenN (concat (pre ++ x :: post)) <= cap -> cap <= max_size ->
    exists post' z, Forall2 (same e) post' post /\ valid e z /\
      conv2 (fun a f => vec_move_range f (eops_at a) e (lenN pre) (lenN pre + 1) (lenN post) (concat (pre ++ x :: post)))
            (Ok (concat (pre ++ post' ++ [z]))).
  Proof.
    intros Hv Hc1 Hc2. assert (M := max_size_lt). destruct (count_lt Hv Hc1 Hc2) as [B1 B2].
    assert (Hv' := Hv). apply Forall_app in Hv'. destruct Hv' as [Vpre Vxp]. inversion Vxp as [|? ? Vx Vpost]; subst.
    destruct (elt_layout_ok Hw Hp Hs) as (HL & _ & _ & HM).
    unfold vec_move_range. rewrite HM. rewrite lenN_app, lenN_cons in *.
    destruct (hasc (rops e)) eqn:Eh; cbn [negb].
    - destruct (@move_elts_loop post (lenN pre) (concat pre) x (concat_len Hw Vpre) Vx Vpost) as (post' & z & F & Vz & [n C]).
      exists post', z. split; [assumption|]. split; [assumption|]. exists n. intros a f Ha Hf. specialize (C a f Ha Hf).
      rewrite !concat_app. cbn [concat]. rewrite app_nil_r. rewrite <- C.
      replace (for_range f (lenN pre) (lenN pre + lenN post) 1) with (@for_range (list cell) f (0 + lenN pre) (lenN post + lenN pre) 1)
        by (f_equal; lia).
      apply for_range_shift. intros i c. replace (i + lenN pre) with (lenN pre + i) by lia.
      replace (1 + (lenN pre + i)) with (lenN pre + 1 + i) by lia. reflexivity.
    - assert (Bp : Forall (bytes (sizeof e)) post) by (eapply Forall_impl; [|exact Vpost]; intros m; apply (hasc_valid m Hw Hp Eh)).
      assert (Bx : bytes (sizeof e) x) by (apply (hasc_valid x Hw Hp Eh); assumption).
      destruct (concat_bytes Hw Vpost Bp) as (bs & Eb & Lb).
      assert (Lpre := concat_len Hw Vpre). assert (Lx : lenN x = sizeof e) by (apply (bytes_len Bx)).
      destruct (bytes_split (a := lenN bs) (b := sizeof e) (m := x ++ concat post)) as (u & z & Eu & Bu & Bz).
      { rewrite Lb. replace (lenN post * sizeof e + sizeof e) with (sizeof e + lenN post * sizeof e) by lia. apply bytes_app; [assumption|].
        rewrite <- Lb. exists bs. auto. }
      exists post, z. split; [apply Forall2_same_refl; assumption|]. split; [apply (hasc_valid z Hw Hp Eh); assumption|].
      exists 0%nat. intros a f _ _. rewrite wmul_small by nia.
      rewrite concat_app. cbn [concat].
      destruct (N.ltb_spec (lenN (concat pre ++ x ++ concat post)) ((lenN pre + 1) * sizeof e)) as [Hb|Hb]; [rewrite !lenN_app in Hb; lia|].
      assert (Ed : dropN ((lenN pre + 1) * sizeof e) (concat pre ++ x ++ concat post) = concat post).
      { rewrite (app_assoc _ x). apply dropN_app_exact. rewrite lenN_app. lia. }
      rewrite Ed, Eb. rewrite <- (app_nil_r (map B bs)) at 1. replace (sizeof e * lenN post) with (lenN bs) by lia. rewrite take_raw_map. cbn [bind].
      rewrite <- Eb, Eu. replace (lenN pre * sizeof e) with (lenN (concat pre)) by lia.
      rewrite (@at_index_app (concat pre) u z (map B bs)).
      { rewrite !concat_app, <- Eb. cbn [concat]. rewrite app_nil_r. reflexivity. }
      { rewrite write_raw_app by assumption. reflexivity. }
  Qed.

  Lemma vec_erase_at_ok pre x post cap : Forall (valid e) (pre ++ x :: post) -> lenN (concat (pre ++ x :: post)) <= cap -> cap <= max_size ->
    exists post', Forall2 (same e) post' post /\
      conv2 (fun a f => vec_erase_at f (eops_at a) e (lenN pre) cap (concat (pre ++ x :: post))) (Ok (cap, concat (pre ++ post'))).
  Proof.
    intros Hv Hc1 Hc2. assert (M := max_size_lt). destruct (count_lt Hv Hc1 Hc2) as [B1 B2].
    assert (Hv' := Hv). apply Forall_app in Hv'. destruct Hv' as [Vpre Vxp]. inversion Vxp as [|? ? Vx Vpost]; subst.
    assert (Hlen := concat_len Hw Hv).
    unfold vec_erase_at. rewrite (vc_ok Hv). rewrite lenN_app, lenN_cons in *. cbn [bind].
    rewrite wadd_small by lia. rewrite (@wsub_small (lenN pre + (1 + lenN post)) (lenN pre)) by lia. rewrite !wsub_small by lia.
    destruct (N.ltb_spec (lenN pre + 1) (lenN pre + (1 + lenN post))) as [Hlt|Hge].
    - destruct (vec_move_ok Hv Hc1 Hc2) as (post' & z & F & Vz & [n1 C1]).
      assert (Vp' := proj1 (F2_same_valid F)).
      assert (V2 : Forall (valid e) (pre ++ post' ++ [z])) by (repeat (apply Forall_app; split); auto).
      assert (Lp := F2_lenN F).
      destruct (@vec_shrink_ok (lenN pre + (1 + lenN post) - 1) cap (pre ++ post' ++ [z])) as [n2 C2]; auto.
      { rewrite (concat_len Hw V2), !lenN_app, lenN_cons, lenN_nil. lia. }
      { rewrite !lenN_app, lenN_cons, lenN_nil. lia. }
      exists post'. split; [assumption|]. exists (Nat.max n1 n2). intros a f Ha Hf.
      replace (lenN pre + (1 + lenN post) - lenN pre - 1) with (lenN post) by lia.
      rewrite C1 by lia. cbn [bind]. rewrite C2 by lia. rewrite (app_assoc pre), takeN_app_exact; [reflexivity|].
      rewrite lenN_app. lia.
    - assert (post = []) by (apply lenN_0_nil; lia). subst post. exists []. split; [constructor|].
      destruct (@vec_shrink_ok (lenN pre + (1 + lenN (@nil (list cell))) - 1) cap (pre ++ [x])) as [n2 C2]; auto.
      { rewrite lenN_app, lenN_cons. lia. }
      exists n2. intros a f Ha Hf. cbn [bind]. rewrite C2 by lia. rewrite app_nil_r, takeN_app_exact; [reflexivity|].
      rewrite lenN_nil. lia.
  Qed.

  Definition conv3 {A} (f : nat -> nat -> nat -> res A) (r : res A) : Prop :=
    exists n, forall a b c, (n <= a)%nat -> (n <= b)%nat -> (n <= c)%nat -> f a b c = r.

  Lemma vec_erase_loop_ok v v2 cap : valid e v -> forall post pre, Forall (valid e) (pre ++ post) -> lenN (concat (pre ++ post)) <= cap -> cap <= max_size ->
    exists b ms', conv3 (fun q f a => vec_erase_loop q f (eops_at a) e (v ++ v2) (lenN pre) (lenN pre + lenN post) cap (concat (pre ++ post)))
                       (Ok (b, (cap, concat ms'))) /\
      ((b = false /\ ms' = pre ++ post /\ Forall (fun y => ~ same e y v) post) \/
       (b = true /\ exists p1 x p2 p2', post = p1 ++ x :: p2 /\ Forall (fun y => ~ same e y v) p1 /\ same e x v /\
          ms' = pre ++ p1 ++ p2' /\ Forall2 (same e) p2' p2)).
  Proof.
    intros Vv. induction post as [|x post IH]; intros pre Hv Hc1 Hc2.
    - exists false, (pre ++ []). split; [|left; auto]. exists 1%nat. intros q [|f] a _ Hf _; [lia|]. cbn [vec_erase_loop].
      change (lenN (@nil (list cell))) with 0. destruct (N.ltb_spec (lenN pre) (lenN pre + 0)); [lia|reflexivity].
    - assert (Hv' := Hv). apply Forall_app in Hv'. destruct Hv' as [Vpre Vxp]. inversion Vxp as [|? ? Vx Vpost]; subst.
      destruct (@compare_ok e Hw (proj1 supported_mono e Hp) x v (concat post) v2 Vx Vv) as (r & [n1 C1] & S1).
      assert (Lpre := concat_len Hw Vpre).
      assert (Hstep : forall q f a, (n1 <= q)%nat ->
        vec_erase_loop q (S f) (eops_at a) e (v ++ v2) (lenN pre) (lenN pre + lenN (x :: post)) cap (concat (pre ++ x :: post)) =
        if r then '(c, cs) <- vec_erase_at q (eops_at a) e (lenN pre) cap (concat (pre ++ x :: post)) ;; Ok (true, (c, cs))
        else vec_erase_loop q f (eops_at a) e (v ++ v2) (lenN pre + 1) (lenN pre + lenN (x :: post)) cap (concat (pre ++ x :: post))).
      { intros q f a Hq. cbn [vec_erase_loop]. rewrite lenN_cons. destruct (N.ltb_spec (lenN pre) (lenN pre + (1 + lenN post))); [|lia].
        rewrite concat_app. cbn [concat]. destruct (N.ltb_spec (lenN (concat pre ++ x ++ concat post)) (lenN pre * sizeof e)) as [Hb|Hb]; [rewrite lenN_app in Hb; lia|].
        rewrite dropN_app_exact by lia. rewrite C1 by lia. cbn [bind]. destruct r; [|reflexivity].
        destruct (vec_erase_at q (eops_at a) e (lenN pre) cap (concat pre ++ x ++ concat post)) as [[c cs]| | |]; reflexivity. }
      destruct r.
      + destruct (vec_erase_at_ok Hv Hc1 Hc2) as (post' & F & [n2 C2]).
        exists true, (pre ++ post'). split.
        { exists (S (Nat.max n1 n2)). intros q [|f] a Hq Hf Ha; [lia|]. rewrite Hstep by lia. rewrite C2 by lia. reflexivity. }
        right. split; [reflexivity|]. exists [], x, post, post'. repeat split; auto. apply S1; reflexivity.
      + destruct (IH (pre ++ [x])) as (b & ms' & [n2 C2] & Spec).
        { rewrite <- app_assoc. assumption. } { rewrite <- app_assoc. assumption. } { assumption. }
        exists b, ms'. split.
        { exists (S (Nat.max n1 n2)). intros q [|f] a Hq Hf Ha; [lia|]. rewrite Hstep by lia.
          specialize (C2 q f a ltac:(lia) ltac:(lia) ltac:(lia)). rewrite lenN_app, lenN_cons, lenN_nil in C2. rewrite <- app_assoc in C2.
          rewrite lenN_cons. replace (lenN pre + (1 + lenN post)) with (lenN pre + (1 + 0) + lenN post) by lia.
          replace (lenN pre + 1) with (lenN pre + (1 + 0)) by lia. exact C2. }
        assert (NS : ~ same e x v) by (intros H; apply S1 in H; discriminate).
        destruct Spec as [(-> & -> & Fa)|(-> & p1 & y & p2 & p2' & -> & Fa & Sy & -> & F2)].
        * left. rewrite <- app_assoc. repeat split; auto.
        * right. split; [reflexivity|]. exists (x :: p1), y, p2, p2'. repeat split; auto. rewrite <- app_assoc. reflexivity.
  Qed.

  (** ** delete_if *)
  Lemma sieve_same {P} (pred : P -> list cell -> bool * P) : logical e pred ->
    forall xs ys, Forall2 (same e) xs ys -> forall st, fst (sieve pred st xs) = fst (sieve pred st ys) /\
      Forall2 (same e) (snd (sieve pred st xs)) (snd (sieve pred st ys)).
  Proof.
    intros Hl. induction 1 as [|x y xs ys H _ IH]; intros st; [split; constructor|]. cbn [sieve].
    rewrite (Hl st x y H). destruct (pred st y) as [del st']. specialize (IH st').
    destruct (sieve pred st' xs), (sieve pred st' ys). cbn [fst snd] in *. destruct IH as [-> IH]. split; [reflexivity|].
    destruct del; auto.
  Qed.
  Lemma vec_delete_loop_ok {P} (pred : P -> list cell -> bool * P) cap : logical e pred -> cap <= max_size ->
    forall n post, length post = n -> forall pre st, Forall (valid e) (pre ++ post) -> lenN (concat (pre ++ post)) <= cap ->
    exists post', conv3 (fun q f a => vec_delete_loop q f (eops_at a) e pred st (lenN pre) (lenN pre + lenN post) cap (concat (pre ++ post)))
                       (Ok (fst (sieve pred st post), (cap, concat (pre ++ post')))) /\
      Forall2 (same e) post' (snd (sieve pred st post)).
  Proof.
    intros Hl Hc2. assert (M := max_size_lt). induction n as [|n IH]; intros post Hn pre st Hv Hc1.
    - destruct post; [|discriminate]. exists []. split; [|constructor]. exists 1%nat. intros q [|f] a _ Hf _; [lia|]. cbn [vec_delete_loop].
      change (lenN (@nil (list cell))) with 0. destruct (N.ltb_spec (lenN pre) (lenN pre + 0)); [lia|reflexivity].
    - destruct post as [|x post]; [discriminate|]. injection Hn as Hn.
      destruct (count_lt Hv Hc1 Hc2) as [B1 B2].
      assert (Hv' := Hv). apply Forall_app in Hv'. destruct Hv' as [Vpre Vxp]. inversion Vxp as [|? ? Vx Vpost]; subst.
      assert (Lpre := concat_len Hw Vpre). assert (Lx : lenN x = sizeof e) by (apply (proj1 valid_len); assumption).
      rewrite lenN_app, lenN_cons in B1, B2.
      destruct (pred st x) as [del st'] eqn:Epred.
      assert (Hstep : forall q f a,
        vec_delete_loop q (S f) (eops_at a) e pred st (lenN pre) (lenN pre + lenN (x :: post)) cap (concat (pre ++ x :: post)) =
        if del then
          '(cap', cs') <- vec_erase_at q (eops_at a) e (lenN pre) cap (concat (pre ++ x :: post)) ;;
          if negb (cap' =? cap) then UB UOob
          else vec_delete_loop q f (eops_at a) e pred st' (lenN pre) (lenN pre + lenN post) cap' cs'
        else vec_delete_loop q f (eops_at a) e pred st' (lenN pre + 1) (lenN pre + lenN (x :: post)) cap (concat (pre ++ x :: post))).
      { intros q f a. cbn [vec_delete_loop]. rewrite lenN_cons. destruct (N.ltb_spec (lenN pre) (lenN pre + (1 + lenN post))); [|lia].
        rewrite concat_app. cbn [concat].
        destruct (N.ltb_spec (lenN (concat pre ++ x ++ concat post)) ((lenN pre + 1) * sizeof e)) as [Hb|Hb]; [rewrite !lenN_app in Hb; lia|].
        rewrite dropN_app_exact by lia. rewrite takeN_app_exact by lia. rewrite Epred.
        rewrite wsub_small by lia. replace (lenN pre + (1 + lenN post) - 1) with (lenN pre + lenN post) by lia. reflexivity. }
      destruct del.
      + destruct (vec_erase_at_ok Hv Hc1 Hc2) as (post1 & F & [n2 C2]).
        assert (Lp := F2_lenN F). assert (Vp1 := proj1 (F2_same_valid F)).
        assert (V1 : Forall (valid e) (pre ++ post1)) by (apply Forall_app; auto).
        destruct (IH post1 ltac:(rewrite (F2_length F); reflexivity) pre st' V1) as (post' & [n3 C3] & S3).
        { rewrite (concat_len Hw V1). rewrite (concat_len Hw Hv) in Hc1. rewrite lenN_app, lenN_cons in *. nia. }
        destruct (sieve_same Hl F st') as [Ef Es].
        exists post'. cbn [sieve]. rewrite Epred. destruct (sieve pred st' post) as [s1 k1] eqn:Esv. cbn [fst snd] in *. split.
        * exists (S (Nat.max n2 n3)). intros q [|f] a Hq Hf Ha; [lia|]. rewrite Hstep. rewrite C2 by lia. cbn [bind].
          rewrite N.eqb_refl. cbn [negb]. rewrite <- Lp. rewrite C3 by lia. rewrite Ef. reflexivity.
        * clear - S3 Es Hw. revert k1 Es. induction S3 as [|a b l l' H _ IH]; intros k Es; inversion Es; subst; constructor; auto.
          eapply (proj1 same_trans e Hw); eauto.
      + destruct (IH post eq_refl (pre ++ [x]) st') as (post' & [n3 C3] & S3).
        { rewrite <- app_assoc. assumption. } { rewrite <- app_assoc. assumption. }
        exists (x :: post'). cbn [sieve]. rewrite Epred. destruct (sieve pred st' post) as [s1 k1] eqn:Esv. cbn [fst snd] in *. split.
        * exists (S n3). intros q [|f] a Hq Hf Ha; [lia|]. rewrite Hstep.
          specialize (C3 q f a ltac:(lia) ltac:(lia) ltac:(lia)). rewrite lenN_app, lenN_cons, lenN_nil in C3. rewrite <- !app_assoc in C3.
          rewrite lenN_cons. replace (lenN pre + (1 + lenN post)) with (lenN pre + (1 + 0) + lenN post) by lia.
          replace (lenN pre + 1) with (lenN pre + (1 + 0)) by lia. exact C3.
        * constructor; [apply same_refl; assumption|assumption].
  Qed.
End V.
