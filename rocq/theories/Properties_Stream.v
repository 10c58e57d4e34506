(** * Properties_Stream: loading arbitrary bytes, without a restriction on how containers nest (C05). *)
From Verif Require Import Base Types WellFormed Layout LayoutProofs LayoutMain InitProofs LayoutFinal
     ValueOps ValueSpec ValueAtoms ValueInst WalkProofs InitRun EltOps EltProofs CmpProofs DumpProofs LoadProofs LoadSafe ValueMain
     StreamSpec StreamSafe Properties_Value.
Local Open Scope N_scope.

(** ** C05: whatever the bytes, load either throws or yields a valid value, and what it accepted was the marshalled form of a value
    of the type (up to the padding at the end). Containers may nest. Missing: bytes that make some container's size in bytes
    reach 2^64; there it is false (C05_load_safe_refuted). *)
Theorem C05_load_safe_nested_partial t d x :
  wf t -> plain t -> sizeof t <= max_size -> lenN x <= max_size -> valid t d -> ~ overflows t x ->
  exists r, conv (fun f => do_load f t d x) r /\
    ((exists d', r = Ok d' /\ valid t d' /\
        exists b p n, x = b ++ p /\ (p = [] \/ declared_padding t (lenN p)) /\ (forall q, lenN q = n -> stream t (b ++ q)))
     \/ (exists e, r = Throw e)).
Proof.
  intros Hw Hp Hsz Hx Vd Ho.
  destruct (@load_any t d [] 0 x Hw Hp Hsz ltac:(lia) Vd Ho) as (l & r & Hl & [n C] & K). rewrite app_nil_r in C.
  exists ('(m', i, it) <- r ;; match it with
    | _ :: _ => Throw ERuntime
    | [] => if negb (fst i =? lenN x) && negb (fst i + trailing_padding t =? lenN x) then Throw ERuntime else Ok m' end). split.
  - exists n. intros f Hf. unfold do_load. rewrite Hl. cbn [bind]. rewrite C by assumption. reflexivity.
  - destruct K as [(d' & b & y & pad & -> & -> & S & V)|[e ->]]; cbn [bind fst]; [|right; eauto].
    rewrite app_nil_r. rewrite lenN_app.
    destruct (N.eqb_spec (0 + lenN b) (lenN b + lenN y)) as [E|E]; [|destruct (N.eqb_spec (0 + lenN b + trailing_padding t) (lenN b + lenN y)) as [E'|E']]; cbn [negb andb]; [left|left|right; eauto].
    + exists d'. split; [reflexivity|]. split; [assumption|]. exists b, y, pad. split; [reflexivity|]. split; [|assumption]. left. apply lenN_0_nil. lia.
    + exists d'. split; [reflexivity|]. split; [assumption|]. exists b, y, pad. split; [reflexivity|]. split; [|assumption]. right. replace (lenN y) with (trailing_padding t) by lia. destruct (declared_exists Hw) as [p Hp']. rewrite <- (declared_unique Hp'). assumption.
Qed.

(** A vector of vectors of bytes with two elements, of one and no bytes, read into a fresh vector. *)
Lemma split8 (x b8 y : list N) : x = b8 ++ y -> lenN b8 = 8 -> b8 = takeN 8 x /\ y = dropN 8 x.
Proof. intros -> L. rewrite takeN_app_exact, dropN_app_exact by congruence. auto. Qed.
Example C05_load_safe_nested_case :
  let x := le_bytes 8 2 ++ le_bytes 8 1 ++ [7] ++ le_bytes 8 0 in
  wf vec_of_vec /\ plain vec_of_vec /\ sizeof vec_of_vec <= max_size /\ lenN x <= max_size /\
  valid vec_of_vec (put_obj 24 (VecObj 0 [])) /\ ~ overflows vec_of_vec x /\
  exists d', conv (fun f => do_load f vec_of_vec (put_obj 24 (VecObj 0 [])) x) (Ok d').
Proof.
  cbv zeta. set (x := le_bytes 8 2 ++ le_bytes 8 1 ++ [7] ++ le_bytes 8 0). vm_compute in x. subst x.
  split; [repeat split; unfold two64; simpl; lia|]. split; [reflexivity|]. split; [vm_compute; discriminate|]. split; [vm_compute; discriminate|].
  split; [|split].
  - exists 0, []. repeat split; [constructor|unfold lenN; simpl; lia|unfold max_size; lia].
  - intros (b8 & y & E & L & H). destruct (split8 E L) as [-> ->]. vm_compute takeN in H. vm_compute dropN in H. destruct H as [H|H].
    + vm_compute in H. apply H. reflexivity.
    + destruct H as (bss & r & E1 & Lb & F & c8 & z & Er & Lc & H). destruct bss as [|b [|b' bss]].
      * cbn [concat app] in E1. subst r. destruct (split8 Er Lc) as [-> _]. destruct H as [H|(? & ? & _ & _ & _ & [])]. vm_compute in H. apply H. reflexivity.
      * cbn [concat app] in E1. rewrite app_nil_r in E1. inversion F as [|? ? (d8 & css & -> & Ld & Lcs & Fc) _]; subst. rewrite <- !app_assoc in E1.
        destruct (split8 E1 Ld) as [-> E2]. vm_compute dropN in E2. vm_compute takeN in Lcs. vm_compute le_val in Lcs.
        destruct css as [|c [|c' css]]; [discriminate| |rewrite !lenN_cons in Lcs; lia]. inversion Fc as [|? ? Hc _]; subst. simpl in Hc.
        destruct c as [|c0 [|c1 c]]; [discriminate| |rewrite !lenN_cons in Hc; lia]. cbn [concat app] in E2. inversion E2 as [[Ec Ez]].
        destruct (split8 (eq_sym Ez) Lc) as [-> _]. destruct H as [H|(? & ? & _ & _ & _ & [])]. vm_compute in H. apply H. reflexivity.
      * rewrite !lenN_cons in Lb. vm_compute le_val in Lb. lia.
  - set (r := do_load 40 vec_of_vec (put_obj 24 (VecObj 0 [])) [2; 0; 0; 0; 0; 0; 0; 0; 1; 0; 0; 0; 0; 0; 0; 0; 7; 0; 0; 0; 0; 0; 0; 0; 0]). vm_compute in r.
    exists (match r with Ok d => d | _ => [] end). exists 40%nat. intros m Hm. replace m with (40 + (m - 40))%nat by lia. generalize (m - 40)%nat. intros k. vm_compute. reflexivity.
Qed.
Print Assumptions C05_load_safe_nested_partial.
