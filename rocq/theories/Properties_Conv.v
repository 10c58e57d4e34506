(** * C75: fields that Ruby sees as objects of its own. *)
From Verif Require Import Base ConvSpec Conv ConvProofs.
Local Open Scope nat_scope.

(** Results up to the first exception of an operation that may fail half way. *)
Fixpoint until_raise (l : list result) : list result := match l with [] => [] | RRaise :: _ => [RRaise] | x :: t => x :: until_raise t end.
(** The operations for which the library keeps its promise: access to converted fields through their accessors, and whole values as
    marshalled, compared and copied to another value. *)
Definition by_accessors (converted : nat -> bool) (o : op) : Prop :=
  match o with
  | ONew _ | OObj _ | OMutate _ _ | ORead _ _ | OWrite _ _ _ | OBytes _ | OEqual _ _ => True
  | OGet v i | OSet v i _ => converted i = false
  | OCopy to from => to <> from
  | ORawSet _ _ _ | OLoad _ _ | ODup _ | OArray _ => False
  end.
Definition not_copy (o : op) : Prop := match o with OCopy _ _ => False | _ => True end.
Definition start : rstate := RS [] [].
Definition sstart : sstate := SS [] [].

Section C75.
  Variable converted : nat -> bool.
  Variable conv : nat -> Z -> Z.
  Variable back : nat -> Z -> option Z.
  Notation r_run := (r_run converted conv back).
  Notation s_run := (s_run converted conv back).
  Notation r_states := (r_states converted conv back).
  Lemma run_abs : forall l m, wf m -> Forall (by_accessors converted) l -> until_raise (r_run m l) = until_raise (s_run (abs converted m) l).
  Proof.
    induction l as [|o l IH]; intros m W F; [reflexivity|]. inversion F as [|? ? U F']; subst. cbn [Conv.r_run ConvSpec.s_run].
    assert (U' : usual converted o) by (destruct o; exact U). assert (X := step_abs conv back W U'). destruct (r_step converted conv back m o) as [m' x], (s_step converted conv back (abs converted m) o) as [s' y]. destruct X as (<- & W' & A).
    assert (A' : x <> RRaise -> until_raise (r_run m' l) = until_raise (s_run s' l)) by (intros N; rewrite (A (or_intror N)); apply IH; assumption). clear IH A.
    destruct x; cbn [until_raise]; [| | | | |reflexivity]; rewrite A' by discriminate; reflexivity.
  Qed.
  Lemma run_abs_no_copy : forall l m, wf m -> Forall (by_accessors converted) l -> Forall not_copy l -> r_run m l = s_run (abs converted m) l.
  Proof.
    induction l as [|o l IH]; intros m W F N; [reflexivity|]. inversion F as [|? ? U F']; subst. inversion N as [|? ? NC N']; subst. cbn [Conv.r_run ConvSpec.s_run].
    assert (U' : usual converted o) by (destruct o; exact U). assert (X := step_abs conv back W U'). destruct (r_step converted conv back m o) as [m' x], (s_step converted conv back (abs converted m) o) as [s' y]. destruct X as (<- & W' & A).
    assert (NC' : is_copy o = false) by (destruct o; [reflexivity..|contradiction|reflexivity|reflexivity|reflexivity|reflexivity|reflexivity|reflexivity]). rewrite (A (or_introl NC')). f_equal. apply IH; assumption.
  Qed.

  (** Whatever a program does with accessors, copies, comparisons and marshalling, what it sees is what the specification says. *)
  Theorem C75_history_partial l : Forall (by_accessors converted) l -> until_raise (r_run start l) = until_raise (s_run sstart l).
  Proof. intros F. apply (run_abs (m := start)); [constructor|assumption]. Qed.
  (** ... and exceptions change nothing, as long as nothing is copied. *)
  Theorem C75_history_no_copy l : Forall (by_accessors converted) l -> Forall not_copy l -> r_run start l = s_run sstart l.
  Proof. intros F N. apply (run_abs_no_copy (m := start)); [constructor|assumption|assumption]. Qed.
  (** Reading a field, in any state a program may reach, does not change what any value is marshalled as, if the conversion of the field
      loses nothing. *)
  Theorem C75_reading_changes_nothing l v i w : (forall z, back i (conv i z) = Some z) ->
    nth_error (r_run (r_states start l) [ORead v i; OBytes w]) 1 = nth_error (r_run (r_states start l) [OBytes w]) 0.
  Proof.
    intros RT. assert (I : inv (r_states start l)) by (apply inv_states; split; constructor). revert I. generalize (r_states start l) as m. intros m I. cbn [Conv.r_run].
    assert (J := inv_step converted conv back (ORead v i) I). assert (C := read_contents (conv := conv) (back := back) (i := i) converted v w I RT). destruct (r_step converted conv back m (ORead v i)) as [m1 x1]. cbn [fst] in J, C.
    assert (B0 := bytes_abs converted conv back w I). assert (B1 := bytes_abs converted conv back w J). rewrite C in B1.
    destruct (r_step converted conv back m1 (OBytes w)) as [m2 x2], (r_step converted conv back m (OBytes w)) as [m3 x3]. cbn [snd nth_error] in *. congruence.
  Qed.
  (** dup gives a value that is marshalled as the original was, the original is still marshalled the same, and whatever is then done to the
      original, to other values and to the objects of the program, the new value stays as it is. *)
  Theorem C75_dup l v w : r_run (r_states start l) [ODup v] = [RVal w] ->
    exists b, r_run (r_states start l) [OBytes v] = [RBytes b] /\ r_run (r_states start l) [ODup v; OBytes v] = [RVal w; RBytes b] /\
      forall l', Forall (fun o => ~ touches w o) l' -> r_run (r_states start (l ++ ODup v :: l')) [OBytes w] = [RBytes b].
  Proof.
    assert (Sp : forall l1 l2 m, r_states m (l1 ++ l2) = r_states (r_states m l1) l2) by (induction l1 as [|o l1 IH]; intros l2 m; [reflexivity|cbn [app Conv.r_states]; apply IH]).
    assert (I : inv (r_states start l)) by (apply inv_states; split; constructor). intros D.
    assert (Q : forall l', r_states start (l ++ ODup v :: l') = r_states (fst (r_step converted conv back (r_states start l) (ODup v))) l') by (intros l'; rewrite Sp; reflexivity).
    revert I D Q. generalize (r_states start l) as m. intros m I D Q. unfold Conv.r_run in D |- *. fold (Conv.r_run converted conv back) in D |- *.
    assert (J := inv_step converted conv back (ODup v) I). destruct (r_step converted conv back m (ODup v)) as [m1 x1] eqn:E1. injection D as ->. cbn [fst] in J, Q.
    destruct (dup_contents I E1) as (_ & b & C0 & C1 & F). exists b.
    assert (B0 := bytes_abs converted conv back v I). rewrite C0 in B0. assert (B1 := bytes_abs converted conv back v J). rewrite C1 in B1.
    split; [destruct (r_step converted conv back m (OBytes v)) as [m2 x2]; cbn [snd] in B0; subst; reflexivity|]. split; [destruct (r_step converted conv back m1 (OBytes v)) as [m2 x2]; cbn [snd] in B1; subst; reflexivity|].
    intros l' T. rewrite Q. assert (F' := states_keep converted conv back F T). assert (K := inv_states converted conv back l' J). assert (B2 := bytes_abs converted conv back w K). rewrite (fresh_contents converted back F') in B2.
    destruct (r_step converted conv back (r_states m1 l') (OBytes w)) as [m2 x2]. cbn [snd] in B2. subst. reflexivity.
  Qed.
End C75.

(** A type with a field that Ruby sees in tenths of the unit used in memory, and a plain field. *)
Definition c75_converted (i : nat) : bool := i =? 0.
Definition c75_conv (i : nat) (z : Z) : Z := if i =? 0 then (z * 10)%Z else z.
Definition c75_back (i : nat) (x : Z) : option Z := if i =? 0 then (if (x mod 10 =? 0)%Z then Some (x / 10)%Z else None) else Some x.
Notation run75 := (r_run c75_converted c75_conv c75_back start).
Notation spec75 := (s_run c75_converted c75_conv c75_back sstart).
Lemma c75_lossless i z : c75_back i (c75_conv i z) = Some z.
Proof. unfold c75_back, c75_conv. destruct (i =? 0); [|reflexivity]. rewrite Z.mod_mul by lia. cbn. rewrite Z.div_mul by lia. reflexivity. Qed.
(** The object read from a field is the field: modifications of it are seen, also by copies, until something else is copied over. *)
Definition c75_program : list op :=
  [ONew [1; 2]; ONew [3; 4]; ORead 0 0; OMutate 0 70; ORead 0 0; OBytes 0; OCopy 1 0; OMutate 0 80; OEqual 0 1; OBytes 1; OObj 90; OWrite 1 0 1; OCopy 0 1; OMutate 1 95; OBytes 0; OBytes 1]%Z.
Example C75_case : run75 (c75_program ++ [ODup 0]) =
  [RVal 0; RVal 1; RRef 0; RUnit; RRef 0; RBytes [7; 2]; RUnit; RUnit; RBool false; RBytes [7; 2]; RRef 1; RUnit; RUnit; RUnit; RBytes [9; 2]; RRaise; RVal 2]%Z.
Proof. reflexivity. Qed.
Example C75_case_hyp : Forall (by_accessors c75_converted) c75_program.
Proof. repeat constructor; discriminate. Qed.

(** What is not so. v[field] after v.field = object is what memory still has: here a new object with the old contents. *)
Theorem C75_index_access_is_stale_refuted :
  run75 [ONew [1; 2]; OObj 50; OWrite 0 0 0; OGet 0 0; OObj 10; OWrite 0 0 1; OBytes 0]%Z = [RVal 0; RRef 0; RUnit; RRef 1; RRef 2; RUnit; RBytes [1; 2]]%Z /\
  spec75 [ONew [1; 2]; OObj 50; OWrite 0 0 0; OGet 0 0; OObj 10; OWrite 0 0 1; OBytes 0]%Z = [RVal 0; RRef 0; RUnit; RRef 0; RRef 1; RUnit; RBytes [1; 2]]%Z.
Proof. split; reflexivity. Qed.
(** v[field] = object and v.raw_field = x after v.field was read are lost. *)
Theorem C75_index_assignment_is_lost_refuted :
  run75 [ONew [1; 2]; ORead 0 0; OObj 50; OSet 0 0 1; OBytes 0]%Z = [RVal 0; RRef 0; RRef 1; RUnit; RBytes [1; 2]]%Z /\
  spec75 [ONew [1; 2]; ORead 0 0; OObj 50; OSet 0 0 1; OBytes 0]%Z = [RVal 0; RRef 0; RRef 1; RUnit; RBytes [5; 2]]%Z.
Proof. split; reflexivity. Qed.
Theorem C75_raw_assignment_is_lost_refuted :
  run75 [ONew [1; 2]; ORead 0 0; ORawSet 0 0 5; OBytes 0]%Z = [RVal 0; RRef 0; RUnit; RBytes [1; 2]]%Z /\
  spec75 [ONew [1; 2]; ORead 0 0; ORawSet 0 0 5; OBytes 0]%Z = [RVal 0; RRef 0; RUnit; RBytes [5; 2]]%Z.
Proof. split; reflexivity. Qed.
(** Data loaded from a buffer, or zero!, after a field was read: the old field comes back. *)
Theorem C75_loaded_data_is_lost_refuted :
  run75 [ONew [1; 2]; ORead 0 0; OLoad 0 [5; 6]; OBytes 0]%Z = [RVal 0; RRef 0; RUnit; RBytes [1; 6]]%Z /\
  spec75 [ONew [1; 2]; ORead 0 0; OLoad 0 [5; 6]; OBytes 0]%Z = [RVal 0; RRef 0; RUnit; RBytes [5; 6]]%Z.
Proof. split; reflexivity. Qed.
(** Copying a value onto itself drops what was assigned; so does a copy that fails, for its target. *)
Theorem C75_copy_to_self_drops_changes_refuted :
  run75 [ONew [1; 2]; OObj 50; OWrite 0 0 0; OCopy 0 0; OBytes 0]%Z = [RVal 0; RRef 0; RUnit; RUnit; RBytes [1; 2]]%Z /\
  spec75 [ONew [1; 2]; OObj 50; OWrite 0 0 0; OCopy 0 0; OBytes 0]%Z = [RVal 0; RRef 0; RUnit; RUnit; RBytes [5; 2]]%Z.
Proof. split; reflexivity. Qed.
Theorem C75_failed_copy_drops_changes_refuted :
  run75 [ONew [1; 2]; ONew [3; 4]; OObj 50; OWrite 0 0 0; OObj 51; OWrite 1 0 1; OCopy 0 1; OBytes 0]%Z = [RVal 0; RVal 1; RRef 0; RUnit; RRef 1; RUnit; RRaise; RBytes [1; 2]]%Z /\
  spec75 [ONew [1; 2]; ONew [3; 4]; OObj 50; OWrite 0 0 0; OObj 51; OWrite 1 0 1; OCopy 0 1; OBytes 0]%Z = [RVal 0; RVal 1; RRef 0; RUnit; RRef 1; RUnit; RRaise; RBytes [5; 2]]%Z.
Proof. split; reflexivity. Qed.
(** dup replaces the objects of the original: those the program holds are not its fields any more. *)
Theorem C75_dup_detaches_the_original_refuted :
  run75 [ONew [1; 2]; ORead 0 0; ODup 0; OMutate 0 50; OBytes 0]%Z = [RVal 0; RRef 0; RVal 1; RUnit; RBytes [1; 2]]%Z /\
  spec75 [ONew [1; 2]; ORead 0 0; ODup 0; OMutate 0 50; OBytes 0]%Z = [RVal 0; RRef 0; RVal 1; RUnit; RBytes [5; 2]]%Z.
Proof. split; reflexivity. Qed.
(** An array of values is marshalled without what was assigned to its elements. *)
Theorem C75_array_ignores_changes_refuted :
  run75 [ONew [1; 2]; ONew [3; 4]; OObj 50; OWrite 0 0 0; OArray [0; 1]%nat]%Z = [RVal 0; RVal 1; RRef 0; RUnit; RBytes [1; 2; 3; 4]]%Z /\
  spec75 [ONew [1; 2]; ONew [3; 4]; OObj 50; OWrite 0 0 0; OArray [0; 1]%nat]%Z = [RVal 0; RVal 1; RRef 0; RUnit; RBytes [5; 2; 3; 4]]%Z.
Proof. split; reflexivity. Qed.
(** With a conversion that rounds, looking at a field changes what is marshalled. *)
Theorem C75_reading_with_rounding_refuted : exists conv back,
  r_run c75_converted conv back start [ONew [1234; 2]; OBytes 0; ORead 0 0; OBytes 0]%Z = [RVal 0; RBytes [1234; 2]; RRef 0; RBytes [1230; 2]]%Z.
Proof. exists (fun i z => if i =? 0 then (z / 10)%Z else z), (fun i x => Some (if i =? 0 then (x * 10)%Z else x)). reflexivity. Qed.
