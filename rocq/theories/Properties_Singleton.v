(** * Properties_Singleton: the life of singletons (C48). *)
From Verif Require Import Base Names Graph Registry Smap SmapProofs Singleton SingletonSpec SingletonProofs.
Local Open Scope nat_scope.

(** Clients that destroy and dereference only use<> objects that exist never provoke an undefined behaviour; and at every
    point of the history a singleton has an instance exactly when it has a use<> object. *)
Theorem C48_exists h : disciplined h -> exists s, run h = Ok s /\ forall n, (exists i, live s n = Some i) <-> uses h n <> 0.
Proof.
  intros D. destruct (run_from inv0 D) as (s & E & I). exists s. split; [assumption|]. intros n. split.
  - intros (i & L) H. rewrite (live_zero I H) in L. discriminate.
  - intros H. destruct (live_pos I H) as (i & _ & L). eauto.
Qed.
(** The instance is created when the first use<> object appears, kept as long as there are some, destroyed when the last one
    goes; nothing else creates or destroys instances; a created instance is a new one. *)
Theorem C48_life h o : disciplined (h ++ [o]) -> exists s s', run h = Ok s /\ run (h ++ [o]) = Ok s' /\
  (forall n, match uses h n, uses (h ++ [o]) n with
    | 0, 0 => live s n = None /\ live s' n = None
    | 0, S _ => live s n = None /\ exists i, live s' n = Some i /\ log s' = log s ++ [Created n i] /\ ~ In i (created (log s))
    | S _, S _ => exists i, live s n = Some i /\ live s' n = Some i
    | S _, 0 => live s' n = None /\ exists i, live s n = Some i /\ log s' = log s ++ [Destroyed n i]
    end) /\
  ((forall n, uses h n = 0 <-> uses (h ++ [o]) n = 0) -> log s' = log s).
Proof.
  intros D. apply disciplined_app in D. destruct D as [D [Ha _]]. destruct (run_from inv0 D) as (s & E & I). destruct (step_ok I Ha) as (s' & E' & _ & F).
  exists s, s'. split; [exact E|]. split; [rewrite run_app; unfold run; rewrite E; exact E'|]. unfold uses. rewrite fold_left_app. exact F.
Qed.
(** Dereferencing gives this instance; two singletons never share one. *)
Theorem C48_instance h : disciplined h -> exists s, run h = Ok s /\ (forall n, uses h n <> 0 -> exists i, get_instance s n = Ok i /\ live s n = Some i) /\
  forall n k i, live s n = Some i -> live s k = Some i -> n = k.
Proof.
  intros D. destruct (run_from inv0 D) as (s & E & I). exists s. split; [assumption|]. split.
  - intros n H. destruct (live_pos I H) as (i & Hf & L). exists i. split; [|assumption]. unfold get_instance. destruct (instance_ok s) as (s1 & e & Ei & _). rewrite Ei. cbn [snd]. rewrite Hf. reflexivity.
  - intros n k i. rewrite !live_table. destruct (m_find n (table s)) as [[c j]|] eqn:A; [|discriminate]. destruct (m_find k (table s)) as [[d j']|] eqn:B; [|discriminate].
    cbn. intros X Y. inversion X; inversion Y; subst. eapply i_inj; eassumption.
Qed.
(** Threads that each handle their own use<> objects, in any interleaving, are such clients. *)
Theorem C48_threads ps h : Forall own ps -> interleaving ps h -> (forall a b n, h = a ++ b -> (N.of_nat (uses a n) + 1 < 2 ^ 64)%N) -> disciplined h.
Proof.
  intros F I B. apply (interleaved (us := map (fun _ _ => 0) ps) I); [|intros n; induction ps; [reflexivity|]|exact B].
  - clear I B. induction F; constructor; assumption.
  - cbn. clear. induction ps; [reflexivity|assumption].
Qed.
(** A singleton that uses another one breaks this: when both go, the server is used after it was deleted. *)
Theorem C48_nested_refuted : let holds n := if seqb n (s_ "outer") then [s_ "inner"] else [] in
  exists s, fst (attach holds (fun _ => true) 5 sing0 (s_ "outer")) = Ok s /\ live s (s_ "outer") <> None /\ live s (s_ "inner") <> None /\ detach holds 5 s (s_ "outer") = UB UOther.
Proof. eexists. split; [vm_compute; reflexivity|]. split; [discriminate|]. split; [discriminate|reflexivity]. Qed.
(** A case: two threads, a failed construction, two generations of an instance. *)
Example C48_case : let n := s_ "PluginManager" in
  Forall own [[Use n true; Drop n]; [Use n true; Deref n; Drop n]] /\ interleaving [[Use n true; Drop n]; [Use n true; Deref n; Drop n]] [Use n true; Use n true; Drop n; Deref n; Drop n] /\
  exists s, run [Use n false; Use n true; Use n false; Drop n; Deref n; Drop n; Use n true] = Ok s /\ log s = [Created n 0; Destroyed n 0; Created n 1] /\
    disciplined [Use n false; Use n true; Use n false; Drop n; Deref n; Drop n; Use n true].
Proof.
  split; [repeat constructor; discriminate|]. split.
  - apply (@interleaving_step [] _ _ [_]), (@interleaving_step [_] _ _ []), (@interleaving_step [] _ _ [_]), (@interleaving_step [_] _ _ []), (@interleaving_step [_] _ _ []). constructor. repeat constructor.
  - eexists. split; [vm_compute; reflexivity|]. split; [reflexivity|]. cbn. repeat split; discriminate.
Qed.
Print Assumptions C48_exists. Print Assumptions C48_life. Print Assumptions C48_instance. Print Assumptions C48_threads. Print Assumptions C48_nested_refuted.
