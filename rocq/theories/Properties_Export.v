(** * Properties_Export: the order of an export (C29). *)
From Verif Require Import Base Types NamesSpec Names Graph GraphSpec GraphProofs Registry RegistrySpec RegistryProofs RegistryOps RegistryMain Properties_Registry Exporter ExporterSpec ExporterProofs.
Local Open Scope nat_scope.

(** For every registry, whatever the plugin's save function answers: the export terminates; what is written is a
    duplicate-free sequence of persistent entries in which each entry comes after all that it needs, and if it succeeds
    all of them are there; it fails with ExportError exactly when a dependency is missing or a type is recursive. *)
Theorem C29_export H r : reachable H r -> forall ret, exists out res,
  (forall f, length (r_global r) < f -> export f H ret r = (out, res)) /\
  NoDup out /\ well_ordered H out /\ (forall p, In p out -> In p (r_global r) /\ e_pers (snd p) = true) /\
  (res = Ok tt \/ res = Throw EExport) /\
  (res = Ok tt -> forall p, In p (r_global r) -> e_pers (snd p) = true -> In p out) /\
  (res = Throw EExport <-> missing_dependency H (r_global r) \/ recursive_type H (r_global r)).
Proof.
  intros Hr ret. assert (I := reachable_Inv Hr). assert (Hs := inv_sorted I). assert (Hn := gsorted_NoDup Hs).
  destruct (@export_final H ret r _ Hs (le_n _)) as (out & res & E & F). exists out, res.
  assert (Hres : res = Ok tt \/ res = Throw EExport) by (destruct F as (? & ? & _ & _ & _ & [[-> _]|[-> _]]); auto).
  split.
  { intros f Hf. replace f with (S (length (r_global r)) + (f - S (length (r_global r)))) by lia. apply save_loop_more; [exact E|]. destruct Hres; subst; discriminate. }
  assert (Hp : forall n e, In (n, e) (r_global r) -> defined H (r_global r) (e_type e)).
  { intros n e Hi. destruct (inv_primary I Hi) as (e' & A & B). exists e'. split; [assumption|assumption]. }
  assert (Fails := final_fails Hn Hp F). destruct F as (types & done & P & T & -> & Fin).
  assert (Hd : NoDup (map fst done)).
  { apply (nodup_perm P) in Hn. rewrite map_app in Hn. revert Hn. generalize (map fst types). induction l as [|x l IHl]; simpl; [auto|]. intros Hn. inversion Hn; auto. }
  split; [apply nodup_filter, (nodup_of_keys Hd)|]. split; [apply topo_well_ordered; assumption|]. split; [|split; [assumption|split]].
  - intros p Hi. apply filter_In in Hi. destruct Hi as [Hi Hpe]. split; [|assumption]. apply (Permutation_in _ (Permutation_sym P)). apply in_or_app. auto.
  - intros Eok p Hi Hpe. apply filter_In. split; [|assumption]. destruct Fin as [[_ ->]|[X _]]; [|congruence]. apply (Permutation_in _ P) in Hi. assumption.
  - destruct Fails as [(-> & A & B)|(-> & A)]; [|tauto]. split; [discriminate|tauto].
Qed.
Print Assumptions C29_export.

(** /A, /A*, /A**, the compounds /B/A and /B/C, the alias /D/E of /A: the compounds come after what they contain. *)
Definition export_history : list op :=
  [OpAdd 6 true []; OpAdd 5 true []; OpAdd 4 true []; OpAdd 1 false []; OpAdd 0 true []; OpAlias (s_ "/A") (s_ "/D/E") true []].
Definition rexport : reg := run hptr reg0 export_history.
Example C29_case : reachable hptr rexport /\
  export 20 hptr (fun _ _ => true) rexport =
    ([(s_ "/A", Ent 0 true []); (s_ "/B/A", Ent 5 true []); (s_ "/B/C", Ent 6 true []); (s_ "/D/E", Ent 0 true []); (s_ "/std/vector</A>", Ent 4 true [])], Ok tt).
Proof. split; [reach export_history|]. vm_compute. reflexivity. Qed.
(** Without /A*: a missing dependency. With a type that contains a pointer to itself: recursive. *)
Definition hrec : heap := fun t =>
  match t with
  | 0 => Obj (s_ "/L") 8 (OComp [Fld (s_ "next") 0 1])
  | 1 => Obj (s_ "/L*") 8 (OPtr 0)
  | 2 => Obj (s_ "/A") 4 (ONum SInt)
  | _ => Obj [] 0 ONull
  end.
Example C29_fails :
  (let h := [OpAdd 0 true []; OpAdd 1 false []; OpAdd 2 true []] in
   reachable hrec (run hrec reg0 h) /\ recursive_type hrec (r_global (run hrec reg0 h)) /\
   export 20 hrec (fun _ _ => true) (run hrec reg0 h) = ([(s_ "/A", Ent 2 true [])], Throw EExport)) /\
  (let h := [OpAdd 0 true []; OpAdd 2 true []] in
   reachable hrec (run hrec reg0 h) /\ missing_dependency hrec (r_global (run hrec reg0 h)) /\
   export 20 hrec (fun _ _ => true) (run hrec reg0 h) = ([(s_ "/A", Ent 2 true [])], Throw EExport)).
Proof.
  split; cbv zeta; (split; [|split; [|vm_compute; reflexivity]]).
  - reach [OpAdd 0 true []; OpAdd 1 false []; OpAdd 2 true []].
  - exists 0. split.
    + exists (Ent 0 true []). split; [|reflexivity]. vm_compute. tauto.
    + apply needs_more with 1; [left; reflexivity|]. apply needs_one. left. reflexivity.
  - reach [OpAdd 0 true []; OpAdd 2 true []].
  - exists 0, 1. split; [|split].
    + exists (Ent 0 true []). split; [|reflexivity]. vm_compute. tauto.
    + left. reflexivity.
    + intros (e & Hi & _). revert Hi. vm_compute. intros [X|[X|[]]]; inversion X.
Qed.
