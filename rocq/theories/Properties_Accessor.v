(** * Properties_Accessor: Typelib::Accessor (C69). *)
From Coq Require Import Permutation Sorted.
From Verif Require Import Base Types Names WellFormed ValueOps ValueSpec GraphLayout GraphLayoutSpec GraphLayoutProofs AccessorSpec Accessor AccessorProofs.
From Verif Require Import Graph GraphSpec GraphProofs.
Local Open Scope N_scope.

Lemma sorted_exists (l : list (list pstep)) : exists l', sort_by_size l l'.
Proof.
  induction l as [|a l (l' & P & S)]; [exists []; split; constructor|].
  assert (X : exists r, Permutation (a :: l') r /\ StronglySorted (fun a b => length a <= length b)%nat r).
  { clear P. induction S as [|b l' S IH F]; [exists [a]; split; [reflexivity|repeat constructor]|].
    destruct (le_lt_dec (length a) (length b)) as [Hle|Hlt].
    - exists (a :: b :: l'). split; [reflexivity|]. constructor; [constructor; assumption|]. constructor; [assumption|]. eapply Forall_impl; [|exact F]. cbn beta. intros; lia.
    - destruct IH as (r & P & S'). exists (b :: r). split; [rewrite perm_swap, P; reflexivity|]. constructor; [assumption|]. apply (Permutation_Forall P). constructor; [lia|assumption]. }
  destruct X as (r & P' & S'). exists r. split; [rewrite P; assumption|assumption].
Qed.
Lemma NoDup_perm_app (l m : list (list nat)) : NoDup l -> NoDup m -> (forall x, In x l -> In x m -> False) -> NoDup (l ++ m).
Proof. apply NoDup_app'. Qed.
Lemma each_ok H t T m paths : tree_of H t T -> wf T -> valid T m -> named_apart H t -> NoDup paths ->
  (forall a, In a paths -> exists u, twalk H t a u) -> StronglySorted (fun a b => length a <= length b)%nat paths ->
  exists rs, each H paths (t, [], m) = Ok rs /\ NoDup (map pplace rs) /\ (forall v, In v rs <-> exists a, In a paths /\ reached H t [] m a v) /\
    StronglySorted (fun v w => length (pplace v) <= length (pplace w))%nat rs.
Proof.
  intros HT Hw Hv Hn Hd HW HS. induction HS as [|a paths HS IH HF].
  - exists []. split; [reflexivity|]. split; [constructor|]. split; [|constructor]. intros v. split; [intros []|]. intros (a & [] & _).
  - inversion Hd as [|? ? Na Nr]; subst. destruct (HW a (or_introl eq_refl)) as (u & W).
    destruct (@resolve_ok H (fun _ => true) a t T m [] u W HT Hw Hv Hn) as (r0 & E0 & N0 & S0).
    destruct IH as (r1 & E1 & N1 & S1 & St1); [assumption|intros; apply HW; right; assumption|].
    assert (Len : forall b v, reached H t [] m b v -> length (pplace v) = length b).
    { intros b v (q & u' & k & -> & _ & E). unfold pplace. cbn [fst snd app]. symmetry. apply (path_length E). }
    exists (r0 ++ r1). unfold each in *. cbn [collect]. rewrite E0. cbn [bind]. rewrite E1. cbn [bind]. split; [reflexivity|]. split; [|split].
    + rewrite map_app. apply NoDup_app'; [assumption|assumption|]. intros q A1 A2. apply in_map_iff in A1, A2. destruct A1 as (v & Ev & A1), A2 as (w & Ew & A2).
      apply S0 in A1. apply S1 in A2. destruct A2 as (b & Hb & A2). destruct A1 as (q1 & u1 & k1 & -> & _ & P1), A2 as (q2 & u2 & k2 & -> & _ & P2).
      unfold pplace in Ev, Ew. cbn [fst snd app] in Ev, Ew. subst q1. subst q2. apply Na. congruence.
    + intros v. rewrite in_app_iff, S0, S1. split.
      * intros [A|(b & Hb & A)]; [exists a; split; [left; reflexivity|assumption]|exists b; split; [right; assumption|assumption]].
      * intros (b & [<- |Hb] & A); [left; assumption|right; eauto].
    + assert (L0 : forall v, In v r0 -> length (pplace v) = length a) by (intros v Hi; apply Len, S0, Hi).
      assert (L1 : Forall (fun w => length a <= length (pplace w))%nat r1).
      { apply Forall_forall. intros w Hi. apply S1 in Hi. destruct Hi as (b & Hb & R). rewrite (Len _ _ R). apply (proj1 (Forall_forall _ _) HF b Hb). }
      clear - L0 L1 St1. induction r0 as [|v r0 IH]; [assumption|]. cbn [app]. constructor; [apply IH; intros; apply L0; right; assumption|].
      apply Forall_app. assert (Lv := L0 v (or_introl eq_refl)). split.
      * apply Forall_forall. intros w Hw. rewrite Lv, (L0 w (or_intror Hw)). lia.
      * eapply Forall_impl; [|exact L1]. cbn beta. intros w Hw. lia.
Qed.

(** ** C69 *)
(** On every value, an accessor yields exactly the parts of the value whose type the block accepts, at any depth, each of
    them once, no part before one that is less deep. Missing from the English property: structures with two fields of the
    same name (see the refutation below). *)
Theorem C69_yields_partial H p t T m paths :
  tree_of H t T -> wf T -> valid T m -> named_apart H t -> find_in_type H p t paths ->
  exists rs, each H paths (t, [], m) = Ok rs /\
    (forall u q k, In (u, q, k) rs <-> part H t m q u k /\ p u = true) /\
    NoDup (map (fun v => snd (fst v)) rs) /\
    StronglySorted (fun v w => length (snd (fst v)) <= length (snd (fst w)))%nat rs.
Proof.
  intros HT Hw Hv Hn (l & [n E] & P & S). specialize (E n (le_n n)). cbn beta in E.
  assert (Hd : NoDup paths) by (eapply Permutation_NoDup; [exact P|]; eapply traverse_nodup; eauto).
  assert (Hs : forall a, In a paths <-> exists u, twalk H t a u /\ p u = true).
  { intros a. rewrite <- (traverse_spec E a). split; [apply (Permutation_in _ (Permutation_sym P))|apply (Permutation_in _ P)]. }
  destruct (@each_ok H t T m paths HT Hw Hv Hn Hd) as (rs & Er & Nd & Sp & St); [|assumption|].
  { intros a Ha. apply Hs in Ha. destruct Ha as (u & W & _). eauto. }
  exists rs. split; [assumption|]. split; [|split; assumption]. intros u q k. rewrite Sp. split.
  - intros (a & Ha & q' & u' & k' & Ev & Pq & Ea). cbn [app] in Ev. injection Ev as <- <- <-. split; [assumption|].
    apply Hs in Ha. destruct Ha as (u2 & W2 & P2). destruct (part_twalk Pq) as (a' & Ea' & W'). assert (a' = a) by congruence. subst a'. rewrite (twalk_fun Hn W' W2). assumption.
  - intros [Pq Pu]. destruct (part_twalk Pq) as (a & Ea & W). exists a. split; [apply Hs; eauto|]. exists q, u, k. auto.
Qed.
(** The search ends for exactly the types that do not hold themselves; for others it goes on until the stack is exhausted. *)
Theorem C69_found_iff H p dom t : finite_graph H dom t ->
  ((exists paths, find_in_type H p t paths) <-> sound_type H t) /\ (~ sound_type H t -> forall f, traverse f H p t = Fuel).
Proof.
  intros Hd. assert (Hf : forall b, holds H t b -> In b dom).
  { assert (X : forall x b, holds H x b -> reaches H t x -> reaches H t b).
    { assert (Y : forall x b, In b (inner H x) -> reaches H t x -> reaches H t b).
      { intros x b Hi R. eapply reaches_step; [exact R|]. unfold inner in Hi. unfold dependsOn. destruct (o_kind (H x)); try contradiction; assumption. }
      induction 1 as [x b Hi|x b c Hi _ IH]; intros R; [exact (Y _ _ Hi R)|apply IH; exact (Y _ _ Hi R)]. }
    intros b Hb. apply Hd. apply (X _ _ Hb). constructor. }
  split; [split|].
  - intros (paths & l & [n E] & _). destruct (traverse_tree (E n (le_n n))) as (T & HT). apply (tree_sound HT).
  - intros Hs. destruct (sound_tree Hf Hs) as (T & HT). destruct (traverse_conv p HT) as (l & C). destruct (sorted_exists l) as (l' & S). exists l', l. auto.
  - intros Hn f. destruct (traverse_fuel H p f t) as [E|(l & E)]; [assumption|]. destruct Hn. destruct (traverse_tree E) as (T & HT). apply (tree_sound HT).
Qed.

(** ** Refutations *)
(** struct { int32_t x; int32_t x; }: the first field is yielded twice, the second one is not. *)
Definition htwice : heap := fun t =>
  match t with
  | 0 => Obj (s_ "/S") 8 (OComp [Fld (s_ "x") 0 1; Fld (s_ "x") 4 1])
  | 1 => Obj (s_ "/int32_t") 4 (ONum SInt)
  | _ => Obj [] 0 ONull
  end%nat.
Theorem C69_same_names_refuted : exists H p t T m paths v w, tree_of H t T /\ wf T /\ valid T m /\ find_in_type H p t paths /\
  each H paths (t, [], m) = Ok [v; v] /\ w <> v /\ part H t m (snd (fst w)) (fst (fst w)) (snd w) /\ p (fst (fst w)) = true.
Proof.
  exists htwice, (fun t => Nat.eqb t 1), 0%nat, (TComp 8 (FCons (s_ "x") 0 (TNum 4 SInt) (FCons (s_ "x") 4 (TNum 4 SInt) FNil))), (map B [1;0;0;0;2;0;0;0]),
    [[PCall (s_ "x")]; [PCall (s_ "x")]], (1%nat, [0%nat], map B [1;0;0;0]), (1%nat, [1%nat], map B [2;0;0;0]).
  split. { apply (@tree_comp htwice 0%nat [Fld (s_ "x") 0 1%nat; Fld (s_ "x") 4 1%nat]); [reflexivity|]. apply (@fields_cons htwice (Fld (s_ "x") 0 1%nat)); [apply (@tree_num htwice 1%nat SInt); reflexivity|].
           apply (@fields_cons htwice (Fld (s_ "x") 4 1%nat)); [apply (@tree_num htwice 1%nat SInt); reflexivity|constructor]. }
  split; [cbn; unfold two64; repeat split; lia|].
  split. { exists [], (map B [1;0;0;0]), (map B [2;0;0;0]). split; [reflexivity|]. split; [exists []; auto|]. split; [exists [1;0;0;0]; auto|].
           exists [], (map B [2;0;0;0]), []. split; [reflexivity|]. split; [exists []; auto|]. split; [exists [2;0;0;0]; auto|exists []; auto]. }
  split. { exists [[PCall (s_ "x")]; [PCall (s_ "x")]]. split; [exists 5%nat; intros m Hm; replace m with (5 + (m - 5))%nat by lia; generalize (m - 5)%nat; intros k; vm_compute; reflexivity|].
           split; [reflexivity|]. repeat constructor. }
  split; [vm_compute; reflexivity|]. split; [discriminate|]. split; [|reflexivity].
  eapply (@part_field htwice 0%nat _ 1%nat); [reflexivity|reflexivity|]. exact (@part_self htwice 1%nat (map B [2;0;0;0])).
Qed.
(** struct Node { std::vector<Node> children; }: the search never ends. *)
Definition hnode : heap := fun t =>
  match t with
  | 0 => Obj (s_ "/Node") 24 (OComp [Fld (s_ "children") 0 1])
  | 1 => Obj (s_ "/std/vector</Node>") 24 (Graph.OCont KVec 0)
  | _ => Obj [] 0 ONull
  end%nat.
Theorem C69_recursive_refuted : exists H p t dom, finite_graph H dom t /\ forall paths, ~ find_in_type H p t paths.
Proof.
  exists hnode, (fun _ => true), 0%nat, [0; 1]%nat. assert (Hd : finite_graph hnode [0; 1]%nat 0%nat).
  { intros b R. induction R as [|b c R IH Hi]; [left; reflexivity|]. destruct IH as [<- |[<- |[]]]; cbn in Hi; destruct Hi as [<- |[]]; cbn; auto. }
  split; [assumption|]. intros paths F. destruct (@C69_found_iff hnode (fun _ => true) _ _ Hd) as [[A _] _]. destruct (A (ex_intro _ _ F)) as [N _]. apply N.
  apply (@holds_more hnode 0%nat 1%nat); [left; reflexivity|]. apply holds_one. left. reflexivity.
Qed.

(** ** A concrete case: all the integers of struct { int32_t x; std::vector<P> v; int32_t a[2] } with struct P { int32_t y; }. *)
Definition hacc : heap := fun t =>
  match t with
  | 0 => Obj (s_ "/S") 40 (OComp [Fld (s_ "x") 0 1; Fld (s_ "v") 8 2; Fld (s_ "a") 32 4])
  | 1 => Obj (s_ "/int32_t") 4 (ONum SInt)
  | 2 => Obj (s_ "/std/vector</P>") 24 (Graph.OCont KVec 3)
  | 3 => Obj (s_ "/P") 4 (OComp [Fld (s_ "y") 0 1])
  | 4 => Obj (s_ "/int32_t[2]") 8 (Graph.OArr 2 1)
  | _ => Obj [] 0 ONull
  end%nat.
Definition tacc := TComp 40 (FCons (s_ "x") 0 (TNum 4 SInt) (FCons (s_ "v") 8 (TCont KVec 24 (TComp 4 (FCons (s_ "y") 0 (TNum 4 SInt) FNil))) (FCons (s_ "a") 32 (TArray 8 2 (TNum 4 SInt)) FNil))).
Definition macc : list cell := map B [1;0;0;0;9;9;9;9] ++ put_obj 24 (VecObj 16 (map B [2;0;0;0;3;0;0;0])) ++ map B [4;0;0;0;5;0;0;0].
Lemma hacc_inner x b : In b (inner hacc x) -> (x < b \/ b = 1)%nat /\ (b < 5)%nat.
Proof. do 5 (destruct x as [|x]; [cbn; intuition lia|]). intros []. Qed.
Example C69_case : tree_of hacc 0%nat tacc /\ wf tacc /\ valid tacc macc /\ named_apart hacc 0%nat /\
  find_in_type hacc (fun t => Nat.eqb t 1) 0%nat [[PCall (s_ "x")]; [PCall (s_ "a"); PIterate]; [PCall (s_ "v"); PIterate; PCall (s_ "y")]] /\
  each hacc [[PCall (s_ "x")]; [PCall (s_ "a"); PIterate]; [PCall (s_ "v"); PIterate; PCall (s_ "y")]] (0%nat, [], macc) =
    Ok [(1, [0], map B [1;0;0;0]%N); (1, [2;0], map B [4;0;0;0]%N); (1, [2;1], map B [5;0;0;0]%N); (1, [1;0;0], map B [2;0;0;0]%N); (1, [1;1;0], map B [3;0;0;0]%N)]%nat.
Proof.
  split.
  { assert (X : tree_of hacc 1%nat (TNum 4 SInt)) by (apply (@tree_num hacc 1%nat SInt); reflexivity).
    apply (@tree_comp hacc 0%nat [Fld (s_ "x") 0 1%nat; Fld (s_ "v") 8 2%nat; Fld (s_ "a") 32 4%nat]); [reflexivity|].
    apply (@fields_cons hacc (Fld (s_ "x") 0 1%nat)); [exact X|]. apply (@fields_cons hacc (Fld (s_ "v") 8 2%nat)).
    - apply (@tree_cont hacc 2%nat KVec 3%nat); [reflexivity|]. apply (@tree_comp hacc 3%nat [Fld (s_ "y") 0 1%nat]); [reflexivity|]. apply (@fields_cons hacc (Fld (s_ "y") 0 1%nat)); [exact X|constructor].
    - apply (@fields_cons hacc (Fld (s_ "a") 32 4%nat)); [|constructor]. apply (@tree_arr hacc 4%nat 2 1%nat); [reflexivity|exact X]. }
  split; [cbn; unfold two64; repeat split; lia|].
  split.
  { exists [], (map B [1;0;0;0]). eexists. split; [reflexivity|]. split; [exists []; auto|]. split; [exists [1;0;0;0]; auto|].
    exists (map B [9;9;9;9]), (put_obj 24 (VecObj 16 (map B [2;0;0;0;3;0;0;0]))). eexists. split; [reflexivity|]. split; [exists [9;9;9;9]; auto|]. split.
    - exists 16, [map B [2;0;0;0]; map B [3;0;0;0]]. split; [reflexivity|]. split; [|split; vm_compute; discriminate].
      repeat constructor; eexists [], _, []; (split; [rewrite app_nil_r; reflexivity|]); (split; [exists []; auto|]); (split; [|exists []; auto]); [exists [2;0;0;0]|exists [3;0;0;0]]; auto.
    - exists [], (map B [4;0;0;0;5;0;0;0]), []. split; [reflexivity|]. split; [exists []; auto|]. split; [|exists []; auto].
      exists [map B [4;0;0;0]; map B [5;0;0;0]]. split; [reflexivity|]. split; [reflexivity|]. repeat constructor; [exists [4;0;0;0]|exists [5;0;0;0]]; auto. }
  split.
  { intros b fs Hb. assert (X : (b < 5)%nat).
    { assert (Y : forall x c, holds hacc x c -> (c < 5)%nat); [|destruct Hb as [-> |Hb]; [lia|exact (Y _ _ Hb)]]. clear. induction 1 as [x b Hi|x b c Hi Hc IH]; [apply (proj2 (hacc_inner Hi))|assumption]. }
    do 5 (destruct b as [|b]; [cbn; intros E; try discriminate; injection E as <-; cbn; repeat constructor; cbn; intuition discriminate|]). lia. }
  split; [|vm_compute; reflexivity].
  exists [[PCall (s_ "x")]; [PCall (s_ "v"); PIterate; PCall (s_ "y")]; [PCall (s_ "a"); PIterate]]. split.
  - exists 9%nat. intros m Hm. replace m with (9 + (m - 9))%nat by lia. generalize (m - 9)%nat. intros k. vm_compute. reflexivity.
  - split; [apply perm_skip, perm_swap|]. repeat constructor.
Qed.

Print Assumptions C69_yields_partial.
Print Assumptions C69_found_iff.
Print Assumptions C69_same_names_refuted.
Print Assumptions C69_recursive_refuted.
