(** * Properties_Config: configuration objects keep lists of values by name (C49). *)
From Coq Require Import Sorted.
From Verif Require Import Base Names Graph GraphProofs Registry RegistryProofs RegistryOps Smap SmapProofs Config.
Local Open Scope nat_scope.

(** ** Specification: a set is a function from names to lists of values, and another from names to lists of children. *)
Definition at_ {A} (n : str) (x : A) (f : str -> A) : str -> A := fun k => if list_eq_dec Ascii.ascii_dec n k then x else f k.
Definition values_step (f : str -> list str) (o : op) : str -> list str :=
  match o with
  | Set_ n v => at_ n [v] f
  | SetList n vs => at_ n vs f
  | Insert n v => at_ n (f n ++ [v]) f
  | InsertList n vs => at_ n (f n ++ vs) f
  | Erase n => at_ n [] f
  | InsertChild _ _ => f
  end.
Definition values (h : list op) : str -> list str := fold_left values_step h (fun _ => []).
Definition kids_step (f : str -> list nat) (o : op) : str -> list nat := match o with InsertChild n i => at_ n (f n ++ [i]) f | _ => f end.
Definition kids (h : list op) : str -> list nat := fold_left kids_step h (fun _ => []).

(** ** Proofs *)
Lemma at_seqb {A} n k (x : A) f : at_ n x f k = if seqb n k then x else f k.
Proof. unfold at_. destruct (list_eq_dec Ascii.ascii_dec n k) as [->|N]; [rewrite seqb_refl; reflexivity|rewrite seqb_false by assumption; reflexivity]. Qed.
Lemma insert_list_ok n vs : forall c, wsorted (m_values c) -> wsorted (m_values (insert_list c n vs)) /\ m_children (insert_list c n vs) = m_children c /\
  forall k, values_of k (m_values (insert_list c n vs)) = if seqb n k then values_of k (m_values c) ++ vs else values_of k (m_values c).
Proof.
  unfold insert_list. induction vs as [|v vs IH]; intros c H; cbn [fold_left].
  - split; [assumption|]. split; [reflexivity|]. intros k. rewrite app_nil_r. destruct (seqb n k); reflexivity.
  - destruct (IH (insert c n v)) as (A & B & C); [apply mm_insert_sorted, H|]. split; [assumption|]. split; [exact B|]. intros k. rewrite C. cbn [m_values insert]. rewrite values_insert by assumption.
    destruct (seqb n k); [rewrite <- app_assoc|]; reflexivity.
Qed.
Record good (c : config) (f : str -> list str) (g : str -> list nat) : Prop := {
  g_v : wsorted (m_values c); g_c : wsorted (m_children c);
  g_values : forall k, values_of k (m_values c) = f k; g_kids : forall k, values_of k (m_children c) = g k }.
Lemma good_step c f g o : good c f g -> good (step c o) (values_step f o) (kids_step g o).
Proof.
  intros [A B C D]. destruct o as [n v|n vs|n v|n vs|n|n i]; cbn [step values_step kids_step].
  - split; cbn [m_values m_children set_ insert erase]; try assumption; [apply mm_insert_sorted, wsorted_erase, A|]. intros k. rewrite values_insert by (apply wsorted_erase, A). rewrite values_erase, at_seqb, C. destruct (seqb n k); reflexivity.
  - destruct (@insert_list_ok n vs (erase c n)) as (X & Y & Z); [apply wsorted_erase, A|]. split; unfold set_list; [assumption|rewrite Y; assumption| |rewrite Y; assumption].
    intros k. rewrite Z. cbn [m_values erase]. rewrite values_erase, at_seqb, C. destruct (seqb n k); reflexivity.
  - split; cbn [m_values m_children insert]; try assumption; [apply mm_insert_sorted, A|]. intros k. rewrite values_insert by assumption. rewrite at_seqb, C. destruct (seqb n k) eqn:E; [apply seqb_eq in E; subst|]; reflexivity.
  - destruct (@insert_list_ok n vs c A) as (X & Y & Z). split; [assumption|rewrite Y; assumption| |rewrite Y; assumption]. intros k. rewrite Z, at_seqb, C. destruct (seqb n k) eqn:E; [apply seqb_eq in E; subst|]; reflexivity.
  - split; cbn [m_values m_children erase]; try assumption; [apply wsorted_erase, A|]. intros k. rewrite values_erase, at_seqb, C. reflexivity.
  - split; cbn [m_values m_children insert_child]; try assumption; [apply mm_insert_sorted, B|]. intros k. rewrite values_insert by assumption. rewrite at_seqb, D. destruct (seqb n k) eqn:E; [apply seqb_eq in E; subst|]; reflexivity.
Qed.
Lemma good_run h : good (run h) (values h) (kids h).
Proof.
  unfold run, values, kids. assert (Q : forall h c f g, good c f g -> good (fold_left step h c) (fold_left values_step h f) (fold_left kids_step h g)).
  { clear. induction h as [|o h IH]; intros c f g G; cbn [fold_left]; [assumption|]. apply IH, good_step, G. }
  apply Q. split; try constructor; reflexivity.
Qed.
(** In a sorted multimap the values of a key are contiguous. *)
Lemma scan_values n m : wsorted m -> while_key n (from_find n m) = values_of n m.
Proof.
  unfold values_of. induction 1 as [|[k v] m H IH F]; [reflexivity|]. cbn [from_find filter fst]. destruct (seqb k n) eqn:E; [|exact IH].
  cbn [while_key]. rewrite E. cbn [map snd]. f_equal. apply seqb_eq in E. subst k. clear IH. induction H as [|[k w] m H IH F']; [reflexivity|]. cbn [while_key filter fst]. destruct (seqb k n) eqn:E.
  - cbn [map snd]. f_equal. apply IH. inversion F; assumption.
  - (* the keys after it are larger: none is n *)
    replace (filter (fun p => seqb (fst p) n) m) with (@nil (str * str)); [reflexivity|]. symmetry. inversion F as [|? ? Fk Fm]; subst. cbn [fst] in *.
    assert (Hlt : slt n k = true). { destruct (slt n k) eqn:X; [reflexivity|]. apply seqb_neq in E. exfalso. apply E. apply slt_total; assumption. }
    clear - F' Hlt. induction F' as [|[j w'] m Hj F' IH]; [reflexivity|]. cbn [filter fst] in *. rewrite seqb_false; [assumption|]. intros ->. rewrite Hlt in Hj. discriminate.
Qed.
Lemma find_values {A} n (m : smap A) : match m_find n m with Some _ => true | None => false end = match values_of n m with [] => false | _ => true end.
Proof. unfold values_of. induction m as [|[k v] m IH]; [reflexivity|]. cbn [m_find filter fst]. destruct (seqb k n); [reflexivity|exact IH]. Qed.

(** Reading a list of strings gives the values of the name, in the order they were given; the default if there are none. *)
Theorem C49_strings h n d : get_strings (run h) n d = match values h n with [] => d | l => l end.
Proof. destruct (good_run h) as [A _ C _]. unfold get_strings. rewrite scan_values, C by assumption. reflexivity. Qed.
(** Reading values of another type converts all of them, in order; one that does not convert makes the call throw. *)
Theorem C49_list T (convert : str -> res T) h n d :
  (values h n = [] -> get_list convert (run h) n d = Ok d) /\
  (forall l, values h n <> [] -> Forall2 (fun v x => convert v = Ok x) (values h n) l -> get_list convert (run h) n d = Ok l) /\
  (forall a v b e l, values h n = a ++ v :: b -> Forall2 (fun v x => convert v = Ok x) a l -> convert v = Throw e -> get_list convert (run h) n d = Throw e).
Proof.
  unfold get_list. rewrite C49_strings. 
  assert (Q : forall vs l acc, Forall2 (fun v x => convert v = Ok x) vs l -> fold_left (fun a v => l <- a ;; x <- convert v ;; Ok (l ++ [x])) vs (Ok acc) = Ok (acc ++ l)).
  { induction vs as [|v vs IH]; intros l acc F; inversion F; subst; cbn [fold_left bind]; [rewrite app_nil_r; reflexivity|]. rewrite H1. cbn [bind]. rewrite (IH l') by assumption. rewrite <- app_assoc. reflexivity. }
  assert (T0 : forall vs e, fold_left (fun a v => l <- a ;; x <- convert v ;; Ok (l ++ [x])) vs (Throw e) = Throw e) by (induction vs; intros; cbn; auto).
  split; [intros ->; reflexivity|]. split.
  - intros l Hn F. apply (Q _ _ []) in F. destruct (values h n); [contradiction|]. exact F.
  - intros a v b e l E F Hv. rewrite E. destruct (a ++ v :: b) eqn:X; [destruct a; discriminate|]. rewrite <- X, fold_left_app, (Q _ _ _ F). cbn [fold_left bind]. rewrite Hv. cbn [bind]. apply T0.
Qed.
(** Reading a single value gives the first one (all of them have to convert), or the default. *)
Theorem C49_one T (convert : str -> res T) h n d :
  (values h n = [] -> get_one convert (run h) n d = Ok d) /\
  (forall x l, Forall2 (fun v x => convert v = Ok x) (values h n) (x :: l) -> get_one convert (run h) n d = Ok x) /\
  (forall a v b e l, values h n = a ++ v :: b -> Forall2 (fun v x => convert v = Ok x) a l -> convert v = Throw e -> get_one convert (run h) n d = Throw e).
Proof.
  destruct (C49_list convert h n [d]) as (A & B & C). unfold get_one. split; [intros E; rewrite (A E); reflexivity|]. split.
  - intros x l F. rewrite (B (x :: l)); [reflexivity| |assumption]. intros E. rewrite E in F. inversion F.
  - intros a v b e l E F Hv. rewrite (C _ _ _ _ _ E F Hv). reflexivity.
Qed.
(** The booleans are exactly true, 1, false and 0. *)
Theorem C49_bool v : (convert_bool v = Ok true <-> v = s_ "true" \/ v = s_ "1") /\ (convert_bool v = Ok false <-> v = s_ "false" \/ v = s_ "0") /\
  (convert_bool v = Throw EStd \/ exists b, convert_bool v = Ok b).
Proof.
  unfold convert_bool.
  destruct (seqb v (s_ "true")) eqn:E1; [apply seqb_eq in E1; subst v; cbn; repeat split; intros; auto; try discriminate; try (destruct H; discriminate); eauto|]. apply seqb_neq in E1.
  destruct (seqb v (s_ "1")) eqn:E2; [apply seqb_eq in E2; subst v; cbn; repeat split; intros; auto; try discriminate; try (destruct H; discriminate); eauto|]. apply seqb_neq in E2.
  destruct (seqb v (s_ "false")) eqn:E3; [apply seqb_eq in E3; subst v; cbn; repeat split; intros; auto; try discriminate; try (destruct H; discriminate); eauto|]. apply seqb_neq in E3.
  destruct (seqb v (s_ "0")) eqn:E4; [apply seqb_eq in E4; subst v; cbn; repeat split; intros; auto; try discriminate; try (destruct H; discriminate); eauto|]. apply seqb_neq in E4.
  cbn [orb]. repeat split; intros; auto; try discriminate; destruct H; contradiction.
Qed.
(** Children, existence, emptiness. *)
Theorem C49_children h n : children (run h) n = kids h n /\ child (run h) n = match kids h n with [] => None | x :: _ => Some x end /\
  (exists_ (run h) n = true <-> values h n <> [] \/ kids h n <> []) /\ (empty (run h) = true <-> forall k, values h k = [] /\ kids h k = []).
Proof.
  destruct (good_run h) as [A B C D]. assert (K : children (run h) n = kids h n) by apply D. split; [assumption|]. unfold child. rewrite K. split; [reflexivity|]. split.
  - unfold exists_. rewrite !find_values, C, D. destruct (values h n), (kids h n); cbn; split; intros; try discriminate; try tauto; try (left; discriminate); try (right; discriminate).
  - unfold empty. split.
    + destruct (m_values (run h)) eqn:E1; [|discriminate]. destruct (m_children (run h)) eqn:E2; [|discriminate]. intros _ k. rewrite <- C, <- D. split; reflexivity.
    + intros H. destruct (m_values (run h)) as [|[k v] m] eqn:E1.
      * destruct (m_children (run h)) as [|[k v] m] eqn:E2; [reflexivity|]. destruct (H k) as [_ X]. rewrite <- D in X. unfold values_of in X. cbn in X. rewrite seqb_refl in X. discriminate.
      * destruct (H k) as [X _]. rewrite <- C in X. unfold values_of in X. cbn in X. rewrite seqb_refl in X. discriminate.
Qed.
(** A case. *)
Example C49_case : let h := [Insert (s_ "b") (s_ "1"); Insert (s_ "a") (s_ "x"); Insert (s_ "b") (s_ "maybe"); InsertChild (s_ "c") 7; SetList (s_ "a") [s_ "y"; s_ "z"]] in
  get_strings (run h) (s_ "a") [] = [s_ "y"; s_ "z"] /\ get_one convert_bool (run h) (s_ "b") false = Throw EStd /\ get_one convert_bool (run h) (s_ "nope") true = Ok true /\
  get_one convert_string (run h) (s_ "b") [] = Ok (s_ "1") /\ child (run h) (s_ "c") = Some 7.
Proof. repeat split; vm_compute; reflexivity. Qed.
Print Assumptions C49_strings. Print Assumptions C49_list. Print Assumptions C49_one. Print Assumptions C49_bool. Print Assumptions C49_children.
