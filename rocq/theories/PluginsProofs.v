From Verif Require Import Base NamesSpec Names NamesProofs Graph GraphProofs Registry RegistrySpec RegistryProofs RegistryOps Smap SmapProofs Plugins PluginsSpec.
From Coq Require Import Permutation.
Local Open Scope nat_scope.

Lemma find_colon_none s : find_colon s = None <-> ~ In ":"%char s.
Proof.
  induction s as [|c s IH]; simpl; [tauto|]. unfold ceqb. destruct (Ascii.eqb_spec c ":") as [->|N]; [split; [discriminate|intros X; exfalso; apply X; left; reflexivity]|].
  destruct (find_colon s); simpl; split; try discriminate; intros X.
  - exfalso. apply X. right. destruct (in_dec Ascii.ascii_dec ":"%char s) as [I|I]; [assumption|apply IH in I; discriminate].
  - intros [->|I]; [contradiction|]. apply IH in I; [assumption|reflexivity].
  - reflexivity.
Qed.
Lemma find_colon_app a b : ~ In ":"%char a -> find_colon (a ++ ":"%char :: b) = Some (length a).
Proof.
  induction a as [|c a IH]; intros H; [reflexivity|]. simpl. unfold ceqb. destruct (Ascii.eqb_spec c ":") as [->|N]; [exfalso; apply H; left; reflexivity|].
  rewrite IH; [reflexivity|]. intros I. apply H. right. assumption.
Qed.
Lemma find_last_lt s n : find_last_colon s = Some n -> n < length s.
Proof.
  revert n. induction s as [|c s IH]; intros n; simpl; [discriminate|]. destruct (find_last_colon s) as [k|].
  - intros E. inversion E; subst. specialize (IH _ eq_refl). lia.
  - destruct (ceqb c ":"); [|discriminate]. intros E; inversion E; lia.
Qed.
Lemma always_appended (s t : str) : match find_last_colon s with Some n => if Nat.eqb n (length s) then s else s ++ t | None => s ++ t end = s ++ t.
Proof. destruct (find_last_colon s) as [n|] eqn:E; [|reflexivity]. apply find_last_lt in E. destruct (Nat.eqb_spec n (length s)); [lia|reflexivity]. Qed.

(** The components exist and are unique. *)
Lemma join_cons a b l : join (a :: b :: l) = a ++ ":"%char :: join (b :: l).
Proof. reflexivity. Qed.
Lemma components_exist s : exists l, components s l.
Proof.
  induction s as [|c s (l & Hn & Hj & Hc)]; [exists [[]]; split; [discriminate|]; split; [reflexivity|constructor; [intros []|constructor]]|].
  destruct (Ascii.ascii_dec c ":") as [->|N].
  - exists ([] :: l). split; [discriminate|]. destruct l as [|d l]; [contradiction|]. split; [rewrite join_cons, Hj; reflexivity|constructor; [intros []|assumption]].
  - destruct l as [|d l]; [contradiction|]. exists ((c :: d) :: l). split; [discriminate|]. inversion Hc; subst. split.
    + destruct l; reflexivity.
    + constructor; [intros [->|I]; contradiction|assumption].
Qed.
Lemma colon_split (a b a' b' : str) : ~ In ":"%char a -> ~ In ":"%char a' -> a ++ ":"%char :: b = a' ++ ":"%char :: b' -> a = a' /\ b = b'.
Proof.
  revert a'. induction a as [|c a IH]; intros [|c' a'] H H' E; simpl in E; inversion E; subst.
  - split; reflexivity.
  - exfalso; apply H'; left; reflexivity.
  - exfalso; apply H; left; reflexivity.
  - destruct (IH a') as [-> ->]; [intros I; apply H; right; assumption|intros I; apply H'; right; assumption|assumption|split; reflexivity].
Qed.
Lemma components_unique s l l' : components s l -> components s l' -> l = l'.
Proof.
  revert s l'. induction l as [|a l IH]; intros s l' (Hn & Hj & Hc) (Hn' & Hj' & Hc'); [contradiction|]. destruct l' as [|a' l']; [contradiction|].
  inversion Hc; subst. inversion Hc'; subst. destruct l as [|b l], l' as [|b' l'].
  - simpl in Hj'. congruence.
  - exfalso. rewrite join_cons in Hj'. simpl in Hj'. apply H1. rewrite <- Hj'. apply in_elt.
  - exfalso. rewrite join_cons in Hj'. simpl in Hj'. apply H3. rewrite Hj'. apply in_elt.
  - rewrite !join_cons in Hj'. apply colon_split in Hj'; [|assumption|assumption]. destruct Hj' as [-> E]. f_equal. apply (IH (join (b :: l))); (split; [discriminate|]); split; auto.
Qed.

(** The loop goes through the components. *)
Definition searched g := m_searched g.
Lemma register_searched g x : m_searched (register g x) = m_searched g /\ m_handles (register g x) = m_handles g.
Proof. destruct x; simpl; unfold add_exporter, add_importer; [destruct (add_plugin (m_exporters g) name obj)|destruct (add_plugin (m_importers g) name obj)|]; split; reflexivity. Qed.
Lemma registers_searched xs : forall g, m_searched (fold_left register xs g) = m_searched g /\ m_handles (fold_left register xs g) = m_handles g.
Proof. induction xs as [|x xs IH]; intros g; simpl; [split; reflexivity|]. destruct (IH (register g x)) as [A B]. destruct (register_searched g x) as [C D]. split; congruence. Qed.
Definition same_plugins (g h : manager) : Prop := m_exporters g = m_exporters h /\ m_importers g = m_importers h /\ m_definitions g = m_definitions h.
Lemma register_same g h x : same_plugins g h -> same_plugins (register g x) (register h x).
Proof.
  intros (A & B & C). destruct x; simpl; unfold add_exporter, add_importer; rewrite ?A, ?B;
    [destruct (add_plugin (m_exporters h) name obj)|destruct (add_plugin (m_importers h) name obj)|]; repeat split; simpl; congruence.
Qed.
Lemma registers_same xs : forall g h, same_plugins g h -> same_plugins (fold_left register xs g) (fold_left register xs h).
Proof. induction xs as [|x xs IH]; intros g h H; [assumption|]. apply IH, register_same, H. Qed.
(** The invariant: the plugins of the manager are those of the entry points of the libraries, in order; the libraries are
    those of the directories, in order. *)
Definition loadable (M : machine) (p : str) : Prop := is_library p = true /\ lib M p <> None.
Record accounts (M : machine) (g : manager) (ds : list str) : Prop := {
  ac_searched : m_searched g = ds;
  ac_handles : restricted (loadable M) (concat (map (listing M) ds)) (m_handles g);
  ac_plugins : same_plugins g (fold_left register (concat (map (entry_point M) (m_handles g))) manager0) }.
Lemma restricted_app {A} (P : A -> Prop) l1 k1 l2 k2 : restricted P l1 k1 -> restricted P l2 k2 -> restricted P (l1 ++ l2) (k1 ++ k2).
Proof. induction 1; intros; simpl; [assumption|constructor; auto|apply restricted_out; auto]. Qed.
Definition step M (a : manager * bool) p := if is_library p then let '(g', b) := loadPlugin M (fst a) p in (g', (snd a || b)%bool) else a.
Lemma step_ok M ps : forall g b, exists g' b' k, fold_left (step M) ps (g, b) = (g', b') /\ m_searched g' = m_searched g /\
  m_handles g' = m_handles g ++ k /\ restricted (loadable M) ps k /\
  same_plugins g' (fold_left register (concat (map (entry_point M) k)) g) /\ (b' = true <-> b = true \/ k <> []).
Proof.
  induction ps as [|p ps IH]; intros g b; cbn [fold_left].
  - exists g, b, []. split; [reflexivity|]. split; [reflexivity|]. split; [rewrite app_nil_r; reflexivity|]. split; [constructor|]. split; [repeat split|tauto].
  - unfold step at 2. destruct (is_library p) eqn:El.
    + unfold loadPlugin. cbn [fst snd]. destruct (lib M p) as [xs|] eqn:Ex; cbn [fst snd].
      * set (g1 := fold_left register xs g) in *. destruct (registers_searched xs g) as [R1 R2].
        destruct (IH (Manager (m_exporters g1) (m_importers g1) (m_definitions g1) (m_handles g1 ++ [p]) (m_searched g1)) (b || true)%bool) as (g' & b' & k & E & S1 & S2 & S3 & S4 & S5).
        exists g', b', (p :: k). split; [exact E|]. split; [rewrite S1; exact R1|]. split; [rewrite S2; cbn [m_handles]; unfold g1; rewrite R2, <- app_assoc; reflexivity|].
        split; [constructor; [split; [assumption|rewrite Ex; discriminate]|assumption]|]. split.
        -- cbn [map concat]. unfold entry_point at 1. rewrite Ex, fold_left_app. destruct S4 as (A & B & C).
           assert (Q := @registers_same (concat (map (entry_point M) k)) (Manager (m_exporters g1) (m_importers g1) (m_definitions g1) (m_handles g1 ++ [p]) (m_searched g1)) g1 (conj eq_refl (conj eq_refl eq_refl))).
           destruct Q as (A' & B' & C'). repeat split; [rewrite A|rewrite B|rewrite C]; assumption.
        -- rewrite S5, orb_true_r. split; intros _; [right; discriminate|left; reflexivity].
      * destruct (IH g (b || false)%bool) as (g' & b' & k & E & S1 & S2 & S3 & S4 & S5). exists g', b', k.
        split; [exact E|]. split; [assumption|]. split; [assumption|]. split; [apply restricted_out; [intros [_ X]; contradiction|assumption]|]. split; [assumption|]. rewrite orb_false_r in S5. exact S5.
    + destruct (IH g b) as (g' & b' & k & E & S1 & S2 & S3 & S4 & S5). exists g', b', k. split; [exact E|]. split; [assumption|]. split; [assumption|].
      split; [apply restricted_out; [intros [X _]; congruence|assumption]|]. split; assumption.
Qed.
Lemma directory_ok M g ds d : accounts M g ds -> exists g', accounts M g' (ds ++ [d]) /\
  ((dir M d = None /\ loadPluginFromDirectory M g d = (g', Throw ERuntime)) \/
   (exists b, dir M d <> None /\ loadPluginFromDirectory M g d = (g', Ok b) /\ (b = true <-> exists p, In p (listing M d) /\ loadable M p))).
Proof.
  intros [A B C]. unfold loadPluginFromDirectory. destruct (dir M d) as [ps|] eqn:Ed.
  - destruct (step_ok M ps (Manager (m_exporters g) (m_importers g) (m_definitions g) (m_handles g) (m_searched g ++ [d])) false) as (g' & b' & k & E & S1 & S2 & S3 & S4 & S5).
    fold (step M). rewrite E. exists g'. split; [split|].
    + rewrite S1. cbn. rewrite A. reflexivity.
    + rewrite S2, map_app, concat_app. cbn [m_handles map concat]. rewrite app_nil_r. apply restricted_app; [assumption|]. unfold listing. rewrite Ed. assumption.
    + rewrite S2. cbn [m_handles]. rewrite map_app, concat_app, fold_left_app. set (h := fold_left register (concat (map (entry_point M) (m_handles g))) manager0) in *.
      assert (Q := @registers_same (concat (map (entry_point M) k)) (Manager (m_exporters g) (m_importers g) (m_definitions g) (m_handles g) (m_searched g ++ [d])) h).
      destruct Q as (A' & B' & C'); [destruct C as (X & Y & Z); repeat split; assumption|]. destruct S4 as (X & Y & Z). repeat split; congruence.
    + right. exists b'. split; [discriminate|]. split; [reflexivity|]. unfold listing. rewrite Ed, S5. clear - S3. split.
      * intros [X|X]; [discriminate|]. destruct k as [|p k]; [contradiction|]. clear X. remember (p :: k) as q. revert p k Heqq. induction S3; intros p' k' E; [discriminate| |].
        -- inversion E; subst. exists p'. split; [left; reflexivity|assumption].
        -- destruct (IHS3 _ _ E) as (z & I & L). exists z. split; [right; assumption|assumption].
      * intros (p & I & L). right. induction S3; [destruct I|discriminate|]. destruct I as [->|I]; [contradiction|auto].
  - exists (Manager (m_exporters g) (m_importers g) (m_definitions g) (m_handles g) (m_searched g ++ [d])). split; [split|left; split; reflexivity].
    + cbn. rewrite A. reflexivity.
    + cbn [m_handles]. rewrite map_app, concat_app. cbn [map concat]. unfold listing at 2. rewrite Ed. simpl. rewrite app_nil_r. assumption.
    + cbn [m_handles]. exact C.
Qed.
Lemma skipn_pre (a b : str) (c : ascii) : skipn (length a + 1) (a ++ c :: b) = b.
Proof. rewrite Nat.add_1_r. induction a as [|x a IH]; [reflexivity|]. exact IH. Qed.
Lemma firstn_pre (a b : str) : firstn (length a) (a ++ b) = a.
Proof. induction a as [|x a IH]; simpl; [reflexivity|]. f_equal. exact IH. Qed.
Lemma loop_ok M l : forall f g ds a, Forall (fun d => ~ In ":"%char d) (a :: l) -> length (a :: l) <= f -> accounts M g ds ->
  exists g' out k, path_loop f M g (join (a :: l) ++ s_ ":") (length a) = (g', out) /\ accounts M g' (ds ++ k) /\
    ((out = Ok tt /\ k = a :: l /\ Forall (fun d => dir M d <> None) (a :: l)) \/
     (out = Throw ERuntime /\ exists d u v, a :: l = u ++ d :: v /\ k = u ++ [d] /\ dir M d = None /\ Forall (fun d => dir M d <> None) u)).
Proof.
  induction l as [|b l IH]; intros f g ds a Hc Hf Hg; (destruct f as [|f]; [simpl in Hf; lia|]); cbn [path_loop].
  - cbn [join]. change (s_ ":") with [":"%char]. rewrite firstn_pre. destruct (directory_ok a Hg) as (g' & Hg' & [(Hd & E)|(x & Hd & E & _)]); rewrite E.
    + exists g', (Throw ERuntime), [a]. split; [reflexivity|]. split; [assumption|]. right. split; [reflexivity|]. exists a, [], []. repeat split; auto.
    + rewrite skipn_pre. cbn [find_colon]. exists g', (Ok tt), [a]. split; [reflexivity|]. split; [assumption|]. left. repeat split; auto.
  - rewrite join_cons, <- app_assoc. cbn [app]. rewrite firstn_pre. destruct (directory_ok a Hg) as (g' & Hg' & [(Hd & E)|(x & Hd & E & _)]); rewrite E.
    + exists g', (Throw ERuntime), [a]. split; [reflexivity|]. split; [assumption|]. right. split; [reflexivity|]. exists a, [], (b :: l). repeat split; auto.
    + rewrite skipn_pre. inversion Hc as [|? ? Ha Hc']; subst. assert (Eb : find_colon (join (b :: l) ++ s_ ":") = Some (length b)).
      { inversion Hc' as [|? ? Hb _]; subst. destruct l as [|c l]; [|rewrite join_cons, <- app_assoc; cbn [app]]; apply find_colon_app; assumption. }
      match goal with |- context [find_colon ?x] => change (find_colon x) with (find_colon (join (b :: l) ++ s_ ":")) end. rewrite Eb. destruct (IH f g' (ds ++ [a]) b) as (g2 & out & k & E2 & Hg2 & Ho); [assumption|simpl in *; lia|assumption|]. exists g2, out, (a :: k). split; [exact E2|].
      split; [rewrite <- app_assoc in Hg2; exact Hg2|]. destruct Ho as [(-> & -> & Hl)|(-> & d & u & v & E3 & -> & Hn & Hu)].
      * left. repeat split; auto.
      * right. split; [reflexivity|]. exists d, (a :: u), v. rewrite E3. repeat split; auto.
Qed.
Lemma accounts0 M : accounts M manager0 [].
Proof. split; [reflexivity|constructor|repeat split]. Qed.
Lemma construct_env M s h l : components s l -> exists g out k, construct M (Some s) h = (g, out) /\ accounts M g k /\
    ((out = Ok tt /\ k = l /\ Forall (fun d => dir M d <> None) l) \/
     (out = Throw ERuntime /\ exists d u v, l = u ++ d :: v /\ k = u ++ [d] /\ dir M d = None /\ Forall (fun d => dir M d <> None) u)).
Proof.
  intros (Hn & <- & Hc). unfold construct. rewrite always_appended. destruct l as [|a l]; [contradiction|].
  assert (Eb : find_colon (join (a :: l) ++ s_ ":") = Some (length a)).
  { inversion Hc as [|? ? Hb _]; subst. destruct l as [|c l]; [|rewrite join_cons, <- app_assoc; cbn [app]]; apply find_colon_app; assumption. }
  match goal with |- context [find_colon ?x] => change (find_colon x) with (find_colon (join (a :: l) ++ s_ ":")) end. rewrite Eb. destruct (@loop_ok M l (S (length (join (a :: l) ++ s_ ":"))) manager0 [] a Hc) as (g & out & k & E & Hg & Ho); [|apply accounts0|exists g, out, k; auto].
  rewrite app_length. simpl length at 3. clear. revert a. induction l as [|b l IH]; intros a; [simpl; lia|]. rewrite join_cons, app_length. simpl length at 3. specialize (IH b). simpl length in *. lia.
Qed.
Lemma construct_default M h : exists g out k, construct M None h = (g, out) /\ accounts M g k /\
  ((has_path M h = false /\ k = [] /\ out = Ok tt) \/ (has_path M h = true /\ k = [h] /\ ((dir M h = None /\ out = Throw ERuntime) \/ (dir M h <> None /\ out = Ok tt)))).
Proof.
  unfold construct. destruct (has_path M h).
  - destruct (directory_ok h (accounts0 M)) as (g & Hg & [(Hd & E)|(x & Hd & E & _)]); rewrite E.
    + exists g, (Throw ERuntime), [h]. split; [reflexivity|]. split; [assumption|]. right. auto.
    + exists g, (Ok tt), [h]. split; [reflexivity|]. split; [assumption|]. right. auto.
  - exists manager0, (Ok tt), []. split; [reflexivity|]. split; [apply accounts0|left; auto].
Qed.

(** The libraries are the files named *.so or *.dylib. *)
Lemma from_dot_app s : forall best x, (forall c r, s = c :: r -> True) -> ~ In "."%char s -> from_dot best (x ++ "."%char :: s) = "."%char :: s.
Proof.
  intros best x _ Hs. revert best. induction x as [|c x IH]; intros best; cbn [app from_dot].
  - change (ceqb "." ".") with true. cbn iota. assert (A : forall best, from_dot best s = best); [|apply A].
    clear best. induction s as [|c s IH]; intros best; [reflexivity|]. cbn [from_dot]. unfold ceqb. destruct (Ascii.eqb_spec c ".") as [->|N]; [exfalso; apply Hs; left; reflexivity|]. apply IH. intros I. apply Hs. right. assumption.
  - apply IH.
Qed.
Lemma from_dot_suffix s : forall best, from_dot best s = best \/ exists x y, s = x ++ from_dot best s /\ y = x.
Proof.
  induction s as [|c s IH]; intros best; cbn [from_dot]; [left; reflexivity|]. destruct (ceqb c ".").
  - destruct (IH (c :: s)) as [E|(x & _ & E & _)]; [right; exists [], []; rewrite E; split; reflexivity|right; exists (c :: x), (c :: x); split; [rewrite E at 1; reflexivity|reflexivity]].
  - destruct (IH best) as [E|(x & _ & E & _)]; [left; assumption|right; exists (c :: x), (c :: x); split; [rewrite E at 1; reflexivity|reflexivity]].
Qed.
Lemma after_slash_suffix s : forall acc, exists x, rev acc ++ s = x ++ after_slash acc s.
Proof.
  induction s as [|c s IH]; intros acc; cbn [after_slash]; [exists []; rewrite app_nil_r; reflexivity|]. destruct (ceqb c "/").
  - destruct (IH []) as (x & E). simpl in E. exists (rev acc ++ c :: x). rewrite E at 1. rewrite <- app_assoc. reflexivity.
  - destruct (IH (c :: acc)) as (x & E). simpl in E. exists x. rewrite <- app_assoc in E. exact E.
Qed.
Lemma after_slash_app t a : forall acc, ~ In "/"%char t -> exists b, after_slash acc (a ++ t) = b ++ t.
Proof.
  intros acc Ht. revert acc. induction a as [|c a IH]; intros acc.
  - exists (rev acc). revert acc. cbn [app]. induction t as [|c t IHt]; intros acc; [simpl; rewrite app_nil_r; reflexivity|]. cbn [after_slash]. unfold ceqb.
    destruct (Ascii.eqb_spec c "/") as [->|N]; [exfalso; apply Ht; left; reflexivity|]. rewrite IHt by (intros I; apply Ht; right; assumption). simpl. rewrite <- app_assoc. reflexivity.
  - cbn [app after_slash]. destruct (ceqb c "/"); apply IH.
Qed.
Lemma is_library_iff p : is_library p = true <-> named_library p.
Proof.
  unfold is_library, extension. rewrite orb_true_iff. assert (SE : forall a b, seqb a b = true <-> a = b) by (intros; split; [apply seqb_eq|intros ->; apply seqb_refl]). rewrite !SE. clear SE. split.
  - assert (Q : forall e, e <> [] -> from_dot [] (after_slash [] p) = e -> exists a, p = a ++ e).
    { intros e He E. destruct (after_slash_suffix p []) as (x & Ex). simpl in Ex. destruct (from_dot_suffix (after_slash [] p) []) as [X|(y & _ & Y & _)]; [congruence|].
      rewrite E in Y. exists (x ++ y). rewrite Ex at 1. rewrite Y at 1. rewrite app_assoc. reflexivity. }
    intros [E|E]; apply Q in E; try discriminate; destruct E as (a & ->); exists a; auto.
  - intros (a & [->| ->]); [left|right].
    + destruct (@after_slash_app (s_ ".so") a []) as (b & ->); [cbn; intuition discriminate|]. apply (@from_dot_app (s_ "so")); [auto|cbn; intuition discriminate].
    + destruct (@after_slash_app (s_ ".dylib") a []) as (b & ->); [cbn; intuition discriminate|]. apply (@from_dot_app (s_ "dylib")); [auto|cbn; intuition discriminate].
Qed.
Lemma restricted_iff {A} (P Q : A -> Prop) l k : (forall x, P x <-> Q x) -> restricted P l k -> restricted Q l k.
Proof. intros H. induction 1; [constructor|constructor; [apply H|]; assumption|apply restricted_out; [rewrite <- H|]; assumption]. Qed.

(** Lookups: the maps keep the first plugin of each name. *)
Record tables (g : manager) (xs : list registration) : Prop := {
  tb_se : sorted (m_exporters g); tb_si : sorted (m_importers g);
  tb_e : forall n o, m_find n (m_exporters g) = Some o <-> first_under RegExporter xs n o;
  tb_i : forall n o, m_find n (m_importers g) = Some o <-> first_under RegImporter xs n o;
  tb_en : forall n, m_find n (m_exporters g) = None <-> none_under RegExporter xs n;
  tb_in : forall n, m_find n (m_importers g) = None <-> none_under RegImporter xs n;
  tb_acc : exists ys, accepted xs ys /\ Permutation (destroy g) (map object ys) /\ m_definitions g = map object (filter (fun x => match x with RegDefinition _ => true | _ => false end) xs) }.
Lemma first_none reg xs n o : (forall a b c d, reg a b = reg c d -> a = c /\ b = d) -> first_under reg xs n o -> ~ none_under reg xs n.
Proof. intros _ (a & b & -> & _) H. apply (H o). apply in_elt. Qed.
Lemma none_app reg xs n x : none_under reg (xs ++ [x]) n <-> none_under reg xs n /\ forall o, x <> reg n o.
Proof.
  unfold none_under. split.
  - intros H. split; [intros o I; apply (H o), in_or_app; left; assumption|intros o ->; apply (H o), in_or_app; right; left; reflexivity].
  - intros [H Hx] o I. apply in_app_or in I. destruct I as [I|[E|[]]]; [apply (H o); assumption|apply (Hx o); assumption].
Qed.
Lemma first_app reg xs n o x : (forall a b c d, reg a b = reg c d -> a = c /\ b = d) ->
  first_under reg (xs ++ [x]) n o <-> first_under reg xs n o \/ (none_under reg xs n /\ x = reg n o).
Proof.
  intros Inj. unfold first_under, none_under. split.
  - intros (a & b & E & H). destruct (@exists_last _ (reg n o :: b)) as (c & z & Ez); [discriminate|]. rewrite Ez, app_assoc in E. apply app_inj_tail in E. destruct E as [-> ->].
    destruct c as [|w c]; simpl in Ez; inversion Ez; subst.
    + right. rewrite app_nil_r. split; [assumption|reflexivity].
    + left. exists a, c. split; [reflexivity|assumption].
  - intros [(a & b & -> & H)|[H ->]]; [exists a, (b ++ [x]); rewrite <- app_assoc; split; [reflexivity|assumption]|exists xs, []; split; [reflexivity|assumption]].
Qed.
Lemma m_insert_perm {A} n (v : A) m : m_find n m = None -> Permutation (map snd (m_insert n v m)) (v :: map snd m).
Proof.
  induction m as [|[k x] m IH]; intros Hf; [apply Permutation_refl|]. cbn [m_insert m_find] in *. destruct (seqb k n) eqn:Ek; [discriminate|].
  destruct (slt k n) eqn:E1; cbn [map snd]; [etransitivity; [apply perm_skip, IH; assumption|apply perm_swap]|]. destruct (slt n k) eqn:En; [apply Permutation_refl|].
  exfalso. rewrite (slt_total E1 En), seqb_refl in Ek. discriminate.
Qed.
Lemma exp_inj a b c d : RegExporter a b = RegExporter c d -> a = c /\ b = d.
Proof. intros E; inversion E; auto. Qed.
Lemma imp_inj a b c d : RegImporter a b = RegImporter c d -> a = c /\ b = d.
Proof. intros E; inversion E; auto. Qed.
Lemma not_none_in reg xs n : (forall x, {exists o, x = reg n o} + {forall o, x <> reg n o}) -> ~ none_under reg xs n -> exists o, In (reg n o) xs.
Proof.
  intros D. induction xs as [|x xs IH]; intros H; [exfalso; apply H; intros o []|]. destruct (D x) as [(o & ->)|Hx]; [exists o; left; reflexivity|].
  destruct IH as (o & I); [|exists o; right; assumption]. intros N. apply H. intros o [E|I]; [apply (Hx o); assumption|apply (N o); assumption].
Qed.
Lemma dec_exp n x : {exists o, x = RegExporter n o} + {forall o, x <> RegExporter n o}.
Proof. destruct x as [m o|m o|o]; try (right; intros; discriminate). destruct (list_eq_dec Ascii.ascii_dec m n) as [->|N]; [left; eauto|right; intros o' E; inversion E; contradiction]. Qed.
Lemma dec_imp n x : {exists o, x = RegImporter n o} + {forall o, x <> RegImporter n o}.
Proof. destruct x as [m o|m o|o]; try (right; intros; discriminate). destruct (list_eq_dec Ascii.ascii_dec m n) as [->|N]; [left; eauto|right; intros o' E; inversion E; contradiction]. Qed.
(** One registration in a table, seen through the table's own kind. *)
Lemma table_add (reg : str -> nat -> registration) m xs n o :
  (forall a b c d, reg a b = reg c d -> a = c /\ b = d) -> sorted m ->
  (forall n o, m_find n m = Some o <-> first_under reg xs n o) -> (forall n, m_find n m = None <-> none_under reg xs n) ->
  let m' := fst (add_plugin m n o) in
  sorted m' /\ (forall k p, m_find k m' = Some p <-> first_under reg (xs ++ [reg n o]) k p) /\ (forall k, m_find k m' = None <-> none_under reg (xs ++ [reg n o]) k).
Proof.
  intros Inj Hs He Hn. unfold add_plugin. destruct (m_find n m) as [q|] eqn:E; cbn [fst].
  - assert (Q : ~ none_under reg xs n) by (rewrite <- Hn, E; discriminate). split; [assumption|]. split; intros k.
    + intros p. rewrite first_app by assumption. rewrite He. split; [auto|]. intros [A|[A B]]; [assumption|]. apply Inj in B. destruct B as [-> ->]. contradiction.
    + rewrite none_app, Hn. split; [|tauto]. intros A. split; [assumption|]. intros o' B. apply Inj in B. destruct B as [<- _]. contradiction.
  - split; [apply m_insert_sorted; assumption|]. split; intros k.
    + intros p. rewrite first_app by assumption. rewrite m_find_insert by assumption. destruct (seqb n k) eqn:Ek.
      * apply seqb_eq in Ek. subst k. rewrite E. split; [intros X; inversion X; subst; right; split; [apply Hn, E|reflexivity]|]. intros [A|[A B]]; [apply He in A; congruence|apply Inj in B; destruct B as [_ ->]; reflexivity].
      * rewrite He. split; [auto|]. intros [A|[A B]]; [assumption|]. apply Inj in B. destruct B as [<- _]. rewrite seqb_refl in Ek. discriminate.
    + rewrite none_app, m_find_insert by assumption. destruct (seqb n k) eqn:Ek.
      * apply seqb_eq in Ek. subst k. rewrite E. split; [discriminate|]. intros [_ B]. exfalso. apply (B o). reflexivity.
      * rewrite Hn. split; [|tauto]. intros A. split; [assumption|]. intros o' B. apply Inj in B. destruct B as [<- _]. rewrite seqb_refl in Ek. discriminate.
Qed.
Lemma table_other (reg : str -> nat -> registration) m xs x :
  (forall a b c d, reg a b = reg c d -> a = c /\ b = d) -> (forall n o, x <> reg n o) ->
  (forall n o, m_find n m = Some o <-> first_under reg xs n o) -> (forall n, m_find n m = None <-> none_under reg xs n) ->
  (forall k p, m_find k m = Some p <-> first_under reg (xs ++ [x]) k p) /\ (forall k, m_find k m = None <-> none_under reg (xs ++ [x]) k).
Proof.
  intros Inj Hx He Hn. split; [intros k p; rewrite first_app, He by assumption; split; [auto|intros [A|[_ B]]; [assumption|exfalso; apply (Hx k p); assumption]]|].
  intros k. rewrite none_app, Hn. split; [intros A; split; [assumption|apply Hx]|tauto].
Qed.
Lemma tables0 : tables manager0 [].
Proof.
  split; try (constructor; fail); try (intros n; split; [intros _ o []|reflexivity]).
  - intros n o. split; [discriminate|intros (a & b & E & _); destruct a; discriminate].
  - intros n o. split; [discriminate|intros (a & b & E & _); destruct a; discriminate].
  - exists []. split; [constructor|]. split; [apply Permutation_refl|reflexivity].
Qed.
Lemma tables_step g xs x : tables g xs -> tables (register g x) (xs ++ [x]).
Proof.
  intros [Se Si He Hi Hen Hin (ys & Ha & Hp & Hd)]. destruct x as [n o|n o|o]; cbn [register]; unfold add_exporter, add_importer, add_definition.
  - destruct (table_add n o exp_inj Se He Hen) as (Se' & He' & Hen'). destruct (table_other (x := RegExporter n o) imp_inj ltac:(discriminate) Hi Hin) as (Hi' & Hin').
    destruct (add_plugin (m_exporters g) n o) as [m b] eqn:E. cbn [fst] in *. split; cbn [m_exporters m_importers m_definitions]; try assumption.
    unfold add_plugin in E. destruct (m_find n (m_exporters g)) as [q|] eqn:Eq; inversion E; subst.
    + exists ys. split.
      * destruct (@not_none_in RegExporter xs n (dec_exp n)) as (o' & I); [rewrite <- Hen, Eq; discriminate|]. eapply refused_exp; eassumption.
      * split; [exact Hp|]. rewrite filter_app, map_app. cbn. rewrite app_nil_r. exact Hd.
    + exists (ys ++ [RegExporter n o]). split; [apply accepted_exp; [assumption|apply Hen, Eq]|]. split.
      * rewrite map_app. cbn [map object]. unfold destroy in *. cbn [m_exporters m_importers m_definitions]. rewrite <- Hp. rewrite (m_insert_perm o Eq).
        cbn [app]. rewrite <- Permutation_middle. rewrite app_assoc. rewrite <- app_assoc. rewrite <- Permutation_cons_append. reflexivity.
      * rewrite filter_app, map_app. cbn. rewrite app_nil_r. exact Hd.
  - destruct (table_add n o imp_inj Si Hi Hin) as (Si' & Hi' & Hin'). destruct (table_other (x := RegImporter n o) exp_inj ltac:(discriminate) He Hen) as (He' & Hen').
    destruct (add_plugin (m_importers g) n o) as [m b] eqn:E. cbn [fst] in *. split; cbn [m_exporters m_importers m_definitions]; try assumption.
    unfold add_plugin in E. destruct (m_find n (m_importers g)) as [q|] eqn:Eq; inversion E; subst.
    + exists ys. split.
      * destruct (@not_none_in RegImporter xs n (dec_imp n)) as (o' & I); [rewrite <- Hin, Eq; discriminate|]. eapply refused_imp; eassumption.
      * split; [exact Hp|]. rewrite filter_app, map_app. cbn. rewrite app_nil_r. exact Hd.
    + exists (ys ++ [RegImporter n o]). split; [apply accepted_imp; [assumption|apply Hin, Eq]|]. split.
      * rewrite map_app. cbn [map object]. unfold destroy in *. cbn [m_exporters m_importers m_definitions]. rewrite <- Hp. rewrite (m_insert_perm o Eq).
        cbn [app]. rewrite <- Permutation_cons_append. reflexivity.
      * rewrite filter_app, map_app. cbn. rewrite app_nil_r. exact Hd.
  - destruct (table_other (x := RegDefinition o) exp_inj ltac:(discriminate) He Hen) as (He' & Hen'). destruct (table_other (x := RegDefinition o) imp_inj ltac:(discriminate) Hi Hin) as (Hi' & Hin').
    split; cbn [m_exporters m_importers m_definitions]; try assumption. exists (ys ++ [RegDefinition o]). split; [constructor; assumption|]. split.
    + rewrite map_app. unfold destroy in *. cbn [m_exporters m_importers m_definitions map object]. rewrite <- Hp, !app_assoc. reflexivity.
    + rewrite filter_app, map_app, <- Hd. reflexivity.
Qed.
Lemma tables_fold xs : forall g ys, tables g ys -> tables (fold_left register xs g) (ys ++ xs).
Proof. induction xs as [|x xs IH]; intros g ys H; cbn [fold_left]; [rewrite app_nil_r; assumption|]. replace (ys ++ x :: xs) with ((ys ++ [x]) ++ xs) by (rewrite <- app_assoc; reflexivity). apply IH, tables_step, H. Qed.
Lemma tables_same g h xs : same_plugins g h -> tables h xs -> tables g xs.
Proof. intros (A & B & C) [H1 H2 H3 H4 H5 H6 H7]. split; try rewrite A; try rewrite B; try assumption. unfold destroy. rewrite A, B, C. exact H7. Qed.
Lemma accounts_tables M g ds : accounts M g ds -> tables g (concat (map (entry_point M) (m_handles g))).
Proof. intros [_ _ C]. eapply tables_same; [exact C|]. apply (@tables_fold _ manager0 [] tables0). Qed.
