(** * TlbDoc: the nodes of the exporter show the types (C30). *)
From Verif Require Import Base Types NamesSpec Names NamesProofs Graph GraphProofs Registry RegistryOps RegistryProofs World Exporter Smap TypeObj CsvSpec Csv CsvProofs Xml Tlb TlbSpec XmlProofs TlbText.
From Verif Require Import Graph.
Local Open Scope nat_scope.

Definition teq (a b : str) : bool := if list_eq_dec ascii_dec a b then true else false.
Lemma filter_app_ A (f : A -> bool) a b : filter f (a ++ b) = filter f a ++ filter f b.
Proof. induction a as [|x a IH]; cbn; [reflexivity|]. rewrite IH. destruct (f x); reflexivity. Qed.
Lemma tagged_ws t s : filter (tagged t) (ws s) = [].
Proof. induction s; [reflexivity|assumption]. Qed.
Lemma filter_concat A B (f : B -> bool) (g : A -> list B) l : filter f (concat (map g l)) = concat (map (fun x => filter f (g x)) l).
Proof. induction l as [|x l IH]; [reflexivity|]. cbn. rewrite filter_app_, IH. reflexivity. Qed.
Lemma tagged_meta t m : t <> s_ "metadata" -> filter (tagged t) (meta_nodes m) = [].
Proof.
  intros Ht. unfold meta_nodes. rewrite filter_concat. assert (X : tagged t (XElem (s_ "metadata") [] []) = false) by (unfold tagged; destruct (list_eq_dec ascii_dec (s_ "metadata") t); [congruence|reflexivity]).
  induction m as [|[k vs] m IH]; [reflexivity|]. cbn [map concat]. rewrite IH, app_nil_r. unfold key_nodes. cbn [fst snd]. destruct vs as [|v vs]; [unfold tagged in *; cbn [filter]; rewrite X; reflexivity|].
  rewrite filter_concat. clear IH. induction (v :: vs) as [|w l IH]; [reflexivity|]. cbn [map concat]. rewrite IH, app_nil_r, filter_app_, tagged_ws, app_nil_r. unfold value_node, tagged in *. cbn [filter]. rewrite X. reflexivity.
Qed.
Definition line_node (l : str * list str) : xnode := XElem (s_ "metadata") [(s_ "key", fst l)] (map XCdata (snd l)).
Lemma meta_filter m : filter (tagged (s_ "metadata")) (meta_nodes m) = map line_node (meta_lines m).
Proof.
  unfold meta_nodes, meta_lines. rewrite filter_concat. induction m as [|[k vs] m IH]; [reflexivity|]. cbn [map concat flat_map]. rewrite IH, map_app. f_equal. unfold key_nodes. cbn [fst snd]. destruct vs as [|v vs]; [reflexivity|].
  rewrite filter_concat. clear IH. change ((k, [v]) :: map (fun v0 : str => (k, [v0])) vs) with (map (fun v0 : str => (k, [v0])) (v :: vs)).
  induction (v :: vs) as [|w l IH]; [reflexivity|]. cbn [map concat]. rewrite IH, filter_app_, tagged_ws, app_nil_r. reflexivity.
Qed.
Lemma nodup1 (a : str) : NoDup [a].
Proof. repeat constructor. intros []. Qed.
Lemma shows_meta_nodes m x : inside (s_ "metadata") x = filter (tagged (s_ "metadata")) (meta_nodes m) -> shows_meta m x.
Proof.
  intros E. unfold shows_meta. rewrite E, meta_filter. induction (meta_lines m) as [|[k vs] l IH]; [constructor|]. cbn [map]. constructor; [|exact IH].
  unfold line_node, attr. cbn [fst snd map]. split; [split; [left; reflexivity|apply nodup1]|]. unfold cdata_of. clear. induction vs as [|v vs IH]; [reflexivity|]. cbn. f_equal. exact IH.
Qed.
Lemma inside_body t tag a kids m : inside t (XElem tag a (body kids m)) = filter (tagged t) kids ++ filter (tagged t) (meta_nodes m).
Proof. unfold inside, body. rewrite !filter_app_, !tagged_ws, !app_nil_r. reflexivity. Qed.
Lemma filter_fields t H fs : forall m, t <> s_ "field" -> filter (tagged t) (field_nodes H fs m) = [].
Proof.
  intros m Ht. revert m. induction fs as [|f fs IH]; intros m; [reflexivity|]. cbn [field_nodes]. rewrite !filter_app_, !tagged_ws, IH, app_nil_r. cbn [app filter]. unfold tagged, field_node. destruct (list_eq_dec ascii_dec (s_ "field") t); [congruence|reflexivity].
Qed.
Fixpoint field_list (H : heap) (fs : list fld) (m : nat -> meta) : list xnode :=
  match fs with [] => [] | f :: r => field_node H f (m 0) :: field_list H r (fun i => m (S i)) end.
Lemma filter_fields_eq H fs : forall m, filter (tagged (s_ "field")) (field_nodes H fs m) = field_list H fs m.
Proof. induction fs as [|f fs IH]; intros m; [reflexivity|]. cbn [field_nodes field_list]. rewrite !filter_app_, !tagged_ws, IH. reflexivity. Qed.
Lemma field_list_length H fs : forall m, length (field_list H fs m) = length fs.
Proof. induction fs as [|f fs IH]; intros m; [reflexivity|]. cbn. rewrite IH. reflexivity. Qed.
Lemma field_list_nth H fs : forall m i f, nth_error fs i = Some f -> nth_error (field_list H fs m) i = Some (field_node H f (m i)).
Proof. induction fs as [|g fs IH]; intros m i f E; [destruct i; discriminate|]. destruct i; cbn in *; [injection E as ->; reflexivity|]. apply (IH (fun i => m (S i))). exact E. Qed.
Lemma value_filter t vs : t <> s_ "value" -> filter (tagged t) (value_nodes vs) = [].
Proof.
  intros Ht. unfold value_nodes. rewrite filter_concat. induction vs as [|v vs IH]; [reflexivity|]. cbn [map concat]. rewrite IH, app_nil_r, !filter_app_, !tagged_ws, app_nil_r. cbn [app filter]. unfold tagged. destruct (list_eq_dec ascii_dec (s_ "value") t); [congruence|reflexivity].
Qed.
Lemma value_filter_eq vs : filter (tagged (s_ "value")) (value_nodes vs) = map (fun p => XElem (s_ "value") [(s_ "symbol", fst p); (s_ "value", decZ (snd p))] []) vs.
Proof. unfold value_nodes. rewrite filter_concat. induction vs as [|v vs IH]; [reflexivity|]. cbn [map concat]. rewrite IH, !filter_app_, !tagged_ws, app_nil_r. reflexivity. Qed.
Lemma dec_shown n : decimal (dec n) n.
Proof. apply decN_decimal. Qed.
Ltac nodupk := repeat constructor; let X := fresh in intros X; cbn [map fst app In] in X; repeat (destruct X as [X|X]; [discriminate X|]); exact X.
Lemma src_nodup (l : list (str * str)) src : NoDup (map fst (l ++ [(s_ "source_id", src)])) -> NoDup (map fst (l ++ src_attr src)).
Proof. destruct src; [|auto]. rewrite app_nil_r, map_app. intros Hn. apply NoDup_remove_1 in Hn. rewrite app_nil_r in Hn. exact Hn. Qed.
Lemma attr_in tag a k n v : NoDup (map fst a) -> In (n, v) a -> attr (XElem tag a k) n v.
Proof. split; assumption. Qed.
Lemma shows_size_in tag a k n : NoDup (map fst a) -> In (s_ "size", dec n) a -> shows_size n (XElem tag a k).
Proof. intros Hn Hi. exists (dec n). split; [apply attr_in; assumption|apply dec_shown]. Qed.
Ltac inl := apply in_or_app; left; cbn [In]; tauto.
Lemma type_shown H md t src : let x := type_node H md t src in
  attr x (s_ "name") (o_name (H t)) /\ (src <> [] -> attr x (s_ "source_id") src) /\ shows_kind H md t x /\ shows_meta (m_type md t) x.
Proof.
  cbv zeta. assert (S0 : src <> [] -> forall l : list (str * str), In (s_ "source_id", src) (l ++ src_attr src)) by (intros Hs l; apply in_or_app; right; destruct src; [contradiction|left; reflexivity]).
  assert (Mt : forall tag a kids, filter (tagged (s_ "metadata")) kids = [] -> shows_meta (m_type md t) (XElem tag a (body kids (m_type md t)))).
  { intros tag a kids E. apply shows_meta_nodes. rewrite inside_body, E. reflexivity. }
  assert (Nm : forall n, n <> s_ "metadata" -> forall tag a kids, inside n (XElem tag a (body kids (m_type md t))) = filter (tagged n) kids).
  { intros n Hn tag a kids. rewrite inside_body, tagged_meta by assumption. apply app_nil_r. }
  unfold type_node, shows_kind. destruct (o_kind (H t)) as [| |c|vs|x|d x|k x|fs].
  all: match goal with |- attr (XElem ?tag (?l ++ src_attr ?src) ?b) _ _ /\ _ => assert (Nd : NoDup (map fst (l ++ src_attr src))) by (apply src_nodup; nodupk) end.
  all: split; [apply attr_in; [exact Nd|inl]|]; (split; [intros Hs; apply attr_in; [exact Nd|apply S0, Hs]|]).
  - split; [reflexivity|apply Mt; reflexivity].
  - split; [split; [reflexivity|apply shows_size_in; [exact Nd|inl]]|apply Mt; reflexivity].
  - split; [split; [reflexivity|split; [apply shows_size_in; [exact Nd|inl]|apply attr_in; [exact Nd|destruct c; inl]]]|apply Mt; reflexivity].
  - split; [split; [reflexivity|]|apply Mt; apply value_filter; discriminate]. rewrite Nm by discriminate. rewrite value_filter_eq. clear. induction vs as [|v vs IH]; [constructor|]. cbn [map]. constructor; [|exact IH].
    split; [apply attr_in; [nodupk|cbn; tauto]|]. exists (decZ (snd v)). split; [apply attr_in; [nodupk|cbn; tauto]|apply decZ_decimal].
  - split; [split; [reflexivity|apply attr_in; [exact Nd|inl]]|apply Mt; reflexivity].
  - split; [split; [reflexivity|split; [apply attr_in; [exact Nd|inl]|]]|apply Mt; reflexivity]. exists (dec d). split; [apply attr_in; [exact Nd|inl]|apply dec_shown].
  - split; [split; [reflexivity|split; [apply attr_in; [exact Nd|inl]|split; [apply shows_size_in; [exact Nd|inl]|apply attr_in; [exact Nd|destruct k; inl]]]]|apply Mt; reflexivity].
  - split; [|apply Mt; apply filter_fields; discriminate]. split; [reflexivity|]. split; [apply shows_size_in; [exact Nd|inl]|]. rewrite Nm by discriminate. rewrite filter_fields_eq. split; [apply field_list_length|].
    intros i f E. exists (field_node H f (m_field md t i)). split; [apply field_list_nth; exact E|]. unfold field_node. split; [apply attr_in; [nodupk|cbn; tauto]|]. split; [apply attr_in; [nodupk|cbn; tauto]|].
    split; [exists (dec (f_off f)); split; [apply attr_in; [nodupk|cbn; tauto]|apply dec_shown]|]. apply shows_meta_nodes. unfold inside. rewrite !filter_app_, !tagged_ws. cbn [app]. rewrite app_nil_r. reflexivity.
Qed.
Lemma entry_shown H md p : shows H md p (entry_node H md p).
Proof.
  unfold shows, entry_node, isAlias. destruct (list_eq_dec ascii_dec (o_name (H (e_type (snd p)))) (fst p)) as [E|E].
  - rewrite E, seqb_refl. cbn [negb]. rewrite <- E. apply type_shown.
  - replace (negb (seqb (fst p) (o_name (H (e_type (snd p)))))) with true by (symmetry; apply negb_true_iff, seqb_neq; auto). split; [reflexivity|]. split; (apply attr_in; [nodupk|cbn; tauto]).
Qed.
