(** * FromRubyProofs: what from_ruby accepts, and what the values hold then. *)
From Coq Require Import Lia ZArith.
From Verif Require Import Base Types WellFormed Layout ValueOps Visitor Csv CsvProofs InitProofs ValueSpec ValueAtoms ValueInst EltOps CmpProofs ValueMain Properties_Value
  RubyConvSpec RubyConv RubyConvProofs Properties_Ruby SimpleSpec SimpleProofs Vector VectorSpec Properties_Vector FromRubySpec FromRuby.
Local Open Scope N_scope.

Lemma oct_is8 bs : Forall is8 bs -> Forall oct bs.
Proof. intros H. exact H. Qed.
Lemma ruby_arr l : ruby_ok (SArr l) <-> lenN l <= max_size /\ Forall ruby_ok l.
Proof. cbn [ruby_ok]. apply and_iff_compat_l. induction l as [|x r IH]; [split; [constructor|trivial]|]. rewrite IH. split; [intros [A C]; constructor; assumption|intros H; inversion H; auto]. Qed.
Lemma ruby_hash l : ruby_ok (SHash l) <-> Forall (fun kv => ruby_ok (snd kv)) l.
Proof. cbn [ruby_ok]. induction l as [|[k x] r IH]; [split; [constructor|trivial]|]. rewrite IH. split; [intros [A C]; constructor; assumption|intros H; inversion H; auto]. Qed.
Lemma showable_plain : (forall t, wf t -> showable t -> plain t) /\ (forall fs, (exists cur s, wf_fields fs cur s) -> showable_fields fs -> supported_fields false fs = true).
Proof.
  unfold plain. apply ty_fields_ind; try (intros; cbn [showable supported] in *; tauto).
  - intros s d e IH W H. cbn [showable supported wf] in *. tauto.
  - intros k s e IH W H. cbn [showable supported wf] in *. destruct k; [tauto|]. destruct W as (_ & _ & c & ->). reflexivity.
  - intros s fs IH W H. cbn [showable supported wf] in *. apply IH; [exists 0, s; tauto|tauto].
  - intros k off t IH r IHr (cur & s & W) H. cbn [showable_fields supported_fields wf_fields] in *. rewrite IH, IHr by (try tauto; exists (off + sizeof t), s; tauto). reflexivity.
Qed.
Lemma fields_wf fs : forall cur s, wf_fields fs cur s -> forall k off t, In (k, off, t) (fields_list fs) -> wf t.
Proof. induction fs as [|k0 o t0 r IH]; intros cur s H k off t; cbn [fields_list wf_fields In] in *; [tauto|]. intros [E|E]; [injection E as -> -> ->; tauto|]. eapply IH; [apply H|exact E]. Qed.
Lemma fields_showable fs : showable_fields fs -> forall k off t, In (k, off, t) (fields_list fs) -> showable t.
Proof. induction fs as [|k0 o t0 r IH]; intros H k off t; cbn [fields_list showable_fields In] in *; [tauto|]. intros [E|E]; [injection E as -> -> ->; tauto|]. eapply IH; [apply H|exact E]. Qed.
Lemma fields_loadable fs : loadable_fields fs -> forall k off t, In (k, off, t) (fields_list fs) -> loadable t.
Proof. induction fs as [|k0 o t0 r IH]; intros H k off t; cbn [fields_list loadable_fields In] in *; [tauto|]. intros [E|E]; [injection E as -> -> ->; tauto|]. eapply IH; [apply H|exact E]. Qed.
Lemma find_field_in fs k off t : find_field fs k = Some (off, t) -> In (k, off, t) (fields_list fs).
Proof. induction fs as [|k0 o t0 r IH]; cbn [find_field fields_list]; [discriminate|]. destruct (list_eq_dec ascii_dec k0 k) as [<-|]; [intros E; injection E as <- <-; left; reflexivity|right; auto]. Qed.
Lemma find_field_unique fs k off t : NoDup (field_names fs) -> In (k, off, t) (fields_list fs) -> find_field fs k = Some (off, t).
Proof.
  unfold field_names. induction fs as [|k0 o t0 r IH]; cbn [find_field fields_list map fst In]; [tauto|]. intros N [E|E]; inversion N as [|? ? A C]; subst.
  - injection E as <- <- <-. destruct (list_eq_dec ascii_dec k0 k0) as [_|X]; [reflexivity|destruct (X eq_refl)].
  - destruct (list_eq_dec ascii_dec k0 k) as [<-|_]; [|auto]. destruct A. apply (in_map (fun f => fst (fst f))) in E. exact E.
Qed.

Section P.
Variable P : env.
Hypothesis HP : env_ok P.
Notation holds := (holds P). Notation holds_fields := (holds_fields P). Notation acceptable := (acceptable P). Notation number_given := (number_given P).

Lemma field_accepted_find fs k s : NoDup (field_names fs) -> (field_accepted P fs k s <-> exists off t, find_field fs k = Some (off, t) /\ acceptable t s).
Proof.
  unfold field_names. induction fs as [|k0 o t0 r IH]; cbn [find_field fields_list map fst field_accepted]; [intros _; split; [tauto|intros (? & ? & X & _); discriminate]|].
  intros N. inversion N as [|? ? A C]; subst. rewrite IH by assumption. destruct (list_eq_dec ascii_dec k0 k) as [<-|Ne].
  - split; [intros [[_ H]|(off & t & F & H)]|intros (off & t & F & H)].
    + eauto.
    + apply find_field_in in F. apply (in_map (fun f => fst (fst f))) in F. destruct (A F).
    + injection F as <- <-. left. auto.
  - split; [intros [[H _]|H]; [contradiction|exact H]|right; assumption].
Qed.

(** ** Numbers and enums *)
Lemma num_new n c : wf (TNum n c) -> bytes n (new_of P (TNum n c)).
Proof. intros W. exact (eo_new HP W eq_refl). Qed.
Lemma congr_bytes n z : (n = 1 \/ n = 2 \/ n = 4 \/ n = 8) -> forall k, congruent n (int_bytes n (z + k * 2 ^ (8 * Z.of_N n))%Z) z.
Proof.
  intros Hn k. rewrite int_bytes_shift. unfold congruent. rewrite <- num_le_val by (apply oct_is8, int_bytes_is8).
  destruct (@unsigned_wrap n z) as (q & E & _). exists q. exact E.
Qed.
Lemma int_ok n c z : (n = 1 \/ n = 2 \/ n = 4 \/ n = 8) -> c <> Float ->
  match set_num no_fl n c (RbInt z) with Ok bs => number_bytes n bs /\ congruent n bs z /\ accepted n c z | Throw _ => ~ accepted n c z | _ => False end.
Proof.
  intros Hn Hc. rewrite set_int by assumption. assert (D : accepted n c z \/ ~ accepted n c z) by (unfold accepted; destruct (n =? 8), c, (n =? 1); lia). destruct D as [D|D].
  - destruct (range_accepted Hn Hc D) as (k & E). rewrite E. cbn [bind]. split; [split; [apply int_bytes_len|apply oct_is8, int_bytes_is8]|]. split; [apply congr_bytes; assumption|assumption].
  - rewrite range_refused by assumption. exact D.
Qed.
Lemma num_ok n c s : std_num n c ->
  match num_bytes P n c s with Ok bs => number_given n c s bs /\ number_accepted P n c s | Throw _ => ~ number_accepted P n c s | _ => False end.
Proof.
  intros Hn. unfold num_bytes, FromRubySpec.number_given, number_accepted.
  destruct s as [z|x|b| | | |]; destruct c; auto; cbn [std_num] in Hn.
  - pose proof (@int_ok n SInt z Hn ltac:(discriminate)) as I. destruct (set_num no_fl n SInt (RbInt z)); tauto.
  - pose proof (@int_ok n UInt z Hn ltac:(discriminate)) as I. destruct (set_num no_fl n UInt (RbInt z)); tauto.
  - split; [split; [apply (eo_int HP)|reflexivity]|exact I].
  - destruct (fl_to_int P n SInt x) eqn:E; [|tauto]. split; [split; [apply (eo_to_int HP E)|reflexivity]|discriminate].
  - destruct (fl_to_int P n UInt x) eqn:E; [|tauto]. split; [split; [apply (eo_to_int HP E)|reflexivity]|discriminate].
  - split; [split; [apply (eo_set HP)|reflexivity]|exact I].
  - destruct (N.eqb_spec n 1) as [-> |]; [|tauto]. destruct (N.eqb_spec (chars P b) 1); [|tauto].
    pose proof (@int_ok 1 SInt (ord P b) ltac:(auto) ltac:(discriminate)) as I. destruct (set_num no_fl 1 SInt (RbInt (ord P b))); tauto.
Qed.
Lemma num_from_ok n c s : wf (TNum n c) -> std_num n c -> num_supported n c = true ->
  match num_from P n c s with Ok m => (exists bs, m = map B bs /\ number_given n c s bs) /\ number_accepted P n c s | Throw _ => ~ number_accepted P n c s | _ => False end.
Proof.
  intros W Hs Hn. unfold num_from. rewrite Hn. pose proof (@num_ok n c s Hs) as O. destruct (num_bytes P n c s) as [bs| | |]; cbn [bind]; try exact O.
  destruct O as [O A]. rewrite (@put_raw_exact bs n) by (first [apply O|apply num_new; exact W]). eauto.
Qed.
Lemma before_c_str b : before_nul b = c_str b.
Proof. induction b as [|x r IH]; [reflexivity|]. cbn [before_nul c_str]. rewrite IH. reflexivity. Qed.
Lemma str_bytes_iff b k : Forall oct b -> (str_of_bytes b = k <-> b = map N_of_ascii k).
Proof.
  intros H. unfold str_of_bytes. split.
  - intros <-. rewrite map_map. rewrite <- (map_id b) at 1. apply map_ext_in. intros x X. rewrite Forall_forall in H. symmetry. apply N_ascii_embedding. exact (H x X).
  - intros ->. rewrite map_map. rewrite <- (map_id k) at 2. apply map_ext. apply ascii_N_embedding.
Qed.
Lemma c_str_oct b : Forall oct b -> Forall oct (c_str b).
Proof. induction 1 as [|x r X H IH]; cbn [c_str]; [constructor|]. destruct (x =? 0); constructor; assumption. Qed.
Lemma enum_from_ok n vs s : wf (TEnum n vs) -> showable (TEnum n vs) -> loadable (TEnum n vs) -> ruby_ok s ->
  match enum_from P n vs s with Ok m => holds (TEnum n vs) s m /\ acceptable (TEnum n vs) s | Throw _ => ~ acceptable (TEnum n vs) s | _ => False end.
Proof.
  intros W (_ & -> & Nd) F R. cbn [loadable] in F. unfold enum_from. assert (Hb : bytes 4 (new_of P (TEnum 4 vs))) by (exact (eo_new HP W eq_refl)).
  assert (St : forall k z, In (k, z) vs -> names k z s -> match put_raw (int_bytes enum_size z) (new_of P (TEnum 4 vs)) with Ok m => holds (TEnum 4 vs) s m /\ acceptable (TEnum 4 vs) s | _ => False end).
  { intros k z Hi Hn. unfold enum_size. rewrite (@put_raw_exact _ 4) by (first [apply int_bytes_len|exact Hb]). rewrite Forall_forall in F. assert (Hz := F _ Hi). cbn [snd] in Hz.
    split; [|cbn [FromRubySpec.acceptable]; eauto]. cbn [FromRubySpec.holds]. exists (int_bytes 4 z), k, z. split; [reflexivity|]. split; [split; [apply int_bytes_len|apply oct_is8, int_bytes_is8]|]. split; [|split; assumption].
    rewrite <- signed_number by (first [lia|apply oct_is8, int_bytes_is8]). rewrite signed_int by exact Hz. reflexivity. }
  destruct s as [z| |b| | | |]; cbn [bind]; try (cbn [FromRubySpec.acceptable]; unfold names; intros (k & w & _ & [E|(b & E & _)]); discriminate).
  - cbn [enum_of_ruby]. assert (No : (forall k, ~ In (k, z) vs) -> ~ acceptable (TEnum 4 vs) (SNum z)).
    { intros H (k & w & Hi & [E|(b & E & _)]); [|discriminate]. injection E as <-. exact (H k Hi). }
    assert (No2 : ~ (- 2 ^ 31 <= z < 2 ^ 31)%Z -> ~ acceptable (TEnum 4 vs) (SNum z)).
    { intros H. apply No. intros k Hi. rewrite Forall_forall in F. exact (H (F _ Hi)). }
    destruct (in_range (- 2 ^ 62) (2 ^ 62) z) eqn:R1; cbn [bind]; [|apply No2; intros X; assert (in_range (- 2 ^ 62) (2 ^ 62) z = true) by (apply in_range_spec; lia); congruence].
    unfold NUM2INT. destruct (in_range (- 2 ^ 31) (2 ^ 31) z) eqn:R2; cbn [bind]; [|apply No2; intros X; assert (in_range (- 2 ^ 31) (2 ^ 31) z = true) by (apply in_range_spec; lia); congruence].
    destruct (Csv.enum_get vs z) as [k|] eqn:G; cbn [bind]; [|apply No, enum_get_none, G]. assert (S := St k z (enum_get_first G) (or_introl eq_refl)).
    destruct (put_raw _ _); try destruct S. split; assumption.
  - cbn [enum_of_ruby]. destruct R as [Rb _]. assert (Sb := @str_bytes_iff (c_str b)). destruct (Smap.m_find (str_of_bytes (c_str b)) vs) as [w|] eqn:Q; cbn [bind].
    + assert (S := St _ w (find_in Q)). assert (Nm : names (str_of_bytes (c_str b)) w (SStr b)) by (right; exists b; split; [reflexivity|]; rewrite before_c_str; apply Sb; [apply c_str_oct, Rb|reflexivity]).
      specialize (S Nm). destruct (put_raw _ _); try destruct S. split; assumption.
    + cbn [FromRubySpec.acceptable]. intros (k & z & Hi & [E|(b' & E & B)]); [discriminate|]. injection E as <-. rewrite before_c_str in B. apply Sb in B; [|apply c_str_oct, Rb]. rewrite B in Q. exact (find_none Q Hi).
Qed.

(** ** What is held does not depend on padding and capacities *)
Lemma bytes_map n bs : lenN bs = n -> bytes n (map B bs).
Proof. intros H. exists bs. auto. Qed.
Lemma len_map_B bs : lenN (map B bs) = lenN bs.
Proof. unfold lenN. rewrite map_length. reflexivity. Qed.
Lemma put_len sz o : 1 <= sz -> lenN (put_obj sz o) = sz.
Proof. intros H. unfold put_obj. rewrite lenN_cons, lenN_repN. lia. Qed.
Lemma concat_len n (ms : list (list cell)) : Forall (fun x => lenN x = n) ms -> lenN (concat ms) = lenN ms * n.
Proof. induction 1 as [|x r X H IH]; [reflexivity|]. cbn [concat]. rewrite lenN_app, IH, X, lenN_cons. lia. Qed.
Lemma F2_len {A C} (R : A -> C -> Prop) l l' : Forall2 R l l' -> lenN l = lenN l'.
Proof. induction 1 as [|? ? ? ? _ _ IH]; [reflexivity|]. rewrite !lenN_cons, IH. reflexivity. Qed.
Lemma F2_r {A C} (R : A -> C -> Prop) (Q : C -> Prop) l l' : (forall x y, R x y -> Q y) -> Forall2 R l l' -> Forall Q l'.
Proof. intros I. induction 1; constructor; eauto. Qed.
Lemma F2_valid_len e ms : wf e -> Forall (valid e) ms -> Forall (fun x => lenN x = sizeof e) ms.
Proof. intros W. apply Forall_impl. intros x. apply (proj1 valid_len e W). Qed.
Lemma holds_len : (forall t, wf t -> showable t -> forall s m, holds t s m -> lenN m = sizeof t) /\ (forall fs : fields, True).
Proof.
  apply ty_fields_ind; try (intros; exact I); try (intros; cbn [showable] in *; tauto).
  - intros n c W S s m (bs & -> & (L & _) & _). rewrite len_map_B. exact L.
  - intros n vs W (_ & -> & _) s m (bs & k & z & -> & (L & _) & _). rewrite len_map_B. exact L.
  - intros sz d e IH W S s m H. cbn [wf showable sizeof] in *. destruct W as (_ & -> & _ & _ & W). destruct S as [_ S].
    destruct H as [(l & ms & -> & <- & -> & F)|(C & b & bs & -> & -> & L & _)].
    + rewrite (@concat_len (sizeof e)); [rewrite (F2_len F); reflexivity|]. eapply F2_r; [|exact F]. intros x y. apply (IH W S).
    + assert (E : e = TNum 1 SInt) by (destruct e as [| |[|p] []| | | | |]; try discriminate C; try (destruct p; discriminate C); destruct p; try discriminate C; reflexivity).
      subst e. cbn [sizeof]. rewrite len_map_B. lia.
  - intros k sz e IH W S s m H. cbn [wf sizeof] in *. destruct k; cbn [FromRubySpec.holds] in H.
    + destruct H as (l & cap & ms & -> & -> & _). apply put_len. tauto.
    + destruct H as (bs & -> & _). apply put_len. tauto.
  - intros sz fs _ W S s m H. cbn [FromRubySpec.holds sizeof] in *. tauto.
Qed.
Lemma is_char_num e : is_char e = true -> e = TNum 1 SInt.
Proof. intros C. destruct e as [| |[|p] []| | | | |]; try discriminate C; try (destruct p; discriminate C); destruct p; try discriminate C; reflexivity. Qed.
Lemma same_len t a b : wf t -> same t a b -> lenN a = sizeof t /\ lenN b = sizeof t.
Proof. intros W H. apply same_valid in H. split; apply (proj1 valid_len t W); tauto. Qed.
Lemma chars_same d xs ys : Forall2 (same (TNum d SInt)) xs ys -> concat xs = concat ys.
Proof. induction 1 as [|x y r r' X H IH]; [reflexivity|]. cbn [concat]. destruct X as [_ ->]. rewrite IH. reflexivity. Qed.
Lemma holds_same :
  (forall t, wf t -> showable t -> forall s a b, holds t s a -> same t a b -> holds t s b) /\
  (forall fs, showable_fields fs -> forall cur sz, wf_fields fs cur sz -> forall find a b m0, holds_fields fs find cur a m0 -> same_fields fs cur sz a b -> holds_fields fs find cur b m0).
Proof.
  apply ty_fields_ind; try (intros; cbn [showable] in *; tauto).
  - intros n c W S s a b H [_ ->]. exact H.
  - intros n vs W S s a b H [_ ->]. exact H.
  - intros sz d e IH W S s a b H E. cbn [wf showable] in *. destruct W as (_ & _ & _ & Hs & W). destruct S as [_ S]. destruct E as (xs & ys & Lx & -> & -> & F2).
    destruct H as [(l & ms & -> & Ll & Em & F)|(C & b & bs & -> & Em & Lb & T)].
    + left. exists l, ys. repeat split; auto. assert (ms = xs).
      { symmetry. apply (@concat_lens _ (sizeof e)); [exact Hs| | |exact Em]; [apply (F2_valid_len W), (F2_valid_l F2)|].
        eapply F2_r; [|exact F]. intros x y. apply (proj1 holds_len e W S). }
      subst ms. clear Em Ll Lx. revert ys F2. induction F as [|x m r rm X F IHF]; intros ys F2; inversion F2; subst; constructor; eauto.
    + right. split; [exact C|]. exists b, bs. split; [reflexivity|]. split; [|auto]. rewrite (is_char_num C) in F2. rewrite <- Em. symmetry. exact (chars_same F2).
  - intros k sz e IH W S s a b H E. cbn [wf showable] in *. destruct k; cbn [FromRubySpec.holds same] in *.
    + destruct W as (_ & Hz & Hs & W). destruct S as [_ S]. destruct E as (ca & cb & xs & ys & -> & -> & F2 & _). destruct H as (l & cap & ms & -> & Em & F).
      apply put_obj_inj in Em. injection Em as _ Em. exists l, cb, ys. repeat split; auto. assert (ms = xs).
      { symmetry. apply (@concat_lens _ (sizeof e)); [exact Hs| | |exact Em]; [apply (F2_valid_len W), (F2_valid_l F2)|].
        eapply F2_r; [|exact F]. intros x y. apply (proj1 holds_len e W S). }
      subst ms. clear Em. revert ys F2. induction F as [|x m r rm X F IHF]; intros ys F2; inversion F2; subst; constructor; eauto.
    + destruct E as (bs & -> & -> & _). exact H.
  - intros sz fs IH W S s a b H E. cbn [wf showable FromRubySpec.holds same] in *. destruct H as [L H]. split; [apply (@same_len (TComp sz fs) a b); [exact W|exact E]|].
    destruct (given (field_names fs) s) as [find|]; [|exact H]. apply (IH (proj2 (proj2 S)) 0 sz (proj2 W) find a b _ H E).
  - intros k off t IH r IHr [St Sr] cur sz (Hc & Wt & Wr) find a b m0 H E. cbn [FromRubySpec.holds_fields same_fields] in *.
    destruct H as (p & x & y & p0 & x0 & y0 & -> & -> & Lp & Lp0 & Lx & Lx0 & Hx & Hy). destruct E as (q & x' & y' & q' & z & w & E & -> & Bq & Bq' & Sx & Sy).
    destruct (same_len Wt Sx) as [L1 L2]. assert (Lq := bytes_len Bq). assert (Lq' := bytes_len Bq').
    destruct (app_lens Lp Lq E) as [-> E2]. destruct (app_lens Lx L1 E2) as [-> ->].
    exists q', z, w, p0, x0, y0. repeat (split; [solve [reflexivity|assumption]|]). split; [|eapply IHr; eassumption].
    destruct (find k) as [s|]; [eapply IH; eassumption|]. eapply (proj1 same_trans t Wt); [|exact Hx]. apply same_sym. exact Sx.
Qed.
Lemma holds_ext fs : forall f g cur m m0, (forall k, In k (field_names fs) -> f k = g k) -> holds_fields fs f cur m m0 -> holds_fields fs g cur m m0.
Proof.
  unfold field_names. induction fs as [|k off t r IH]; intros f g cur m m0 E H; [exact I|]. cbn [FromRubySpec.holds_fields fields_list map fst In] in *.
  destruct H as (p & x & y & p0 & x0 & y0 & H1 & H2 & H3 & H4 & H5 & H6 & H7 & H8). exists p, x, y, p0, x0, y0. repeat (split; [assumption|]).
  rewrite <- E by (left; reflexivity). split; [exact H7|]. eapply IH; [|exact H8]. intros k' K. apply E. right. exact K.
Qed.

(** ** A field is set *)
Definition upd (find : str -> option sval) (k : str) (x : sval) : str -> option sval := fun k' => if list_eq_dec ascii_dec k k' then Some x else find k'.
Lemma field_split fs : NoDup (field_names fs) -> forall cur sz, wf_fields fs cur sz -> forall find m m0 k off t x, valid_fields fs cur sz m -> holds_fields fs find cur m m0 ->
  find_field fs k = Some (off, t) -> exists pre a post, m = pre ++ a ++ post /\ cur <= off /\ lenN pre = off - cur /\ valid t a /\
    forall a', valid t a' -> holds t x a' -> valid_fields fs cur sz (pre ++ a' ++ post) /\ holds_fields fs (upd find k x) cur (pre ++ a' ++ post) m0.
Proof.
  unfold field_names. induction fs as [|k0 o t0 r IH]; intros Nd cur sz W find m m0 k off t x V H F; [discriminate|].
  cbn [find_field fields_list map fst wf_fields valid_fields FromRubySpec.holds_fields] in *. inversion Nd as [|? ? Nk Nr]; subst. destruct W as (Hc & Wt & Wr).
  destruct V as (p & a & b & -> & Bp & Va & Vb). destruct H as (p' & a1 & b1 & p0 & a0 & b0 & E & -> & Lp & Lp0 & La & La0 & Hx & Hb).
  assert (Lq := bytes_len Bp). assert (Lv := proj1 valid_len t0 Wt a Va).
  destruct (app_lens Lq Lp E) as [<- E2]. destruct (app_lens Lv La E2) as [<- <-].
  destruct (list_eq_dec ascii_dec k0 k) as [<-|Ne].
  - injection F as <- <-. exists p, a, b. repeat (split; [solve [reflexivity|assumption]|]). intros a' Va' Ha'. split; [exists p, a', b; auto|].
    exists p, a', b, p0, a0, b0. repeat (split; [solve [reflexivity|assumption|apply (proj1 valid_len t0 Wt a' Va')]|]). unfold upd at 1. destruct (list_eq_dec ascii_dec k0 k0) as [_|X]; [|destruct (X eq_refl)].
    split; [exact Ha'|]. eapply holds_ext; [|exact Hb]. intros k K. unfold upd. destruct (list_eq_dec ascii_dec k0 k) as [<-|_]; [destruct (Nk K)|reflexivity].
  - destruct (IH Nr _ _ Wr find b b0 k off t x Vb Hb F) as (pre & a2 & post & -> & Ho & Lpre & Va2 & K). exists (p ++ a ++ pre), a2, post.
    split; [rewrite <- !app_assoc; reflexivity|]. split; [lia|]. split; [rewrite !lenN_app; lia|]. split; [exact Va2|]. intros a' Va' Ha'. destruct (K a' Va' Ha') as [K1 K2].
    rewrite <- !app_assoc. split; [exists p, a, (pre ++ a' ++ post); auto|]. exists p, a, (pre ++ a' ++ post), p0, a0, b0. repeat (split; [solve [reflexivity|assumption]|]). split; [|exact K2].
    unfold upd. destruct (list_eq_dec ascii_dec k k0) as [->|_]; [destruct (Ne eq_refl)|exact Hx].
Qed.

(** ** The loops *)
Definition outcome (t : ty) (s : sval) (r : res (list cell)) : Prop :=
  match r with Ok m => valid t m /\ holds t s m /\ acceptable t s | Throw _ => ~ acceptable t s | _ => False end.
Definition converts (t : ty) : Prop := wf t -> showable t -> loadable t -> forall s, ruby_ok s -> exists r, conv (fun f => from_ruby P f t s) r /\ outcome t s r.
Definition works (t : ty) : Prop := forall s, ruby_ok s -> exists r, conv (fun f => from_ruby P f t s) r /\ outcome t s r.

Lemma conv_at (pre a post v : list cell) t : wf t -> plain t -> valid t a -> valid t v ->
  exists a', conv (fun f => at_index (lenN pre) (fun c => copy_value f t c v) (pre ++ a ++ post)) (Ok (pre ++ a' ++ post)) /\ same t a' v.
Proof.
  intros W Pl Va Vv. destruct (@C09_copy_duplicates t a v post [] W Pl Va Vv) as (a' & [n C] & S). exists a'. split; [|exact S].
  exists n. intros f Hf. apply at_index_app. rewrite <- (app_nil_r v). apply C. exact Hf.
Qed.
Lemma element_offset d es i : d <= 2 ^ 31 -> d * es < two64 -> i < d -> array_element d es (Z.of_N i) = Ok (i * es).
Proof.
  intros Hd Hs Hi. unfold array_element, NUM2INT. assert (R : in_range (- 2 ^ 31) (2 ^ 31) (Z.of_N i) = true) by (apply in_range_spec; lia). rewrite R. cbn [bind].
  rewrite index_test by (first [exact R|unfold small_dim; lia]). replace ((0 <=? Z.of_N i)%Z && (Z.of_N i <? Z.of_N d)%Z) with true by lia. cbn [negb].
  rewrite (@wmul_index d) by lia. rewrite N2Z.id. reflexivity.
Qed.
Lemma set_elts_ok d e : wf e -> showable e -> works e -> d <= 2 ^ 31 -> d * sizeof e < two64 -> forall l, Forall ruby_ok l -> forall done rest,
  Forall (valid e) done -> Forall (valid e) rest -> lenN done + lenN rest = d -> lenN l = lenN rest ->
  exists r, conv (fun f => set_elts (from_ruby P f e) f d e (lenN done) l (concat (done ++ rest))) r /\
    match r with Ok m => exists ms, m = concat (done ++ ms) /\ Forall (valid e) ms /\ Forall2 (holds e) l ms /\ Forall (acceptable e) l | Throw _ => ~ Forall (acceptable e) l | _ => False end.
Proof.
  intros W S K Hd Hs l R. induction R as [|x l Rx R IH]; intros done rest Vd Vr Ld Ll.
  - destruct rest as [|y rest]; [|rewrite lenN_cons in Ll; change (lenN (@nil sval)) with 0 in Ll; lia]. exists (Ok (concat (done ++ []))). split; [exists 0%nat; intros; reflexivity|]. exists []. repeat split; constructor.
  - destruct rest as [|y rest]; [rewrite lenN_cons in Ll; change (lenN (@nil (list cell))) with 0 in Ll; lia|]. rewrite !lenN_cons in *. inversion Vr as [|? ? Vy Vr']; subst.
    destruct (K x Rx) as (r & C & O). destruct r as [v|e0| |]; cbn [outcome] in O; try contradiction.
    + destruct O as (Vv & Hv & Av). assert (Lc : lenN (concat done) = lenN done * sizeof e) by (apply concat_len, (F2_valid_len W), Vd).
      destruct (@conv_at (concat done) y (concat rest) v e W (proj1 showable_plain e W S) Vy Vv) as (y' & C2 & Sy).
      assert (Vy' : valid e y') by (apply same_valid in Sy; tauto). destruct (IH (done ++ [y']) rest) as (r & C3 & O3); [apply Forall_app; split; auto|exact Vr'|rewrite lenN_app, lenN_cons, lenN_nil; lia|lia|].
      exists r. split.
      * cbn [set_elts]. eapply conv_bind; [exact C|]. rewrite element_offset by lia. cbn [bind]. rewrite concat_app. cbn [concat]. rewrite <- Lc. eapply conv_bind; [exact C2|].
        rewrite lenN_app, lenN_cons, lenN_nil in C3. replace (lenN done + (1 + 0)) with (lenN done + 1) in C3 by lia. replace (concat ((done ++ [y']) ++ rest)) with (concat done ++ y' ++ concat rest) in C3 by (rewrite !concat_app; cbn [concat]; rewrite app_nil_r, <- app_assoc; reflexivity). exact C3.
      * destruct r as [m| | |]; try exact O3; [|intros X; inversion X; contradiction]. destruct O3 as (ms & -> & Vm & Fm & Am). exists (y' :: ms). rewrite <- app_assoc. cbn [app].
        split; [reflexivity|]. split; [constructor; assumption|]. split; [|constructor; assumption]. constructor; [|exact Fm]. eapply (proj1 holds_same e W S); [exact Hv|]. apply same_sym. exact Sy.
    + exists (Throw e0). split; [cbn [set_elts]; apply conv_bind_throw; exact C|]. intros X; inversion X; contradiction.
Qed.
Lemma push_all_ok sz e : wf (TCont KVec sz e) -> showable (TCont KVec sz e) -> works e -> is_enum e = false -> forall l, Forall ruby_ok l -> forall gone m done,
  elements sz e m done -> Forall2 (holds e) gone done -> 
  exists r, conv (fun f => push_all (from_ruby P f e) f sz e l m) r /\
    match r with Ok m' => exists ms, elements sz e m' ms /\ Forall2 (holds e) (gone ++ l) ms /\ Forall (acceptable e) l | Throw _ => ~ (Forall (acceptable e) l /\ (lenN done + lenN l) * sizeof e <= max_size) | _ => False end.
Proof.
  intros W S K He. pose proof W as W'. pose proof S as S'. cbn [wf showable] in W', S'. destruct W' as (_ & Hz & Hs & We). destruct S' as [_ Se].
  intros l R. induction R as [|x l Rx R IH]; intros gone m done El Fd.
  - exists (Ok m). split; [exists 0%nat; intros; reflexivity|]. exists done. rewrite app_nil_r. repeat split; auto.
  - destruct (K x Rx) as (r & C & O). cbn [push_all]. rewrite He. destruct r as [v|e0| |]; cbn [outcome] in O; try contradiction.
    + destruct O as (Vv & Hv & Av). destruct (N.leb_spec ((lenN done + 1) * sizeof e) max_size) as [Lm|Lm].
      * destruct (@C17_push sz e m done v [] [] W (proj1 showable_plain _ W S) El Vv Lm) as (m' & done' & v' & C2 & El' & Sd & Sv). rewrite !app_nil_r in C2.
        destruct (IH (gone ++ [x]) m' (done' ++ [v'])) as (r & C3 & O3); [exact El'| |].
        { apply Forall2_app; [|constructor; [|constructor]].
          - clear - Fd Sd We Se HP. revert done' Sd. induction Fd as [|a b ga db X F IHF]; intros done' Sd; inversion Sd; subst; constructor; eauto. eapply (proj1 holds_same e We Se); [exact X|]. apply same_sym. assumption.
          - eapply (proj1 holds_same e We Se); [exact Hv|]. apply same_sym. exact Sv. }
        exists r. split; [eapply conv_bind; [exact C|]; eapply conv_bind; [exact C2|]; exact C3|]. destruct r as [m2| | |]; try exact O3.
        -- destruct O3 as (ms & E2 & F2 & A2). exists ms. rewrite <- app_assoc in F2. split; [exact E2|]. split; [exact F2|]. constructor; assumption.
        -- intros [X Y]. inversion X; subst. apply O3. split; [assumption|]. rewrite lenN_cons in Y. rewrite lenN_app, lenN_cons, lenN_nil. rewrite <- (F2_len Sd) in Y. lia.
      * exists (Throw ELength). split; [eapply conv_bind; [exact C|]|].
        -- apply conv_bind_throw. rewrite <- (app_nil_r m). apply (@C17_push_limit sz e m done v [] W (proj1 showable_plain _ W S) El Lm).
        -- intros [_ Y]. rewrite lenN_cons in Y. nia.
    + exists (Throw e0). split; [apply conv_bind_throw; exact C|]. intros [X _]; inversion X; contradiction.
Qed.
Lemma push_chars_ok sz : 1 <= sz -> forall l gone bs, Forall2 (fun x c => number_given 1 SInt x [c]) gone bs ->
  match push_chars P sz l (put_obj sz (StrObj bs)) with
  | Ok m => exists bs', m = put_obj sz (StrObj bs') /\ Forall2 (fun x c => number_given 1 SInt x [c]) (gone ++ l) bs' /\ Forall (number_accepted P 1 SInt) l
  | Throw _ => ~ Forall (number_accepted P 1 SInt) l
  | _ => False
  end.
Proof.
  intros Hz. induction l as [|x l IH]; intros gone bs F; cbn [push_chars].
  - exists bs. rewrite app_nil_r. repeat split; auto.
  - pose proof (@num_from_ok 1 SInt x) as O. specialize (O ltac:(cbn; split; [reflexivity|exact I]) ltac:(cbn; auto) eq_refl). destruct (num_from P 1 SInt x) as [v|e0| |]; cbn [bind]; try contradiction.
    + destruct O as [(b & -> & G) A]. assert (L : lenN b = 1) by apply G. destruct b as [|c [|c2 b]]; rewrite ?lenN_cons, ?lenN_nil in L; try lia. cbn [map].
      pose proof (@C17_string_push sz c bs [] [] Hz) as Q. rewrite !app_nil_r in Q. rewrite Q. cbn [bind]. specialize (IH (gone ++ [x]) (bs ++ [c])).
      destruct (push_chars P sz l (put_obj sz (StrObj (bs ++ [c])))) as [m| | |]; try (apply IH; apply Forall2_app; [exact F|constructor; [exact G|constructor]]).
      * destruct IH as (bs' & -> & F' & A'); [apply Forall2_app; [exact F|constructor; [exact G|constructor]]|]. exists bs'. rewrite <- app_assoc in F'. repeat split; auto.
      * intros X. inversion X; subst. apply IH; [apply Forall2_app; [exact F|constructor; [exact G|constructor]]|assumption].
    + intros X. inversion X; contradiction.
Qed.

(** ** Compounds *)
Section C.
Variables (sz : N) (fs : fields).
Hypothesis W : wf (TComp sz fs).
Hypothesis S : showable (TComp sz fs).
Hypothesis K : forall k off t, In (k, off, t) (fields_list fs) -> works t.
Let m0 := new_of P (TComp sz fs).
Definition inv (find : str -> option sval) (m : list cell) : Prop := valid_fields fs 0 sz m /\ holds_fields fs find 0 m m0.
Lemma names_nodup : NoDup (field_names fs).
Proof. exact (proj1 (proj2 S)). Qed.
Lemma set_field_ok find m k x : inv find m -> ruby_ok x ->
  exists r, conv (fun f => set_field (from_ruby P f) f fs k x m) r /\
    match r with Ok m' => inv (upd find k x) m' /\ field_accepted P fs k x | Throw _ => ~ field_accepted P fs k x | _ => False end.
Proof.
  intros [V H] R. assert (FA := @field_accepted_find fs k x names_nodup). unfold set_field. destruct (find_field fs k) as [[off t]|] eqn:F.
  - assert (In' := find_field_in F). assert (Wt : wf t) by (eapply fields_wf; [apply W|exact In']). assert (St : showable t) by (eapply fields_showable; [apply S|exact In']).
    destruct (K In' R) as (r & C & O). destruct r as [v|e0| |]; cbn [outcome] in O; try contradiction.
    + destruct O as (Vv & Hv & Av). destruct (@field_split fs names_nodup 0 sz (proj2 W) find m m0 k off t x V H F) as (pre & a & post & -> & _ & Lp & Va & G).
      destruct (@conv_at pre a post v t Wt (proj1 showable_plain t Wt St) Va Vv) as (a' & C2 & Sa). destruct (G a') as [G1 G2]; [apply same_valid in Sa; tauto|eapply (proj1 holds_same t Wt St); [exact Hv|]; apply same_sym; exact Sa|].
      exists (Ok (pre ++ a' ++ post)). split; [eapply conv_bind; [exact C|]; rewrite N.sub_0_r in Lp; rewrite <- Lp; exact C2|]. split; [split; assumption|apply FA; eauto].
    + exists (Throw e0). split; [apply conv_bind_throw; exact C|]. rewrite FA. intros (o & t' & E & A). injection E as <- <-. contradiction.
  - exists (Throw EArg). split; [exists 0%nat; intros; reflexivity|]. rewrite FA. intros (o & t' & E & A). discriminate.
Qed.
Lemma inv_ext f g m : (forall k, f k = g k) -> inv f m -> inv g m.
Proof. intros E [V H]. split; [exact V|]. eapply holds_ext; [|exact H]. intros k _. apply E. Qed.
Lemma set_hash_ok l : Forall (fun kv => ruby_ok (snd kv)) l -> forall find m, inv find m ->
  exists r, conv (fun f => set_hash (from_ruby P f) f fs l m) r /\
    match r with
    | Ok m' => inv (fun k => match last_given k l with Some y => Some y | None => find k end) m' /\ Forall (fun kv => field_accepted P fs (fst kv) (snd kv)) l
    | Throw _ => ~ Forall (fun kv => field_accepted P fs (fst kv) (snd kv)) l
    | _ => False
    end.
Proof.
  induction 1 as [|[k x] l Rx R IH]; intros find m I0.
  - exists (Ok m). split; [exists 0%nat; intros; reflexivity|]. split; [exact I0|constructor].
  - cbn [snd] in Rx. destruct (@set_field_ok find m k x I0 Rx) as (r & C & O). cbn [set_hash]. destruct r as [m1|e0| |]; try contradiction.
    + destruct O as [I1 A]. destruct (IH _ _ I1) as (r & C2 & O2). exists r. split; [eapply conv_bind; [exact C|exact C2]|]. destruct r as [m2| | |]; try exact O2; [|intros X; inversion X; contradiction].
      destruct O2 as [I2 A2]. split; [|constructor; assumption]. eapply inv_ext; [|exact I2]. intros k'. cbn [last_given]. destruct (last_given k' l); [reflexivity|]. unfold upd. destruct (list_eq_dec ascii_dec k k'); reflexivity.
    + exists (Throw e0). split; [apply conv_bind_throw; exact C|]. intros X; inversion X; contradiction.
Qed.
Lemma nth_none ks : forall l k, ~ In k ks -> nth_given ks l k = None.
Proof. induction ks as [|k0 ks IH]; intros [|x l] k H; cbn [nth_given]; try reflexivity. destruct (list_eq_dec ascii_dec k0 k) as [->|]; [destruct H; left; reflexivity|]. apply IH. intros X. apply H. right. exact X. Qed.
Lemma set_array_ok l : Forall ruby_ok l -> forall rest find m, NoDup (field_names rest) -> (forall k off t, In (k, off, t) (fields_list rest) -> find_field fs k = Some (off, t)) -> inv find m ->
  exists r, conv (fun f => set_array (from_ruby P f) f fs (field_names rest) l m) r /\
    match r with
    | Ok m' => inv (fun k => match nth_given (field_names rest) l k with Some y => Some y | None => find k end) m' /\ fields_accepted P rest l
    | Throw _ => ~ fields_accepted P rest l
    | _ => False
    end.
Proof.
  induction 1 as [|x l Rx R IH]; intros rest find m Nd Hr I0.
  - exists (Ok m). split; [exists 0%nat; intros; reflexivity|]. split; [|destruct rest; exact I]. eapply inv_ext; [|exact I0]. intros k. destruct (field_names rest); reflexivity.
  - destruct rest as [|k off t rest]; [exists (Throw ERuntime); split; [exists 0%nat; intros; reflexivity|intros X; exact X]|]. unfold field_names in *. cbn [fields_list map fst] in *. inversion Nd as [|? ? Nk Nr]; subst.
    destruct (@set_field_ok find m k x I0 Rx) as (r & C & O). assert (FA := @field_accepted_find fs k x names_nodup). assert (Fk : find_field fs k = Some (off, t)) by (apply Hr; left; reflexivity).
    assert (Ai : (exists off t, find_field fs k = Some (off, t) /\ acceptable t x) <-> acceptable t x) by (rewrite Fk; split; [intros (o & t' & E & A); injection E as <- <-; exact A|eauto]). rewrite Ai in FA.
    cbn [set_array]. cbn [fields_accepted]. destruct r as [m1|e0| |]; try contradiction.
    + destruct O as [I1 A]. apply FA in A. destruct (IH rest _ m1 Nr (fun k' o' t' X => Hr k' o' t' (or_intror X)) I1) as (r & C2 & O2). exists r. split; [eapply conv_bind; [exact C|exact C2]|].
      destruct r as [m2| | |]; try exact O2; [|tauto]. destruct O2 as [I2 A2]. split; [|split; assumption]. eapply inv_ext; [|exact I2]. intros k'. cbn [nth_given]. unfold upd. destruct (list_eq_dec ascii_dec k k') as [<-|]; [|reflexivity].
      rewrite nth_none by exact Nk. reflexivity.
    + exists (Throw e0). split; [apply conv_bind_throw; exact C|]. tauto.
Qed.
Lemma inv_new : inv (fun _ => None) m0.
Proof.
  assert (Fr : fresh (TComp sz fs) m0) by (apply (eo_new HP W), (proj1 showable_plain _ W S)). apply (proj1 fresh_valid) in Fr. cbn [valid] in Fr. split; [exact Fr|].
  clear K. cbn [wf] in W. destruct W as [_ W2]. revert Fr W2. generalize 0 m0. clear. induction fs as [|k off t r IH]; intros cur m V Wf; [exact I|]. cbn [valid_fields wf_fields FromRubySpec.holds_fields] in *.
  destruct V as (p & a & b & -> & Bp & Va & Vb). destruct Wf as (_ & Wt & Wr). exists p, a, b, p, a, b. assert (Lp := bytes_len Bp). assert (La := proj1 valid_len t Wt a Va).
  repeat (split; [solve [reflexivity|assumption]|]). split; [apply (proj1 same_refl); exact Va|]. apply IH; assumption.
Qed.
End C.

(** ** All types *)
Lemma chars_bytes d ms : lenN ms = d -> Forall (valid (TNum 1 SInt)) ms -> bytes d (concat ms).
Proof.
  intros <- F. induction F as [|x r X F IH]; [exists []; auto|]. cbn [concat]. destruct X as (b & L & ->). destruct IH as (bs & L2 & ->). exists (b ++ bs). rewrite lenN_app, lenN_cons, map_app. split; [lia|reflexivity].
Qed.
Lemma bytes_chars bs : exists ms, lenN ms = lenN bs /\ map B bs = concat ms /\ Forall (valid (TNum 1 SInt)) ms.
Proof. exists (map (fun b => [B b]) bs). split; [unfold lenN; rewrite map_length; reflexivity|]. induction bs as [|b bs [IH1 IH2]]; [split; constructor|]. cbn [map concat app]. rewrite IH1. split; [reflexivity|]. constructor; [exists [b]; auto|exact IH2]. Qed.
Lemma main : (forall t, converts t) /\ (forall fs, forall k off t, In (k, off, t) (fields_list fs) -> converts t).
Proof.
  apply ty_fields_ind.
  - intros _ [_ []].
  - intros n _ [_ []].
  - intros n c W S L s R. exists (num_from P n c s). split; [exists 0%nat; intros; destruct s; reflexivity|]. destruct (showable_num S eq_refl) as [Sn Ns].
    pose proof (@num_from_ok n c s W Sn Ns) as O. destruct (num_from P n c s) as [m| | |]; cbn [outcome]; try exact O. destruct O as [(bs & -> & G) A]. split; [apply bytes_map; apply G|]. split; [exists bs; auto|exact A].
  - intros n vs W S L s R. exists (enum_from P n vs s). split; [exists 0%nat; intros; destruct s; reflexivity|]. pose proof (@enum_from_ok n vs s W S L R) as O.
    destruct (enum_from P n vs s) as [m| | |]; cbn [outcome]; try exact O. destruct O as [H A]. split; [|auto]. destruct S as (_ & -> & _). destruct H as (bs & k & z & -> & (Lb & _) & _). apply bytes_map. exact Lb.
  - intros n _ [_ []].
  - intros sz d e IH W S L s R. pose proof W as W'. pose proof S as S'. cbn [wf showable loadable] in W', S', L. destruct W' as (Hz & -> & _ & Hs & We). destruct S' as [_ Se]. destruct L as (Ld & Lc & Le).
    assert (Fr : fresh (TArray (d * sizeof e) d e) (new_of P (TArray (d * sizeof e) d e))) by (apply (eo_new HP W), (proj1 showable_plain _ W S)). apply (proj1 fresh_valid) in Fr. cbn [valid] in Fr. destruct Fr as (ms0 & L0 & E0 & V0).
    assert (Bad : forall s, (forall l, s <> SArr l) -> (forall b, s = SStr b -> is_char e = false) -> ~ acceptable (TArray (d * sizeof e) d e) s).
    { intros s' A1 A2. cbn [FromRubySpec.acceptable]. intros [(l & E & _)|(C & b & E & _)]; [exact (A1 l E)|]. rewrite (A2 b E) in C. discriminate. }
    destruct s as [z|x|b| |l|l|c n b]; try (exists (Throw EArg); split; [exists 0%nat; intros; reflexivity|]; apply Bad; intros; discriminate).
    + destruct (is_char e) eqn:C.
      * pose proof (is_char_num C) as E. subst e. cbn [sizeof] in *.
        assert (Hd : 1 <= d < two64) by (specialize (Lc eq_refl); lia). assert (Hb : bytes d (new_of P (TArray (d * 1) d (TNum 1 SInt)))) by (rewrite E0; apply chars_bytes; assumption).
        destruct (@C61_char_array d _ b (chars P b) Hd Hb) as [K1 K2]. exists (value_from_string true (DArray d) (new_of P (TArray (d * 1) d (TNum 1 SInt))) (RbStr b (chars P b))). split; [exists 0%nat; intros; reflexivity|].
        destruct (in_dec N.eq_dec 0 b) as [I0|I0]; [|destruct (N.ltb_spec (lenN b) d) as [Lt|Ge]].
        -- rewrite K2 by (left; exact I0). cbn [outcome FromRubySpec.acceptable]. intros [(l & X & _)|(_ & b' & X & _ & Y)]; [discriminate|]. injection X as <-. exact (Y I0).
        -- destruct (K1 I0 Lt) as (content & -> & Lco & T & _). cbn [outcome]. split; [|split].
           ++ cbn [valid]. destruct (bytes_chars content) as (ms & A1 & A2 & A3). exists ms. repeat split; [congruence|exact A2|exact A3].
           ++ cbn [FromRubySpec.holds]. right. split; [reflexivity|]. exists b, content. auto.
           ++ cbn [FromRubySpec.acceptable]. right. split; [reflexivity|]. exists b. auto.
        -- rewrite K2 by (right; exact Ge). cbn [outcome FromRubySpec.acceptable]. intros [(l & X & _)|(_ & b' & X & Y & _)]; [discriminate|]. injection X as <-. lia.
      * exists (Throw EArg). split; [exists 0%nat; intros; cbn [from_ruby]; rewrite C; reflexivity|]. cbn [outcome]. apply Bad; [discriminate|intros; reflexivity].
    + apply ruby_arr in R. destruct R as [Rl R]. destruct (N.eqb_spec (lenN l) d) as [Ll|Ll].
      * destruct (@set_elts_ok d e We Se (IH We Se Le) Ld Hz l R [] ms0 (Forall_nil _) V0 ltac:(rewrite lenN_nil; lia) ltac:(congruence)) as (r & C & O). exists r. split.
        -- destruct C as [n C]. exists n. intros f Hf. specialize (C f Hf). cbn [from_ruby]. replace (lenN l =? d) with true by lia. rewrite E0. exact C.
        -- destruct r as [m| | |]; cbn [outcome]; try exact O.
           ++ destruct O as (ms & -> & Vm & Fm & Am). cbn [app]. assert (Lm := F2_len Fm). split; [exists ms; repeat split; [congruence|exact Vm]|]. split; [left; exists l, ms; auto|left; exists l; auto].
           ++ cbn [FromRubySpec.acceptable]. intros [(l' & X & _ & A)|(_ & b & X & _)]; [|discriminate]. injection X as <-. exact (O A).
      * exists (Throw EArg). split; [exists 0%nat; intros; cbn [from_ruby]; replace (lenN l =? d) with false by lia; reflexivity|]. cbn [outcome FromRubySpec.acceptable]. intros [(l' & X & Y & _)|(_ & b & X & _)]; [|discriminate]. injection X as <-. exact (Ll Y).
  - intros k sz e IH W S L s R. pose proof W as W'. pose proof S as S'. cbn [wf showable loadable] in W', S', L.
    assert (Fr : fresh (TCont k sz e) (new_of P (TCont k sz e))) by (apply (eo_new HP W), (proj1 showable_plain _ W S)). destruct k.
    + destruct W' as (_ & Hz & Hs & We). destruct S' as [_ Se]. cbn [fresh] in Fr. destruct Fr as (cap & E0 & Hcap).
      destruct s as [z|x|b| |l|l|c n b]; try (exists (Throw EArg); split; [exists 0%nat; intros; reflexivity|]; cbn [outcome FromRubySpec.acceptable]; intros (l' & X & _); discriminate).
      apply ruby_arr in R. destruct R as [Rl R]. assert (El : elements sz e (new_of P (TCont KVec sz e)) []) by (exists cap; rewrite E0; repeat split; [constructor|cbn [concat]; rewrite lenN_nil; lia|exact Hcap]).
      destruct (is_enum e) eqn:He.
      * destruct l as [|x l].
        -- exists (Ok (new_of P (TCont KVec sz e))). split; [exists 0%nat; intros; reflexivity|]. cbn [outcome]. split; [destruct El as (c0 & Q); exists c0, []; exact Q|]. split; [exists [], cap, []; repeat split; [exact E0|constructor]|].
           cbn [FromRubySpec.acceptable]. exists []. split; [reflexivity|]. split; [change (0 * sizeof e <= max_size); lia|]. split; [left; reflexivity|constructor].
        -- exists (Throw EType). split; [exists 0%nat; intros; cbn [from_ruby push_all]; rewrite He; reflexivity|]. cbn [outcome FromRubySpec.acceptable]. intros (l' & X & _ & [Y|Y] & _); [subst l'; discriminate X|congruence].
      * destruct (@push_all_ok sz e W S (IH We Se L) He l R [] _ [] El (Forall2_nil _)) as (r & C & O). exists r. split; [exact C|]. destruct r as [m| | |]; cbn [outcome]; try exact O.
        -- destruct O as (ms & (cap' & -> & Vm & C1 & C2) & Fm & Am). cbn [app] in Fm. split; [exists cap', ms; auto|]. split; [exists l, cap', ms; auto|]. cbn [FromRubySpec.acceptable]. exists l. repeat split; [|right; exact He|exact Am].
           rewrite (F2_len Fm). rewrite (@concat_len (sizeof e)) in C1 by (apply (F2_valid_len We), Vm). lia.
        -- cbn [FromRubySpec.acceptable]. intros (l' & X & Y & _ & A). injection X as <-. apply O. split; [exact A|]. rewrite lenN_nil. exact Y.
    + subst e. cbn [fresh] in Fr. destruct W' as (_ & Hz & _).
      destruct s as [z|x|b| |l|l|c n b]; try (exists (Throw EArg); split; [exists 0%nat; intros; reflexivity|]; cbn [outcome FromRubySpec.acceptable]; intros [(b' & X)|(l' & X & _)]; discriminate).
      * destruct R as [Rb Rl]. assert (Hc := @eo_chars P HP b). exists (Ok (put_obj sz (StrObj (takeN (chars P b) b)))). split.
        -- exists 3%nat. intros [|[|[|f]]] Hf; try lia. cbn [from_ruby]. rewrite Fr. assert (Lt : lenN (takeN (chars P b) b) = chars P b) by (rewrite lenN_takeN; lia).
           unfold std_string_from_ruby, pack_string. replace (chars P b - lenN b) with 0 by lia. change (repN 0 32%N) with (@nil N). rewrite app_nil_r. rewrite <- Lt at 1. apply std_load; [exact Hz|lia].
        -- cbn [outcome]. split; [exists (takeN (chars P b) b); split; [reflexivity|rewrite lenN_takeN; lia]|]. split; [|left; eauto]. cbn [FromRubySpec.holds]. exists (takeN (chars P b) b). split; [reflexivity|]. left. eauto.
      * apply ruby_arr in R. destruct R as [Rl R]. pose proof (@push_chars_ok sz Hz l [] [] (Forall2_nil _)) as O. exists (push_chars P sz l (new_of P (TCont KStr sz (TNum 1 SInt)))). split; [exists 0%nat; intros; reflexivity|].
        rewrite Fr. destruct (push_chars P sz l (put_obj sz (StrObj []))) as [m| | |]; cbn [outcome]; try exact O.
        -- destruct O as (bs & -> & F & A). cbn [app] in F. split; [exists bs; split; [reflexivity|rewrite <- (F2_len F); exact Rl]|]. split; [|right; eauto]. cbn [FromRubySpec.holds]. exists bs. split; [reflexivity|]. right. eauto.
        -- cbn [FromRubySpec.acceptable]. intros [(b & X)|(l' & X & A)]; [discriminate|]. injection X as <-. exact (O A).
  - intros sz fs IH W S L s R. cbn [loadable] in L.
    assert (K : forall k off t, In (k, off, t) (fields_list fs) -> works t).
    { intros k off t I0. refine (IH k off t I0 _ _ _); [eapply fields_wf; [apply W|exact I0]|eapply fields_showable; [apply S|exact I0]|eapply fields_loadable; [exact L|exact I0]]. }
    destruct s as [z|x|b| |l|l|c n b]; try (exists (Throw EArg); split; [exists 0%nat; intros; reflexivity|]; cbn [outcome FromRubySpec.acceptable]; intros [(l' & X & _)|(l' & X & _)]; discriminate).
    + apply ruby_arr in R. destruct R as [Rl R]. destruct (@set_array_ok sz fs W S K l R fs _ _ (names_nodup S) (fun k o t X => @find_field_unique fs k o t (names_nodup S) X) (inv_new W S)) as (r & C & O).
      exists r. split; [exact C|]. destruct r as [m| | |]; cbn [outcome]; try exact O.
      * destruct O as [[V H] A]. split; [exact V|]. split; [|right; eauto]. cbn [FromRubySpec.holds given]. split; [apply (proj1 valid_len (TComp sz fs) W); exact V|]. eapply holds_ext; [|exact H]. intros k _. cbv beta. destruct (nth_given (field_names fs) l k); reflexivity.
      * cbn [FromRubySpec.acceptable]. intros [(l' & X & _)|(l' & X & A)]; [discriminate|]. injection X as <-. exact (O A).
    + apply ruby_hash in R. destruct (@set_hash_ok sz fs W S K l R _ _ (inv_new W S)) as (r & C & O).
      exists r. split; [exact C|]. destruct r as [m| | |]; cbn [outcome]; try exact O.
      * destruct O as [[V H] A]. split; [exact V|]. split; [|left; eauto]. cbn [FromRubySpec.holds given]. split; [apply (proj1 valid_len (TComp sz fs) W); exact V|]. eapply holds_ext; [|exact H]. intros k _. cbv beta. destruct (last_given k l); reflexivity.
      * cbn [FromRubySpec.acceptable]. intros [(l' & X & A)|(l' & X & _)]; [|discriminate]. injection X as <-. exact (O A).
  - intros k off t [].
  - intros k off t IH r IHr k' off' t' [E|E]; [injection E as <- <- <-; exact IH|exact (IHr _ _ _ E)].
Qed.

(** ** From the value to plain data and back *)
Hypothesis XF : exact_floats P.
Lemma number_back n c bs bs' : std_num n c -> Forall oct bs -> lenN bs = n -> good n c bs -> number_given n c (number n c bs) bs' -> bs' = bs.
Proof.
  intros Sn Hb L [_ Nn] [[L' Hb'] G].
  assert (Pw : (2 ^ (8 * Z.of_N n) = Z.of_N (2 ^ (8 * n)))%Z) by (rewrite N2Z.inj_pow, N2Z.inj_mul; reflexivity).
  assert (Md : forall z, (exists j, Z.of_N (num_of bs) = (z + j * Z.of_N (2 ^ (8 * n)))%Z) -> congruent n bs' z -> bs' = bs).
  { intros z (j & E1) (j' & E2). rewrite Pw in E2. apply num_inj; [exact Hb'|exact Hb|unfold lenN in *; lia|]. assert (B1 := num_bound Hb). assert (B2 := num_bound Hb'). rewrite L in B1. rewrite L' in B2.
    set (M := 2 ^ (8 * n)) in *. assert (num_of bs' = num_of bs)%N; [|assumption]. assert (Hj : (j' - j = 0)%Z) by nia. nia. }
  destruct c; cbn [number] in *.
  - refine (Md _ _ G). destruct (num_of bs <? 2 ^ (8 * n - 1)); [exists 0%Z; lia|]. exists 1%Z. replace (2 ^ Z.of_N (8 * n))%Z with (Z.of_N (2 ^ (8 * n))) by (rewrite N2Z.inj_pow; reflexivity). lia.
  - refine (Md _ _ G). exists 0%Z. lia.
  - subst bs'. symmetry. apply (@number_inj n Float); try assumption. cbn [number]. symmetry. exact (XF Sn (conj L Hb) eq_refl).
Qed.
Lemma number_shown_accepted n c bs : std_num n c -> Forall oct bs -> lenN bs = n -> good n c bs -> number_accepted P n c (number n c bs).
Proof.
  intros Sn Hb L [Lo _]. assert (B1 := num_bound Hb). rewrite L in B1. destruct c; cbn [number number_accepted]; [| |exact I]; unfold accepted.
  - cbn [std_num] in Sn. destruct Sn as [-> |[-> |[-> | ->]]]; cbn [N.eqb Pos.eqb]; match goal with |- context [?a <? ?b] => destruct (N.ltb_spec a b) end; 
      repeat match goal with H : context [2 ^ ?x] |- _ => let v := eval vm_compute in (2 ^ x) in change (2 ^ x) with v in H end; 
      repeat match goal with |- context [(2 ^ ?x)%Z] => let v := eval vm_compute in (2 ^ x)%Z in change (2 ^ x)%Z with v end; lia.
  - cbn [std_num] in Sn. destruct Sn as [-> |[-> |[-> | ->]]]; cbn [N.eqb Pos.eqb]; [| | |specialize (Lo eq_refl eq_refl)];
      repeat match goal with H : context [2 ^ ?x] |- _ => let v := eval vm_compute in (2 ^ x) in change (2 ^ x) with v in H end; 
      repeat match goal with |- context [(2 ^ ?x)%Z] => let v := eval vm_compute in (2 ^ x)%Z in change (2 ^ x)%Z with v end; lia.
Qed.
Lemma before_none b : ~ In 0 b -> before_nul b = b.
Proof. induction b as [|x r IH]; intros H; [reflexivity|]. cbn [before_nul]. destruct (N.eqb_spec x 0) as [->|]; [destruct H; left; reflexivity|]. rewrite IH; [reflexivity|]. intros X. apply H. right. exact X. Qed.
Lemma single_arr l : single_byte P (SArr l) <-> Forall (single_byte P) l.
Proof. cbn [single_byte]. induction l as [|x r IH]; [split; [constructor|trivial]|]. rewrite IH. split; [intros [A C]; constructor; assumption|intros H; inversion H; auto]. Qed.
Lemma single_hash l : single_byte P (SHash l) <-> Forall (fun kv => single_byte P (snd kv)) l.
Proof. cbn [single_byte]. induction l as [|[k x] r IH]; [split; [constructor|trivial]|]. rewrite IH. split; [intros [A C]; constructor; assumption|intros H; inversion H; auto]. Qed.
Lemma shown_as_is v : SimpleSpec.shown OAsIs v = v.
Proof. destruct v as [|[|[]|]| | | | |]; reflexivity. Qed.
Lemma shows_keys p o fs : forall cur m l, shows_fields p o fs cur m l -> map fst l = field_names fs.
Proof. unfold field_names. induction fs as [|k off t r IH]; intros cur m l H; cbn [shows_fields] in H; [subst; reflexivity|]. destruct H as (pad & a & b & s & l' & _ & _ & _ & _ & -> & H). cbn [map fst fields_list]. f_equal. exact (IH _ _ _ H). Qed.
Lemma last_in l : NoDup (map fst l) -> forall k s, In (k, s) l -> last_given k l = Some s.
Proof.
  induction l as [|[k0 x] r IH]; intros Nd k s H; [destruct H|]. cbn [map fst] in Nd. inversion Nd as [|? ? Nk Nr]; subst. cbn [last_given]. destruct H as [E|H].
  - injection E as -> ->. assert (X : last_given k r = None).
    { clear - Nk. induction r as [|[k1 y] r IH]; [reflexivity|]. cbn [last_given map fst] in *. rewrite IH by (intros X; apply Nk; right; exact X). destruct (list_eq_dec ascii_dec k1 k) as [->|]; [destruct Nk; left; reflexivity|reflexivity]. }
    rewrite X. destruct (list_eq_dec ascii_dec k k) as [_|Y]; [reflexivity|destruct (Y eq_refl)].
  - rewrite (IH Nr _ _ H). reflexivity.
Qed.
Definition back (t : ty) : Prop := wf t -> showable t -> no_enum_vectors t -> forall v s, valid t v -> octets v -> every false good any_enum t v -> shows false OAsIs t v s -> single_byte P s ->
  acceptable t s /\ forall m, valid t m -> holds t s m -> same t v m.
Lemma back_elements e : wf e -> showable e -> no_enum_vectors e -> back e -> forall ms ss, Forall2 (shows false OAsIs e) ms ss -> Forall (valid e) ms -> Forall octets ms -> Forall (every false good any_enum e) ms -> Forall (single_byte P) ss ->
  Forall (acceptable e) ss /\ forall xs, Forall (valid e) xs -> Forall2 (holds e) ss xs -> Forall2 (same e) ms xs.
Proof.
  intros W S Nv IH ms ss F. induction F as [|m s ms ss X F IHF]; intros V O E Sb; [split; [constructor|intros xs _ H; inversion H; constructor]|].
  inversion_clear V. inversion_clear O. inversion_clear E. inversion_clear Sb. destruct (IH W S Nv m s) as [A1 A2]; try assumption. destruct IHF as [B1 B2]; try assumption.
  split; [constructor; assumption|]. intros xs Vx H'. inversion H'; subst. inversion_clear Vx. constructor; auto.
Qed.
Lemma F2_in {A C} (R : A -> C -> Prop) l l' y : Forall2 R l l' -> In y l' -> exists x, In x l /\ R x y.
Proof. induction 1 as [|a b r r' X F IH]; intros H; [destruct H|]. destruct H as [<-|H]; [exists a; split; [left; reflexivity|exact X]|]. destruct (IH H) as (x & I0 & Q). exists x. split; [right; exact I0|exact Q]. Qed.
Lemma back_all : (forall t, back t) /\
  (forall fs, showable_fields fs -> no_enum_vectors_fields fs -> forall cur sz, wf_fields fs cur sz -> forall v l, valid_fields fs cur sz v -> octets v -> every_fields false good any_enum fs cur v -> shows_fields false OAsIs fs cur v l -> Forall (fun kv => single_byte P (snd kv)) l ->
     Forall2 (fun f kv => fst (fst f) = fst kv /\ acceptable (snd f) (snd kv)) (fields_list fs) l /\
     forall find m m0, (forall k s, In (k, s) l -> find k = Some s) -> valid_fields fs cur sz m -> holds_fields fs find cur m m0 -> same_fields fs cur sz v m).
Proof.
  apply ty_fields_ind.
  - intros _ [_ []].
  - intros n _ [_ []].
  - intros n c W S Nv v s V O E (bs & -> & L & ->) Sb. rewrite shown_as_is in *. apply oct_bytes in O. destruct (showable_num S eq_refl) as [Sn _]. specialize (E bs eq_refl).
    split; [cbn [FromRubySpec.acceptable]; apply number_shown_accepted; assumption|]. intros m Vm (bs' & -> & G). rewrite (number_back Sn O L E G). split; [exact V|reflexivity].
  - intros n vs W (_ & -> & Nd) Nv v s V O E (bs & k & z & -> & L & Nb & I1 & ->) Sb. apply oct_bytes in O. destruct Sb as [_ Sb]. split.
    + cbn [FromRubySpec.acceptable]. exists k, z. split; [exact I1|]. right. exists (map N_of_ascii k). split; [reflexivity|]. apply before_none. exact Sb.
    + intros m Vm (bs' & k' & z' & -> & [L' O'] & Nb' & I2 & [X|(b & X & Y)]); [discriminate|]. injection X as <-. rewrite (before_none Sb) in Y. apply ascii_list_inj in Y. subst k'. rewrite (nodup_fst Nd I1 I2) in Nb. rewrite <- Nb' in Nb.
      assert (bs = bs') as <- by (apply (@number_inj 4 SInt); auto; [simpl; auto|discriminate]). split; [exact V|reflexivity].
  - intros n _ [_ []].
  - intros sz d e IH W S Nv v s V O E (ms & ss & L & -> & -> & F) Sb. cbn [wf showable no_enum_vectors every] in *. destruct W as (_ & _ & _ & Hs & We). destruct S as [_ Se]. cbn [andb] in E, F.
    destruct V as (xs & Lx & Ex & Vx). assert (xs = ms) as -> by (apply (concat_lens Hs (F2_valid_len We Vx) (shows_lens We F)); congruence).
    apply octets_concat in O. apply single_arr in Sb. destruct (@back_elements e We Se Nv IH ms ss F Vx O (E _ L (shows_lens We F) eq_refl) Sb) as [A1 A2]. assert (Lss := F2_len F). split.
    + cbn [FromRubySpec.acceptable]. left. exists ss. repeat split; [congruence|exact A1].
    + intros m (ys & Ly & -> & Vy) [(l & zs & X & Ll & Ez & Fz)|(_ & b & bs & X & _)]; [|discriminate]. injection X as <-.
      assert (ys = zs) as <- by (apply (concat_lens Hs (F2_valid_len We Vy)); [eapply F2_r; [|exact Fz]; intros x y; apply (proj1 holds_len e We Se)|exact Ez]). exists ms, ys. repeat split; [exact L|]. apply A2; assumption.
  - intros k sz e IH W S Nv v s V O E Sh Sb. destruct k; cbn [wf showable no_enum_vectors every shows] in *.
    + destruct Sh as (cap & ms & ss & -> & -> & F). destruct W as (_ & Hz & Hs & We). destruct S as [_ Se]. destruct Nv as [Ne Nv]. cbn [andb] in E, F.
      destruct V as (cap' & xs & Ex & Vx & C1 & C2). apply put_obj_inj in Ex. injection Ex as <- Ex. assert (xs = ms) as -> by (apply (concat_lens Hs (F2_valid_len We Vx) (shows_lens We F)); congruence).
      apply octets_vec, octets_concat in O. apply single_arr in Sb. destruct (@back_elements e We Se Nv IH ms ss F Vx O (E _ _ eq_refl (shows_lens We F)) Sb) as [A1 A2]. split.
      * cbn [FromRubySpec.acceptable]. exists ss. repeat split; [|right; exact Ne|exact A1]. rewrite <- (F2_len F). rewrite (@concat_len (sizeof e)) in C1 by (apply (F2_valid_len We), Vx). lia.
      * intros m (cb & ys & -> & Vy & C3 & C4) (l & cap2 & zs & X & Ez & Fz). injection X as <-. apply put_obj_inj in Ez. injection Ez as -> Ez.
        assert (ys = zs) as <- by (apply (concat_lens Hs (F2_valid_len We Vy)); [eapply F2_r; [|exact Fz]; intros x y; apply (proj1 holds_len e We Se)|exact Ez]). exists cap, cap2, ms, ys. repeat split; try assumption. apply A2; assumption.
    + destruct Sh as (bs & -> & ->). split; [cbn [FromRubySpec.acceptable]; left; eauto|]. intros m Vm (bs' & -> & [(b & X & ->)|(l & X & _)]); [|discriminate]. injection X as <-. destruct Sb as [Sb _]. rewrite Sb.
      destruct V as (b2 & E2 & L2). apply put_obj_inj in E2. injection E2 as <-. exists bs. rewrite takeN_all by lia. auto.
  - intros sz fs IH W S Nv v s V O E (l & -> & L & F) Sb. cbn [wf showable no_enum_vectors every valid] in *. destruct S as (_ & Nd & S). apply single_hash in Sb.
    destruct (IH S Nv 0 sz (proj2 W) v l V O E F Sb) as [A1 A2]. split.
    + cbn [FromRubySpec.acceptable]. left. exists l. split; [reflexivity|]. apply Forall_forall. intros kv Hkv. destruct (F2_in A1 Hkv) as ([[k off] t] & Hf & Ek & Ak). cbn [fst snd] in Ek, Ak. subst k.
      apply (@field_accepted_find fs (fst kv) (snd kv) Nd). exists off, t. split; [apply find_field_unique; assumption|exact Ak].
    + intros m Vm [_ H]. cbn [given] in H. apply (A2 _ _ _ (fun k s X => @last_in l (eq_ind_r (fun ks => NoDup ks) Nd (shows_keys F)) k s X) Vm H).
  - intros _ _ cur sz _ v l V _ _ F _. cbn [shows_fields] in F. subst l. split; [constructor|]. intros find m m0 _ Vm _. split; assumption.
  - intros k off t IHt fs IHf [St Sf] [Nt Nf] cur sz (Ho1 & Wt & Wf) v l V O E F Sb. cbn [shows_fields valid_fields every_fields] in *.
    destruct F as (p1 & x & y & s & l1 & -> & L1 & Lx & Sx & -> & Sy). destruct V as (p1' & x' & y' & E1 & B1 & V1 & V2).
    apply (app_lens L1 (bytes_len B1)) in E1. destruct E1 as [-> E1]. apply (app_lens Lx (proj1 valid_len _ Wt _ V1)) in E1. destruct E1 as [-> ->].
    destruct (E _ _ _ eq_refl L1 Lx) as [Ex Ey]. apply octets_app in O. destruct O as [_ O]. apply octets_app in O. destruct O as [Ox Oy]. inversion Sb as [|? ? Sbx Sby]; subst.
    destruct (IHt Wt St Nt x' s V1 Ox Ex Sx Sbx) as [A1 A2]. destruct (IHf Sf Nf _ _ Wf y' l1 V2 Oy Ey Sy Sby) as [C1 C2]. split; [constructor; [split; [reflexivity|exact A1]|exact C1]|].
    intros find m m0 Hf (q & z & w & -> & Bq & Vz & Vw) H. cbn [FromRubySpec.holds_fields] in H. destruct H as (q' & z' & w' & p0 & x0 & y0 & E1 & -> & Lq & Lp0 & Lz & Lx0 & Hz & Hw).
    apply (app_lens (bytes_len Bq) Lq) in E1. destruct E1 as [<- E1]. apply (app_lens (proj1 valid_len _ Wt _ Vz) Lz) in E1. destruct E1 as [<- <-].
    rewrite (Hf k s (or_introl eq_refl)) in Hz. exists p1', x', y', q, z, w. repeat (split; [solve [reflexivity|assumption]|]). split; [apply A2; assumption|].
    apply (C2 find w y0); [intros k' s' X; apply Hf; right; exact X|assumption|assumption].
Qed.
End P.
