(** * CxxRubyProofs: tokens of names. *)
From Verif Require Import Base CxxRubySpec CxxRuby.
Local Open Scope char_scope.

Scheme cxx_m := Minimality for cxx Sort Prop with cxx_args_m := Minimality for cxx_args Sort Prop.
Combined Scheme cxx_mind from cxx_m, cxx_args_m.
Scheme cpath_i := Induction for cpath Sort Prop with cargs_i := Induction for cargs Sort Prop.
Combined Scheme cpath_mind from cpath_i, cargs_i.

Lemma wr_end l dc id a : wr l dc (PEnd id a) = id ++ brackets a (wr_args l dc a). Proof. reflexivity. Qed.
Lemma wr_sub l dc id a q : wr l dc (PSub id a q) = id ++ brackets a (wr_args l dc a) ++ dc ++ wr l dc q. Proof. reflexivity. Qed.
Lemma wr_nil l dc : wr_args l dc ANil = []. Proof. reflexivity. Qed.
Lemma wr_type l dc p r : wr_args l dc (AType p r) = l ++ wr l dc p ++ comma r (wr_args l dc r). Proof. reflexivity. Qed.
Lemma wr_num l dc i r : wr_args l dc (ANum i r) = i ++ comma r (wr_args l dc r). Proof. reflexivity. Qed.
Lemma existsb_in c l : existsb (Ascii.eqb c) l = true <-> In c l.
Proof.
  rewrite existsb_exists. split; [intros (x & I & E); apply Ascii.eqb_eq in E; subst; exact I|intros I; exists c; split; [exact I|apply Ascii.eqb_refl]].
Qed.
Lemma blankb_iff c : blankb c = true <-> blank c.
Proof. apply existsb_in. Qed.
Lemma punctb_iff c : punctb c = true <-> In c (s_ "<,>").
Proof. apply existsb_in. Qed.

(** ** Stripping *)
Lemma lstrip_blanks x s : blanks x -> lstrip (x ++ s) = lstrip s.
Proof. induction 1 as [|c x B _ IH]; [reflexivity|]. cbn [app lstrip]. rewrite (proj2 (blankb_iff c) B). exact IH. Qed.
Lemma lstrip_solid c r : ~ blank c -> lstrip (c :: r) = c :: r.
Proof. intros H. cbn [lstrip]. destruct (blankb c) eqn:E; [apply blankb_iff in E; contradiction|reflexivity]. Qed.
Lemma lstrip_all x : blanks x -> lstrip x = [].
Proof. intros H. rewrite <- (app_nil_r x), lstrip_blanks by exact H. reflexivity. Qed.
Lemma blanks_rev x : blanks x -> blanks (rev x).
Proof. apply Forall_rev. Qed.
Definition starts (s : str) : Prop := exists c r, s = c :: r /\ ~ blank c.
Definition ends (s : str) : Prop := exists r c, s = r ++ [c] /\ ~ blank c.
Lemma strip_core x w y : blanks x -> blanks y -> starts w -> ends w -> strip (x ++ w ++ y) = w.
Proof.
  intros Bx By (c & r & Ec & Hc) (r' & c' & Ec' & Hc'). unfold strip. rewrite lstrip_blanks by exact Bx.
  rewrite Ec at 1. cbn [app]. rewrite lstrip_solid by exact Hc. change (c :: r ++ y) with ((c :: r) ++ y). rewrite <- Ec.
  rewrite rev_app_distr, lstrip_blanks by (apply blanks_rev; exact By). rewrite Ec', rev_app_distr. cbn [rev app].
  rewrite lstrip_solid by exact Hc'. cbn [rev]. rewrite rev_involutive. reflexivity.
Qed.
Lemma strip_blanks x : blanks x -> strip x = [].
Proof. intros H. unfold strip. rewrite (@lstrip_all x H). reflexivity. Qed.
Lemma flush_core x w y : blanks x -> blanks y -> starts w -> ends w -> flush (x ++ w ++ y) = [w].
Proof.
  intros. unfold flush. rewrite strip_core by assumption. destruct H1 as (c & r & E & _). destruct w; [discriminate|reflexivity].
Qed.
Lemma flush_blanks x : blanks x -> flush x = [].
Proof. intros H. unfold flush. rewrite strip_blanks by exact H. reflexivity. Qed.

(** ** The tokenizer *)
Definition wordy (s : str) : Prop := Forall (fun c => punctb c = false) s.
Lemma tok_word s : wordy s -> forall cur rest, tok cur (s ++ rest) = tok (cur ++ s) rest.
Proof.
  induction 1 as [|c s Hc _ IH]; intros cur rest; [rewrite app_nil_r; reflexivity|].
  cbn [app tok]. rewrite Hc, IH, <- app_assoc. reflexivity.
Qed.
Lemma blanks_wordy x : blanks x -> wordy x.
Proof.
  apply Forall_impl. intros c B. destruct (punctb c) eqn:E; [|reflexivity]. apply punctb_iff in E.
  cbn in B, E. repeat destruct B as [<- |B]; try contradiction; repeat destruct E as [E|E]; try contradiction; discriminate.
Qed.
Lemma solid_wordy s : solid s -> wordy s.
Proof.
  intros [H _]. revert H. apply Forall_impl. intros c N. destruct (punctb c) eqn:E; [|reflexivity]. apply punctb_iff in E. exfalso. apply N.
  cbn in E |- *. tauto.
Qed.
Lemma wordy_app a b : wordy a -> wordy b -> wordy (a ++ b).
Proof. intros A B. apply Forall_app. split; assumption. Qed.
(** The rest of the text ends the current word. *)
Definition stop (s : str) : Prop := s = [] \/ exists c r, s = c :: r /\ punctb c = true.
Lemma tok_stop cur s : stop s -> tok cur s = flush cur ++ tok [] s.
Proof.
  intros [-> |(c & r & -> & P)]; cbn [tok]; [rewrite app_nil_r; reflexivity|]. rewrite P. reflexivity.
Qed.

(** The tokens of a name. *)
Section Tokens.
Variable dc : str.
Variable root : str -> Prop.
Inductive tkp : str -> cpath -> list str -> Prop :=
| tk_end acc id : tkp acc (PEnd id ANil) [acc ++ id]
| tk_tmpl acc id a ts : tka a ts -> tkp acc (PEnd id a) ((acc ++ id) :: ["<"] :: ts ++ [[">"]])
| tk_sub acc id p ts : tkp (acc ++ id ++ dc) p ts -> tkp acc (PSub id ANil p) ts
| tk_tmpl_sub acc id a ts p ts' : tka a ts -> tkp dc p ts' -> tkp acc (PSub id a p) ((acc ++ id) :: ["<"] :: ts ++ [">"] :: ts')
with tka : cargs -> list str -> Prop :=
| tk_last g p ts : root g -> tkp g p ts -> tka (AType p ANil) ts
| tk_last_num i : tka (ANum i ANil) [i]
| tk_more g p ts a ts' : root g -> tkp g p ts -> tka a ts' -> tka (AType p a) (ts ++ [","] :: ts')
| tk_more_num i a ts' : tka a ts' -> tka (ANum i a) (i :: [","] :: ts').

Hypothesis Wdc : wordy dc.
Hypothesis Sdc : starts dc.
Hypothesis Wroot : forall g, root g -> wordy g /\ (g = [] \/ starts g).

Definition lead_ok (acc : str) : Prop := wordy acc /\ (acc = [] \/ starts acc).
Lemma starts_app a b : starts a -> starts (a ++ b).
Proof. intros (c & r & -> & H). exists c, (r ++ b). auto. Qed.
Lemma ends_app a b : ends b -> ends (a ++ b).
Proof. intros (r & c & -> & H). exists (a ++ r), c. rewrite app_assoc. auto. Qed.
Lemma ident_solid id : ident id -> solid id.
Proof. intros [H _]. exact H. Qed.
Lemma lead_starts acc w : lead_ok acc -> solid w -> starts (acc ++ w).
Proof. intros [_ [-> |H]] (_ & S & _); [exact S|apply starts_app; exact H]. Qed.
Lemma solid_ends acc w : solid w -> ends (acc ++ w).
Proof. intros (_ & _ & E). apply ends_app. exact E. Qed.
Lemma lead_next acc id : lead_ok acc -> ident id -> lead_ok (acc ++ id ++ dc).
Proof.
  intros L I. split.
  - apply wordy_app; [apply L|]. apply wordy_app; [apply solid_wordy, ident_solid, I|exact Wdc].
  - right. rewrite app_assoc. apply starts_app. apply lead_starts; [exact L|apply ident_solid, I].
Qed.

Lemma tok_close rest : tok [] (">" :: rest) = [">"] :: tok [] rest. Proof. reflexivity. Qed.
Lemma tok_comma rest : tok [] ("," :: rest) = [","] :: tok [] rest. Proof. reflexivity. Qed.
Lemma tok_open rest : tok [] ("<" :: rest) = ["<"] :: tok [] rest. Proof. reflexivity. Qed.
Lemma stop_c c r : punctb c = true -> stop (c :: r).
Proof. intros H. right. exists c, r. auto. Qed.
(** A word with blanks on both sides. *)
Lemma tok_item x w y rest : blanks x -> blanks y -> wordy w -> starts w -> ends w -> stop rest ->
  tok x (w ++ y ++ rest) = w :: tok [] rest.
Proof.
  intros Bx By Ww Sw Ew St. rewrite tok_word by exact Ww. rewrite tok_word by (apply blanks_wordy, By).
  rewrite tok_stop by exact St. rewrite <- app_assoc, flush_core by assumption. reflexivity.
Qed.

Lemma tok_cxx :
  (forall s p, cxx dc root s p -> well_named p -> forall acc x y rest, lead_ok acc -> blanks x -> blanks y -> stop rest ->
     exists ts, tkp acc p ts /\ tok (x ++ acc) (s ++ y ++ rest) = ts ++ tok [] rest) /\
  (forall s a, cxx_args dc root s a -> args_named a -> forall rest,
     exists ts, tka a ts /\ tok [] (s ++ ">" :: rest) = ts ++ [">"] :: tok [] rest).
Proof.
  apply cxx_mind.
  - (* identifier *)
    intros id [I _] acc x y rest L Bx By St. exists [acc ++ id]. split; [constructor|].
    rewrite <- (app_nil_l (x ++ acc)). rewrite <- (app_nil_r x) at 1.
    assert (E : tok x ((acc ++ id) ++ y ++ rest) = (acc ++ id) :: tok [] rest).
    { apply tok_item; auto; [apply wordy_app; [apply L|apply solid_wordy, ident_solid, I]|apply lead_starts; [exact L|apply ident_solid, I]|apply solid_ends, ident_solid, I]. }
    rewrite <- app_assoc in E. rewrite tok_word in E by apply L. rewrite app_nil_r. exact E.
  - (* template *)
    intros id x0 s a B0 C IH [I A] acc x y rest L Bx By St. destruct (IH A (y ++ rest)) as (ts & T & E).
    exists ((acc ++ id) :: ["<"] :: ts ++ [[">"]]). split; [constructor; exact T|].
    replace ((id ++ x0 ++ "<" :: s ++ [">"]) ++ y ++ rest) with (id ++ x0 ++ "<" :: s ++ ">" :: y ++ rest)
      by (rewrite <- ?app_assoc; cbn [app]; rewrite <- ?app_assoc; reflexivity).
    assert (E1 : tok x ((acc ++ id) ++ x0 ++ "<" :: s ++ ">" :: y ++ rest) = (acc ++ id) :: tok [] ("<" :: s ++ ">" :: y ++ rest)).
    { apply tok_item; auto; [apply wordy_app; [apply L|apply solid_wordy, ident_solid, I]|apply lead_starts; [exact L|apply ident_solid, I]|apply solid_ends, ident_solid, I|apply stop_c; reflexivity]. }
    rewrite <- app_assoc in E1. rewrite tok_word in E1 by apply L. rewrite E1, tok_open, E.
    rewrite tok_word by (apply blanks_wordy, By). cbn [app]. rewrite tok_stop by exact St. rewrite flush_blanks by exact By.
    cbn [app]. rewrite <- app_assoc. reflexivity.
  - (* scope *)
    intros id s p C IH (I & _ & W) acc x y rest L Bx By St. destruct (IH W (acc ++ id ++ dc) x y rest (lead_next L I) Bx By St) as (ts & T & E).
    exists ts. split; [constructor; exact T|]. rewrite <- ?app_assoc.
    rewrite tok_word by (apply solid_wordy, ident_solid, I). rewrite tok_word by exact Wdc. rewrite <- ?app_assoc. exact E.
  - (* template scope *)
    intros id x0 s a y0 s' p B0 C IH B1 C' IH' (I & A & W) acc x y rest L Bx By St.
    destruct (IH' W dc y0 y rest (conj Wdc (or_intror Sdc)) B1 By St) as (ts' & T' & E').
    destruct (IH A (y0 ++ dc ++ s' ++ y ++ rest)) as (ts & T & E).
    exists ((acc ++ id) :: ["<"] :: ts ++ [">"] :: ts'). split; [constructor; assumption|].
    replace ((id ++ x0 ++ "<" :: s ++ ">" :: y0 ++ dc ++ s') ++ y ++ rest) with (id ++ x0 ++ "<" :: s ++ ">" :: y0 ++ dc ++ s' ++ y ++ rest)
      by (rewrite <- ?app_assoc; cbn [app]; rewrite <- ?app_assoc; cbn [app]; rewrite <- ?app_assoc; reflexivity).
    assert (E1 : tok x ((acc ++ id) ++ x0 ++ "<" :: s ++ ">" :: y0 ++ dc ++ s' ++ y ++ rest) = (acc ++ id) :: tok [] ("<" :: s ++ ">" :: y0 ++ dc ++ s' ++ y ++ rest)).
    { apply tok_item; auto; [apply wordy_app; [apply L|apply solid_wordy, ident_solid, I]|apply lead_starts; [exact L|apply ident_solid, I]|apply solid_ends, ident_solid, I|apply stop_c; reflexivity]. }
    rewrite <- app_assoc in E1. rewrite tok_word in E1 by apply L. rewrite E1, tok_open, E.
    rewrite tok_word by (apply blanks_wordy, B1). rewrite tok_word by exact Wdc. cbn [app]. rewrite E'.
    rewrite <- app_assoc. reflexivity.
  - (* last argument *)
    intros x g s y p Bx R C IH By [W _] rest. destruct (Wroot R) as [Wg Sg].
    destruct (IH W g x y (">" :: rest) (conj Wg Sg) Bx By ltac:(apply stop_c; reflexivity)) as (ts & T & E).
    exists ts. split; [exact (tk_last R T)|]. rewrite <- ?app_assoc. rewrite tok_word by (apply blanks_wordy, Bx).
    rewrite tok_word by exact Wg. cbn [app]. rewrite E. reflexivity.
  - (* last number *)
    intros x i y Bx By [[I _] _] rest. exists [i]. split; [constructor|]. rewrite <- ?app_assoc. rewrite tok_word by (apply blanks_wordy, Bx).
    cbn [app]. rewrite tok_item; auto; [apply solid_wordy, I|apply I|apply (@solid_ends [] i I)|apply stop_c; reflexivity].
  - (* more *)
    intros x g s y p r a Bx R C IH By C' IH' [W A] rest. destruct (Wroot R) as [Wg Sg].
    destruct (IH W g x y ("," :: r ++ ">" :: rest) (conj Wg Sg) Bx By ltac:(apply stop_c; reflexivity)) as (ts & T & E).
    destruct (IH' A rest) as (ts' & T' & E').
    exists (ts ++ [","] :: ts'). split; [exact (tk_more R T T')|]. rewrite <- ?app_assoc. rewrite tok_word by (apply blanks_wordy, Bx).
    rewrite tok_word by exact Wg. cbn [app]. rewrite E. rewrite tok_comma, E', <- ?app_assoc. reflexivity.
  - (* number, more *)
    intros x i y r a Bx By C' IH' [[I _] A] rest. destruct (IH' A rest) as (ts' & T' & E').
    exists (i :: [","] :: ts'). split; [constructor; exact T'|]. rewrite <- ?app_assoc. rewrite tok_word by (apply blanks_wordy, Bx).
    cbn [app]. rewrite tok_item; auto; [|apply solid_wordy, I|apply I|apply (@solid_ends [] i I)|apply stop_c; reflexivity].
    rewrite tok_comma, E'. reflexivity.
Qed.
Lemma tok_spelling s p : spelling dc root s p -> well_named p -> exists g ts, root g /\ tkp g p ts /\ template_tokenizer s = ts.
Proof.
  intros (x & g & s' & y & -> & Bx & R & C & By) W. destruct (Wroot R) as [Wg Sg].
  destruct (proj1 tok_cxx _ _ C W g x y [] (conj Wg Sg) Bx By (or_introl eq_refl)) as (ts & T & E).
  exists g, ts. split; [exact R|]. split; [exact T|]. unfold template_tokenizer. rewrite tok_word by (apply blanks_wordy, Bx).
  rewrite tok_word by exact Wg. rewrite app_nil_r in E. cbn [app]. rewrite E. cbn [tok]. rewrite flush_blanks by constructor. apply app_nil_r.
Qed.
End Tokens.
