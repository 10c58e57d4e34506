(** * Base: outcomes of C++ functions, machine words, convergence of fuelled functions.

    Not a model of a particular file: this is the vocabulary all models share. *)
From Coq Require Export Ascii String NArith ZArith Lia Bool Arith List.
From Coq Require Export ZifyBool ZifyNat ZifyN.
Export ListNotations.
Global Set Implicit Arguments.
Global Unset Strict Implicit.
Global Open Scope list_scope.

(** Strings are lists of characters; ["abc"%str] style literals through [str]. *)
Definition str := list ascii.
Definition s_ (x : string) : str := list_ascii_of_string x.

(** C++ exceptions that can leave a modelled function. *)
Inductive exn :=
| ENoLayout            (* Typelib::NoLayout, memory_layout.hh:13 *)
| EUnknownBytecode     (* Typelib::UnknownLayoutBytecode, memory_layout.hh:22 *)
| EInvalidLayout       (* Typelib::InvalidMemoryLayout, memory_layout.hh:30 *)
| ENullType            (* Typelib::NullTypeFound, typemodel.hh:695 *)
| ERuntime             (* a plain std::runtime_error *)
| ELength              (* std::length_error from std::vector::resize *)
| EStd                 (* a plain std::exception, value_ops.cc:751 *)
| EDiffer              (* NOT a C++ exception: the early "return false" of ValueOps::compare *)
| EBadName | EUndefined | EDefinitionMismatch | EAlreadyDefined
| EAlreadyExists | ESymbolNotFound | EValueNotFound
| EBadValueCast | EUnsupported | EExport | EImport | ENotFound | EBadCategory
| ERange | EType | EArg | EIndex.   (* the Ruby exceptions RangeError, TypeError, ArgumentError, IndexError, raised by the bindings *)

(** Kinds of undefined behaviour (and leaks, which C++ tolerates but the model makes visible). *)
Inductive ubk :=
| UOob        (* access outside of an allocated block *)
| URaw        (* raw access to the bytes of a live container object, or object access to raw bytes *)
| ULeak       (* a live container object is dropped or overwritten without being destroyed *)
| UCode       (* bytecode iterator dereferenced or advanced past end(), or operand of the wrong kind *)
| UDiv0       (* integer division by zero *)
| UOther.

(** Outcome of a C++ function. [Fuel] only says that the model's recursion budget was too small. *)
Inductive res (A : Type) :=
| Ok (a : A)
| Throw (e : exn)
| UB (u : ubk)
| Fuel.
Arguments Ok {A} a.
Arguments Throw {A} e.
Arguments UB {A} u.
Arguments Fuel {A}.

Definition bind {A B} (x : res A) (f : A -> res B) : res B :=
  match x with
  | Ok a => f a
  | Throw e => Throw e
  | UB u => UB u
  | Fuel => Fuel
  end.
Notation "x <- e1 ;; e2" := (bind e1 (fun x => e2)) (at level 100, e1 at next level, right associativity).
Notation "' p <- e1 ;; e2" := (bind e1 (fun p => e2)) (at level 100, p pattern, e1 at next level, right associativity).

(** [size_t] is a 64 bit unsigned integer (memory_layout.hh:39 asserts it has the width of a pointer;
    the model fixes the 64 bit platform). *)
Definition two64 : N := 18446744073709551616%N.
Definition wadd (a b : N) : N := ((a + b) mod two64)%N.
Definition wmul (a b : N) : N := ((a * b) mod two64)%N.
Definition wsub (a b : N) : N := ((a + (two64 - b mod two64)) mod two64)%N.
Arguments two64 : simpl never.
Arguments wadd : simpl never.
Arguments wmul : simpl never.
Arguments wsub : simpl never.

Lemma wsub_small a b : (b <= a)%N -> (a < two64)%N -> wsub a b = (a - b)%N.
Proof.
  unfold wsub; intros. rewrite (N.mod_small b) by lia.
  replace (a + (two64 - b))%N with ((a - b) + 1 * two64)%N by lia.
  rewrite N.mod_add by (unfold two64; lia). apply N.mod_small; lia.
Qed.
Lemma wadd_small a b : (a + b < two64)%N -> wadd a b = (a + b)%N.
Proof. intros; unfold wadd; apply N.mod_small; lia. Qed.
Lemma wmul_small a b : (a * b < two64)%N -> wmul a b = (a * b)%N.
Proof. intros; unfold wmul; apply N.mod_small; lia. Qed.

(** ** Convergence: with enough fuel, the function returns [r] (and keeps returning it). *)
Definition conv {A} (f : nat -> res A) (r : res A) : Prop :=
  exists n, forall m, (n <= m)%nat -> f m = r.

Lemma conv_const {A} (r : res A) : conv (fun _ => r) r.
Proof. exists 0; auto. Qed.

Lemma conv_bind {A B} (f : nat -> res A) (g : nat -> A -> res B) a r :
  conv f (Ok a) -> conv (fun n => g n a) r -> conv (fun n => bind (f n) (g n)) r.
Proof.
  intros [n1 H1] [n2 H2]. exists (Nat.max n1 n2); intros m Hm.
  rewrite H1 by lia. simpl. apply H2; lia.
Qed.

Lemma conv_bind_throw {A B} (f : nat -> res A) (g : nat -> A -> res B) e :
  conv f (Throw e) -> conv (fun n => bind (f n) (g n)) (Throw e).
Proof. intros [n1 H1]; exists n1; intros m Hm; rewrite H1 by lia; reflexivity. Qed.

Lemma conv_bind_ub {A B} (f : nat -> res A) (g : nat -> A -> res B) e :
  conv f (UB e) -> conv (fun n => bind (f n) (g n)) (UB e).
Proof. intros [n1 H1]; exists n1; intros m Hm; rewrite H1 by lia; reflexivity. Qed.

Lemma conv_S {A} (f g : nat -> res A) r :
  (forall m, g (S m) = f m) -> conv f r -> conv g r.
Proof.
  intros Hg [n H]. exists (S n); intros [|m] Hm; [lia|]. rewrite Hg. apply H; lia.
Qed.

Lemma conv_ext {A} (f g : nat -> res A) r :
  (forall m, g m = f m) -> conv f r -> conv g r.
Proof. intros Hg [n H]; exists n; intros; rewrite Hg; auto. Qed.

Lemma conv_fun {A} (f : nat -> res A) r1 r2 : conv f r1 -> conv f r2 -> r1 = r2.
Proof. intros [n1 H1] [n2 H2]. rewrite <- (H1 (n1 + n2)) by lia. apply H2; lia. Qed.

(** The [for (size_t i = 0; i < n; ++i)] loop, with a fuel bound so that huge counts can be evaluated
    up to the first exit. *)
Fixpoint loopN {A} (fuel : nat) (n : N) (step : A -> res A) (a : A) : res A :=
  match fuel with
  | O => Fuel
  | S f => if (n =? 0)%N then Ok a else a' <- step a ;; loopN f (N.pred n) step a'
  end.

(** ** List helpers indexed by [N] *)
Definition lenN {A} (l : list A) : N := N.of_nat (length l).
Definition takeN {A} (n : N) (l : list A) : list A := firstn (N.to_nat n) l.
Definition dropN {A} (n : N) (l : list A) : list A := skipn (N.to_nat n) l.
Definition repN {A} (n : N) (a : A) : list A := repeat a (N.to_nat n).
(** The [n] cells starting at offset [off]. *)
Definition slice {A} (off n : N) (l : list A) : list A := takeN n (dropN off l).

Lemma lenN_app {A} (a b : list A) : lenN (a ++ b) = (lenN a + lenN b)%N.
Proof. unfold lenN; rewrite app_length; lia. Qed.
Lemma lenN_nil {A} : lenN (@nil A) = 0%N. Proof. reflexivity. Qed.
Lemma lenN_cons {A} (x : A) l : lenN (x :: l) = (1 + lenN l)%N.
Proof. unfold lenN; simpl length; lia. Qed.
Lemma lenN_repN {A} n (a : A) : lenN (repN n a) = n.
Proof. unfold lenN, repN; rewrite repeat_length; lia. Qed.
Lemma takeN_app_exact {A} (a b : list A) n : n = lenN a -> takeN n (a ++ b) = a.
Proof.
  intros ->; unfold takeN, lenN. rewrite Nat2N.id.
  rewrite firstn_app, Nat.sub_diag, firstn_all; simpl. apply app_nil_r.
Qed.
Lemma dropN_app_exact {A} (a b : list A) n : n = lenN a -> dropN n (a ++ b) = b.
Proof.
  intros ->; unfold dropN, lenN. rewrite Nat2N.id.
  rewrite skipn_app, Nat.sub_diag, skipn_all; reflexivity.
Qed.
Lemma takeN_dropN {A} n (l : list A) : takeN n l ++ dropN n l = l.
Proof. apply firstn_skipn. Qed.
Lemma takeN_0 {A} (l : list A) : takeN 0 l = []. Proof. reflexivity. Qed.
Lemma dropN_0 {A} (l : list A) : dropN 0 l = l. Proof. reflexivity. Qed.
Lemma lenN_takeN {A} n (l : list A) : lenN (takeN n l) = N.min n (lenN l).
Proof. unfold lenN, takeN; rewrite firstn_length; lia. Qed.
Lemma lenN_dropN {A} n (l : list A) : lenN (dropN n l) = (lenN l - n)%N.
Proof. unfold lenN, dropN; rewrite skipn_length; lia. Qed.
Lemma dropN_dropN {A} a b (l : list A) : dropN a (dropN b l) = dropN (b + a) l.
Proof.
  unfold dropN. rewrite N2Nat.inj_add. generalize (N.to_nat a) (N.to_nat b). intros x y.
  revert l; induction y as [|y IH]; intros l; [reflexivity|].
  destruct l as [|c l]; simpl; [apply skipn_nil|apply IH].
Qed.
Lemma dropN_app_le {A} n (a b : list A) : (n <= lenN a)%N -> dropN n (a ++ b) = dropN n a ++ b.
Proof.
  unfold dropN, lenN; intros. rewrite skipn_app.
  replace (N.to_nat n - length a) with 0 by lia. reflexivity.
Qed.
Lemma dropN_app_ge {A} n (a b : list A) : (lenN a <= n)%N -> dropN n (a ++ b) = dropN (n - lenN a) b.
Proof.
  unfold dropN, lenN; intros. rewrite skipn_app.
  rewrite skipn_all2 by lia. simpl. f_equal. lia.
Qed.
Lemma takeN_app_le {A} n (a b : list A) : (n <= lenN a)%N -> takeN n (a ++ b) = takeN n a.
Proof.
  unfold takeN, lenN; intros. rewrite firstn_app.
  replace (N.to_nat n - length a) with 0 by lia. simpl. apply app_nil_r.
Qed.
Lemma takeN_all {A} n (l : list A) : (lenN l <= n)%N -> takeN n l = l.
Proof. unfold takeN, lenN; intros; apply firstn_all2; lia. Qed.
Lemma dropN_all {A} n (l : list A) : (lenN l <= n)%N -> dropN n l = [].
Proof. unfold dropN, lenN; intros; apply skipn_all2; lia. Qed.
Lemma repN_add {A} a b (x : A) : repN (a + b) x = repN a x ++ repN b x.
Proof. unfold repN. rewrite N2Nat.inj_add. apply repeat_app. Qed.
Lemma repN_0 {A} (x : A) : repN 0 x = []. Proof. reflexivity. Qed.
Lemma slice_app_l {A} off n (a b : list A) : (off + n <= lenN a)%N -> slice off n (a ++ b) = slice off n a.
Proof.
  intros H; unfold slice. rewrite dropN_app_le by lia.
  apply takeN_app_le. rewrite lenN_dropN. lia.
Qed.
Lemma slice_app_r {A} off n (a b : list A) : (lenN a <= off)%N -> slice off n (a ++ b) = slice (off - lenN a) n b.
Proof. intros H; unfold slice. rewrite dropN_app_ge by lia. reflexivity. Qed.
Lemma lenN_slice {A} off n (l : list A) : (off + n <= lenN l)%N -> lenN (slice off n l) = n.
Proof. intros; unfold slice; rewrite lenN_takeN, lenN_dropN; lia. Qed.
Lemma lenN_0_nil {A} (l : list A) : lenN l = 0%N -> l = [].
Proof. destruct l; [reflexivity|unfold lenN; simpl; lia]. Qed.

Lemma F2_length {A C} (R : A -> C -> Prop) l l' : Forall2 R l l' -> length l = length l'.
Proof. induction 1; simpl; congruence. Qed.
Lemma F2_lenN {A C} (R : A -> C -> Prop) l l' : Forall2 R l l' -> lenN l = lenN l'.
Proof. intros H. unfold lenN. rewrite (F2_length H). reflexivity. Qed.
Lemma F2_flip {A C} (R : A -> C -> Prop) l l' : Forall2 R l l' -> Forall2 (fun b a => R a b) l' l.
Proof. induction 1; constructor; auto. Qed.
Lemma F2_impl {A C} (R R' : A -> C -> Prop) l l' : (forall a b, R a b -> R' a b) -> Forall2 R l l' -> Forall2 R' l l'.
Proof. intros H; induction 1; constructor; auto. Qed.
