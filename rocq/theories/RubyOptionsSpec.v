(** * RubyOptionsSpec: what the options given to Registry#import and Registry#export say. *)
From Verif Require Import Base Config.
Local Open Scope nat_scope.

(** The values of an option: an object that is neither an Array nor a Hash, by the text its to_s gives (symbols, strings,
    numbers, true, false, nil); an Array; a Hash. The keys of a Hash are given by their to_s. *)
Inductive rval := Scalar (text : str) | Arr (l : list rval) | Hsh (l : list (str * rval)).
Definition options := list (str * rval).

(** A text that C strings can hold. *)
Definition text (s : str) : Prop := ~ In Ascii.zero s.
(** Options whose values are scalars, lists of scalars, or lists of Hashes of such options. Keys differ as texts. *)
Inductive plain : options -> Prop :=
| plain_intro o : NoDup (map fst o) ->
    (forall k v, In (k, v) o -> text k /\
       ((exists s, v = Scalar s /\ text s) \/
        (exists ss, v = Arr (map Scalar ss) /\ Forall text ss) \/
        (exists os, v = Arr (map Hsh os) /\ Forall plain os))) -> plain o.

(** The texts and the sets of options that the options give for a name. *)
Definition value_of (n : str) (o : options) : option rval := option_map snd (find (fun kv => if list_eq_dec Ascii.ascii_dec (fst kv) n then true else false) o).
Definition value_texts (v : rval) : list str :=
  match v with Scalar s => [s] | Arr l => flat_map (fun x => match x with Scalar s => [s] | _ => [] end) l | Hsh _ => [] end.
Definition value_sets (v : rval) : list options :=
  match v with Arr l => flat_map (fun x => match x with Hsh o => [o] | _ => [] end) l | Hsh o => [o] | Scalar _ => [] end.
Definition texts_given (n : str) (o : options) : list str := match value_of n o with Some v => value_texts v | None => [] end.
Definition sets_given (n : str) (o : options) : list options := match value_of n o with Some v => value_sets v | None => [] end.

(** The configuration object [c], whose children live in [h], says what the options say, at every depth: for every name the
    texts given for it in their order (or the default of the reader if there are none), and as children the given sets
    of options in their order. *)
Inductive says (h : list config) : config -> options -> Prop :=
| says_intro c o :
    (forall n d, get_strings c n d = match texts_given n o with [] => d | l => l end) ->
    (forall n, exists_ c n = true <-> texts_given n o <> [] \/ sets_given n o <> []) ->
    (forall n, Forall2 (fun i sub => exists c', nth_error h i = Some c' /\ says h c' sub) (children c n) (sets_given n o)) ->
    says h c o.
