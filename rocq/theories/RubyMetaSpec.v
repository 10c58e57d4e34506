(** * RubyMetaSpec: MetaData objects as Ruby sees them (specification side) *)
From Verif Require Import Base.

(** Arguments: a String (its bytes), or an object that is not one. *)
Inductive rarg := RStr (s : str) | RNot.
Inductive mcall := MAdd (k : rarg) (vs : list rarg) | MSet (k : rarg) (vs : list rarg) | MClear (l : list rarg).
(** What a MetaData object should be: some keys, each with a set of texts. *)
Record mstate := MState { ms_key : str -> Prop; ms_val : str -> str -> Prop }.
Definition ms_empty : mstate := MState (fun _ => False) (fun _ _ => False).
Fixpoint texts (l : list rarg) : option (list str) :=
  match l with
  | [] => Some []
  | RStr s :: r => match texts r with Some t => Some (s :: t) | None => None end
  | RNot :: _ => None
  end.
(** What a call should do; None: it raises and changes nothing. *)
Definition should (c : mcall) (m : mstate) : option mstate :=
  match c with
  | MAdd (RStr k) vs => match texts vs with Some l => Some (MState (fun x => x = k \/ ms_key m x) (fun x v => (x = k /\ In v l) \/ ms_val m x v)) | None => None end
  | MSet (RStr k) vs => match texts vs with Some l => Some (MState (fun x => x = k \/ ms_key m x) (fun x v => (x = k /\ In v l) \/ (x <> k /\ ms_val m x v))) | None => None end
  | MClear [] => Some ms_empty
  | MClear [RStr k] => Some (MState (fun x => x <> k /\ ms_key m x) (fun x v => x <> k /\ ms_val m x v))
  | MAdd RNot _ | MSet RNot _ | MClear _ => None
  end.
Fixpoint should_all (h : list mcall) (m : mstate) : mstate :=
  match h with [] => m | c :: r => should_all r (match should c m with Some m' => m' | None => m end) end.
(** A text that C can hold. *)
Definition no_nul (a : rarg) : Prop := match a with RStr s => ~ In Ascii.zero s | RNot => True end.
Definition arg_list (c : mcall) : list rarg := match c with MAdd k vs | MSet k vs => k :: vs | MClear l => l end.
