(** * PluginsSpec: what a user expects of the plugin manager. *)
From Verif Require Import Base Plugins.
Local Open Scope nat_scope.

(** The components of a path: the strings without a colon that, joined with colons, give it. *)
Fixpoint join (l : list str) : str :=
  match l with [] => [] | [a] => a | a :: r => a ++ s_ ":" ++ join r end.
Definition components (s : str) (l : list str) : Prop := l <> [] /\ join l = s /\ Forall (fun d => ~ In ":"%char d) l.

(** The libraries of a directory: the files named *.so or *.dylib. *)
Definition named_library (p : str) : Prop := exists a, p = a ++ s_ ".so" \/ p = a ++ s_ ".dylib".
Definition listing (M : machine) (d : str) : list str := match dir M d with Some l => l | None => [] end.
Definition entry_point (M : machine) (p : str) : list registration := match lib M p with Some l => l | None => [] end.
(** [sub P l k]: k is l restricted to the elements that satisfy P. *)
Inductive restricted {A} (P : A -> Prop) : list A -> list A -> Prop :=
| restricted_nil : restricted P [] []
| restricted_in x l k : P x -> restricted P l k -> restricted P (x :: l) (x :: k)
| restricted_out x l k : ~ P x -> restricted P l k -> restricted P (x :: l) k.

(** The object registered first under a name, in a history of registrations. *)
Definition first_under (reg : str -> nat -> registration) (xs : list registration) (n : str) (o : nat) : Prop :=
  exists a b, xs = a ++ reg n o :: b /\ forall o', ~ In (reg n o') a.
Definition none_under (reg : str -> nat -> registration) (xs : list registration) (n : str) : Prop := forall o, ~ In (reg n o) xs.
Definition object (x : registration) : nat := match x with RegExporter _ o | RegImporter _ o | RegDefinition o => o end.
(** The registrations that are taken into account: the definition plugins, and the first ones under their name. *)
Inductive accepted : list registration -> list registration -> Prop :=
| accepted_nil : accepted [] []
| accepted_def xs ys o : accepted xs ys -> accepted (xs ++ [RegDefinition o]) (ys ++ [RegDefinition o])
| accepted_exp xs ys n o : accepted xs ys -> none_under RegExporter xs n -> accepted (xs ++ [RegExporter n o]) (ys ++ [RegExporter n o])
| accepted_imp xs ys n o : accepted xs ys -> none_under RegImporter xs n -> accepted (xs ++ [RegImporter n o]) (ys ++ [RegImporter n o])
| refused_exp xs ys n o o' : accepted xs ys -> In (RegExporter n o') xs -> accepted (xs ++ [RegExporter n o]) ys
| refused_imp xs ys n o o' : accepted xs ys -> In (RegImporter n o') xs -> accepted (xs ++ [RegImporter n o]) ys.
