(** * RubyOptions: from the option Hash of Registry#import and Registry#export to a configuration object
    (bindings/ruby/lib/typelib/registry.rb, bindings/ruby/ext/registry.cc). *)
From Verif Require Import Base Config RubyOptionsSpec.
From Verif Require RubyMeta.
Local Open Scope nat_scope.

(** What format_options gives: Strings and Arrays. *)
Inductive fval := FStr (s : str) | FArr (l : list fval).

Section Format.
(** The text that to_s gives for Arrays and Hashes. *)
Variable inspect : rval -> str.
Definition to_s (v : rval) : str := match v with Scalar s => s | _ => inspect v end.
(** Registry.format_options, registry.rb:130-144: the second element of the entry of a key. The options of a Hash are what is
    put under the key for a value that is a Hash (line 139). Line 134: the children of a list that starts with a Hash have to
    be Hashes. Simplified: any other object among them raises; in Ruby nil counts as an empty Hash there, and an Array is
    read as a list of pairs. *)
Fixpoint format_value (v : rval) : res fval :=
  match v with
  | Scalar s => Ok (FStr s)
  | Hsh o =>
    l <- (fix entries (o : list (str * rval)) : res (list fval) :=
            match o with
            | [] => Ok []
            | (k, x) :: r => y <- format_value x ;; ys <- entries r ;; Ok (FArr [FStr k; y] :: ys)
            end) o ;;
    Ok (FArr l)
  | Arr l =>
    match l with
    | Hsh _ :: _ =>
      ys <- (fix children (l : list rval) : res (list fval) :=
               match l with
               | [] => Ok []
               | x :: r => y <- match x with Hsh _ => format_value x | _ => Throw ENotFound end ;; ys <- children r ;; Ok (y :: ys)
               end) l ;;
      Ok (FArr ys)
    | _ => Ok (FArr (map (fun x => FStr (to_s x)) l))
    end
  end.
Definition format_options (o : options) : res fval := format_value (Hsh o).
End Format.

(** StringValuePtr: TypeError for objects that are not Strings; a C string ends at the first NUL. *)
Definition c_string (v : fval) : res str := match v with FStr s => Ok (RubyMeta.c_str s) | FArr _ => Throw EType end.
(** registry.cc:223-227 *)
Fixpoint insert_values (k : fval) (vs : list fval) (c : config) : res config :=
  match vs with
  | [] => Ok c
  | v :: r => n <- c_string k ;; s <- c_string v ;; insert_values k r (insert c n s)
  end.
(** setup_configset_from_option_array, registry.cc:199-236. The configuration objects created with new live in a heap and are
    known by their index; a child is filled before it is attached to its parent. RARRAY_LEN and RARRAY_PTR of an object that
    is not an Array, and elements behind the end of an Array, are undefined behaviour. The case of true and false
    (lines 231-232) is left out: format_options gives Strings for them. *)
Fixpoint setup (o : fval) (h : list config) (c : config) {struct o} : res (list config * config) :=
  match o with
  | FStr _ => UB UOob
  | FArr l =>
    (fix entries (l : list fval) (h : list config) (c : config) {struct l} : res (list config * config) :=
       match l with
       | [] => Ok (h, c)
       | e :: r =>
         x <- match e with
              | FArr (k :: v :: _) =>
                match v with
                | FArr vs =>
                  match vs with
                  | FArr _ :: _ =>
                    (fix subs (vs : list fval) (h : list config) (c : config) {struct vs} : res (list config * config) :=
                       match vs with
                       | [] => Ok (h, c)
                       | w :: ws =>
                         y <- setup w h config0 ;;
                         n <- c_string k ;;
                         subs ws (fst y ++ [snd y]) (insert_child c n (length (fst y)))
                       end) vs h c
                  | _ => c' <- insert_values k vs c ;; Ok (h, c')
                  end
                | FStr _ => n <- c_string k ;; s <- c_string v ;; Ok (h, set_ c n s)
                end
              | _ => UB UOob
              end ;;
         entries r (fst x) (snd x)
       end) l h c
  end.
(** registry_import and registry_export, registry.cc:243-291, with Registry#import and Registry#export (registry.rb:221-231, 278-281):
    the configuration object that the plugin is called with, and the heap of its children. *)
Definition configuration (inspect : rval -> str) (o : options) : res (list config * config) :=
  f <- format_options inspect o ;; setup f [] config0.
