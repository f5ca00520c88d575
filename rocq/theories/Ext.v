(** String sets, string lists and the replaceable logger.
    Model of /repo/ext/{strings,string_set}.go and /repo/log/base.go. *)
From Coq Require Import List NArith Bool Arith.
From Verif Require Import Runes Token.
Import ListNotations.

(** ext/string_set.go:3.  A Go [map[string]bool] as the list of its keys; only
    [true] is ever stored.  The order of the list stands for the order of
    iteration, which Go leaves open: what depends on it takes the order as an
    argument. *)
Definition string_set := list gostring.

(** ext/string_set.go:38-41 *)
Definition ss_include (m : string_set) (s : gostring) : bool := str_in s m.
(** ext/string_set.go:27-29 *)
Definition ss_add (s : gostring) (m : string_set) : string_set :=
  if ss_include m s then m else s :: m.
(** ext/string_set.go:31-33 *)
Definition ss_remove (s : gostring) (m : string_set) : string_set :=
  filter (fun x => negb (runes_equal s x)) m.
(** ext/string_set.go:19-25 *)
Fixpoint ss_add_all (l : list gostring) (m : string_set) : string_set :=
  match l with [] => m | x :: l' => ss_add_all l' (ss_add x m) end.
Definition new_string_set (l : list gostring) : string_set := ss_add_all l [].
(** ext/string_set.go:43-51.  [order] is the order in which the keys come. *)
Definition ss_slice (order : string_set -> list gostring) (m : string_set) : list gostring :=
  order m.
(** ext/string_set.go:53-63 *)
Definition ss_equal (m other : string_set) : bool :=
  if negb (length m =? length other) then false
  else forallb (fun k => ss_include other k) m.

(** ext/strings.go: [Strings] is [list gostring]. *)
(** ext/strings.go:28-30 *)
Definition strs_set (s : list gostring) : string_set := new_string_set s.

(** Order of Go strings.  Go compares bytes; on valid UTF-8 that is the order of
    the runes. *)
Fixpoint str_leb (a b : gostring) : bool :=
  match a, b with
  | [], _ => true
  | _ :: _, [] => false
  | x :: a', y :: b' => if (x <? y)%N then true else if (y <? x)%N then false else str_leb a' b'
  end.
(** ext/strings.go:32-35.  [sort.Strings] is Go's; insertion sort here
    (its result is the only sorted permutation: [sort_unique]). *)
Fixpoint str_insert (x : gostring) (l : list gostring) : list gostring :=
  match l with
  | [] => [x]
  | y :: l' => if str_leb x y then x :: l else y :: str_insert x l'
  end.
Fixpoint strs_sort (l : list gostring) : list gostring :=
  match l with [] => [] | x :: l' => str_insert x (strs_sort l') end.

(** ext/strings.go:37-47 *)
Fixpoint strs_equal_loop (s other : list gostring) : bool :=
  match s, other with
  | v :: s', w :: o' => if negb (runes_equal v w) then false else strs_equal_loop s' o'
  | _, _ => true
  end.
Definition strs_equal (s other : list gostring) : bool :=
  if negb (length s =? length other) then false else strs_equal_loop s other.

(** ext/strings.go:49-56 *)
Fixpoint strs_include (s : list gostring) (v : gostring) : bool :=
  match s with
  | [] => false
  | i :: s' => if runes_equal i v then true else strs_include s' v
  end.

(** ext/strings.go:58-66 *)
Fixpoint strs_select_acc (f : gostring -> bool) (s r : list gostring) : list gostring :=
  match s with
  | [] => r
  | i :: s' => strs_select_acc f s' (if f i then r ++ [i] else r)
  end.
Definition strs_select (f : gostring -> bool) (s : list gostring) : list gostring :=
  strs_select_acc f s [].

(** ext/strings.go:76-81 *)
Definition strs_exclude (s vals : list gostring) : list gostring :=
  strs_select (fun i => negb (strs_include vals i)) s.

(** ext/strings.go:83-85, Go's [strings.Join] *)
Fixpoint strs_join (s : list gostring) (d : gostring) : gostring :=
  match s with
  | [] => []
  | [x] => x
  | x :: s' => x ++ d ++ strs_join s' d
  end.

(** [r[i] = v] on a slice *)
Fixpoint set_nth {A} (n : nat) (v : A) (l : list A) : list A :=
  match l, n with
  | [], _ => []
  | _ :: l', O => v :: l'
  | x :: l', S n' => x :: set_nth n' v l'
  end.

(** ext/strings.go:87-93 *)
Fixpoint strs_map_from (f : gostring -> gostring) (i : nat) (s r : list gostring) : list gostring :=
  match s with
  | [] => r
  | v :: s' => strs_map_from f (S i) s' (set_nth i (f v) r)
  end.
Definition strs_map (f : gostring -> gostring) (s : list gostring) : list gostring :=
  strs_map_from f 0 s (repeat [] (length s)).
(** ext/strings.go:95-97 *)
Definition strs_to_upper `{Unicode} (s : list gostring) : list gostring := strs_map to_upper s.

(** ext/strings.go:99-105 and, for [DeclMaps], ast/astcore/decl_map.go:105-111:
    the loop of [Reverse]; [n] is [len(s)], [i] the index. *)
Fixpoint reverse_from {A} (n i : nat) (s r : list A) : list A :=
  match s with
  | [] => r
  | v :: s' => reverse_from n (S i) s' (set_nth (n - i - 1) v r)
  end.
Definition strs_reverse (s : list gostring) : list gostring :=
  reverse_from (length s) 0 s (repeat [] (length s)).

(** Arguments of the variadic constructors: what their type switches tell apart. *)
Inductive ext_arg :=
| AString (s : gostring)
| AStrings (l : list gostring)   (* []string or Strings *)
| ASet (m : string_set)
| AOther (id : nat).
(** ext/strings.go:10-26 *)
Fixpoint extract_strings_acc (args : list ext_arg) (a : list gostring) (b : list ext_arg) :=
  match args with
  | [] => (a, b)
  | AString s :: r => extract_strings_acc r (a ++ [s]) b
  | AStrings l :: r => extract_strings_acc r (a ++ l) b
  | x :: r => extract_strings_acc r a (b ++ [x])
  end.
Definition extract_strings (args : list ext_arg) := extract_strings_acc args [] [].
(** ext/string_set.go:5-17 *)
Fixpoint extract_sets_acc (args : list ext_arg) (a : list string_set) (b : list ext_arg) :=
  match args with
  | [] => (a, b)
  | ASet m :: r => extract_sets_acc r (a ++ [m]) b
  | x :: r => extract_sets_acc r a (b ++ [x])
  end.
Definition extract_string_sets (args : list ext_arg) := extract_sets_acc args [] [].

(** log/base.go:12.  The package variable [logger]; loggers are numbered. *)
Definition log_state := nat.
(** log/base.go:14-18: the new state and the logger the returned function puts
    back. *)
Definition set_logger (new : nat) (l : log_state) : log_state * nat := (new, l).
(** log/base.go:17, the returned function *)
Definition restore_logger (backup : nat) (_ : log_state) : log_state := backup.
(** log/base.go:20-22: the logger that a message goes to *)
Definition log_printf (l : log_state) : nat := l.
