(** Declaration maps, the table of built-in types and contexts, as objects in a
    heap.  Model of /repo/ast/astcore/decl_map.go, /repo/ast/type_embedded.go,
    /repo/ast/unit.go, /repo/ast/uses_clause.go and /repo/parser/pcontext/*.go. *)
From Coq Require Import String List NArith Bool Arith.
From Verif Require Import Runes Token Ast Ext.
Import ListNotations.
Local Open Scope list_scope.

(** A [DeclMap].  The structs are never changed after they are built, so they are
    values; the Go maps at their leaves are objects, given by their addresses.
    ast/astcore/decl_map.go:15, 50-53, 76-78; ast/type_embedded.go:144-145.
    [DNil] is the nil interface. *)
Inductive dmap :=
| DImpl (a : nat)
| DChained (parent : dmap) (a : nat)
| DComposite (ms : list dmap)
| DEmbedded
| DNil.

(** A Go [map[string]*Decl]: keys are distinct (kept so by [mput]); a key may be
    bound to nil. *)
Definition mapobj := list (gostring * option dref).

(** Contexts.  parser/pcontext/program_context.go:9-13, unit_context.go:9-13,
    stackable_context.go:7-11.  [cx_path] is nil only in a stackable context. *)
Inductive ckind := KProgram (units : list nat) | KUnit (parent : nat) | KStack (parent : nat).
Record ctxobj := mkCtx { cx_kind : ckind; cx_path : option gostring; cx_map : dmap }.

(** ast/unit.go:16-27 *)
Record unitobj := mkUnit {
  un_path : gostring; un_ident : ident; un_port : option gostring;
  un_intf : option intfsection; un_impl : option implsection; un_init : option initsection;
  un_map : dmap }.
(** ast/program.go:13-20 *)
Record progobj := mkProg {
  pr_path : gostring; pr_ident : ident; pr_block : option programblock; pr_map : dmap }.

(** All objects.  [h_refs] are the fields [Ref] of type identifiers, [h_fwds] the
    fields [Actual] of forward-declared classes. *)
Record heap := mkHeap {
  h_maps : list mapobj; h_decls : list decl; h_refs : list (option dref);
  h_fwds : list (option typ); h_uses : list usesitem; h_units : list unitobj;
  h_progs : list progobj; h_ctxs : list ctxobj }.
Definition heap0 : heap := mkHeap [] [] [] [] [] [] [] [].

Definition with_maps v h := mkHeap v (h_decls h) (h_refs h) (h_fwds h) (h_uses h) (h_units h) (h_progs h) (h_ctxs h).
Definition with_decls v h := mkHeap (h_maps h) v (h_refs h) (h_fwds h) (h_uses h) (h_units h) (h_progs h) (h_ctxs h).
Definition with_refs v h := mkHeap (h_maps h) (h_decls h) v (h_fwds h) (h_uses h) (h_units h) (h_progs h) (h_ctxs h).
Definition with_fwds v h := mkHeap (h_maps h) (h_decls h) (h_refs h) v (h_uses h) (h_units h) (h_progs h) (h_ctxs h).
Definition with_uses v h := mkHeap (h_maps h) (h_decls h) (h_refs h) (h_fwds h) v (h_units h) (h_progs h) (h_ctxs h).
Definition with_units v h := mkHeap (h_maps h) (h_decls h) (h_refs h) (h_fwds h) (h_uses h) v (h_progs h) (h_ctxs h).
Definition with_progs v h := mkHeap (h_maps h) (h_decls h) (h_refs h) (h_fwds h) (h_uses h) (h_units h) v (h_ctxs h).
Definition with_ctxs v h := mkHeap (h_maps h) (h_decls h) (h_refs h) (h_fwds h) (h_uses h) (h_units h) (h_progs h) v.

(** Indexing a Go map and assigning to it. *)
Fixpoint mget (k : gostring) (m : mapobj) : option (option dref) :=
  match m with
  | [] => None
  | (k', v) :: m' => if runes_equal k k' then Some v else mget k m'
  end.
Fixpoint mput (k : gostring) (v : option dref) (m : mapobj) : mapobj :=
  match m with
  | [] => [(k, v)]
  | (k', v') :: m' => if runes_equal k k' then (k', v) :: m' else (k', v') :: mput k v m'
  end.

Section WithUnicode.
Context {U : Unicode}.

(** ast/type_embedded.go:108-142: the built-in types, in the order declared. *)
Definition embedded : list (ekind * gostring) :=
  map (fun n => (EtkReal, rs n)) ["Real48"; "Real"; "Single"; "Double"; "Extended"; "Currency"; "Comp"]%string ++
  map (fun n => (EtkOrdIdent, rs n)) ["Integer"; "Cardinal"; "ShortInt"; "SmallInt"; "LongInt"; "Int64";
    "Byte"; "Word"; "LongWord"; "Char"; "AnsiChar"; "WideChar"; "Boolean"]%string ++
  map (fun n => (EtkStringType, rs n)) ["String"; "AnsiString"; "WideString"]%string ++
  map (fun n => (EtkPointerType, rs n)) ["Pointer"; "PChar"; "PAnsiChar"; "PWideChar"]%string ++
  map (fun n => (EtkVariantType, rs n)) ["Variant"; "OleVariant"]%string.

(** ast/type_embedded.go:42-50, 94-102.  The location is not nil but has nil positions
    (here zeros). *)
Definition embedded_decl (k : ekind) (name : gostring) : decl :=
  let i := mkIdent name (Some (mkPos 0 0 0, mkPos 0 0 0)) in mkDecl i (NType (TEmbedded k i)).

(** Index of the first element from [i] on that passes. *)
Fixpoint find_index {A} (f : A -> bool) (i : nat) (l : list A) : option nat :=
  match l with
  | [] => None
  | x :: l' => if f x then Some i else find_index f (S i) l'
  end.
(** ast/type_embedded.go:147-149.  (The names differ in upper case, so first and last
    assignment to the Go map do not matter.) *)
Definition embedded_get (name : gostring) : option dref :=
  option_map Emb (find_index (fun e => runes_equal (to_upper (snd e)) (to_upper name)) 0 embedded).
(** ast/type_embedded.go:104-106 *)
Definition embedded_type_decl (k : ekind) (name : gostring) : option dref :=
  option_map Emb
    (find_index (fun e => ekind_eqb (fst e) k && runes_equal (to_upper (snd e)) (to_upper name)) 0 embedded).

(** The object behind a [*Decl]. *)
Definition deref (h : heap) (d : dref) : option decl :=
  match d with
  | Emb i => option_map (fun e => embedded_decl (fst e) (snd e)) (nth_error embedded i)
  | Ptr a => nth_error (h_decls h) a
  end.

(** Result of [Get]: nil, a declaration, or a panic (a method of a nil map). *)
Inductive lookup := LNil | LFound (d : dref) | LPanic.

(** ast/astcore/decl_map.go:46-48 *)
Definition regularize (name : gostring) : gostring := to_lower name.
(** ast/astcore/decl_map.go:42-44; an address without object does not occur *)
Definition impl_get (h : heap) (a : nat) (name : gostring) : lookup :=
  match nth_error (h_maps h) a with
  | None => LPanic
  | Some m => match mget (regularize name) m with Some (Some d) => LFound d | _ => LNil end
  end.
(** ast/astcore/decl_map.go:42-44, 61-66, 86-93; ast/type_embedded.go:147-149 *)
Fixpoint dget (h : heap) (m : dmap) (name : gostring) : lookup :=
  match m with
  | DImpl a => impl_get h a name
  | DChained p a =>
      match impl_get h a name with
      | LNil => dget h p name
      | r => r
      end
  | DComposite ms =>
      (fix first (ms : list dmap) : lookup :=
         match ms with
         | [] => LNil
         | m :: ms' => match dget h m name with LNil => first ms' | r => r end
         end) ms
  | DEmbedded => match embedded_get name with Some d => LFound d | None => LNil end
  | DNil => LPanic
  end.

(** Result of [Set]: done, an error ([SErr] keeps the state, because what was set
    before the error stays set), or a panic. *)
Inductive sresult := SOk (h : heap) | SErr (h : heap) (i : ident) | SPanic.

(** ast/astcore/decl_map.go:27-40, the loop.  [ds] are the declarations made by
    [ToDeclarations], already allocated: identifier and address. *)
Fixpoint impl_set (h : heap) (a : nat) (ds : list (ident * dref)) : sresult :=
  match ds with
  | [] => SOk h
  | (i, d) :: ds' =>
      match nth_error (h_maps h) a with
      | None => SPanic
      | Some m =>
          let s := regularize (i_name i) in
          match mget s m with
          | Some (Some old) =>
              (* the message prints both locations, which must not be nil *)
              match i_loc i, option_map (fun o => i_loc (d_ident o)) (deref h old) with
              | Some _, Some (Some _) => SErr h i
              | _, _ => SPanic
              end
          | Some None => SPanic      (* old.Location of a nil old *)
          | None => impl_set (with_maps (set_nth a (mput s (Some d) m) (h_maps h)) h) a ds'
          end
      end
  end.
(** ast/astcore/decl_map.go:27, 68-70, 95-97; ast/type_embedded.go:151-153 (always an
    error, here with a made-up identifier). *)
Fixpoint dset (h : heap) (m : dmap) (ds : list (ident * dref)) : sresult :=
  match m with
  | DImpl a | DChained _ a => impl_set h a ds
  | DComposite [] => SPanic
  | DComposite (m :: _) => dset h m ds
  | DEmbedded => SErr h (mkIdent [] None)
  | DNil => SPanic
  end.
(** ast/astcore/decl.go:10-22: the objects made by a [ToDeclarations]: one [Decl] per
    identifier, all with the same node. *)
Definition alloc_decls (h : heap) (ds : list decl) : heap * list (ident * dref) :=
  let n := length (h_decls h) in
  (with_decls (h_decls h ++ ds) h,
   combine (map d_ident ds) (map Ptr (seq n (length ds)))).
(** [Set] on a node whose [ToDeclarations] gives [ds] *)
Definition map_set (h : heap) (m : dmap) (ds : list decl) : sresult :=
  let '(h1, l) := alloc_decls h ds in dset h1 m l.

(** ast/astcore/decl_map.go:23-25, 72-74, 99-101; ast/type_embedded.go:155-156.  [None]
    is a panic. *)
Definition impl_overwrite (h : heap) (a : nat) (name : gostring) (d : option dref) : option heap :=
  match nth_error (h_maps h) a with
  | None => None
  | Some m => Some (with_maps (set_nth a (mput (regularize name) d m) (h_maps h)) h)
  end.
Fixpoint doverwrite (h : heap) (m : dmap) (name : gostring) (d : option dref) : option heap :=
  match m with
  | DImpl a | DChained _ a => impl_overwrite h a name d
  | DComposite [] => None
  | DComposite (m :: _) => doverwrite h m name d
  | DEmbedded => Some h
  | DNil => None
  end.

(** ast/astcore/decl_map.go:19-21 *)
Definition new_map (h : heap) : heap * nat := (with_maps (h_maps h ++ [[]]) h, length (h_maps h)).
(** ast/astcore/decl_map.go:57-59 *)
Definition new_chained (h : heap) (parent : dmap) : heap * dmap :=
  let '(h1, a) := new_map h in (h1, DChained parent a).
(** ast/astcore/decl_map.go:105-111 *)
Definition maps_reverse (l : list dmap) : list dmap :=
  reverse_from (length l) 0 l (repeat DNil (length l)).

(** parser/pcontext/program_context.go:17-44, with the path and nothing else *)
Definition new_program_context (h : heap) (path : gostring) : heap * nat :=
  let '(h1, m) := new_chained h DEmbedded in
  (with_ctxs (h_ctxs h1 ++ [mkCtx (KProgram []) (Some path) m]) h1, length (h_ctxs h1)).
(** parser/pcontext/unit_context.go:17-38, with a parent and a path *)
Definition new_unit_context (h : heap) (parent : nat) (path : gostring) : heap * nat :=
  let '(h1, m) := new_chained h DEmbedded in
  (with_ctxs (h_ctxs h1 ++ [mkCtx (KUnit parent) (Some path) m]) h1, length (h_ctxs h1)).
(** parser/pcontext/stackable_context.go:15-20 *)
Definition new_stackable_context (h : heap) (parent : nat) : heap * nat :=
  let '(h1, a) := new_map h in
  (with_ctxs (h_ctxs h1 ++ [mkCtx (KStack parent) None (DImpl a)]) h1, length (h_ctxs h1)).

(** parser/pcontext/program_context.go:46-52, unit_context.go:40-46,
    stackable_context.go:22-26: the clone shares the declaration map; that of a
    stackable context is a program context without path. *)
Definition ctx_clone (h : heap) (c : nat) : option (heap * nat) :=
  match nth_error (h_ctxs h) c with
  | None => None
  | Some o =>
      let o' := match cx_kind o with
                | KStack _ => mkCtx (KProgram []) (Some []) (cx_map o)
                | _ => o
                end in
      Some (with_ctxs (h_ctxs h ++ [o']) h, length (h_ctxs h))
  end.

(** Get of a context.  program_context.go:12 and unit_context.go:12 (embedded map);
    stackable_context.go:28-33.  [fuel] is above the address: a parent is older
    than its child. *)
Fixpoint ctx_get_fuel (fuel : nat) (h : heap) (c : nat) (name : gostring) : lookup :=
  match fuel with
  | O => LPanic
  | S f =>
      match nth_error (h_ctxs h) c with
      | None => LPanic
      | Some o =>
          match cx_kind o with
          | KStack p =>
              match dget h (cx_map o) name with
              | LNil => ctx_get_fuel f h p name
              | r => r
              end
          | _ => dget h (cx_map o) name
          end
      end
  end.
Definition ctx_get (h : heap) (c : nat) (name : gostring) : lookup := ctx_get_fuel (S c) h c name.

(** program_context.go:54-56, unit_context.go:68-70, stackable_context.go:43-48 *)
Fixpoint ctx_path_fuel (fuel : nat) (h : heap) (c : nat) : option gostring :=
  match fuel with
  | O => None
  | S f =>
      match nth_error (h_ctxs h) c with
      | None => None
      | Some o =>
          match cx_path o, cx_kind o with
          | Some p, _ => Some p
          | None, KStack parent => ctx_path_fuel f h parent
          | None, _ => None
          end
      end
  end.
Definition ctx_path (h : heap) (c : nat) : option gostring := ctx_path_fuel (S c) h c.

(** stackable_context.go:35-41 and the embedded maps *)
Definition ctx_set (h : heap) (c : nat) (ds : list decl) : sresult :=
  match nth_error (h_ctxs h) c with
  | None => SPanic
  | Some o => map_set h (cx_map o) ds
  end.
Definition ctx_overwrite (h : heap) (c : nat) (name : gostring) (d : option dref) : option heap :=
  match nth_error (h_ctxs h) c with
  | None => None
  | Some o => doverwrite h (cx_map o) name d
  end.

Definition ctx_put_map (h : heap) (c : nat) (m : dmap) : heap :=
  match nth_error (h_ctxs h) c with
  | None => h
  | Some o => with_ctxs (set_nth c (mkCtx (cx_kind o) (cx_path o) m) (h_ctxs h)) h
  end.
(** program_context.go:62-68, unit_context.go:72-78, stackable_context.go:50-56:
    the new state and the map that the returned function puts back. *)
Definition ctx_stack (h : heap) (c : nat) : option (heap * dmap) :=
  match nth_error (h_ctxs h) c with
  | None => None
  | Some o =>
      let '(h1, m) := new_chained h (cx_map o) in
      Some (ctx_put_map h1 c m, cx_map o)
  end.
(** The returned function: program_context.go:65-67 etc. *)
Definition ctx_restore (h : heap) (c : nat) (backup : dmap) : heap := ctx_put_map h c backup.

(** program_context.go:58-60 *)
Definition add_unit (h : heap) (c : nat) (u : nat) : heap :=
  match nth_error (h_ctxs h) c with
  | Some (mkCtx (KProgram us) p m) =>
      with_ctxs (set_nth c (mkCtx (KProgram (us ++ [u])) p m) (h_ctxs h)) h
  | _ => h
  end.

(** First element whose name equals [name] in lower case, over any list:
    ast/unit.go:62-70, ast/uses_clause.go:40-48, ast/astcore/ident.go:131-141,
    ast/astcore/decl.go:24-32 *)
Fixpoint find_name {A} (nm : A -> gostring) (l : list A) (name : gostring) : option A :=
  match l with
  | [] => None
  | x :: l' => if runes_equal (to_lower (nm x)) (to_lower name) then Some x else find_name nm l' name
  end.
Definition units_by_name (us : list unitobj) (name : gostring) : option unitobj :=
  find_name (fun u => i_name (un_ident u)) us name.
Definition uses_find (us : list usesitem) (name : gostring) : option usesitem :=
  find_name (fun u => i_name (u_ident u)) us name.
Definition ident_list_find (l : list ident) (name : gostring) : option ident := find_name i_name l name.
Definition decls_find (l : list decl) (name : gostring) : option decl :=
  find_name (fun d => i_name (d_ident d)) l name.
(** ast/unit.go:80-88, the loop *)
Fixpoint compact_acc {A} (l : list (option A)) (r : list A) : list A :=
  match l with
  | [] => r
  | Some x :: l' => compact_acc l' (r ++ [x])
  | None :: l' => compact_acc l' r
  end.
Definition compact {A} (l : list (option A)) : list A := compact_acc l [].

(** The same on addresses. *)
Definition unit_name (h : heap) (u : nat) : gostring :=
  match nth_error (h_units h) u with Some o => i_name (un_ident o) | None => [] end.
Definition uses_name (h : heap) (a : nat) : gostring :=
  match nth_error (h_uses h) a with Some o => i_name (u_ident o) | None => [] end.
(** ast/uses_clause.go:50-56 *)
Definition uses_units (h : heap) (us : list nat) : list (option nat) :=
  map (fun a => match nth_error (h_uses h) a with Some o => u_unit o | None => None end) us.
(** ast/unit.go:72-78 *)
Definition units_maps (h : heap) (us : list nat) : list dmap :=
  map (fun u => match nth_error (h_units h) u with Some o => un_map o | None => DNil end) us.

Definition uses_put_unit (h : heap) (a : nat) (u : nat) : heap :=
  match nth_error (h_uses h) a with
  | None => h
  | Some o => with_uses (set_nth a (mkUses (u_ident o) (u_path o) (Some u)) (h_uses h)) h
  end.
(** parser/pcontext/unit_context.go:59-66; [units] are those of the parent *)
Fixpoint assign_units_loop (h : heap) (units : list nat) (us : list nat) : heap :=
  match us with
  | [] => h
  | a :: us' =>
      let h1 := match find_name (unit_name h) units (uses_name h a) with
                | Some u => uses_put_unit h a u
                | None => h
                end in
      assign_units_loop h1 units us'
  end.
(** The units of the parent of a unit context; [None] is a panic. *)
Definition parent_units (h : heap) (c : nat) : option (list nat) :=
  match nth_error (h_ctxs h) c with
  | Some (mkCtx (KUnit p) _ _) =>
      match nth_error (h_ctxs h) p with
      | Some (mkCtx (KProgram us) _ _) => Some us
      | _ => None
      end
  | _ => None
  end.
Definition assign_units (h : heap) (c : nat) (us : list nat) : option heap :=
  option_map (fun units => assign_units_loop h units us) (parent_units h c).
(** parser/pcontext/unit_context.go:48-57 *)
Definition import_unit_decls (h : heap) (c : nat) (us : list nat) : option heap :=
  match assign_units h c us with
  | None => None
  | Some h1 =>
      let units := compact (uses_units h1 us) in
      let '(h2, local) := new_map h1 in
      match nth_error (h_ctxs h2) c with
      | None => None
      | Some o =>
          Some (ctx_put_map h2 c
                  (DComposite (DImpl local :: maps_reverse (units_maps h2 units) ++ [cx_map o])))
      end
  end.

(** ast/uses_clause.go:94-99, with Go's TrimPrefix and TrimSuffix of one quote *)
Definition trim_prefix_quote (s : gostring) : gostring :=
  match s with (39%N) :: s' => s' | _ => s end.
Definition trim_suffix_quote (s : gostring) : gostring :=
  match rev s with (39%N) :: s' => rev s' | _ => s end.
Definition unquoted_path (o : usesitem) : gostring :=
  match u_path o with
  | None => []
  | Some p => trim_suffix_quote (trim_prefix_quote p)
  end.
(** ast/uses_clause.go:101-104; [sep] is [filepath.Separator] *)
Definition effective_path (sep : rune) (o : usesitem) : gostring :=
  map (fun r => if (r =? 92)%N then sep else r) (unquoted_path o).

End WithUnicode.
