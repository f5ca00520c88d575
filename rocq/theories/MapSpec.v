(** What declaration maps and contexts should do, said without the model: a log of
    bindings made, read from the newest; scopes as blocks; who sees what. *)
From Coq Require Import String List NArith Bool Arith.
From Verif Require Import Runes Token Ast Heap.
Import ListNotations.

Section WithUnicode.
Context {U : Unicode}.

(** Equal up to letter case. *)
Definition same_name (a b : gostring) : Prop := to_lower a = to_lower b.
Definition same_nameb (a b : gostring) : bool := runes_equal (to_lower a) (to_lower b).

(** A log of bindings, newest first. *)
Definition log := list (gostring * option dref).
Fixpoint latest (l : log) (name : gostring) : option (option dref) :=
  match l with
  | [] => None
  | (n, d) :: l' => if same_nameb n name then Some d else latest l' name
  end.

(** A call on a map; its answer; several calls.  [None] is a panic. *)
Inductive call := CSet (ds : list (ident * dref)) | COverwrite (name : gostring) (d : option dref).
Inductive answer := AOk | ARefused.
Definition do_call (h : heap) (m : dmap) (c : call) : option (heap * answer) :=
  match c with
  | CSet ds => match dset h m ds with
               | SOk h' => Some (h', AOk)
               | SErr h' _ => Some (h', ARefused)
               | SPanic => None
               end
  | COverwrite name d => option_map (fun h' => (h', AOk)) (doverwrite h m name d)
  end.
Fixpoint do_calls (h : heap) (m : dmap) (cs : list call) : option (heap * list answer) :=
  match cs with
  | [] => Some (h, [])
  | c :: cs' =>
      match do_call h m c with
      | None => None
      | Some (h', a) => option_map (fun '(h'', l) => (h'', a :: l)) (do_calls h' m cs')
      end
  end.

(** What the log says should happen: Set binds its names in order until one is
    taken; Overwrite always binds. *)
Fixpoint log_set (l : log) (ds : list (ident * dref)) : log * answer :=
  match ds with
  | [] => (l, AOk)
  | (i, d) :: ds' =>
      match latest l (i_name i) with
      | Some _ => (l, ARefused)
      | None => log_set ((i_name i, Some d) :: l) ds'
      end
  end.
Definition log_call (l : log) (c : call) : log * answer :=
  match c with
  | CSet ds => log_set l ds
  | COverwrite name d => ((name, d) :: l, AOk)
  end.
Fixpoint log_calls (l : log) (cs : list call) : log * list answer :=
  match cs with
  | [] => (l, [])
  | c :: cs' => let '(l', a) := log_call l c in let '(l'', r) := log_calls l' cs' in (l'', a :: r)
  end.
(** The value of Get according to a log. *)
Definition told (b : option (option dref)) : lookup :=
  match b with Some (Some d) => LFound d | _ => LNil end.

(** The names a call may bind. *)
Definition mentions (c : call) : list gostring :=
  match c with CSet ds => map (fun p => i_name (fst p)) ds | COverwrite n _ => [n] end.

(** The map objects that a declaration map reads, and the one it writes. *)
Fixpoint addrs (m : dmap) : list nat :=
  match m with
  | DImpl a => [a]
  | DChained p a => a :: addrs p
  | DComposite ms => flat_map addrs ms
  | DEmbedded | DNil => []
  end.
Fixpoint target (m : dmap) : option nat :=
  match m with
  | DImpl a | DChained _ a => Some a
  | DComposite (m :: _) => target m
  | _ => None
  end.
(** All map objects read exist. *)
Definition allocated (h : heap) (m : dmap) : Prop := Forall (fun a => a < length (h_maps h)) (addrs m).
(** No part is a nil interface. *)
Fixpoint solid (m : dmap) : Prop :=
  match m with
  | DImpl _ | DEmbedded => True
  | DChained p _ => solid p
  | DComposite ms => (fix all (ms : list dmap) := match ms with [] => True | m :: ms' => solid m /\ all ms' end) ms
  | DNil => False
  end.

(** A declaration whose identifier has a location. *)
Definition located (h : heap) (d : dref) : Prop :=
  exists o, deref h d = Some o /\ i_loc (d_ident o) <> None.

(** Looking in several maps one after another. *)
Fixpoint first_found (l : list lookup) : lookup :=
  match l with
  | [] => LNil
  | LNil :: l' => first_found l'
  | r :: _ => r
  end.

(** A map whose last resort is the table of built-in types. *)
Inductive on_builtins : dmap -> Prop :=
| ob_embedded : on_builtins DEmbedded
| ob_chained p a : on_builtins p -> on_builtins (DChained p a)
| ob_composite ms m : on_builtins m -> on_builtins (DComposite (ms ++ [m])).

(** The built-in types of the language by kind, from the Delphi 7 language guide. *)
Definition builtin (k : ekind) (name : string) : Prop :=
  In name
    match k with
    | EtkOrdIdent => ["ShortInt"; "SmallInt"; "LongInt"; "Integer"; "Int64"; "Byte"; "Word"; "LongWord";
                      "Cardinal"; "Boolean"; "Char"; "AnsiChar"; "WideChar"]
    | EtkReal => ["Real48"; "Single"; "Double"; "Extended"; "Real"; "Comp"; "Currency"]
    | EtkStringType => ["String"; "AnsiString"; "WideString"]
    | EtkPointerType => ["Pointer"; "PChar"; "PAnsiChar"; "PWideChar"]
    | EtkVariantType => ["Variant"; "OleVariant"]
    end%string.

(** The heaps that the context functions can produce, with the outstanding results
    of [StackDeclMap] (context and map to put back).  Everything but maps and contexts
    may change freely in between.  A stackable context is not cloned here: see
    clone_of_stackable_refuted. *)
Inductive api : heap -> list (nat * dmap) -> Prop :=
| api_start : api heap0 []
| api_program h bs p : api h bs -> api (fst (new_program_context h p)) bs
| api_unit h bs c p : api h bs -> c < length (h_ctxs h) -> api (fst (new_unit_context h c p)) bs
| api_stackable h bs c : api h bs -> c < length (h_ctxs h) -> api (fst (new_stackable_context h c)) bs
| api_clone h bs c h' c' o : api h bs -> nth_error (h_ctxs h) c = Some o ->
    (forall p, cx_kind o <> KStack p) -> ctx_clone h c = Some (h', c') -> api h' bs
| api_stack h bs c h' b : api h bs -> ctx_stack h c = Some (h', b) -> api h' ((c, b) :: bs)
| api_restore h bs c b : api h bs -> In (c, b) bs -> api (ctx_restore h c b) bs
| api_set_ok h bs c ds h' : api h bs -> ctx_set h c ds = SOk h' -> api h' bs
| api_set_err h bs c ds h' i : api h bs -> ctx_set h c ds = SErr h' i -> api h' bs
| api_overwrite h bs c n d h' : api h bs -> ctx_overwrite h c n d = Some h' -> api h' bs
| api_import h bs c us h' : api h bs -> import_unit_decls h c us = Some h' -> api h' bs
| api_other h bs h' : api h bs -> h_maps h' = h_maps h -> h_ctxs h' = h_ctxs h -> api h' bs.

(** The declaration maps that a context looks in: its own and, if stackable, those of
    its parents. *)
Inductive looks_in (h : heap) : nat -> dmap -> Prop :=
| li_own c o : nth_error (h_ctxs h) c = Some o -> looks_in h c (cx_map o)
| li_parent c p path m m' : nth_error (h_ctxs h) c = Some (mkCtx (KStack p) path m) ->
    looks_in h p m' -> looks_in h c m'.

(** Among [units] the first with this name. *)
Definition resolves (h : heap) (units : list nat) (name : gostring) (u : nat) : Prop :=
  exists pre post, units = pre ++ u :: post /\ same_name (unit_name h u) name /\
    Forall (fun v => ~ same_name (unit_name h v) name) pre.
(** The units that a uses clause names, in its order; unknown names give none. *)
Inductive chosen (h : heap) (units : list nat) : list nat -> list nat -> Prop :=
| ch_nil : chosen h units [] []
| ch_take a us u l : resolves h units (uses_name h a) u -> chosen h units us l ->
    chosen h units (a :: us) (u :: l)
| ch_skip a us l : Forall (fun v => ~ same_name (unit_name h v) (uses_name h a)) units ->
    chosen h units us l -> chosen h units (a :: us) l.

(** Declaring, opening a scope, declaring, opening a scope, ...: one list of calls per
    scope, outermost first. *)
Fixpoint nest (h : heap) (c : nat) (own : list call) (inner : list (list call)) : option heap :=
  match nth_error (h_ctxs h) c with
  | None => None
  | Some o =>
      match do_calls h (cx_map o) own with
      | None => None
      | Some (h1, _) =>
          match inner with
          | [] => Some h1
          | own' :: inner' =>
              match ctx_stack h1 c with
              | None => None
              | Some (h2, _) => nest h2 c own' inner'
              end
          end
      end
  end.
Definition unit_map (h : heap) (u : nat) : dmap :=
  match nth_error (h_units h) u with Some o => un_map o | None => DNil end.
(** What a scope with these calls answers. *)
Definition scope_says (cs : list call) (name : gostring) : lookup :=
  told (latest (fst (log_calls [] cs)) name).

(** Blocks of declarations and nested scopes. *)
Inductive block_script :=
| BDone
| BCall (c : call) (next : block_script)
| BScope (inside next : block_script).
(** Running one on a context: [StackDeclMap], the inside, the function it returned. *)
Fixpoint run_script (h : heap) (c : nat) (s : block_script) : option heap :=
  match s with
  | BDone => Some h
  | BCall k n =>
      match nth_error (h_ctxs h) c with
      | None => None
      | Some o => match do_call h (cx_map o) k with
                  | None => None
                  | Some (h', _) => run_script h' c n
                  end
      end
  | BScope i n =>
      match ctx_stack h c with
      | None => None
      | Some (h1, b) =>
          match run_script h1 c i with
          | None => None
          | Some h2 => run_script (ctx_restore h2 c b) c n
          end
      end
  end.
(** The calls made outside of inner scopes. *)
Fixpoint own_calls (s : block_script) : list call :=
  match s with
  | BDone => []
  | BCall k n => k :: own_calls n
  | BScope _ n => own_calls n
  end.

End WithUnicode.
