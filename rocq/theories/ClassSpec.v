(** Vocabulary for the properties of types and classes. *)
From Coq Require Import List NArith Bool Arith.
From Verif Require Import Runes Token Ast Ext Heap MapSpec Classes.
Import ListNotations.

Section WithUnicode.
Context {U : Unicode}.

(** ** Types *)

(** [answers h t q b]: asking [q] of [t] returns [b]. *)
Definition answers (h : heap) (t : typ) (q : question) (b : bool) : Prop :=
  exists fuel, type_is fuel h q t = Some b.

(** [names h ti t]: the identifier [ti] is resolved to a declaration of the type [t]. *)
Definition names (h : heap) (ti : typeid) (t : typ) : Prop :=
  exists d i, nth_error (h_refs h) (ti_ref ti) = Some (Some d) /\ deref h d = Some (mkDecl i (NType t)).
(** Through any number of further type identifiers. *)
Inductive leads_to (h : heap) : typeid -> typ -> Prop :=
| lt_here ti t : names h ti t -> leads_to h ti t
| lt_more ti ti' t : names h ti (TId ti') -> leads_to h ti' t -> leads_to h ti t.

(** What a type that is not an alias is.  A built-in type by its kind. *)
Definition kind_says (k : ekind) (q : question) : bool :=
  match k, q with
  | EtkReal, (QSimple | QReal) => true
  | EtkOrdIdent, (QSimple | QOrdinal | QOrdIdent) => true
  | EtkStringType, QString => true
  | EtkPointerType, QPointer => true
  | EtkVariantType, QVariant => true
  | _, _ => false
  end.
Definition shape_says (t : typ) (q : question) : option bool :=
  match t with
  | TEmbedded k _ => Some (kind_says k q)
  | TEnum _ | TSubrange _ _ => Some (match q with QSimple | QOrdinal => true | _ => false end)
  | TPointer _ => Some (match q with QPointer => true | _ => false end)
  | TFixedString _ _ => Some (match q with QString => true | _ => false end)
  | TId _ | TFile _ _ | TSet _ _ => None
  | _ => Some false
  end.

(** [t] is looked at to answer for [t0]. *)
Inductive looks_at (h : heap) : typ -> typ -> Prop :=
| la_id ti t : names h ti t -> looks_at h t (TId ti)
| la_file p ti t : names h ti t -> looks_at h t (TFile p ti)
| la_set p t : looks_at h t (TSet p t).

(** ** Classes *)

(** A class: heritage and sections. *)
Definition cls : Type := (option (list typeid) * option (list csection))%type.

(** [c'] is the direct ancestor of [c]. *)
Definition superclass (h : heap) (c c' : cls) : Prop :=
  exists ti more, fst c = Some (ti :: more) /\ names h ti (TClass (fst c') (snd c')).
(** A class and all its ancestors, nearest first. *)
Inductive lineage (h : heap) : cls -> list cls -> Prop :=
| lin_root c : (forall c', ~ superclass h c c') -> lineage h c []
| lin_step c c' l : superclass h c c' -> lineage h c' l -> lineage h c (c' :: l).

(** The members of a section in the order of the lookup: fields, methods, properties. *)
Definition section_members (s : csection) : list decl :=
  match s with
  | ClassSection _ fs ms ps =>
      flat_map (fun f => map (fun i => mkDecl i NField) (fst f)) fs ++
      map (fun m => mkDecl (method_ident m) NMethod) ms ++
      map (fun p => mkDecl (prop_ident p) NProp) ps
  end.
Definition section_open (s : csection) : bool :=
  match s with ClassSection CvPrivate _ _ _ => false | _ => true end.
Definition all_members (c : cls) : list decl :=
  match snd c with Some ss => flat_map section_members ss | None => [] end.
Definition open_members (c : cls) : list decl :=
  match snd c with Some ss => flat_map section_members (filter section_open ss) | None => [] end.
Definition named (name : gostring) (d : decl) : bool := same_nameb name (i_name (d_ident d)).

Definition finds_member (h : heap) (c : cls) (name : gostring) (private : bool) (r : option decl) : Prop :=
  exists fuel, find_member fuel h (fst c) (snd c) name private = Some r.

(** The properties of a class. *)
Definition all_props (c : cls) : list cprop :=
  match snd c with
  | Some ss => flat_map (fun s => match s with ClassSection _ _ _ ps => ps end) ss
  | None => []
  end.
Definition finds_property (h : heap) (c : cls) (name : gostring) (asc : bool) (r : option cprop) : Prop :=
  exists fuel, find_property fuel h (fst c) (snd c) name asc = Some r.

(** ** Property chains *)
Definition pinterface p := match p with ClassProp _ a _ _ _ _ _ _ _ => a end.
Definition pindex p := match p with ClassProp _ _ a _ _ _ _ _ _ => a end.
Definition pread p := match p with ClassProp _ _ _ a _ _ _ _ _ => a end.
Definition pwrite p := match p with ClassProp _ _ _ _ a _ _ _ _ => a end.
Definition pstored p := match p with ClassProp _ _ _ _ _ a _ _ _ => a end.
Definition pdefault p := match p with ClassProp _ _ _ _ _ _ a _ _ => a end.
Definition pimplements p := match p with ClassProp _ _ _ _ _ _ _ a _ => a end.
Definition pparent p := match p with ClassProp _ _ _ _ _ _ _ _ a => a end.

(** The property and those it overrides, nearest first. *)
Inductive chain : cprop -> list cprop -> Prop :=
| ch_root p : pparent p = None -> chain p [p]
| ch_over p q l : pparent p = Some q -> chain q l -> chain p (p :: l).
(** [r] is what the nearest of [l] that specifies [f] says, nothing iff none does. *)
Inductive nearest {A} (f : cprop -> option A) : list cprop -> option A -> Prop :=
| nr_none l : Forall (fun p => f p = None) l -> nearest f l None
| nr_some pre p post a : Forall (fun p => f p = None) pre -> f p = Some a ->
    nearest f (pre ++ p :: post) (Some a).

End WithUnicode.
