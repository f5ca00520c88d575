(** Proofs about the identifiers that a walk over a syntax tree comes to. *)
From Coq Require Import String List NArith Bool Arith Lia Permutation.
From Verif Require Import Runes UnicodeFacts Token Tokenizer Ast Heap Prog Parser Units Ext ExtSpec CaseSpec TermUnitSpec Walk WalkMain
  Nodes WalkIdSpec IdSpec IdMain.
Import ListNotations.
Local Open Scope list_scope.

Notation wtree := (Walk.tree gnode).

(** ** What a walk collects *)
Fixpoint met (t : wtree) : list ident :=
  match t with
  | Node l cs => identifier l ++ flat_map (fun o => match o with Some c => met c | None => [] end) cs
  end.
Definition met_by (o : option wtree) : list ident := match o with Some c => met c | None => [] end.
Definition tagless_by (o : option wtree) : bool := match o with Some c => tagless c | None => true end.
Lemma collect_met t : forall w, walk_down collect t w = (w ++ met t, None).
Proof.
  induction t as [l cs IH] using tree_ind'. intros w. rewrite walk_down_node. unfold collect at 1. cbn [label met].
  rewrite app_assoc. generalize (w ++ identifier l). induction IH as [|o cs Ho IH IHcs]; intros v; cbn [walk_all flat_map].
  - now rewrite app_nil_r.
  - destruct o as [c|]; auto. rewrite Ho, IHcs, app_assoc. reflexivity.
Qed.
Lemma idents_met_met t : idents_met t = met t.
Proof. unfold idents_met. now rewrite collect_met. Qed.

(** The same identifiers, and in the same order if there are no tags *)
Definition like (b : bool) (l1 l2 : list ident) : Prop := Permutation l1 l2 /\ (b = true -> l1 = l2).
Lemma like_app b1 b2 l1 l2 m1 m2 : like b1 l1 l2 -> like b2 m1 m2 -> like (b1 && b2) (l1 ++ m1) (l2 ++ m2).
Proof.
  intros [P1 E1] [P2 E2]. split; [now apply Permutation_app|]. intros B. apply andb_true_iff in B as [B1 B2].
  now rewrite E1, E2.
Qed.

Definition fits (cs : list (option wtree)) (l : list mark) : Prop :=
  like (forallb tagless_by cs) (flat_map met_by cs) (idents_of l).
Definition fit (t : wtree) (l : list mark) : Prop := like (tagless t) (met t) (idents_of l).

Lemma idents_app a b : idents_of (a ++ b) = idents_of a ++ idents_of b.
Proof. apply flat_map_app. Qed.
Lemma fits_nil : fits [] [].
Proof. split; auto. Qed.
Lemma fits_app a b l m : fits a l -> fits b m -> fits (a ++ b) (l ++ m).
Proof. unfold fits. intros A B. rewrite forallb_app, flat_map_app, idents_app. now apply like_app. Qed.
Lemma fits_cons t b l m : fit t l -> fits b m -> fits (Some t :: b) (l ++ m).
Proof. unfold fits. intros A B. rewrite idents_app. now apply like_app. Qed.
Lemma fits_none b m : fits b m -> fits (None :: b) m.
Proof. intros H. exact H. Qed.
Lemma fits_one t l : fit t l -> fits [Some t] l.
Proof. intros A. rewrite <- (app_nil_r l). apply fits_cons; auto. apply fits_nil. Qed.
Lemma fits_opt {A} (f : A -> tree) (g : A -> list mark) o : (forall a, o = Some a -> fit (f a) (g a)) ->
  fits (map Some (Nodes.opt f o)) (opt g o).
Proof. intros H. destruct o as [a|]; [|apply fits_nil]. apply fits_one, H. reflexivity. Qed.
Lemma fits_map {A} (f : A -> tree) (g : A -> list mark) l : Forall (fun a => fit (f a) (g a)) l ->
  fits (map Some (map f l)) (flat_map g l).
Proof. induction 1 as [|a l H F IH]; [apply fits_nil|]. cbn [map flat_map]. now apply fits_cons. Qed.
Lemma fits_omap {A} (f : A -> option tree) (g : A -> list mark) l : Forall (fun a => fits [f a] (g a)) l ->
  fits (map f l) (flat_map g l).
Proof.
  induction 1 as [|a l H F IH]; [apply fits_nil|]. cbn [map flat_map]. change (f a :: map f l) with ([f a] ++ map f l).
  now apply fits_app.
Qed.
Lemma fit_node g cs l : identifier g = [] -> fits cs l -> fit (Node g cs) l.
Proof.
  intros I [P E]. unfold fit. cbn [met tagless]. rewrite I. split; auto. intros B. apply andb_true_iff in B as [_ B]. auto.
Qed.
Lemma fit_plain kind cs l : fits (map Some cs) l -> fit (node kind cs) l.
Proof. now apply fit_node. Qed.
Lemma fits_some_list kind cs l : fits (map Some cs) l -> fits (map Some (some_list kind cs)) l.
Proof. intros F. destruct cs as [|c cs]; auto. apply fits_one. now apply fit_plain. Qed.
Lemma fit_ident i : fit (ident_tree i) [Fresh i].
Proof. split; auto. Qed.
Lemma fit_again i : fit (ident_tree i) [Again i].
Proof. split; auto. Qed.
Lemma fits_app_some a b l m : fits (map Some a) l -> fits (map Some b) m -> fits (map Some (a ++ b)) (l ++ m).
Proof. rewrite map_app. apply fits_app. Qed.

(** ** Names *)
Lemma fit_idents ids : fit (ident_list_tree ids) (map Fresh ids).
Proof.
  apply fit_plain. replace (map Fresh ids) with (flat_map one ids) by (induction ids as [|i ids IH]; cbn; congruence).
  apply fits_map. apply Forall_forall. intros i _. apply fit_ident.
Qed.
Lemma fit_identref r : fit (ident_ref_tree r) (identref_i r).
Proof. apply fit_plain. apply fits_one, fit_ident. Qed.
Lemma fit_qualid q : fit (qual_id_tree q) (qualid_i q).
Proof. apply fit_plain. apply fits_app_some; [apply fits_opt; intros; apply fit_identref|apply fits_one, fit_identref]. Qed.
Lemma fit_typeid t : fit (type_id_tree t) (typeid_i t).
Proof. apply fit_plain. apply fits_app_some; [apply fits_opt; intros; apply fit_ident|apply fits_one, fit_ident]. Qed.
Lemma fit_implements t : fit (type_id_tree t) (again_i t).
Proof. destruct t as [[u|] i r]; split; auto. Qed.

(** ** Expressions *)
Lemma fits_ops {A} kind (f : A -> tree) (g : A -> list mark) l : Forall (fun r : gostring * A => fit (f (snd r)) (g (snd r))) l ->
  fits (map Some (map (fun r => Node (GOp kind (fst r)) [Some (f (snd r))]) l)) (flat_map (fun x => match x with (_, a) => g a end) l).
Proof. intros F. apply fits_map. eapply Forall_impl; [|exact F]. intros [v a] H. apply fit_node; [reflexivity|]. apply fits_one, H. Qed.

Lemma fit_expr e : fit (expr_tree e) (expr_i e)
with fit_sexpr s : fit (sexpr_tree s) (sexpr_i s)
with fit_term t : fit (term_tree t) (term_i t)
with fit_factor f : fit (factor_tree f) (factor_i f)
with fit_desig d : fit (desig_tree d) (desig_i d)
with fit_item i : fit (item_tree i) (ditem_i i).
Proof.
  - destruct e as [s rels]. apply fit_plain. apply fits_cons; [apply fit_sexpr|]. apply fits_some_list.
    apply fits_ops. induction rels as [|[v a] l IH]; constructor; [apply fit_sexpr|exact IH].
  - destruct s as [u t adds]. apply fit_node; [reflexivity|]. apply fits_cons; [apply fit_term|]. apply fits_some_list.
    apply fits_ops. induction adds as [|[v a] l IH]; constructor; [apply fit_term|exact IH].
  - destruct t as [f muls]. apply fit_plain. apply fits_cons; [apply fit_factor|]. apply fits_some_list.
    apply fits_ops. induction muls as [|[v a] l IH]; constructor; [apply fit_factor|exact IH].
  - destruct f as [d args|d|v|v|v| |e|f|es|t e]; cbn [factor_tree factor_i].
    + apply fit_plain. apply fits_cons; [apply fit_desig|]. destruct args as [es|]; [|apply fits_nil].
      apply fits_one, fit_plain. apply fits_map. induction es as [|a l IH]; constructor; [apply fit_expr|exact IH].
    + apply fit_plain. apply fits_one, fit_desig.
    + split; auto.
    + split; auto.
    + split; auto.
    + split; auto.
    + apply fit_plain. apply fits_one, fit_expr.
    + apply fit_plain. apply fits_one, fit_factor.
    + apply fit_plain. apply fits_map. induction es as [|[a o] l IH]; constructor; [|exact IH]. cbn [fst snd].
      apply fit_plain. apply fits_cons; [apply fit_expr|]. destruct o as [b|]; [apply fits_one, fit_expr|apply fits_nil].
    + apply fit_plain. apply fits_cons; [apply fit_typeid|]. apply fits_one, fit_expr.
  - destruct d as [q items]. apply fit_plain. apply fits_cons; [apply fit_qualid|]. apply fits_some_list.
    apply fits_map. induction items as [|a l IH]; constructor; [apply fit_item|exact IH].
  - destruct i as [n|es|]; cbn [item_tree ditem_i].
    + apply fit_plain. apply fits_one, fit_ident.
    + apply fit_plain. apply fits_map. induction es as [|a l IH]; constructor; [apply fit_expr|exact IH].
    + split; auto.
Qed.
Lemma fit_exprs es : fit (expr_list_tree es) (flat_map expr_i es).
Proof. apply fit_plain. apply fits_map, Forall_forall. intros e _. apply fit_expr. Qed.
Lemma fits_oexpr o : fits (map Some (Nodes.opt expr_tree o)) (opt expr_i o).
Proof. apply fits_opt. intros; apply fit_expr. Qed.
Lemma fits_oref o : fits (map Some (Nodes.opt ident_ref_tree o)) (opt identref_i o).
Proof. apply fits_opt. intros; apply fit_identref. Qed.
Lemma fits_oid o : fits (map Some (Nodes.opt type_id_tree o)) (opt typeid_i o).
Proof. apply fits_opt. intros; apply fit_typeid. Qed.

(** ** Types *)
(** The variant part of a record: the type is visited before the tag. *)
Lemma fit_variant id t vs l1 l2 : fits [t] l1 -> fits (map Some vs) l2 ->
  fit (Node (GOther "VariantSection") (t :: map Some (Nodes.opt ident_tree id ++ vs))) (opt one id ++ l1 ++ l2).
Proof.
  intros A B. destruct id as [i|]; cbn [Nodes.opt opt one app].
  - unfold fit. split.
    + cbn [met identifier app]. destruct A as [PA _], B as [PB _]. cbn [flat_map map] in *. rewrite app_nil_r in PA.
      change (idents_of (Fresh i :: l1 ++ l2)) with (i :: idents_of (l1 ++ l2)). rewrite idents_app.
      transitivity (idents_of l1 ++ i :: idents_of l2); [|symmetry; apply Permutation_middle].
      apply Permutation_app; [exact PA|]. cbn [flat_map met identifier app ident_tree]. now apply perm_skip.
    + cbn [tagless tagged existsb map label ident_tree]. rewrite orb_true_r. discriminate.
  - apply fit_node; [reflexivity|]. now apply (fits_app [t] (map Some vs)).
Qed.
Lemma fit_params ps : Forall (fun p => fit (formal_parm_tree p) (formalparm_i p)) ps ->
  fits [Some (node "FormalParameters" (map formal_parm_tree ps))] (flat_map formalparm_i ps).
Proof. intros F. apply fits_one, fit_plain. now apply fits_map. Qed.

Lemma fit_type t : fits [type_tree t] (typ_i t)
with fit_field_list fl : fit (field_list_tree fl) (fieldlist_i fl)
with fit_field_decl d : fit (field_decl_tree d) (fielddecl_i d)
with fit_variant_section v : fit (variant_section_tree v) (variantsection_i v)
with fit_rec_variant v : fit (rec_variant_tree v) (recvariant_i v)
with fit_formal_parm p : fit (formal_parm_tree p) (formalparm_i p)
with fit_heading h : fit (heading_tree h) (heading_i h)
with fit_section s : fit (section_tree s) (csection_i s)
with fit_method m : fit (method_tree m) (cmethod_i m)
with fit_cheading h : fit (cheading_tree h) (cheading_i h)
with fit_prop p : fit (prop_tree p) (cprop_i p).
Proof.
  - destruct t as [|t|k i|es|low high|t|t e|pk index base|pk t|pk fl|pk t|fn params ret ob|n|t|her mem]; cbn [type_tree typ_i].
    + apply fits_none, fits_nil.
    + apply fits_one, fit_typeid.
    + apply fits_one, fit_plain, fits_one, fit_ident.
    + apply fits_one, fit_plain, fits_map, Forall_forall. intros [i o] _. cbn [fst snd].
      apply fit_plain, (fits_cons _ _ [Fresh i]); [apply fit_ident|apply fits_oexpr].
    + apply fits_one, fit_plain, fits_cons; [apply fit_expr|apply fits_one, fit_expr].
    + apply fits_one, fit_plain, fits_one, fit_typeid.
    + apply fits_one, fit_plain, fits_cons; [apply fit_typeid|apply fits_one, fit_expr].
    + apply fits_one, fit_node; [reflexivity|]. apply fits_app; [|apply fit_type]. destruct index as [l|]; [|apply fits_nil].
      apply fits_omap. induction l as [|a l IH]; constructor; [apply fit_type|exact IH].
    + apply fits_one, fit_node; [reflexivity|]. apply fit_type.
    + apply fits_one, fit_plain, fits_one, fit_field_list.
    + apply fits_one, fit_plain, fits_one, fit_typeid.
    + apply fits_one, fit_plain, fits_app_some; [|apply fits_oid]. destruct params as [l|]; [|apply fits_nil].
      apply fit_params. induction l as [|a l IH]; constructor; [apply fit_formal_parm|exact IH].
    + apply fits_one, fit_plain, fits_nil.
    + apply fits_one, fit_plain, fits_one, fit_typeid.
    + apply fits_one, fit_plain, fits_app_some.
      * destruct her as [l|]; [|apply fits_nil]. apply fits_one, fit_plain, fits_map, Forall_forall. intros x _. apply fit_typeid.
      * destruct mem as [l|]; [|apply fits_nil]. apply fits_one, fit_plain, fits_map.
        induction l as [|a l IH]; constructor; [apply fit_section|exact IH].
  - destruct fl as [ds v]. apply fit_plain, fits_cons.
    + apply fit_plain, fits_map. induction ds as [|a l IH]; constructor; [apply fit_field_decl|exact IH].
    + destruct v as [v|]; [apply fits_one, fit_variant_section|apply fits_nil].
  - destruct d as [ids t]. apply fit_node; [reflexivity|]. apply fits_cons; [apply fit_idents|apply fit_type].
  - destruct v as [i t vs]. apply fit_variant; [apply fit_type|]. apply fits_one, fit_plain, fits_map.
    induction vs as [|a l IH]; constructor; [apply fit_rec_variant|exact IH].
  - destruct v as [es fl]. apply fit_plain, fits_cons; [apply fit_exprs|apply fits_one, fit_field_list].
  - destruct p as [k ids ty e]. cbn [formal_parm_tree formalparm_i]. apply fit_plain, fits_one, fit_plain, fits_cons; [apply fit_idents|].
    apply fits_app_some; [|apply fits_oexpr]. destruct ty as [[t b]|]; [|apply fits_nil].
    apply fits_one, fit_node; [reflexivity|]. apply fit_type.
  - destruct h as [k i params ret]. apply fit_plain, (fits_cons _ _ [Fresh i]); [apply fit_ident|].
    apply fits_app_some; [|apply fits_oid]. destruct params as [l|]; [|apply fits_nil].
    apply fit_params. induction l as [|a l IH]; constructor; [apply fit_formal_parm|exact IH].
  - destruct s as [vis fields methods props]. apply fit_plain. apply fits_app_some; [|apply fits_app_some]; apply fits_some_list.
    + apply fits_map. induction fields as [|[ids t] l IH]; constructor; [|exact IH]. cbn [fst snd].
      apply fit_node; [reflexivity|]. apply fits_cons; [apply fit_idents|apply fit_type].
    + apply fits_map. induction methods as [|a l IH]; constructor; [apply fit_method|exact IH].
    + apply fits_map. induction props as [|a l IH]; constructor; [apply fit_prop|exact IH].
  - destruct m as [h d]. apply fit_plain, fits_one, fit_cheading.
  - destruct h as [h|i params|i]; cbn [cheading_tree cheading_i].
    + apply fit_heading.
    + apply fit_plain, (fits_cons _ _ [Fresh i]); [apply fit_ident|]. destruct params as [l|]; [|apply fits_nil].
      apply fit_params. induction l as [|a l IH]; constructor; [apply fit_formal_parm|exact IH].
    + apply fit_plain, fits_one, fit_ident.
  - destruct p as [i intf index rd wr stored dflt impl pd]. apply fit_plain, (fits_cons _ _ [Fresh i]); [apply fit_ident|].
    apply fits_app_some.
    { destruct intf as [[params t]|]; [|apply fits_nil]. apply fits_one, fit_plain, fits_app_some; [|apply fits_one, fit_typeid].
      destruct params as [l|]; [|apply fits_nil].
      apply fit_params. induction l as [|a l IH]; constructor; [apply fit_formal_parm|exact IH]. }
    apply fits_app_some; [apply fits_oexpr|]. apply fits_app_some; [apply fits_oref|]. apply fits_app_some; [apply fits_oref|].
    apply fits_app_some.
    { destruct stored as [[r|v]|]; [apply fits_one, fit_plain, fits_one, fit_identref|split; auto|apply fits_nil]. }
    apply fits_app_some.
    { destruct dflt as [[e|]|]; [apply fits_one, fit_plain, fits_one, fit_expr|split; auto|apply fits_nil]. }
    apply fits_opt. intros t _. apply fit_implements.
Qed.

(** ** Statements *)
Lemma fit_label r : fit (case_label_tree r) (let (a, b) := r in expr_i a ++ opt expr_i b).
Proof. destruct r as [a b]. apply fit_plain, fits_cons; [apply fit_expr|apply fits_oexpr]. Qed.
Lemma fit_handler i t : fit (handler_decl_tree i t) (opt one i ++ typ_i t).
Proof. apply fit_node; [reflexivity|]. apply fits_app; [apply fits_opt; intros; apply fit_ident|apply fit_type]. Qed.
Lemma fit_stmt s : fit (stmt_tree s) (stmt_i s)
with fit_body b : fit (body_tree b) (sbody_i b).
Proof.
  - destruct s as [label b]. apply fit_plain, fits_app_some; [apply fits_opt; intros; apply fit_ident|apply fits_one, fit_body].
  - assert (L : forall l, fit (node "StmtList" (map stmt_tree l)) (flat_map stmt_i l)).
    { intros l. apply fit_plain, fits_map. induction l as [|a l IH]; constructor; [apply fit_stmt|exact IH]. }
    destruct b as [d e|d args| |i lo|l|e s1 s2|e sels els|l e|e s|q e1 e2 dn s|qs s|l hs els|l1 l2|obj addr|]; cbn [body_tree sbody_i].
    + apply fit_plain, fits_cons; [apply fit_desig|apply fits_one, fit_expr].
    + apply fit_plain, fits_cons; [apply fit_desig|]. apply fits_opt. intros es _. apply fit_exprs.
    + split; auto.
    + apply fit_plain, fits_one, fit_ident.
    + apply fit_plain, fits_one, L.
    + apply fit_plain. apply (fits_cons _ (map Some (_ :: _))); [apply fit_expr|]. apply fits_cons; [apply fit_stmt|].
      destruct s2 as [s|]; [apply fits_one, fit_stmt|apply fits_nil].
    + apply fit_plain. apply (fits_cons _ (map Some (_ :: _))); [apply fit_expr|]. apply fits_cons.
      * apply fit_plain, fits_map. induction sels as [|[ls s] l IH]; constructor; [|exact IH]. cbn [fst snd].
        apply fit_plain, fits_cons; [|apply fits_one, fit_stmt]. apply fit_plain, fits_map, Forall_forall. intros r _. apply fit_label.
      * destruct els as [l|]; [apply fits_one, L|apply fits_nil].
    + apply fit_plain, fits_cons; [apply L|apply fits_one, fit_expr].
    + apply fit_plain, fits_cons; [apply fit_expr|apply fits_one, fit_stmt].
    + apply fit_plain, fits_cons; [apply fit_qualid|]. apply fits_cons; [apply fit_expr|]. apply fits_cons; [apply fit_expr|apply fits_one, fit_stmt].
    + apply fit_plain, fits_cons; [|apply fits_one, fit_stmt]. apply fit_plain, fits_map, Forall_forall. intros q _. apply fit_qualid.
    + apply fit_plain, fits_cons; [apply L|]. apply fits_one, fit_plain, fits_cons.
      * apply fit_plain, fits_map. induction hs as [|[[i t] s] l' IH]; constructor; [|exact IH]. cbn [fst snd].
        rewrite app_assoc. apply fit_plain, fits_cons; [apply fit_handler|apply fits_one, fit_stmt].
      * apply fits_one. destruct els as [l'|]; [apply L|split; auto].
    + apply fit_plain, fits_cons; [apply L|apply fits_one, L].
    + apply fit_plain, fits_app_some; apply fits_oexpr.
    + split; auto.
Qed.
Lemma fit_stmts l : fit (node "StmtList" (map stmt_tree l)) (flat_map stmt_i l).
Proof. apply fit_plain, fits_map, Forall_forall. intros s _. apply fit_stmt. Qed.

(** ** Declarations *)
Lemma fit_type_section l : fit (type_section_tree l) (flat_map typedecl_i l).
Proof.
  apply fit_plain, fits_map, Forall_forall. intros d _. apply fit_node; [reflexivity|].
  apply (fits_cons _ _ [Fresh (td_ident d)]); [apply fit_ident|apply fit_type].
Qed.
Lemma fit_const_section l : fit (const_section_tree l) (flat_map constdecl_i l).
Proof.
  apply fit_plain, fits_map, Forall_forall. intros d _. apply fit_node; [reflexivity|].
  apply (fits_cons _ _ [Fresh (cd_ident d)]); [apply fit_ident|]. apply (fits_app [_]); [apply fit_type|apply fits_one, fit_expr].
Qed.
Lemma fit_var_section l : fit (var_section_tree l) (flat_map vardecl_i l).
Proof.
  apply fit_plain, fits_map, Forall_forall. intros d _. apply fit_node; [reflexivity|].
  apply (fits_cons _ (_ :: _)); [apply fit_idents|]. apply (fits_app [_]); [apply fit_type|].
  apply fits_app_some; [|apply fits_oexpr]. apply fits_opt. intros i _. split; auto.
Qed.
Lemma fit_threadvar_section l : fit (threadvar_section_tree l) (flat_map threadvardecl_i l).
Proof. apply fit_plain, fits_map, Forall_forall. intros d _. apply fit_node; [reflexivity|]. apply fits_cons; [apply fit_idents|apply fit_type]. Qed.
Lemma fit_exports l : fit (exports_tree l) (flat_map (flat_map exports_i) l).
Proof.
  apply fit_plain, fits_map, Forall_forall. intros s _. apply fit_plain, fits_map, Forall_forall. intros i _.
  apply fit_plain, (fits_cons _ _ [Fresh (ex_ident i)]); [apply fit_ident|]. apply fits_app_some; apply fits_oexpr.
Qed.
Lemma idents_either a b : idents_of [Either a b] = idents_of (a ++ b).
Proof. rewrite idents_app. unfold idents_of. cbn [flat_map idents_in]. apply app_nil_r. Qed.
Lemma fit_decl_section d : fit (decl_section_tree d) (declsection_i d)
with fit_block b : fit (block_tree b) (block_i b).
Proof.
  - destruct d as [i|l|l|l|l|h ds ex b]; cbn [decl_section_tree declsection_i].
    + apply fit_plain, fits_one, fit_ident.
    + apply fit_const_section.
    + apply fit_type_section.
    + apply fit_var_section.
    + apply fit_threadvar_section.
    + apply fit_plain, fits_cons; [apply fit_heading|apply fits_one, fit_block].
  - destruct b as [ds ex body]. cbn [block_tree block_i]. apply fit_plain, fits_app_some.
    + destruct ds as [l|]; [|apply fits_nil]. apply fits_one, fit_plain, fits_map.
      induction l as [|a l IH]; constructor; [apply fit_decl_section|exact IH].
    + unfold fits. rewrite idents_either. apply fits_app_some; apply fits_opt; intros; [apply fit_exports|apply fit_body].
Qed.
Lemma fit_decl_sections l : fit (node "DeclSections" (map decl_section_tree l)) (flat_map declsection_i l).
Proof. apply fit_plain, fits_map, Forall_forall. intros d _. apply fit_decl_section. Qed.

(** ** Units and programs *)
Lemma fit_uses h l : fit (uses_tree h l) (flat_map (use_i h) l).
Proof.
  apply fit_node; [reflexivity|]. apply fits_omap, Forall_forall. intros a _. unfold use_i.
  destruct (nth_error (h_uses h) a) as [o|]; [apply fits_one, fit_plain, fits_one, fit_ident|apply fits_none, fits_nil].
Qed.
Lemma fit_intf h s : fit (intf_tree h s) (intf_i h s).
Proof.
  apply fit_plain, fits_app_some; apply fits_opt; intros l _; [apply fit_uses|]. apply fit_plain, fits_map, Forall_forall. intros d _.
  destruct d as [l'|l'|l'|l'|hd ds ex]; [apply fit_type_section|apply fit_var_section|apply fit_threadvar_section|apply fit_const_section|].
  apply fit_plain, fits_one, fit_heading.
Qed.
Lemma fit_impl h s : fit (impl_tree h s) (impl_i h s).
Proof.
  apply fit_plain, fits_app_some; [|apply fits_app_some]; apply fits_opt; intros l _; [apply fit_uses|apply fit_decl_sections|apply fit_exports].
Qed.
Lemma fit_init s : fit (init_tree s) (init_i s).
Proof.
  apply fit_plain, fits_cons; [destruct (in_init s) as [l|]; [apply fit_stmts|split; auto]|]. apply fits_opt. intros l _. apply fit_stmts.
Qed.
Lemma fit_unit h o : fit (unit_tree h o) (unit_i h o).
Proof.
  apply fit_plain, (fits_cons _ _ [Fresh (un_ident o)]); [apply fit_ident|].
  apply fits_app_some; [|apply fits_app_some]; apply fits_opt; intros s _; [apply fit_intf|apply fit_impl|apply fit_init].
Qed.
Lemma fit_program h o : fit (program_tree h o) (program_i h o).
Proof.
  apply fit_plain, (fits_cons _ _ [Fresh (pr_ident o)]); [apply fit_ident|]. apply fits_opt. intros b _.
  apply fit_plain, fits_app_some; [apply fits_opt; intros; apply fit_uses|apply fits_one, fit_block].
Qed.

(** ** Expressions have no tags *)
Definition calm (l : list tree) : Prop := Forall (fun t => tagless t = true) l.
Lemma calm_all cs : calm cs -> forallb tagless_by (map Some cs) = true.
Proof. induction 1 as [|t l H F IH]; auto. cbn [map forallb tagless_by]. now rewrite H, IH. Qed.
Lemma calm_node kind cs : (kind =? "VariantSection")%string = false -> calm cs -> tagless (node kind cs) = true.
Proof. intros K C. cbn [node tagless tagged]. rewrite K. now apply calm_all. Qed.
Lemma calm_label g cs : (forall k, g <> GOther k) -> calm cs -> tagless (Node g (map Some cs)) = true.
Proof.
  intros N C. assert (T : tagged g (map Some cs) = false) by (destruct g; auto; now destruct (N kind)).
  cbn [tagless]. rewrite T. now apply calm_all.
Qed.
Lemma calm_some_list kind l : (kind =? "VariantSection")%string = false -> calm l -> calm (some_list kind l).
Proof. intros K C. destruct l as [|a l]; auto. repeat constructor. now apply calm_node. Qed.
Lemma calm_ops {A} kind (f : A -> tree) l : Forall (fun r : gostring * A => tagless (f (snd r)) = true) l ->
  calm (map (fun r => Node (GOp kind (fst r)) [Some (f (snd r))]) l).
Proof. induction 1 as [|r l H F IH]; constructor; auto. apply (calm_label _ [f (snd r)]); [discriminate|]. repeat constructor; auto. Qed.
Lemma calm_map {A} (f : A -> tree) l : Forall (fun a => tagless (f a) = true) l -> calm (map f l).
Proof. induction 1; constructor; auto. Qed.
Lemma calm_qualid q : tagless (qual_id_tree q) = true.
Proof. destruct q as [[n|] m]; reflexivity. Qed.
Lemma calm_typeid t : tagless (type_id_tree t) = true.
Proof. destruct t as [[n|] m r]; reflexivity. Qed.
Lemma calm_expr e : tagless (expr_tree e) = true
with calm_sexpr s : tagless (sexpr_tree s) = true
with calm_term t : tagless (term_tree t) = true
with calm_factor f : tagless (factor_tree f) = true
with calm_desig d : tagless (desig_tree d) = true
with calm_item i : tagless (item_tree i) = true.
Proof.
  - destruct e as [s rels]. apply calm_node; [reflexivity|]. constructor; [apply calm_sexpr|]. apply calm_some_list; [reflexivity|].
    apply calm_ops. induction rels as [|[v a] l IH]; constructor; [apply calm_sexpr|exact IH].
  - destruct s as [u t adds]. apply calm_label; [discriminate|]. constructor; [apply calm_term|]. apply calm_some_list; [reflexivity|].
    apply calm_ops. induction adds as [|[v a] l IH]; constructor; [apply calm_term|exact IH].
  - destruct t as [f muls]. apply calm_node; [reflexivity|]. constructor; [apply calm_factor|]. apply calm_some_list; [reflexivity|].
    apply calm_ops. induction muls as [|[v a] l IH]; constructor; [apply calm_factor|exact IH].
  - destruct f as [d args|d|v|v|v| |e|f|es|t e]; cbn [factor_tree]; try reflexivity; (apply calm_node; [reflexivity|]).
    + constructor; [apply calm_desig|]. destruct args as [es|]; constructor; [|constructor]. apply calm_node; [reflexivity|].
      apply calm_map. induction es as [|a l IH]; constructor; [apply calm_expr|exact IH].
    + constructor; [apply calm_desig|constructor].
    + constructor; [apply calm_expr|constructor].
    + constructor; [apply calm_factor|constructor].
    + apply calm_map. induction es as [|[a o] l IH]; constructor; [|exact IH]. cbn [fst snd]. apply calm_node; [reflexivity|].
      constructor; [apply calm_expr|]. destruct o as [b|]; constructor; [apply calm_expr|constructor].
    + constructor; [apply calm_typeid|]. constructor; [apply calm_expr|constructor].
  - destruct d as [q items]. apply calm_node; [reflexivity|]. constructor; [apply calm_qualid|]. apply calm_some_list; [reflexivity|].
    apply calm_map. induction items as [|a l IH]; constructor; [apply calm_item|exact IH].
  - destruct i as [n|es|]; cbn [item_tree]; try reflexivity. apply calm_node; [reflexivity|].
    apply calm_map. induction es as [|a l IH]; constructor; [apply calm_expr|exact IH].
Qed.

(** ** The theorems *)
Theorem expression_walk_identifiers :
  forall e, idents_met (expr_tree e) = idents_of (expr_i e).
Proof. intros e. rewrite idents_met_met. apply (fit_expr e), calm_expr. Qed.
Theorem type_walk_identifiers :
  forall t x, type_tree t = Some x ->
  Permutation (idents_met x) (idents_of (typ_i t)) /\ (tagless x = true -> idents_met x = idents_of (typ_i t)).
Proof.
  intros t x E. rewrite idents_met_met. pose proof (fit_type t) as F. rewrite E in F. destruct F as [P Q].
  cbn [flat_map met_by forallb tagless_by] in *. rewrite app_nil_r, andb_true_r in *. split; auto.
Qed.
Theorem type_walk_in_order_refuted :
  exists t x, type_tree t = Some x /\ idents_met x <> idents_of (typ_i t).
Proof.
  pose (a := mkIdent [97%N] None). pose (b := mkIdent [98%N] None).
  exists (TRec false (FieldList [] (Some (VariantSection (Some a) (TId (mkTypeId None b 0)) [])))). eexists. split; [reflexivity|]. discriminate.
Qed.
Theorem statement_walk_identifiers :
  forall s, Permutation (idents_met (stmt_tree s)) (idents_of (stmt_i s)) /\
  (tagless (stmt_tree s) = true -> idents_met (stmt_tree s) = idents_of (stmt_i s)).
Proof. intros s. rewrite idents_met_met. apply fit_stmt. Qed.
Theorem unit_walk_identifiers :
  forall h o, Permutation (idents_met (unit_tree h o)) (idents_of (unit_i h o)) /\
  (tagless (unit_tree h o) = true -> idents_met (unit_tree h o) = idents_of (unit_i h o)).
Proof. intros h o. rewrite idents_met_met. apply fit_unit. Qed.
Theorem program_walk_identifiers :
  forall h o, Permutation (idents_met (program_tree h o)) (idents_of (program_i h o)) /\
  (tagless (program_tree h o) = true -> idents_met (program_tree h o) = idents_of (program_i h o)).
Proof. intros h o. rewrite idents_met_met. apply fit_program. Qed.

Section WithUnicode.
Context {U : Unicode} {UOK : UnicodeOk U}.
Lemma met_stands text l m : in_order text 0 l (length text) -> Permutation m (idents_of l) ->
  forall i, In i m -> exists a b, stands_at text i a b.
Proof.
  intros O P i I. destruct (identifiers_in_order_are_pieces_of_the_text _ _ _ _ O i) as (a & b & _ & S); eauto.
  now apply (Permutation_in _ P).
Qed.
Theorem parsed_unit_walk :
  forall n text c h u s, parse_text (parse_unit (recs_at n) c) text c h = OOk u s ->
  exists o, nth_error (h_units (s_heap s)) u = Some o /\
  forall i, In i (idents_met (unit_tree (s_heap s) o)) -> exists a b, stands_at text i a b.
Proof.
  intros n text c h u s E. destruct (identifiers_of_units_stand_in_the_text _ _ _ _ _ _ E) as (o & No & O).
  exists o. split; [exact No|]. eapply met_stands; [exact O|apply unit_walk_identifiers].
Qed.
Theorem parsed_program_walk :
  forall n files sep order topo path pa pc h, iterates order -> lists_once topo ->
  parse_program (recs_at n) files sep order topo path = ROk (pa, pc) h ->
  (exists text o, files path = Some text /\ nth_error (h_progs h) pa = Some o /\
     forall i, In i (idents_met (program_tree h o)) -> exists a b, stands_at text i a b) /\
  (forall u o, nth_error (h_units h) u = Some o -> exists text, files (un_path o) = Some text /\
     forall i, In i (idents_met (unit_tree h o)) -> exists a b, stands_at text i a b).
Proof.
  intros n files sep order topo path pa pc h It To E.
  destruct (identifiers_of_programs_stand_in_their_texts _ _ _ _ _ _ _ _ _ It To E) as [(text & o & F & No & O) Y]. split.
  - exists text, o. repeat split; auto. eapply met_stands; [exact O|apply program_walk_identifiers].
  - intros u o' No'. destruct (Y u o' No') as (text' & F' & O'). exists text'. split; auto.
    eapply met_stands; [exact O'|apply unit_walk_identifiers].
Qed.
End WithUnicode.
