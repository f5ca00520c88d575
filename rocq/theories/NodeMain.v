(** Proofs about walking over syntax trees. *)
From Coq Require Import String List NArith Bool Arith Lia.
From Verif Require Import Runes Token Tokenizer LexSpec LexShape Ast Heap Prog Parser Walk WalkMain Nodes ParseSpec ExprSpec ExprMain StmtSpec StmtMain NodeSpec.
Import ListNotations.
Local Open Scope list_scope.

Section WithUnicode.
Context {U : Unicode}.
Notation words := (list (ttype * gostring)).

(** ** What a tree tells *)
Fixpoint told (t : Walk.tree gnode) : words :=
  match t with
  | Node l cs =>
      says l ++ (fix all (cs : list (option (Walk.tree gnode))) : words :=
                   match cs with
                   | [] => []
                   | None :: cs' => all cs'
                   | Some c :: cs' => told c ++ all cs'
                   end) cs
  end.
Definition told_by (o : option (Walk.tree gnode)) : words := match o with None => [] | Some c => told c end.
Lemma told_node l cs : told (Node l cs) = says l ++ flat_map told_by cs.
Proof. cbn [told]. f_equal. induction cs as [|[c|] cs IH]; cbn; auto. now rewrite IH. Qed.
Lemma told_node_of kind cs : told (node kind cs) = says (GOther kind) ++ flat_map told cs.
Proof. unfold node. rewrite told_node, flat_map_concat_map, map_map, <- flat_map_concat_map. reflexivity. Qed.
Lemma told_plain kind cs : says (GOther kind) = [] -> told (node kind cs) = flat_map told cs.
Proof. intros S. now rewrite told_node_of, S. Qed.
Lemma told_some_list kind l : says (GOther kind) = [] -> flat_map told (some_list kind l) = flat_map told l.
Proof. intros S. destruct l as [|a l]; auto. cbn [some_list flat_map]. rewrite told_node_of, S, app_nil_r. reflexivity. Qed.

Lemma listen_told t : forall w, walk_down listen t w = (w ++ told t, None).
Proof.
  induction t as [l cs IH] using tree_ind'. intros w. rewrite walk_down_node, told_node. unfold listen at 1. cbn [label].
  rewrite app_assoc. generalize (w ++ says l). induction IH as [|o cs Ho IH IHcs]; intros v; cbn [walk_all flat_map].
  - now rewrite app_nil_r.
  - destruct o as [c|]; cbn [told_by]; auto. rewrite Ho, IHcs, app_assoc. reflexivity.
Qed.

(** ** Expressions *)
Notation sp := (filter spoken).
Lemma sp_app a b : sp (a ++ b) = sp a ++ sp b.
Proof. apply filter_app. Qed.
Lemma sp_flat {A} (f : A -> words) l : sp (flat_map f l) = flat_map (fun a => sp (f a)) l.
Proof. induction l as [|a l IH]; cbn [flat_map]; auto. now rewrite sp_app, IH. Qed.
Lemma sp_commas l : sp (commas l) = flat_map sp l.
Proof.
  induction l as [|a l IH]; auto. cbn [commas flat_map]. destruct l as [|b l]; [cbn; now rewrite app_nil_r|].
  rewrite sp_app. change (sp (wsym "," :: commas (b :: l))) with (sp (commas (b :: l))). now rewrite IH.
Qed.
Lemma sp_ident n : sp [wident n] = [wident n]. Proof. reflexivity. Qed.
Lemma sp_number v : sp [wnumber v] = [wnumber v].
Proof. unfold wnumber. now destruct (existsb _ _). Qed.
Lemma str_in_In v l : In v l -> str_in v l = true.
Proof. intros I. unfold str_in. apply existsb_exists. exists v. split; auto. now apply LexShape.runes_equal_eq. Qed.
Lemma sp_op v ws : In v operators -> sp (wop v :: ws) = wop v :: sp ws.
Proof.
  intros I. cbn [filter]. unfold spoken at 1, wop. cbn [fst snd]. rewrite (str_in_In _ _ I).
  now destruct (str_in v reserved_words).
Qed.

Lemma all_Forall {A} (P : A -> Prop) l : all P l <-> Forall P l.
Proof. induction l as [|a l IH]; cbn; split; auto; [intros [? ?]; constructor; tauto|]. intros F. inversion F; subst. tauto. Qed.
Lemma told_ops {A} kind (tr : A -> tree) (wr : A -> words) l :
  Forall (fun r => In (fst r) operators /\ told (tr (snd r)) = sp (wr (snd r))) l ->
  flat_map told (map (fun r => Node (GOp kind (fst r)) [Some (tr (snd r))]) l) =
  sp (flat_map (fun r : gostring * A => wop (fst r) :: wr (snd r)) l).
Proof.
  induction 1 as [|r l [I E] F IH]; auto. cbn [map flat_map]. rewrite sp_app, sp_op, IH by auto.
  rewrite told_node. cbn [says flat_map told_by app]. now rewrite E, app_nil_r.
Qed.
Lemma told_list {A} kind (tr : A -> tree) (wr : A -> words) l : says (GOther kind) = [] ->
  Forall (fun a => told (tr a) = sp (wr a)) l -> told (node kind (map tr l)) = sp (commas (map wr l)).
Proof.
  intros S F. rewrite told_node_of, S, sp_commas. cbn [app].
  induction F as [|a l E F IH]; auto. cbn [map flat_map]. now rewrite E, IH.
Qed.
Lemma in_operators v : In v rel_ops \/ In v add_ops \/ In v mul_ops -> In v operators.
Proof. unfold operators. rewrite !in_app_iff. tauto. Qed.
Lemma sign_operator v : In v signs -> In v operators.
Proof. intros I. apply in_operators. right. left. destruct I as [<-|[<-|[]]]; cbn; auto. Qed.
Lemma Forall_both {A} (P Q : A -> Prop) l : (forall a, P a -> Q a) -> Forall P l -> Forall Q l.
Proof. intros H F. eapply Forall_impl; eauto. Qed.
Lemma told_qual q : told (qual_id_tree q) = sp (write_name q).
Proof. destruct q as [[[n r]|] [m r']]; reflexivity. Qed.

Section Env.
Context (en : env).
Lemma told_expr e : good_expr en e -> told (expr_tree e) = sp (write_expr e)
with told_sexpr s : good_sexpr en s -> told (sexpr_tree s) = sp (write_sexpr s)
with told_term t : good_term en t -> told (term_tree t) = sp (write_term t)
with told_factor f : good_factor en f -> told (factor_tree f) = sp (write_factor f)
with told_desig d : good_desig en d -> told (desig_tree d) = sp (write_desig d)
with told_item i : good_item en i -> told (item_tree i) = sp (write_item i).
Proof.
  - destruct e as [s rels]. cbn [good_expr expr_tree write_expr]. intros [G R]. rewrite told_plain, sp_app by reflexivity. cbn [flat_map].
    rewrite told_some_list, (told_sexpr s G) by reflexivity. f_equal. apply told_ops.
    induction rels as [|[v s'] rels IH]; constructor; destruct R as [[I G'] R]; auto.
    split; [apply in_operators; auto|]. apply told_sexpr, G'.
  - destruct s as [u t adds]. cbn [good_sexpr sexpr_tree write_sexpr]. intros (GU & G & R). rewrite told_node.
    rewrite !sp_app. cbn [map flat_map told_by]. rewrite flat_map_concat_map, map_map, <- flat_map_concat_map. cbn [told_by].
    rewrite told_some_list, (told_term t G) by reflexivity. f_equal; [|f_equal].
    + destruct u as [v|]; auto. cbn [says]. now rewrite sp_op by now apply sign_operator.
    + apply told_ops. induction adds as [|[v s'] adds IH]; constructor; destruct R as [[I G'] R]; auto.
      split; [apply in_operators; auto|]. apply told_term, G'.
  - destruct t as [f muls]. cbn [good_term term_tree write_term]. intros [G R]. rewrite told_plain, sp_app by reflexivity. cbn [flat_map].
    rewrite told_some_list, (told_factor f G) by reflexivity. f_equal. apply told_ops.
    induction muls as [|[v s'] muls IH]; constructor; destruct R as [[I G'] R]; auto.
    split; [apply in_operators; auto|]. apply told_factor, G'.
  - assert (L : forall es, all (good_expr en) es -> Forall (fun e => told (expr_tree e) = sp (write_expr e)) es).
    { induction es as [|e es IH]; constructor; destruct H as [A B]; auto. }
    destruct f as [d args|d|v|v|v| |e|f|es|t e]; cbn [good_factor factor_tree write_factor].
    + intros (G & _ & A). rewrite told_plain, sp_app by reflexivity. cbn [flat_map]. rewrite (told_desig d G). f_equal.
      destruct args as [es|]; auto. destruct A as (_ & A & _). cbn [flat_map]. rewrite app_nil_r.
      rewrite (told_list "ExprList" expr_tree write_expr) by auto. change (sp (wsym "(" :: ?l)) with (sp l).
      rewrite sp_app. cbn. now rewrite app_nil_r.
    + intros G. rewrite told_node_of. cbn [flat_map]. rewrite (told_desig d G), app_nil_r. reflexivity.
    + intros _. rewrite told_node. cbn [says flat_map app]. now rewrite sp_number.
    + intros _. reflexivity.
    + intros _. reflexivity.
    + intros _. reflexivity.
    + intros G. rewrite told_plain by reflexivity. cbn [flat_map]. rewrite (told_expr e G), app_nil_r. change (sp (wsym "(" :: ?l)) with (sp l).
      rewrite sp_app. cbn. now rewrite app_nil_r.
    + intros G. rewrite told_node_of. cbn [flat_map]. rewrite (told_factor f G), app_nil_r. reflexivity.
    + intros [_ A]. change (sp (wsym "[" :: ?l)) with (sp l). rewrite sp_app, (app_nil_r (sp _) : _ ++ sp [wsym "]"] = _).
      apply told_list; auto. clear L. induction es as [|[e o] es IH]; constructor; destruct A as [[G1 G2] A]; auto.
      cbn [fst snd] in *. rewrite told_plain, sp_app by reflexivity. cbn [flat_map]. rewrite (told_expr e G1). f_equal.
      destruct o as [e2|]; auto. cbn [flat_map]. rewrite (told_expr e2 G2), app_nil_r. reflexivity.
    + intros (GU & _ & _ & G). rewrite told_plain by reflexivity. cbn [flat_map]. rewrite (told_expr e G), app_nil_r.
      change (sp (wident ?n :: wsym "(" :: ?l)) with (wident n :: sp l).
      rewrite sp_app, (app_nil_r (sp _) : _ ++ sp [wsym ")"] = _).
      unfold type_id_tree. rewrite GU. reflexivity.
  - destruct d as [q items]. cbn [good_desig desig_tree write_desig]. intros [_ A]. rewrite told_plain, sp_app by reflexivity. cbn [flat_map].
    rewrite told_some_list, told_qual by reflexivity. rewrite sp_flat. cbn [says]. f_equal.
    induction items as [|i items IH]; auto. destruct A as [G A]. cbn [map flat_map]. now rewrite (told_item i G), IH.
  - destruct i as [n|es|]; cbn [good_item item_tree write_item].
    + intros _. reflexivity.
    + intros [_ A]. change (sp (wsym "[" :: ?l)) with (sp l). rewrite sp_app, (app_nil_r (sp _) : _ ++ sp [wsym "]"] = _).
      apply told_list; auto. induction es as [|e es IH]; constructor; destruct A as [G A]; auto.
    + reflexivity.
Qed.
End Env.

(** ** Statements *)
Section Stmts.
Context (spl : spelling) (en : senv).
Notation un := (unmarked spl).
Notation us ws := (un (sp ws)).
Lemma un_app a b : un (a ++ b) = un a ++ un b.
Proof. apply filter_app. Qed.
Lemma us_app a b : us (a ++ b) = us a ++ us b.
Proof. now rewrite sp_app, un_app. Qed.
Lemma un_flat {A} (f : A -> words) l : un (flat_map f l) = flat_map (fun a => un (f a)) l.
Proof. induction l as [|a l IH]; cbn [flat_map]; auto. now rewrite un_app, IH. Qed.
Lemma us_flat {A} (f : A -> words) l : us (flat_map f l) = flat_map (fun a => us (f a)) l.
Proof. now rewrite sp_flat, un_flat. Qed.
Lemma us_silent w ws : spoken w = false -> us (w :: ws) = us ws.
Proof. intros E. cbn [filter]. now rewrite E. Qed.
Lemma us_on ws : us (wident (on_word spl) :: ws) = us ws.
Proof.
  cbn [filter spoken wident fst snd]. unfold un. cbn [filter]. unfold marker at 1. cbn [fst snd wident].
  now rewrite (proj2 (LexShape.runes_equal_eq _ _) eq_refl).
Qed.
Lemma us_at ws : us (wident (at_word spl) :: ws) = us ws.
Proof.
  cbn [filter spoken wident fst snd]. unfold un. cbn [filter]. unfold marker at 1. cbn [fst snd wident].
  now rewrite (proj2 (LexShape.runes_equal_eq (at_word spl) _) eq_refl), orb_true_r.
Qed.
Lemma us_commas l : us (commas l) = flat_map (fun a => us a) l.
Proof. rewrite sp_commas. induction l as [|a l IH]; auto. cbn [flat_map]. now rewrite un_app, IH. Qed.
Lemma us_semicolons l : us (semicolons l) = flat_map (fun a => us a) l.
Proof.
  induction l as [|a l IH]; auto. cbn [semicolons flat_map]. destruct l as [|b l]; [cbn [flat_map]; now rewrite app_nil_r|].
  now rewrite us_app, us_silent, IH by reflexivity.
Qed.
Lemma us_last_semi ws : us (last_semi spl ++ ws) = us ws.
Proof. unfold last_semi. destruct (semi spl); auto. Qed.
Lemma us_list {A} kind (tr : A -> tree) (wr : A -> words) l : says (GOther kind) = [] ->
  Forall (fun a => un (told (tr a)) = us (wr a)) l -> un (told (node kind (map tr l))) = flat_map (fun a => us a) (map wr l).
Proof.
  intros S F. rewrite told_plain by exact S. induction F as [|a l E F IH]; auto.
  cbn [map flat_map]. now rewrite un_app, E, IH.
Qed.
Lemma each_Forall {A} (P : bool -> A -> Prop) l : each P l -> Forall (fun a => exists b, P b a) l.
Proof.
  induction l as [|a l IH]; [intros []|]. cbn. destruct l as [|a' l]; [intros H; constructor; eauto|].
  intros [H1 H2]. constructor; eauto.
Qed.
Lemma us_label r : good_label en r -> un (told (case_label_tree r)) = us (write_label r).
Proof.
  destruct r as [e [e2|]]; intros [G1 G2]; cbn [fst snd] in *; unfold case_label_tree, write_label; cbn [fst snd opt];
    rewrite told_plain by reflexivity; cbn [flat_map]; rewrite ?app_nil_r, ?un_app, ?us_app, ?us_silent by reflexivity;
    now rewrite ?(told_expr _ _ G1), ?(told_expr _ _ G2).
Qed.
Lemma us_exprs es : all (good_expr (names en)) es -> un (told (expr_list_tree es)) = us (commas (map write_expr es)).
Proof.
  intros A. unfold expr_list_tree. rewrite us_commas. apply us_list; auto.
  apply all_Forall in A. eapply Forall_impl; [|exact A]. intros e G. now rewrite (told_expr _ _ G).
Qed.
Lemma told_by_type t : good_type en t -> told_by (type_tree t) = sp (write_type t).
Proof.
  destruct t as [|i| | | | | | | | | | | | |]; try intros []. destruct i as [[u|] i r]; [discriminate|]. reflexivity.
Qed.
Definition heard_stmt (s : stmt) : Prop :=
  forall after, good_stmt spl en s after -> un (told (stmt_tree s)) = us (write_stmt spl s).
Lemma us_stmts close l : Forall heard_stmt l ->
  each (fun last s => good_stmt spl en s (behind spl last close)) l ->
  un (told (node "StmtList" (map stmt_tree l))) = us (semicolons (map (write_stmt spl) l)).
Proof.
  intros IH E. rewrite us_semicolons. apply us_list; auto. apply each_Forall in E. rewrite Forall_forall in *.
  intros s I. destruct (E s I) as [b G]. eapply IH; eauto.
Qed.
Lemma us_names qs : un (told (qual_ids_tree qs)) = us (commas (map write_name qs)).
Proof.
  unfold qual_ids_tree. rewrite us_commas. apply us_list; auto. apply Forall_forall. intros q _. now rewrite told_qual.
Qed.
Lemma us_stmt s : heard_stmt s
with us_body b : forall after, good_body spl en b after -> un (told (body_tree b)) = us (write_body spl b).
Proof.
  - destruct s as [label b]. intros after. cbn [good_stmt stmt_tree write_stmt]. intros [_ G].
    rewrite told_plain, flat_map_app, un_app, us_app by reflexivity. cbn [flat_map]. rewrite app_nil_r, (us_body b after G).
    f_equal. destruct label as [i|]; reflexivity.
  - assert (L : forall l : list stmt, Forall heard_stmt l).
    { induction l as [|s l IH]; constructor; auto. }
    intros after.
    destruct b as [d e|d args| |i r|l|e s1 s2|e sels els|l e|e s|q e1 e2 down s|qs s|l hs els|l1 l2|obj addr|];
      cbn [good_body body_tree write_body]; intros G; rewrite ?told_plain by reflexivity; cbn [flat_map app];
      repeat match goal with
      | |- context [us (wkey ?k :: ?l)] => rewrite (us_silent (wkey k) l eq_refl)
      end; rewrite ?app_nil_r.
    + destruct G as [G1 G2]. rewrite us_app, us_silent, un_app, (told_expr _ _ G2), (told_desig _ _ G1) by reflexivity. reflexivity.
    + destruct G as [G1 G2]. rewrite us_app, un_app, (told_desig _ _ G1). f_equal.
      destruct args as [es|]; auto. destruct G2 as [_ G2]. cbn [opt flat_map].
      now rewrite us_silent, us_app, us_silent, !app_nil_r, (us_exprs _ G2) by reflexivity.
    + reflexivity.
    + reflexivity.
    + rewrite us_app, us_last_semi, us_silent, (us_stmts (wkey "END")) by auto. now rewrite app_nil_r.
    + destruct G as [Ge G]. rewrite !us_app, us_silent, us_app, !un_app, (told_expr _ _ Ge) by reflexivity. f_equal.
      destruct s2 as [s2|].
      * destruct G as [G1 G2]. rewrite (us_stmt s1 _ G1), us_silent by reflexivity. f_equal.
        cbn [flat_map]. now rewrite app_nil_r, (us_stmt s2 _ G2).
      * destruct G as [_ G1]. rewrite (us_stmt s1 _ G1). reflexivity.
    + destruct G as (Ge & _ & Gs & Gl). rewrite us_app, us_silent, us_app, us_app, !un_app, (told_expr _ _ Ge) by reflexivity.
      f_equal. f_equal.
      * rewrite us_flat. rewrite told_plain by reflexivity.
        induction sels as [|[ls s] sels IH]; auto. destruct Gs as [(_ & G1 & G2) Gs]. cbn [map flat_map fst snd] in *.
        rewrite un_app, (IH Gs). f_equal. rewrite told_plain by reflexivity. cbn [flat_map].
        rewrite un_app, us_app, us_silent, us_app, us_silent, app_nil_r, app_nil_r by reflexivity.
        rewrite (us_stmt s _ G2). f_equal. rewrite us_commas. apply us_list; auto.
        apply all_Forall in G1. eapply Forall_impl; [|exact G1]. intros r. apply us_label.
      * rewrite (us_silent (wkey "END") [] eq_refl : us [wkey "END"] = []), app_nil_r. destruct els as [l|]; auto.
        rewrite us_silent, us_app by reflexivity.
        pose proof (us_last_semi []) as LS. rewrite app_nil_r in LS. rewrite LS. cbn [flat_map]. rewrite !app_nil_r.
        now apply (us_stmts (wkey "END")).
    + destruct G as [Gl Ge]. rewrite us_app, us_last_semi, us_silent, un_app, (us_stmts (wkey "UNTIL")), (told_expr _ _ Ge) by auto.
      reflexivity.
    + destruct G as [Ge G]. now rewrite us_app, us_silent, un_app, (us_stmt s _ G), (told_expr _ _ Ge) by auto.
    + destruct G as (Gq & G1 & G2 & G). rewrite us_app, us_silent, us_app, us_silent by (auto; destruct down; auto).
      rewrite us_app, us_silent, !un_app, (us_stmt s _ G), (told_expr _ _ G1), (told_expr _ _ G2), told_qual by auto. reflexivity.
    + destruct G as (_ & _ & G). now rewrite us_app, us_silent, un_app, (us_stmt s _ G), us_names by auto.
    + destruct G as (Gl & G). rewrite us_app, us_last_semi, us_silent, us_app, un_app, (us_stmts (wkey "EXCEPT")) by auto. f_equal.
      rewrite (us_silent (wkey "END") [] eq_refl : us [wkey "END"] = []), app_nil_r. rewrite told_plain by reflexivity.
      cbn [flat_map]. rewrite app_nil_r, un_app.
      pose proof (us_last_semi []) as LS. rewrite app_nil_r in LS.
      destruct hs as [|h hs].
      * destruct els as [l2|]; [|destruct G]. destruct G as [G _].
        rewrite us_app, LS, app_nil_r, (us_stmts (wkey "END")) by auto. reflexivity.
      * destruct G as [Gh Ge]. rewrite us_app, us_last_semi. f_equal.
        -- rewrite us_semicolons. set (hs' := h :: hs) in *. clearbody hs'. apply us_list; auto. apply each_Forall in Gh.
           clear Gl Ge LS. induction hs' as [|[[o t] s] hs' IH]; constructor; inversion Gh as [|x y [b (Gt & Go & Gs)] F]; subst; auto.
           cbn [fst snd] in *. rewrite us_on, us_app, us_app, us_silent by reflexivity. rewrite told_plain by reflexivity.
           cbn [flat_map]. rewrite app_nil_r, un_app, (us_stmt s _ Gs), app_assoc. f_equal.
           unfold handler_decl_tree. rewrite told_node. cbn [says flat_map]. 
           destruct o as [i|]; cbn [opt map app flat_map]; rewrite (told_by_type _ Gt), ?app_nil_r; cbn [told_by]; rewrite ?un_app; reflexivity.
        -- destruct els as [l2|]; auto. rewrite us_silent, us_app, LS, app_nil_r by reflexivity. now apply (us_stmts (wkey "END")).
    + destruct G as [G1 G2].
      rewrite us_app, us_last_semi, us_silent, us_app, us_last_semi, us_silent by reflexivity.
      now rewrite un_app, (us_stmts (wkey "FINALLY")), (us_stmts (wkey "END")), app_nil_r by auto.
    + rewrite flat_map_app, un_app, us_app.
      assert (G' : match obj with None => True | Some e => good_expr (names en) e end /\
                   match addr with None => True | Some e => good_expr (names en) e end).
      { destruct obj, addr; tauto. }
      destruct G' as [G1 G2]. f_equal.
      * destruct obj as [e|]; auto. cbn [opt flat_map]. now rewrite app_nil_r, (told_expr _ _ G1).
      * destruct addr as [e|]; auto. cbn [opt flat_map]. now rewrite us_at, app_nil_r, (told_expr _ _ G2).
    + destruct G.
Qed.
End Stmts.


(** ** Places and references are not told *)
Lemma told_somes l : flat_map told_by (map Some l) = flat_map told l.
Proof. induction l as [|t l IH]; auto. cbn [map flat_map told_by]. now rewrite IH. Qed.
Lemma told_same kind {A B} (f : A -> tree) (g : B -> A) (f' : B -> tree) l :
  Forall (fun b => told (f (g b)) = told (f' b)) l -> told (node kind (map f (map g l))) = told (node kind (map f' l)).
Proof.
  intros F. rewrite !told_node_of. f_equal. induction F as [|b l E F IH]; auto. cbn [map flat_map]. now rewrite E, IH.
Qed.
Lemma told_same_ops kind {A} (tr : A -> tree) (g : A -> A) l :
  Forall (fun r => told (tr (g (snd r))) = told (tr (snd r))) l ->
  flat_map told (map (fun r => Node (GOp kind (fst r)) [Some (tr (snd r))]) (map (fun r => (fst r, g (snd r))) l)) =
  flat_map told (map (fun r : gostring * A => Node (GOp kind (fst r)) [Some (tr (snd r))]) l).
Proof.
  induction 1 as [|r l E F IH]; auto. cbn [map flat_map fst snd]. rewrite IH, !told_node. cbn [flat_map told_by]. now rewrite E.
Qed.
Lemma told_bare_qual q : told (qual_id_tree (bare_qual q)) = told (qual_id_tree q).
Proof. destruct q as [[[n r]|] [m r']]; reflexivity. Qed.
Lemma told_bare_typeid t : told (type_id_tree (bare_typeid t)) = told (type_id_tree t).
Proof. destruct t as [[u|] i r]; reflexivity. Qed.
Lemma told_bare_expr e : told (expr_tree (bare_expr e)) = told (expr_tree e)
with told_bare_sexpr s : told (sexpr_tree (bare_sexpr s)) = told (sexpr_tree s)
with told_bare_term t : told (term_tree (bare_term t)) = told (term_tree t)
with told_bare_factor f : told (factor_tree (bare_factor f)) = told (factor_tree f)
with told_bare_desig d : told (desig_tree (bare_desig d)) = told (desig_tree d)
with told_bare_item i : told (item_tree (bare_item i)) = told (item_tree i).
Proof.
  - destruct e as [s rels]. cbn [expr_tree bare_expr]. rewrite !told_plain by reflexivity. cbn [flat_map].
    rewrite !told_some_list, told_bare_sexpr by reflexivity. f_equal. apply told_same_ops.
    induction rels as [|[v s'] rels IH]; constructor; cbn [snd]; auto.
  - destruct s as [u t adds]. cbn [sexpr_tree bare_sexpr]. rewrite !told_node. cbn [map flat_map told_by].
    rewrite !told_somes, !told_some_list, told_bare_term by reflexivity. do 2 f_equal. apply told_same_ops.
    induction adds as [|[v s'] rels IH]; constructor; cbn [snd]; auto.
  - destruct t as [f muls]. cbn [term_tree bare_term]. rewrite !told_plain by reflexivity. cbn [flat_map].
    rewrite !told_some_list, told_bare_factor by reflexivity. f_equal. apply told_same_ops.
    induction muls as [|[v s'] rels IH]; constructor; cbn [snd]; auto.
  - destruct f as [d args|d|v|v|v| |e|f|es|t e]; cbn [factor_tree bare_factor]; try reflexivity.
    + rewrite !told_plain by reflexivity. cbn [flat_map]. rewrite told_bare_desig. f_equal.
      destruct args as [es|]; auto. cbn [option_map flat_map]. f_equal. apply told_same.
      induction es as [|e es IH]; constructor; auto.
    + rewrite !told_node_of. cbn [flat_map]. now rewrite told_bare_desig.
    + rewrite !told_node_of. cbn [flat_map]. now rewrite told_bare_expr.
    + rewrite !told_node_of. cbn [flat_map]. now rewrite told_bare_factor.
    + apply told_same. induction es as [|[e o] es IH]; constructor; auto. cbn [fst snd].
      rewrite !told_plain by reflexivity. cbn [flat_map]. rewrite told_bare_expr. f_equal.
      destruct o as [e2|]; auto. cbn [option_map flat_map]. now rewrite told_bare_expr.
    + rewrite !told_node_of. cbn [flat_map]. now rewrite told_bare_expr, told_bare_typeid.
  - destruct d as [q items]. cbn [desig_tree bare_desig]. rewrite !told_plain by reflexivity. cbn [flat_map].
    rewrite !told_some_list, told_bare_qual by reflexivity. f_equal.
    induction items as [|i items IH]; auto. cbn [map flat_map]. now rewrite told_bare_item, IH.
  - destruct i as [n|es|]; try reflexivity. cbn [item_tree bare_item]. apply told_same. induction es as [|e es IH]; constructor; auto.
Qed.
Lemma told_bare_label r : told (case_label_tree (bare_expr (fst r), option_map bare_expr (snd r))) = told (case_label_tree r).
Proof.
  destruct r as [e [e2|]]; unfold case_label_tree; cbn [fst snd opt option_map]; rewrite !told_plain by reflexivity; cbn [flat_map];
    now rewrite !told_bare_expr.
Qed.
Lemma told_bare_handler o t : told (handler_decl_tree (option_map bare_ident o) (bare_type t)) = told (handler_decl_tree o t).
Proof.
  unfold handler_decl_tree. rewrite !told_node, !flat_map_app. f_equal. f_equal; [now destruct o|].
  destruct t; auto. cbn [bare_type type_tree flat_map told_by]. now rewrite told_bare_typeid.
Qed.
Lemma told_bare_stmt s : told (stmt_tree (bare_stmt s)) = told (stmt_tree s)
with told_bare_body b : told (body_tree (bare_body b)) = told (body_tree b).
Proof.
  - destruct s as [label b]. cbn [bare_stmt stmt_tree]. rewrite !told_plain, !flat_map_app by reflexivity. f_equal; [now destruct label|].
    cbn [flat_map]. now rewrite told_bare_body.
  - assert (L : forall l : list stmt, told (node "StmtList" (map stmt_tree (map bare_stmt l))) = told (node "StmtList" (map stmt_tree l))).
    { intros l. apply told_same. induction l as [|s l IH]; constructor; auto. }
    destruct b as [d e|d args| |i r|l|e s1 s2|e sels els|l e|e s|q e1 e2 down s|qs s|l hs els|l1 l2|obj addr|];
      cbn [bare_body body_tree]; try reflexivity; rewrite !told_plain by reflexivity; cbn [flat_map app];
      rewrite ?told_bare_desig, ?told_bare_expr, ?L, ?told_bare_stmt, ?told_bare_qual; auto.
    + f_equal. destruct args as [es|]; auto. cbn [option_map opt flat_map]. unfold expr_list_tree. f_equal. apply told_same.
      apply Forall_forall. intros e _. apply told_bare_expr.
    + f_equal. f_equal. destruct s2 as [s2|]; auto. cbn [option_map flat_map]. now rewrite told_bare_stmt.
    + f_equal. f_equal.
      * apply told_same. induction sels as [|[ls s] sels IH]; constructor; auto. cbn [fst snd].
        rewrite !told_plain by reflexivity. cbn [flat_map]. rewrite told_bare_stmt. f_equal. apply told_same.
        apply Forall_forall. intros r _. apply told_bare_label.
      * destruct els as [l|]; auto. cbn [option_map flat_map]. now rewrite L.
    + f_equal. unfold qual_ids_tree. apply told_same. apply Forall_forall. intros q _. apply told_bare_qual.
    + f_equal. f_equal. rewrite !told_plain by reflexivity. cbn [flat_map]. f_equal.
      * apply told_same. induction hs as [|[[o t] s] hs IH]; constructor; auto. cbn [fst snd].
        rewrite !told_plain by reflexivity. cbn [flat_map]. now rewrite told_bare_stmt, told_bare_handler.
      * destruct els as [l2|]; auto. cbn [option_map]. now rewrite L.
    + rewrite !flat_map_app. f_equal.
      * destruct obj as [e|]; auto. cbn [option_map opt flat_map]. now rewrite told_bare_expr.
      * destruct addr as [e|]; auto. cbn [option_map opt flat_map]. now rewrite told_bare_expr.
Qed.

(** ** The theorems *)
Lemma heard_told t : heard t = told t.
Proof. unfold heard. now rewrite listen_told. Qed.

Theorem expression_walk :
  forall en e, good_expr en e -> walk_down listen (expr_tree e) [] = (filter spoken (write_expr e), None).
Proof. intros en e G. rewrite listen_told. cbn [app]. now rewrite (told_expr _ _ G). Qed.

Theorem statement_walk :
  forall sp en st after, good_stmt sp en st after ->
    unmarked sp (heard (stmt_tree st)) = unmarked sp (filter spoken (write_stmt sp st)).
Proof. intros spl en st after G. rewrite heard_told. exact (us_stmt spl en st after G). Qed.

End WithUnicode.

Section Parsed.
Context {U : Unicode} {UOK : UnicodeOk U}.
Theorem parsed_expression_walk :
  forall text s e s' fuel,
    parsing text s -> parser_context s -> run (parse_expression (recs_at fuel)) s = OOk e s' ->
    exists ws, (forall rest, stands text s' rest -> stands text s (ws ++ rest)) /\
      walk_down listen (expr_tree e) [] = (filter spoken ws, None).
Proof.
  intros text s e s' fuel P PC R. destruct (accepted_expressions text s e s' fuel P PC R) as (G & _ & W).
  exists (write_expr e). split; [exact W|]. eapply expression_walk; eauto.
Qed.

Theorem parsed_statement_walk :
  forall text s sp st after rest fuel,
    parser_context s -> good_stmt sp (senv_at (s_heap s) (s_ctx s)) st after -> In after stmt_ends ->
    Forall (vacant (s_heap s) (s_ctx s)) (handler_vars st) -> NoDup (map to_lower (handler_vars st)) ->
    stands text s (write_stmt sp st ++ after :: rest) -> length (write_stmt sp st) <= fuel ->
    exists st' s', run (parse_statement (recs_at fuel)) s = OOk st' s' /\
      unmarked sp (heard (stmt_tree st')) = unmarked sp (filter spoken (write_stmt sp st)).
Proof.
  intros text s spl st after rest fuel PC G Ia V ND St L.
  destruct (statement_round_trip text s spl st after rest fuel PC G Ia V ND St L) as (st' & s' & R & B & _).
  exists st', s'. split; [exact R|]. rewrite <- (statement_walk _ _ _ _ G), !heard_told.
  now rewrite <- told_bare_stmt, B, told_bare_stmt.
Qed.
End Parsed.
