(** Every method of the parser ends: one lemma for each method of Parser.v, in its order.
    Names, expressions, and the types written with them. *)
From Coq Require Import String List NArith Bool Arith Lia.
From Verif Require Import ListUtil Runes UnicodeFacts Token Tokenizer CursorFacts TokenizerFacts LexSpec LexShape LexFacts LexMain
  Ast Ext Heap Classes MapSpec MapFacts Prog Parser ParseSpec RunFacts WpFacts TermSpec TermHeap TermFacts.
Import ListNotations.
Local Open Scope list_scope.

Create HintDb term discriminated.
#[export] Hint Constants Opaque : term.
#[export] Hint Variables Opaque : term.

Section WithUnicode.
Context {U : Unicode} {UOK : UnicodeOk U} {unmapped : Unmapped}.
Local Notation node_there := (node_there unmapped).
Local Notation declared := (declared unmapped).
Local Notation sound := (sound_but unmapped).
Variable text : list rune.
Variable path : gostring.
Variable lax : bool.
Variable D : nat.

Local Notation ok := (TermFacts.ok text path lax D).
Local Notation fin := (TermFacts.fin text path lax D).
Local Notation mu := (TermFacts.mu text).
Local Notation reflen := TermFacts.reflen.

(** ** Tokens at the end of the text *)
Lemma eof_raw s t : ok s -> s_cur s = Some t -> t_type t = EOF -> raw t = [] /\ value t = [].
Proof.
  intros O C E. pose proof (ok_token _ _ _ _ _ _ O C) as T.
  assert (R : raw t = []).
  { destruct (token_of_fits _ _ T) as (_ & a & b & _ & _ & _ & [(_ & Rw & _)|(N & _)]); [exact Rw|contradiction]. }
  split; [exact R|]. unfold value. now rewrite E.
Qed.
End WithUnicode.

(** A token that meets a predicate is not the end of the text. *)
Ltac open_pred H :=
  unfold rel_op, unary_op, add_op, mul_op, section_end, p_directive, p_portability, p_directive_set, str_in, eqs_any,
    kw, sym, upper_is, upper_eq, eqs, p_symbol, p_keyword, p_upper, p_has_text, p_value, p_type, p_not in H.
Ltac noteof :=
  let E := fresh "E" in
  intro E;
  match type of E with
  | t_type ?t = EOF =>
      match goal with
      | O : TermFacts.ok _ _ _ _ ?s, C : s_cur ?s = Some t |- _ =>
          let X := fresh in let V := fresh in
          destruct (eof_raw _ _ _ _ _ _ O C E) as [X V];
          multimatch goal with
          | H : ?b = ?c |- _ =>
              match type of b with bool => idtac | ttype => idtac end;
              match b with context [t] => idtac end;
              solve [ congruence
                    | open_pred H; cbn [p_some existsb] in H; rewrite ?E, ?X, ?V in H; cbn in H; discriminate H ]
          end
      end
  end.
Ltac unlike :=
  repeat match goal with
  | H : TermFacts.like _ _ _ |- _ => destruct H as (? & ? & ? & ?)
  | H : _ /\ _ |- _ => destruct H
  | H : True |- _ => clear H
  | H : s_cur _ = s_cur ?b, C : s_cur ?b = Some _ |- _ => rewrite C in H
  end.
Ltac start := cbn beta iota zeta; intros; cbn beta iota zeta in *; unlike.
(** Arithmetic, with the tests on tokens out of the way *)
Ltac arith :=
  first [ assumption | apply le_n
        | repeat match goal with
          | H : _ = false |- _ => clear H
          | H : ?f ?x = true |- _ => clear H
          end; lia ].
(** One step along a method *)
Ltac go1 :=
  lazymatch goal with
  | |- TermFacts.fin _ _ _ _ _ (Ret _) _ _ => apply fin_ret; [assumption|cbn beta iota zeta]
  | |- TermFacts.fin _ _ _ _ _ (Bind (match _ with _ => _ end) _) _ _ =>
      apply (fin_join _ _ _ _ _ _ _ _ (fun _ _ => True)); [|start]
  | |- TermFacts.fin _ _ _ _ _ (Bind (Attempt _) _) _ _ =>
      apply (fin_join _ _ _ _ _ _ _ _ (fun _ _ => True)); [|start]
  | |- TermFacts.fin _ _ _ _ _ (Bind _ _) _ _ => apply fin_bind
  | |- TermFacts.fin _ _ _ _ _ (match ?x with _ => _ end) _ _ => destruct x eqn:?; cbn beta iota zeta
  | |- TermFacts.fin _ _ _ _ _ (let _ := _ in _) _ _ => cbn beta iota zeta
  | |- TermFacts.fin _ _ _ _ _ cur _ _ => apply fin_cur; [assumption|start]
  | |- TermFacts.fin _ _ _ _ _ Cur _ _ => apply fin_Cur; [assumption|start]
  | |- TermFacts.fin _ _ _ _ _ (is _) _ _ => apply fin_is; [assumption|start]
  | |- TermFacts.fin _ _ _ _ _ (expect _) _ _ => apply fin_expect; [assumption|arith|start]
  | |- TermFacts.fin _ _ _ _ _ (expect_or_fail _) _ _ => apply fin_expect_or_fail; [assumption|arith|start]
  | |- TermFacts.fin _ _ _ _ _ (expect_next _) _ _ =>
      apply fin_expect_next; [assumption|arith|start;
        match goal with
        | H : t_type ?t <> EOF -> _ |- _ =>
            let N := fresh "N" in assert (N : t_type t <> EOF) by noteof; specialize (H N); clear N
        end]
  | |- TermFacts.fin _ _ _ _ _ next ?s _ =>
      first [ match goal with
              | C : s_cur s = Some ?t |- _ =>
                  let N := fresh "N" in
                  assert (N : t_type t <> EOF) by noteof;
                  eapply fin_next_strict; [assumption|exact C|exact N|clear N; start]
              end
            | apply fin_next; [assumption|start] ]
  | |- TermFacts.fin _ _ _ _ _ Next ?s _ =>
      first [ match goal with
              | C : s_cur s = Some ?t |- _ =>
                  let N := fresh "N" in
                  assert (N : t_type t <> EOF) by noteof;
                  eapply fin_Next_strict; [assumption|exact C|exact N|clear N; start]
              end
            | apply fin_Next; [assumption|start] ]
  | |- TermFacts.fin _ _ _ _ _ (FailAt ?t) _ _ =>
      match goal with
      | C : s_cur ?s0 = Some t, O : TermFacts.ok _ _ _ _ ?s0 |- _ =>
          apply (fin_failat _ _ _ _ _ _ _ _ s0); [assumption|exact O|exact C|arith|arith]
      end
  | |- TermFacts.fin _ _ _ _ _ Crash _ _ => apply fin_crash; [assumption|assumption]
  | |- TermFacts.fin _ _ _ _ _ (Fail ENil) _ _ => apply fin_nil_fail; assumption
  | |- TermFacts.fin _ _ _ _ _ (Fail _) _ _ => apply fin_fail; [assumption|exact I]
  | |- TermFacts.fin _ _ _ _ _ (get _) _ _ => apply fin_get; [assumption|start]
  | |- TermFacts.fin _ _ _ _ _ (get_node _) _ _ => apply fin_get_node; [assumption|start]
  | |- TermFacts.fin _ _ _ _ _ (new_type_id _ _ _) _ _ => apply fin_new_type_id; [assumption|start]
  | |- TermFacts.fin _ _ _ _ _ (Attempt _) _ _ => apply fin_attempt; [assumption|start|start]
  | |- TermFacts.fin _ _ _ _ _ (Scoped _) _ _ => apply fin_scoped; [assumption|start]
  | |- TermFacts.fin _ _ _ _ _ (Traced _) _ _ => apply fin_traced; [assumption|]
  | |- TermFacts.fin _ _ _ _ _ (AddPost _ _) _ _ => apply fin_addpost; [assumption|start]
  | |- TermFacts.fin _ _ _ _ _ (loop _ _ _) _ _ => apply fin_loop; [assumption|arith|start|start]
  | |- TermFacts.fin _ _ _ _ _ (validate _ _) _ _ => cbn [validate]
  | |- TermFacts.fin _ _ _ _ _ _ _ _ =>
      eapply fin_conseq; [solve [eauto 4 with term] | arith | start]
  | |- forall s3, TermFacts.ok _ _ _ _ s3 -> TermFacts.like _ _ s3 -> _ => start
  | |- True => exact I
  end.
Ltac leaf :=
  cbn beta iota zeta; unlike;
  try match goal with |- match ?x with _ => _ end => is_var x; destruct x end;
  try solve [exact I | arith].
Ltac go := repeat go1; leaf.
#[export] Hint Extern 1 (TermFacts.ok _ _ _ _ _) => assumption : term.
#[export] Hint Extern 1 (_ \/ _) => arith : term.

Section WithUnicode2.
Context {U : Unicode} {UOK : UnicodeOk U} {unmapped : Unmapped}.
Local Notation node_there := (node_there unmapped).
Local Notation declared := (declared unmapped).
Local Notation sound := (sound_but unmapped).
Variable text : list rune.
Variable path : gostring.
Variable lax : bool.
Variable D : nat.

Local Notation ok := (TermFacts.ok text path lax D).
Local Notation fin := (TermFacts.fin text path lax D).
Local Notation mu := (TermFacts.mu text).
Local Notation reflen := TermFacts.reflen.

(** ** Names *)
Lemma fin_is_unit_identifier t s : ok s -> fin (place s) (is_unit_identifier t) s (fun _ s' => s' = s).
Proof. intros O. unfold is_unit_identifier. go1. go1. go1. reflexivity. Qed.
Lemma fin_is_namespace_identifier t s : ok s -> fin (place s) (is_namespace_identifier t) s (fun _ s' => s' = s).
Proof. intros O. unfold is_namespace_identifier. go1. go1. go1. reflexivity. Qed.
Lemma fin_new_ident_ref t s : ok s -> fin (place s) (new_ident_ref t) s (fun _ _ => True).
Proof. intros O. unfold new_ident_ref. go. Qed.

#[local] Hint Resolve fin_is_unit_identifier fin_is_namespace_identifier fin_new_ident_ref : term.
Lemma fin_uses_item_unit from a s (Q : option nat -> pst -> Prop) : ok s -> (exists k, node_there (s_heap s) k (NUses a)) ->
  (forall o, (forall u, o = Some u -> unit_there (s_heap s) u) -> Q o s) -> fin from (uses_item_unit a) s Q.
Proof.
  intros O (k & o & E & N) H. apply fin_onheap; [exact O|]. rewrite E.
  split; [apply good_refl, (ok_sound text path lax D), O|]. rewrite with_heap_same. now apply H.
Qed.
Lemma fin_unit_get from u name s (Q : option dref -> pst -> Prop) : ok s -> unit_there (s_heap s) u ->
  (forall d, Q d s) -> fin from (unit_get u name) s Q.
Proof.
  intros O (o & E & N) H. apply fin_onheap; [exact O|]. rewrite E.
  pose proof (dget_there _ _ name (ok_sound _ _ _ _ _ O) N) as G.
  destruct (dget _ _ name); try destruct G;
    (split; [apply good_refl, (ok_sound text path lax D), O|]; rewrite with_heap_same; apply H).
Qed.
Lemma fin_program_get from u name s (Q : option dref -> pst -> Prop) : ok s -> (exists k, node_there (s_heap s) k (NProgram u)) ->
  (forall d, Q d s) -> fin from (program_get u name) s Q.
Proof.
  intros O (k & o & E & N) H. apply fin_onheap; [exact O|]. rewrite E.
  pose proof (dget_there _ _ name (ok_sound _ _ _ _ _ O) N) as G.
  destruct (dget _ _ name); try destruct G;
    (split; [apply good_refl, (ok_sound text path lax D), O|]; rewrite with_heap_same; apply H).
Qed.

Lemma fin_expect_dot from s t (Q : token -> pst -> Prop) : ok s -> from <= place s -> s_cur s = Some t -> t_type t = Identifier ->
  (forall t1 s', ok s' -> s_cur s' = Some t1 -> place s <= place s' -> mu s' <= mu s -> reflen s' = reflen s ->
     s_heap s' = s_heap s -> (forall u, unmapped (to_lower (value t)) u -> qualifies text (fun k => exists u, unmapped k u)) -> Q t1 s') ->
  fin from (expect_next (sym ".")) s Q.
Proof.
  intros O L C T H. unfold expect_next. apply fin_bind. pose proof (next_pre text path lax D s (proj1 O)) as X.
  unfold TermFacts.fin at 1. cbn [run]. destruct (next_token s) as [c s'|? ?| | |] eqn:En; auto; try contradiction.
  destruct X as (O' & C' & Hh & Hc & PL & M & St).
  split; [exact O'|]. split; [split; [exact PL|]; split; [exact M|]; rewrite Hh; apply grew_refl|].
  destruct c as [t1|]; cbn [validate]; [|now apply fin_nil_fail].
  destruct (sym "." t1) eqn:E; [|eapply fin_failat; eauto; lia].
  apply fin_ret; [exact O'|]. apply H; auto; [unfold TermFacts.reflen; now rewrite Hh|]. intros un UM.
  destruct O as [(_ & AB & _) _]. destruct (AB t C) as (k & t' & k' & H0 & F1 & F2 & G & (A1 & A2 & _) & SS).
  unfold next_token in En. destruct (get_next (s_tok s)) as [u k2|?|] eqn:G2; try discriminate. injection En as <- <-.
  assert (Hk : held text k') by (eapply held_tok; eauto). destruct (held_wf _ _ Hk) as [W _].
  pose proof (get_next_alike k' (s_tok s) SS W) as Y. rewrite G2 in Y.
  destruct (get_next k') as [u' k3|?|] eqn:G3; try contradiction. destruct Y as [(B1 & B2 & _) _].
  exists t', u'. split; [exists k, k', k3; auto|]. split; [congruence|]. split.
  - rewrite sym_w in E |- *. unfold word_of, value in *. rewrite B1, B2. exact E.
  - unfold value in *. rewrite A1, A2. eauto.
Qed.
Lemma fin_unit_get_maybe from u name k s (Q : option dref -> pst -> Prop) : ok s -> node_there (s_heap s) k (NUnit u) ->
  (unmapped k u -> qualifies text (fun k => exists u, unmapped k u)) -> (forall d, Q d s) -> fin from (unit_get u name) s Q.
Proof.
  intros O N H HQ. destruct (nth_error (h_units (s_heap s)) u) as [o|] eqn:E.
  - apply fin_onheap; [exact O|]. rewrite E. destruct (dget (s_heap s) (un_map o) name) eqn:G.
    1, 2: split; [apply good_refl, (ok_sound text path lax D), O|]; rewrite with_heap_same; apply HQ.
    destruct N as [(o' & E' & N)|N]; [|right; auto]. exfalso. rewrite E in E'. injection E' as <-.
    pose proof (dget_there _ _ name (ok_sound _ _ _ _ _ O) N) as X. now rewrite G in X.
  - apply fin_onheap; [exact O|]. rewrite E. destruct N as [(o' & E' & N)|N]; [congruence|right; auto].
Qed.

Lemma fin_parse_qual_id s : ok s -> fin (place s) parse_qual_id s (fun _ s' => mu s' < mu s).
Proof.
  intros O. unfold parse_qual_id. go1. go1. go1.
  eapply fin_conseq; [now apply fin_is_namespace_identifier|lia|start]. subst.
  apply (fin_join _ _ _ _ _ _ _ _ (fun _ s' => s' = s)).
  { go1; [now go1|]. now apply fin_is_unit_identifier. }
  start. subst. go1.
  - go1. eapply fin_expect_dot; [exact O|lia|exact H|now apply ttype_eqb_eq|]. intros t0 s' O' C' PL M RL Hh QU.
    go1. go1. go1. go1. go1; [|go1]. destruct p as [nsd n]. cbn beta iota zeta in *.
    apply (fin_join _ _ _ _ _ _ _ _ (fun _ _ => True)).
    { destruct n; try go1; cbn beta iota zeta.
      - apply fin_uses_item_unit; [assumption|eauto|]. start. go1; [|go1].
        apply fin_unit_get; auto.
      - eapply fin_unit_get_maybe; eauto.
      - apply fin_program_get; eauto. }
    start. go.
  - go.
Qed.
Lemma fin_parse_ident s : ok s -> fin (place s) parse_ident s (fun i s' => i_loc i <> None /\ mu s' < mu s).
Proof. intros O. unfold parse_ident. go. split; [discriminate|lia]. Qed.
Lemma fin_parse_ident_list_by fuel term s : ok s -> lax = true \/ mu s < fuel ->
  fin (place s) (parse_ident_list_by fuel term) s
    (fun l s' => Forall (fun i => i_loc i <> None) l /\ mu s' < mu s /\ exists t, s_cur s' = Some t /\ term t = true).
Proof.
  intros O Fu. unfold parse_ident_list_by.
  apply (fin_join _ _ _ _ _ _ _ _ (fun l s' => Forall (fun i => i_loc i <> None) l /\ mu s' < mu s)).
  - unfold until_list, until.
    apply (fin_loop_inv _ _ _ _ _ (fun l s1 => Forall (fun i => i_loc i <> None) l) _ _ s); auto; try lia.
    intros l s1 O1 P1 M1 R1 F. unfold until_step, append_with. go1. go1.
    eapply fin_conseq; [now apply fin_parse_ident|lia|start]. go1. go1. go1.
    assert (F' : Forall (fun i => i_loc i <> None) (l ++ [a])) by (apply Forall_app; auto).
    go; try (split; [exact F'|lia]).
  - start. go. eauto.
Qed.

(** ** Methods *)
Definition tyok (n : nat) (s : pst) (ty : typ) : Prop := lax = true \/ short (S (D + n)) (s_heap s) ty.
Definition no_stray_asm : Prop := lax = true \/ ~ asm_without_end text.
Definition no_types : Prop := lax = true \/ ~ has_type_section text.
(** The recursive calls end on states with less than [m] left to read. *)
Record rgood (R : recs) (m : nat) : Prop := mkRgood {
  rg_fuel : lax = true \/ m + D + 2 <= r_fuel R;
  rg_expr : forall s, ok s -> lax = true \/ mu s < m -> fin (place s) (r_expr R) s (fun _ _ => True);
  rg_factor : forall s, ok s -> lax = true \/ mu s < m -> fin (place s) (r_factor R) s (fun _ _ => True);
  rg_type : forall s, ok s -> lax = true \/ mu s < m -> fin (place s) (r_type R) s (fun ty s' => tyok (mu s) s' ty);
  rg_fields : forall term s, ok s -> lax = true \/ mu s < m -> fin (place s) (r_fields R term) s (fun _ _ => True);
  rg_stmt : no_stray_asm ->
    forall s, ok s -> lax = true \/ mu s < m -> fin (place s) (r_stmt R) s (fun _ _ => True);
  rg_block : no_stray_asm -> no_types ->
    forall s, ok s -> lax = true \/ mu s < m -> fin (place s) (r_block R) s (fun _ _ => True) }.

Lemma tyok_leaf n s ty : cell_of ty = None -> (forall h ty', ~ leads h ty ty') -> tyok n s ty.
Proof. intros C L. right. now apply short_leaf. Qed.
Lemma tyok_cell n s ty ti : ok s -> ti_ref ti < reflen s ->
  ty = TId ti \/ (exists p, ty = TFile p ti) \/ (exists ps mem, ty = TClass (Some (ti :: ps)) mem) -> tyok n s ty.
Proof.
  intros [(_ & _ & _ & _ & [LX|[L Sh]]) _] C E; [now left|right].
  apply (short_le _ (S D)); [lia|]. eapply short_cell; eauto.
Qed.
Lemma tyok_set n1 n s p ty : tyok n1 s ty -> n1 < n -> tyok n s (TSet p ty).
Proof.
  intros [LX|Sh] L; [now left|right]. cbn [short]. split; [discriminate|]. intros ty' E. inversion E; subst.
  eapply short_le; [|exact Sh]. lia.
Qed.
Lemma tyok_le n n' s ty : tyok n s ty -> n <= n' -> tyok n' s ty.
Proof. intros [LX|Sh] L; [now left|right]. eapply short_le; [|exact Sh]. lia. Qed.

Ltac tleaf := first [ eapply tyok_cell; [assumption|eassumption|eauto; fail]
                    | apply tyok_leaf; [reflexivity|intros ? ? X; inversion X; fail] ].
Lemma fin_parse_type_id_with_unit s : ok s ->
  fin (place s) parse_type_id_with_unit s (fun r s' => forall ti, r = Some ti -> ti_ref ti < reflen s').
Proof. intros O. unfold parse_type_id_with_unit. go; intros ? [=]; subst; assumption. Qed.
Lemma fin_parse_type_id_without_unit s : ok s ->
  fin (place s) parse_type_id_without_unit s (fun ti s' => ti_ref ti < reflen s').
Proof. intros O. unfold parse_type_id_without_unit. go. Qed.
#[local] Hint Resolve fin_parse_type_id_with_unit fin_parse_type_id_without_unit : term.
Lemma fin_parse_type_id s : ok s -> fin (place s) parse_type_id s (fun ti s' => ti_ref ti < reflen s').
Proof. intros O. unfold parse_type_id. go. subst. auto. Qed.
Lemma fin_parse_embedded k req s : ok s ->
  fin (place s) (parse_embedded k req) s (fun r s' => forall ti, r = Some ti -> ti_ref ti < reflen s').
Proof. intros O. unfold parse_embedded. go; intros ? [=]; subst; assumption. Qed.
#[local] Hint Resolve fin_parse_type_id fin_parse_embedded : term.
Lemma fin_parse_pointer_type s : ok s -> fin (place s) parse_pointer_type s (fun ty s' => tyok (mu s) s' ty).
Proof. intros O. unfold parse_pointer_type. go. tleaf. Qed.
Lemma fin_set1 i n s (Q : unit -> pst -> Prop) from : ok s -> i_loc i <> None -> (forall k, node_there (s_heap s) k n) ->
  (forall ty, n <> NType ty) ->
  (forall s', ok s' -> like text s s' -> Q tt s') -> fin from (set [mkDecl i n]) s Q.
Proof. intros O L N NT H. apply fin_set; [exact O| |exact H]. constructor; [|constructor]. repeat split; auto. Qed.
Lemma fin_sets l n s (Q : unit -> pst -> Prop) from : ok s -> Forall (fun i => i_loc i <> None) l -> (forall k, node_there (s_heap s) k n) ->
  (forall ty, n <> NType ty) ->
  (forall s', ok s' -> like text s s' -> Q tt s') -> fin from (set (map (fun i => mkDecl i n) l)) s Q.
Proof.
  intros O F N NT H. apply fin_set; [exact O| |exact H].
  induction F; cbn [map]; constructor; auto. repeat split; auto.
Qed.
Ltac goset :=
  lazymatch goal with
  | |- TermFacts.fin _ _ _ _ _ (set [_]) _ _ =>
      apply fin_set1; [assumption|first [assumption|discriminate]|exact (fun _ => I)|discriminate|start]
  | |- TermFacts.fin _ _ _ _ _ (set (map _ _)) _ _ =>
      apply fin_sets; [assumption|assumption|exact (fun _ => I)|discriminate|start]
  end.
Ltac go ::= repeat first [goset|go1]; leaf.
Section Methods.
Variable R : recs.
Variable m : nat.
Hypothesis RG : rgood R m.
Let HF := rg_fuel R m RG.
Let HE := rg_expr R m RG.
Let HFa := rg_factor R m RG.
Let HT := rg_type R m RG.
#[local] Hint Resolve fin_parse_qual_id fin_parse_ident HE HFa HT : term.

Lemma fin_parse_qual_ids s : ok s -> lax = true \/ mu s <= m -> fin (place s) (parse_qual_ids R) s (fun _ _ => True).
Proof. intros O M. unfold parse_qual_ids, until_list, until, until_step, append_with. go. Qed.
Lemma fin_parse_expr_list term s : ok s -> lax = true \/ mu s < m ->
  fin (place s) (parse_expr_list R term) s (fun _ _ => True).
Proof. intros O M. unfold parse_expr_list, expr_list_step. go. Qed.
#[local] Hint Resolve fin_parse_qual_ids fin_parse_expr_list : term.
Lemma fin_designator_step items s : ok s -> lax = true \/ mu s <= m ->
  fin (place s) (designator_step R items) s (fun r s' => match r with inl _ => mu s' < mu s | inr _ => True end).
Proof.
  intros O M. unfold designator_step. go1. go1. go1; [|go]. go1; [go|].
  apply (fin_join _ _ _ _ _ _ _ _ (fun item s' => item <> None -> mu s' < mu s \/ s' = s)).
  - go1; [go|]. go1; [go|]. go1; [|go; contradiction]. go1. auto.
  - intros [item|] s1 O1 P1 M1 R1 H; [|go]. destruct (H ltac:(discriminate)) as [H'| ->]; go.
Qed.
#[local] Hint Resolve fin_designator_step : term.
Lemma fin_parse_designator s : ok s -> lax = true \/ mu s <= m -> fin (place s) (parse_designator R) s (fun _ s' => mu s' < mu s).
Proof. intros O M. unfold parse_designator. go. Qed.
#[local] Hint Resolve fin_parse_designator : term.
Lemma fin_parse_set_element s : ok s -> lax = true \/ mu s < m -> fin (place s) (parse_set_element R) s (fun _ _ => True).
Proof. intros O M. unfold parse_set_element. go. Qed.
#[local] Hint Resolve fin_parse_set_element : term.
Lemma fin_parse_set_constructor s : ok s -> lax = true \/ mu s <= m -> fin (place s) (parse_set_constructor R) s (fun _ _ => True).
Proof. intros O M. unfold parse_set_constructor, until_list, until, until_step, append_with. go. Qed.
#[local] Hint Resolve fin_parse_set_constructor : term.
Lemma fin_parse_cast t0 d s : ok s -> s_cur s = Some t0 -> t_type t0 = Identifier -> lax = true \/ mu s <= m ->
  fin (place s) (parse_cast R t0 d) s (fun _ _ => True).
Proof. intros O C T M. unfold parse_cast. go. Qed.
Lemma fin_parse_designator_factor s : ok s -> lax = true \/ mu s <= m ->
  fin (place s) (parse_designator_factor R) s (fun _ _ => True).
Proof. intros O M. unfold parse_designator_factor. go. Qed.
#[local] Hint Resolve fin_parse_designator_factor : term.
Lemma fin_parse_factor s : ok s -> lax = true \/ mu s <= m -> fin (place s) (parse_factor R) s (fun _ _ => True).
Proof.
  intros O M. unfold parse_factor, parse_manifest_constant, parse_string_factor, parse_number_factor. cbn [orb].
  repeat first [apply fin_parse_cast; [assumption|eassumption|now apply ttype_eqb_eq|lia]|go1].
Qed.
#[local] Hint Resolve fin_parse_factor : term.
Lemma fin_parse_term s : ok s -> lax = true \/ mu s <= m -> fin (place s) (parse_term R) s (fun _ _ => True).
Proof. intros O M. unfold parse_term, term_step. go. Qed.
#[local] Hint Resolve fin_parse_term : term.
Lemma fin_parse_simple_expression s : ok s -> lax = true \/ mu s <= m -> fin (place s) (parse_simple_expression R) s (fun _ _ => True).
Proof. intros O M. unfold parse_simple_expression, simple_step. go. Qed.
#[local] Hint Resolve fin_parse_simple_expression : term.
Lemma fin_parse_expression s : ok s -> lax = true \/ mu s <= m -> fin (place s) (parse_expression R) s (fun _ _ => True).
Proof. intros O M. unfold parse_expression, expression_step. go. Qed.
Lemma fin_parse_const_expr s : ok s -> lax = true \/ mu s <= m -> fin (place s) (parse_const_expr R) s (fun _ _ => True).
Proof. exact (fin_parse_expression s). Qed.
#[local] Hint Resolve fin_parse_expression fin_parse_const_expr : term.

(** *** Types *)
Lemma fin_parse_subrange_for_identifier s : ok s -> lax = true \/ mu s <= m ->
  fin (place s) (parse_subrange_for_identifier R) s (fun r s' => forall ty, r = Some ty -> tyok (mu s) s' ty).
Proof. intros O M. unfold parse_subrange_for_identifier. go; try discriminate; intros ? [=]; subst; tleaf. Qed.
#[local] Hint Resolve fin_parse_subrange_for_identifier : term.
Lemma fin_parse_type_for_identifier s : ok s -> lax = true \/ mu s <= m ->
  fin (place s) (parse_type_for_identifier R) s (fun ty s' => tyok (mu s) s' ty).
Proof.
  intros O M. unfold parse_type_for_identifier. go; subst;
    repeat match goal with H : forall x, Some ?t = Some x -> _ |- _ => specialize (H t eq_refl) end; try tleaf.
  eapply tyok_le; [eassumption|lia].
Qed.
Lemma fin_parse_const_subrange s : ok s -> lax = true \/ mu s <= m ->
  fin (place s) (parse_const_subrange R) s (fun ty s' => tyok (mu s) s' ty).
Proof. intros O M. unfold parse_const_subrange. go. tleaf. Qed.
Lemma fin_parse_enum_element s : ok s -> lax = true \/ mu s <= m ->
  fin (place s) (parse_enum_element R) s (fun _ s' => mu s' < mu s).
Proof. intros O M. unfold parse_enum_element. go. Qed.
#[local] Hint Resolve fin_parse_enum_element : term.
Lemma fin_parse_enumerated_type s : ok s -> lax = true \/ mu s <= m ->
  fin (place s) (parse_enumerated_type R) s (fun ty s' => tyok (mu s) s' ty).
Proof. intros O M. unfold parse_enumerated_type, enum_step. go. tleaf. Qed.
Lemma fin_parse_string_of_string_type s : ok s -> lax = true \/ mu s <= m ->
  fin (place s) (parse_string_of_string_type R) s (fun ty s' => tyok (mu s) s' ty).
Proof. intros O M. unfold parse_string_of_string_type. go; tleaf. Qed.
Lemma fin_parse_type_as_ordinal s : ok s -> lax = true \/ mu s < m ->
  fin (place s) (parse_type_as_ordinal R) s (fun ty s' => tyok (mu s) s' ty).
Proof.
  intros O M. unfold parse_type_as_ordinal. go1. go1. go1. go1. go1. apply fin_onheap; [assumption|].
  destruct (type_is (r_fuel R) (s_heap s') QOrdinal a) as [b|] eqn:E.
  - split; [apply good_refl, (ok_sound text path lax D); assumption|]. rewrite with_heap_same. go1; [go1; assumption|].
    destruct (s_cur s) eqn:C; [go1|]. unfold TermFacts.fin. cbn [run]. left; now apply O.
  - destruct H3 as [?|Sh]; [assumption|]. destruct M as [?|M]; [assumption|]. destruct HF as [?|HF']; [assumption|].
    exfalso. revert E. eapply type_is_done; [exact Sh|lia].
Qed.
#[local] Hint Resolve fin_parse_type_for_identifier fin_parse_pointer_type fin_parse_const_subrange fin_parse_enumerated_type
  fin_parse_string_of_string_type fin_parse_type_as_ordinal : term.
End Methods.
End WithUnicode2.
