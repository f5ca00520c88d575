(** The methods for types read the source form of a type. *)
From Coq Require Import String List NArith Bool Arith Lia.
From Verif Require Import ListUtil Runes UnicodeFacts Token Tokenizer LexSpec LexShape LexFacts LexMain Ext ExtMain
  Ast Heap Classes MapSpec MapFacts MapMain Prog ParseSpec Parser RunFacts ExprSpec WpFacts ExprFacts StmtSpec GrowFacts
  StmtFacts EvolveFacts EvolveParse DeclSpec ScopeFacts DeclFacts.
Import ListNotations.
Local Open Scope list_scope.
Local Open Scope prog_scope.

Section WithUnicode.
Context {U : Unicode} {UOK : UnicodeOk U}.

Notation words := (list (ttype * gostring)).
Context (text : list rune) (st : style).
Notation in_scope := (in_scope text).

Ltac fl := cbv beta iota; repeat (match goal with
  | |- wp (Bind (Ret _) _) _ _ => apply wp_ret_bind
  | |- wp (Bind (Bind _ _) _) _ _ => apply wp_assoc
  end; cbv beta iota).
Ltac wd := let t := fresh "t" in let W := fresh "W" in intros t W; cbn [p_some existsb]; rewrite ?sym_w, ?kw_w, ?type_w, ?W; try reflexivity.
Ltac ev := repeat match goal with
  | |- context [eqs_any ?a ?b] => let v := eval vm_compute in (eqs_any a b) in replace (eqs_any a b) with v by (vm_compute; reflexivity)
  | |- context [eqs ?a ?b] => let v := eval vm_compute in (eqs a b) in replace (eqs a b) with v by (vm_compute; reflexivity)
  | |- context [weqb (wsym ?a) (wsym ?b)] => let v := eval vm_compute in (weqb (wsym a) (wsym b)) in replace (weqb (wsym a) (wsym b)) with v by (vm_compute; reflexivity)
  | |- context [weqb (wkey ?a) (wkey ?b)] => let v := eval vm_compute in (weqb (wkey a) (wkey b)) in replace (weqb (wkey a) (wkey b)) with v by (vm_compute; reflexivity)
  | |- context [weqb (wkey ?a) (wsym ?b)] => let v := eval vm_compute in (weqb (wkey a) (wsym b)) in replace (weqb (wkey a) (wsym b)) with v by (vm_compute; reflexivity)
  | |- context [weqb (wsym ?a) (wkey ?b)] => let v := eval vm_compute in (weqb (wsym a) (wkey b)) in replace (weqb (wsym a) (wkey b)) with v by (vm_compute; reflexivity)
  end; cbv beta iota.

(** ** The built-in types *)
Lemma embedded_find f i j (l : list (ekind * gostring)) : find_index f i l = Some j ->
  exists x, nth_error l (j - i) = Some x /\ In x l /\ f x = true /\ i <= j.
Proof.
  revert i. induction l as [|x l IH]; intros i; cbn [find_index]; [discriminate|]. destruct (f x) eqn:F.
  - intros [= <-]. exists x. rewrite Nat.sub_diag. split; [reflexivity|]. split; [now left|]. auto.
  - intros H. destruct (IH _ H) as (y & N & I & Fy & L). exists y. replace (j - i) with (S (j - S i)) by lia.
    split; [exact N|]. split; [now right|]. split; [exact Fy|]. lia.
Qed.
Lemma embedded_found kd n d : embedded_type_decl kd n = Some d ->
  exists nm, In (kd, nm) embedded /\ to_upper nm = to_upper n /\ forall h, deref h d = Some (embedded_decl kd nm).
Proof.
  unfold embedded_type_decl. destruct (find_index _ 0 embedded) as [j|] eqn:F; [|discriminate]. intros [= <-].
  apply embedded_find in F as ([k nm] & N & I & E & _). rewrite Nat.sub_0_r in N. cbn [fst snd] in E. apply andb_true_iff in E as [E1 E2].
  apply runes_equal_eq in E2. assert (k = kd) as -> by (destruct k, kd; try discriminate; reflexivity).
  exists nm. split; [exact I|]. split; [exact E2|]. intros h. cbn [deref]. rewrite N. reflexivity.
Qed.
Lemma embedded_up k nm : In (k, nm) embedded -> to_upper nm = map ascii_up nm.
Proof.
  intros I. apply to_upper_ascii, all_ascii_spec. pose proof embedded_ascii as Q. rewrite forallb_forall in Q. apply (Q _ I).
Qed.
Lemma embedded_one : forallb (fun a => forallb (fun b => negb (runes_equal (map ascii_up (snd a)) (map ascii_up (snd b))) || ekind_eqb (fst a) (fst b)) embedded) embedded = true.
Proof. vm_compute. reflexivity. Qed.
Lemma embedded_kind k k' n d d' : embedded_type_decl k n = Some d -> embedded_type_decl k' n = Some d' -> k = k'.
Proof.
  intros H H'. apply embedded_found in H as (a & I & E & _). apply embedded_found in H' as (a' & I' & E' & _).
  pose proof embedded_one as Q. rewrite forallb_forall in Q. specialize (Q _ I). rewrite forallb_forall in Q. specialize (Q _ I').
  cbn [fst snd] in Q. rewrite <- (embedded_up _ _ I), <- (embedded_up _ _ I'), E, E' in Q.
  rewrite (proj2 (runes_equal_eq _ _) eq_refl) in Q. destruct k, k'; try discriminate; reflexivity.
Qed.
Lemma embedded_string n : to_upper n = rs "STRING" -> exists d, embedded_type_decl EtkStringType n = Some d.
Proof.
  intros E. unfold embedded_type_decl.
  rewrite (find_index_ext _ (fun e => ekind_eqb (fst e) EtkStringType && runes_equal (map ascii_up (snd e)) (rs "STRING"))).
  - eexists. vm_compute. reflexivity.
  - intros [k nm] I. cbn [fst snd]. now rewrite E, <- (embedded_up _ _ I).
Qed.
Lemma type_is_ordident f h r d nm : 2 <= f -> ref_of h r = Some d -> deref h d = Some (embedded_decl EtkOrdIdent nm) ->
  type_is f h QOrdinal (TId r) = Some true.
Proof.
  intros L R D. destruct f as [|[|f]]; [lia|lia|]. cbn [type_is]. unfold ref_type. rewrite R, D. reflexivity.
Qed.

(** ** Rules for names of types *)
Section Names.
Context {B : Type} (sc : scope) (s : pst) (Q : B -> pst -> Prop).
Lemma d_type_id i (k : typeid -> prog B) ws : in_scope sc s (write_typeid i ++ ws) -> ws <> [] -> good_typeid sc i ->
  (forall r s1, bare_tid r = bare_tid i -> in_scope sc s1 ws -> wp (k r) s1 Q) -> wp (Bind parse_type_id k) s Q.
Proof.
  intros I N [Hu A] K. unfold parse_type_id. fl.
  eapply d_not_unit; [exact I| |].
  - unfold write_typeid. destruct (is_string _); exact A.
  - fl. eapply d_type_id_without_unit; [exact I|exact N|unfold write_typeid; reflexivity|exact Hu|]. intros r s1 E _ I1. now apply K.
Qed.
Lemma d_no_embedded kd (k : option typeid -> prog B) w ws : in_scope sc s (w :: ws) -> embedded_type_decl kd (snd w) = None ->
  wp (k None) s Q -> wp (Bind (parse_embedded kd false) k) s Q.
Proof.
  intros I E K. unfold parse_embedded. fl. eapply d_cur; [exact I|]. intros t Wt. fl. rewrite value_w, Wt, E. fl. exact K.
Qed.
Lemma d_embedded kd d (k : option typeid -> prog B) nm ws : in_scope sc s (wident nm :: ws) -> ws <> [] -> embedded_type_decl kd nm = Some d ->
  (forall r s1, (forall i, ti_unit i = None -> i_name (ti_ident i) = nm -> bare_tid r = bare_tid i) -> ref_of (s_heap s1) r = Some d -> in_scope sc s1 ws -> wp (k (Some r)) s1 Q) ->
  wp (Bind (parse_embedded kd false) k) s Q.
Proof.
  intros I N E K. unfold parse_embedded. fl. eapply d_cur; [exact I|]. intros t Wt. fl. rewrite value_w, Wt. cbn [snd wident]. rewrite E. fl.
  eapply d_next; [exact I|exact N|]. intros t0 s1 I1. fl. eapply d_new_type_id; [exact I1|]. intros c s2 Rf _ I2. fl.
  apply K; [|exact Rf|exact I2]. intros i Hu Hn. apply wident_inv in Wt as [_ Rt]. unfold bare_tid. cbn [ti_unit ti_ident new_ident i_name]. now rewrite Hu, Rt, Hn.
Qed.
End Names.

(** ** Unfolding *)
Lemma w_rec packed fl : write_ty st (TRec packed fl) = (if packed then [wkey "PACKED"] else []) ++ wkey "RECORD" :: write_fields st fl ++ [wkey "END"].
Proof. reflexivity. Qed.
Lemma w_fields ds : write_fields st (FieldList ds None) = semicolons (map (write_field st) ds) ++ list_end st ds.
Proof. reflexivity. Qed.
Lemma w_fields_v ds v : write_fields st (FieldList ds (Some v)) = flat_map (fun d => write_field st d ++ [wsym ";"]) ds ++ write_variants st v.
Proof. reflexivity. Qed.
Lemma w_field ids t : write_field st (FieldDecl ids t) = write_idents ids ++ wsym ":" :: write_ty st t.
Proof. reflexivity. Qed.
Lemma w_variants i t vs : write_variants st (VariantSection i t vs) =
  wkey "CASE" :: match i with None => [] | Some i => [wident (i_name i); wsym ":"] end ++
  write_ty st t ++ wkey "OF" :: semicolons (map (write_variant st) vs) ++ list_end st vs.
Proof. reflexivity. Qed.
Lemma w_variant es fl : write_variant st (RecVariant es fl) = commas (map write_expr es) ++ wsym ":" :: wsym "(" :: write_fields st fl ++ [wsym ")"].
Proof. reflexivity. Qed.
Lemma w_parm opt ids ty e : write_parm st (FormalParm opt ids ty e) =
  match opt with None => [] | Some w => [(ReservedWord, w)] end ++ write_idents ids ++
  match ty with
  | None => []
  | Some (t, isarray) => wsym ":" :: (if isarray then [wkey "ARRAY"; wkey "OF"] else []) ++ match t with TNil => [wkey "CONST"] | _ => write_ty st t end
  end ++ write_value e.
Proof. reflexivity. Qed.
Lemma g_rec packed fl sc after : good_ty st (TRec packed fl) sc after = good_fields st fl sc.
Proof. reflexivity. Qed.
Lemma g_fields ds v sc : good_fields st (FieldList ds v) sc =
  (in_turn (good_field st) (fun d => declare (field_names d)) (wsym ";")
    (match v with None => behind (statements st) true (wkey "END") | Some _ => wsym ";" end) ds sc /\
   match v with None => True | Some v => good_variants st v (declare (flat_map field_names ds) sc) end).
Proof. reflexivity. Qed.
Lemma g_field ids t sc after : good_field st (FieldDecl ids t) sc after = (ids <> [] /\ finished t = true /\ good_ty st t sc after).
Proof. reflexivity. Qed.
Lemma g_variants i t vs sc : good_variants st (VariantSection i t vs) sc =
  (finished t = true /\ good_ty st t sc (wkey "OF") /\ is_ordinal sc t /\
   match i with None => match write_ty st t with (Identifier, _) :: _ => True | _ => False end | Some _ => True end /\
   in_turn (good_variant st) (fun v => declare (variant_names v)) (wsym ";")
     (behind (statements st) true (wkey "END")) vs (declare (type_names t) sc)).
Proof. reflexivity. Qed.
Lemma g_variant es ds sc after : good_variant st (RecVariant es (FieldList ds None)) sc after =
  (es <> [] /\ all (good_expr (names (known sc))) es /\
   in_turn (good_field st) (fun d => declare (field_names d)) (wsym ";") (behind (statements st) true (wsym ")")) ds sc).
Proof. reflexivity. Qed.
Lemma g_parm opt ids ty e sc after : good_parm st (FormalParm opt ids ty e) sc after =
  (match opt with None => True | Some w => In w (map rs ["VAR"; "CONST"; "OUT"]%string) end /\
   ids <> [] /\
   match ty with
   | None => e = None
   | Some (TNil, isarray) => isarray = true
   | Some (t, isarray) =>
       finished t = true /\ good_ty st t sc (match e with None => after | Some _ => wsym "=" end) /\
       (isarray = false -> match t with TArray false _ _ => False | _ => True end)
   end /\
   let sc' := declare (match ty with None => [] | Some (t, _) => type_names t end) sc in
   good_value sc' e /\ may_declare sc' (idents ids)).
Proof. reflexivity. Qed.

(** ** The rule for a type *)
Lemma finished_left t : finished t = true -> left_over t = [].
Proof. induction t; cbn [finished left_over]; auto; discriminate. Qed.
Definition ty_rule (p : prog typ) (t : typ) : Prop := forall B (k : typ -> prog B) sc s Q after rest,
  in_scope sc s (write_ty st t ++ after :: rest) -> good_ty st t sc after ->
  (forall t' s1, bare_ty t' = bare_ty t ->
     (is_ordinal sc t -> forall f, 2 <= f -> type_is f (s_heap s1) QOrdinal t' = Some true) ->
     in_scope (declare (type_names t) sc) s1 (left_over t ++ after :: rest) -> wp (k t') s1 Q) ->
  wp (Bind p k) s Q.

Section Level.
Context (m : nat).
Notation R := (recs_at m).

(** *** Names *)
Lemma d_peek_not {B} sc s Q w after rest (k : option typ -> prog B) : in_scope sc s (w :: after :: rest) -> snd after <> rs ".." ->
  (forall s1, in_scope sc s1 (w :: after :: rest) -> wp (k None) s1 Q) -> wp (Bind (parse_subrange_for_identifier R) k) s Q.
Proof.
  intros I A K. unfold parse_subrange_for_identifier. eapply d_attempt; [exact I| |exact K].
  intros s0 I0. fl. destruct (stands_cur _ _ _ _ (sc_stands _ _ _ _ I0)) as (t & C & Wt & _).
  apply wp_bind. eapply wp_cur; [exact C|]. apply wp_bind. unfold next. apply wp_bind. eapply wp_next; [apply I0|discriminate|].
  intros t1 s1 C1 Hd St1 SB1. apply wp_ret. assert (W1 : word_of t1 = after) by (cbn [hd_error] in Hd; congruence).
  unfold p_value. rewrite value_w, W1. destruct (runes_eqb_spec (snd after) (rs "..")) as [E|E]; [contradiction|].
  apply wp_ret. now apply quiet_place.
Qed.
Lemma ty_name i : length (write_ty st (TId i)) <= m -> is_string (i_name (ti_ident i)) = false -> ty_rule (parse_type R) (TId i).
Proof.
  intros L S B k sc s Q after rest I G K. cbn [good_ty] in G. rewrite S in G. destruct G as (Hu & A & D).
  cbn [write_ty] in I. unfold write_typeid in I. rewrite S in I. cbn [app] in I.
  set (nm := i_name (ti_ident i)) in *.
  assert (Cl : forall r s1, (forall j, ti_unit j = None -> i_name (ti_ident j) = nm -> bare_tid r = bare_tid j) ->
     (is_ordinal sc (TId i) -> forall f, 2 <= f -> type_is f (s_heap s1) QOrdinal (TId r) = Some true) ->
     in_scope sc s1 (after :: rest) -> wp (k (TId r)) s1 Q).
  { intros r s1 E O I1. apply K; [cbn [bare_ty]; f_equal; now apply E|exact O|]. eapply in_scope_le; [apply declare_nil'|exact I1]. }
  unfold parse_type. fl. eapply d_cur; [exact I|]. intros t Wt. fl. destruct (wident_inv _ _ Wt) as [-> _]. fl.
  unfold parse_type_for_identifier. fl. eapply d_not_unit; [exact I|exact A|]. fl.
  destruct (embedded_type_decl EtkReal nm) as [d|] eqn:E1.
  { eapply d_embedded; [exact I|discriminate|exact E1|]. intros r s1 E Rf I1. fl. apply Cl; [exact E| |exact I1].
    intros [_ O]. apply (sc_ordinal _ _ _ _ I) in O. cbn [ordinal scope_at] in O. fold nm in O. exfalso. destruct O as [O|[O _]].
    - destruct (embedded_type_decl EtkOrdIdent nm) as [d'|] eqn:E2; [|now apply O]. now pose proof (embedded_kind _ _ _ _ _ E1 E2).
    - apply O. left. fold nm. rewrite E1. discriminate. }
  eapply d_no_embedded; [exact I|exact E1|]. fl.
  destruct (embedded_type_decl EtkOrdIdent nm) as [d|] eqn:E2.
  { eapply d_embedded; [exact I|discriminate|exact E2|]. intros r s1 E Rf I1. fl. apply Cl; [exact E| |exact I1].
    intros _ f Lf. destruct (embedded_found _ _ _ E2) as (n' & _ & _ & Df). eapply type_is_ordident; eauto. }
  eapply d_no_embedded; [exact I|exact E2|]. fl.
  destruct (embedded_type_decl EtkStringType nm) as [d|] eqn:E3.
  { eapply d_embedded; [exact I|discriminate|exact E3|]. intros r s1 E Rf I1. fl. apply Cl; [exact E| |exact I1].
    intros [_ O]. apply (sc_ordinal _ _ _ _ I) in O. cbn [ordinal scope_at] in O. fold nm in O. exfalso. destruct O as [O|[O _]]; [congruence|].
    apply O. right. right. fold nm. rewrite E3. discriminate. }
  eapply d_no_embedded; [exact I|exact E3|]. fl.
  eapply d_peek_not; [exact I|exact D|]. intros s1 I1. fl.
  eapply d_type_id_without_unit with (i := i); [exact I1|discriminate|unfold write_typeid; fold nm; now rewrite S|exact Hu|]. intros r s2 E Rf I2. fl. apply Cl; [| |exact I2].
  - intros j Hj Hn. rewrite E. unfold bare_tid. now rewrite Hu, Hj, Hn.
  - intros [_ O] f Lf. apply (sc_ordinal _ _ _ _ I2) in O. cbn [ordinal scope_at] in O. fold nm in O. destruct O as [O|(NB & d & t' & Re & O)]; [congruence|].
    specialize (Rf S _ _ Re). destruct f as [|[|f]]; [lia|lia|]. cbn [type_is]. rewrite Rf. destruct t'; try contradiction; reflexivity.
Qed.

(** *** Strings *)
Lemma wkey_inv t x : word_of t = wkey x -> t_type t = ReservedWord /\ value t = rs x.
Proof. intros W. split; [now apply (f_equal fst) in W|]. rewrite value_w, W. reflexivity. Qed.
Lemma bare_string i t c : word_of t = wkey "STRING" -> ti_unit i = None -> is_string (i_name (ti_ident i)) = true ->
  bare_tid (mkTypeId None (new_ident t) c) = bare_tid i.
Proof.
  intros W Hu S. apply bare_read; [reflexivity|exact Hu|]. unfold write_typeid. now rewrite S, W.
Qed.
Lemma ty_string i : is_string (i_name (ti_ident i)) = true -> ty_rule (parse_type R) (TId i).
Proof.
  intros S B k sc s Q after rest I G K. cbn [good_ty] in G. rewrite S in G. destruct G as (Hu & A).
  cbn [write_ty] in I. unfold write_typeid in I. rewrite S in I. cbn [app] in I.
  unfold parse_type. fl. eapply d_cur; [exact I|]. intros t Wt. fl. destruct (wkey_inv _ _ Wt) as [-> Vt]. rewrite Vt. fl.
  destruct (embedded_string (rs "STRING")) as (d & Ed); [apply to_upper_ascii, all_ascii_spec; reflexivity|].
  ev.
  unfold parse_string_of_string_type. fl. eapply d_cur; [exact I|]. intros t1 W1. fl. rewrite (proj2 (wkey_inv _ _ W1)), Ed. fl.
  eapply d_next_tok; [exact I|]. intros t2 s1 W2 I1. fl. rewrite sym_w, W2. replace (weqb after (wsym "[")) with false by (symmetry; now apply weqb_neq).
  fl. eapply d_new_type_id; [exact I1|]. intros c s2 _ _ I2. fl. apply K.
  - cbn [bare_ty]. f_equal. now apply bare_string.
  - intros [O _]. congruence.
  - eapply in_scope_le; [apply declare_nil'|exact I2].
Qed.
Lemma ty_fixed i e : length (write_ty st (TFixedString i e)) <= m -> ty_rule (parse_type R) (TFixedString i e).
Proof.
  intros L B k sc s Q after rest I G K. cbn [good_ty] in G. destruct G as (Hu & S & Ge).
  cbn [write_ty] in I, L. cbn [app] in I. rewrite <- app_assoc in I. cbn [app] in I. cbn [length] in L. rewrite app_length in L. cbn [length] in L.
  unfold parse_type. fl. eapply d_cur; [exact I|]. intros t Wt. fl. destruct (wkey_inv _ _ Wt) as [-> Vt]. rewrite Vt. fl.
  destruct (embedded_string (rs "STRING")) as (d & Ed); [apply to_upper_ascii, all_ascii_spec; reflexivity|].
  ev.
  unfold parse_string_of_string_type. fl. eapply d_cur; [exact I|]. intros t1 W1. fl. rewrite (proj2 (wkey_inv _ _ W1)), Ed. fl.
  eapply d_next_tok; [exact I|]. intros t2 s1 W2 I1. fl. rewrite sym_w, W2. change (weqb (wsym "[") (wsym "[")) with true. fl.
  eapply d_next; [exact I1|apply app_nonempty; discriminate|]. intros t3 s2 I2. fl.
  eapply d_expr; [exact I2|lia|exact Ge|apply stops_by; reflexivity|]. intros e' s3 Be I3. fl.
  eapply d_expect; [exact I3|wd|]. intros t4 W4. fl. eapply d_next; [exact I3|discriminate|]. intros t5 s4 I4. fl.
  eapply d_new_type_id; [exact I4|]. intros c s5 _ _ I5. fl. apply K.
  - cbn [bare_ty]. rewrite Be. f_equal. now apply bare_string.
  - intros [].
  - eapply in_scope_le; [apply declare_nil'|exact I5].
Qed.

(** *** Pointers, subranges, enumerations *)
Lemma ty_pointer i : ty_rule (parse_type R) (TPointer i).
Proof.
  intros B k sc s Q after rest I G K. cbn [good_ty] in G. cbn [write_ty app] in I.
  unfold parse_type. fl. eapply d_cur; [exact I|]. intros t Wt. fl.
  assert (t_type t = SpecialSymbol) as -> by (now apply (f_equal fst) in Wt). rewrite !sym_w, Wt. fl.
  ev. unfold parse_pointer_type. fl. eapply d_expect; [exact I|wd|]. intros t1 W1. fl.
  eapply d_next; [exact I|discriminate|]. intros t2 s1 I1. fl. eapply d_type_id; [exact I1|discriminate|exact G|]. intros r s2 E I2. fl. apply K.
  - cbn [bare_ty]. now rewrite E.
  - intros [].
  - eapply in_scope_le; [apply declare_nil'|exact I2].
Qed.
Lemma after_expr after rest : ~ In after goes_on -> stops expr_on (after :: rest).
Proof. intros N. eapply stops_incl; [exact expr_on_goes_on|exact N]. Qed.
Lemma ty_subrange low high : length (write_ty st (TSubrange low high)) <= m -> ty_rule (parse_type R) (TSubrange low high).
Proof.
  intros L B k sc s Q after rest I G K. cbn [good_ty] in G. destruct G as ((Gl & Fl) & Gh & A).
  cbn [write_ty] in I, L. rewrite <- app_assoc in I. cbn [app] in I. rewrite app_length in L. cbn [length] in L.
  pose proof (write_expr_nonempty low) as NEl. assert (1 <= length (write_expr low)) by (destruct (write_expr low); [congruence|cbn; lia]).
  assert (Cl : forall l' h' s1, bare_expr l' = bare_expr low -> bare_expr h' = bare_expr high -> in_scope sc s1 (after :: rest) -> wp (k (TSubrange l' h')) s1 Q).
  { intros l' h' s1 E1 E2 I1. apply K; [cbn [bare_ty]; now rewrite E1, E2|intros _ f Lf; destruct f; [lia|reflexivity]|].
    eapply in_scope_le; [apply declare_nil'|exact I1]. }
  assert (Lit : (exists x y, write_expr low = x :: y /\ (fst x = NumeralInt \/ fst x = NumeralReal \/ fst x = CharacterString)) -> wp (Bind (parse_type R) k) s Q).
  { intros (x & y & Ex & Tx). unfold parse_type. fl. pose proof I as I0. rewrite Ex in I0. cbn [app] in I0. eapply d_cur; [exact I0|]. intros t Wt. fl.
    assert (Tt : t_type t = fst x) by (now apply (f_equal fst) in Wt).
    assert (C : wp (Bind (parse_const_subrange R) k) s Q).
    { unfold parse_const_subrange, parse_const_expr. fl. eapply d_expr_here; [exact I|lia|exact Gl|apply stops_by; reflexivity|]. intros l' s1 El I1. fl.
      eapply d_expect; [exact I1|intros t2 W2; unfold p_value; rewrite value_w, W2; reflexivity|]. intros t2 W2. fl.
      eapply d_next; [exact I1|apply app_nonempty; discriminate|]. intros t3 s2 I2. fl.
      eapply d_expr; [exact I2|lia|exact Gh|now apply after_expr|]. intros h' s3 Eh I3. fl. now apply Cl. }
    rewrite Tt. destruct Tx as [->|[->| ->]]; exact C. }
  destruct (write_expr low) as [|x y] eqn:Ew; [congruence|]. 
  assert (D : (fst x = NumeralInt \/ fst x = NumeralReal \/ fst x = CharacterString) \/
    match low with
    | Expr (SExpr None (Term (FDesignator (Desig (mkQualId None n) []) None) []) []) [] => ~ built_in (i_name (ir_ident n))
    | _ => False
    end) by (destruct x as [[] v]; cbn [fst]; auto 6).
  destruct D as [D|D]; [apply Lit; eauto|]. clear Lit Fl.
  destruct low as [[u [f muls] adds] rels]. destruct u; [contradiction|]. destruct f as [[[ns n] items] args| | | | | | | | |]; try contradiction.
  destruct ns; [contradiction|]. destruct items; [|contradiction]. destruct args; [contradiction|]. destruct muls; [|contradiction].
  destruct adds; [|contradiction]. destruct rels; [|contradiction].
  cbn in Ew. injection Ew as <- <-. cbn [app] in I. set (nm := i_name (ir_ident n)) in *.
  assert (A' : a_name (known sc) nm) by (cbn in Gl; apply Gl).
  unfold parse_type. fl. eapply d_cur; [exact I|]. intros t Wt. fl. destruct (wident_inv _ _ Wt) as [-> _]. fl.
  unfold parse_type_for_identifier. fl. eapply d_not_unit; [exact I|exact A'|]. fl. unfold built_in in D. fold nm in D.
  assert (Em : forall x : option dref, ~ x <> None -> x = None) by (intros [x|] Hx; [exfalso; apply Hx; discriminate|reflexivity]).
  assert (E1 : embedded_type_decl EtkReal nm = None) by (apply Em; intros Y; apply D; left; exact Y).
  assert (E2 : embedded_type_decl EtkOrdIdent nm = None) by (apply Em; intros Y; apply D; right; left; exact Y).
  assert (E3 : embedded_type_decl EtkStringType nm = None) by (apply Em; intros Y; apply D; right; right; exact Y).
  eapply d_no_embedded; [exact I|exact E1|]. fl. eapply d_no_embedded; [exact I|exact E2|]. fl.
  eapply d_no_embedded; [exact I|exact E3|]. fl. clear E1 E2 E3.
  unfold parse_subrange_for_identifier. 
  assert (Body : forall s0, in_scope sc s0 (wident nm :: wsym ".." :: write_expr high ++ after :: rest) ->
    wp (t1 <- cur ;; t2 <- next ;; (if p_value (rs "..") t2 then Next ;;; e <- r_expr R ;; r <- new_ident_ref t1 ;;
      Ret (Some (TSubrange (const_expr_of_qual_id (mkQualId None r)) e)) else Ret None)) s0
      (fun r s' => exists l' h', r = Some (TSubrange l' h') /\ bare_expr l' = bare_expr (Expr (SExpr None (Term (FDesignator (Desig (mkQualId None n) []) None) []) []) []) /\
         bare_expr h' = bare_expr high /\ in_scope sc s' (after :: rest))).
  { intros s0 I0. eapply d_cur; [exact I0|]. intros t1 W1. fl. eapply d_next_tok; [exact I0|]. intros t2 s1 W2 I1. fl.
    unfold p_value. rewrite value_w, W2. change (runes_equal (snd (wsym "..")) (rs "..")) with true. fl.
    eapply d_next; [exact I1|apply app_nonempty; discriminate|]. intros t3 s2 I2. fl.
    eapply d_expr; [exact I2|lia|exact Gh|now apply after_expr|]. intros h' s3 Eh I3. fl. unfold new_ident_ref. fl.
    eapply d_get; [exact I3|]. intros d _. fl. apply wp_ret. eexists _, _. split; [reflexivity|]. split; [|split; [exact Eh|exact I3]].
    cbn. unfold bare_qual, bare_ref, bare_ident. cbn. apply wident_inv in W1 as [_ ->]. reflexivity. }
  eapply d_attempt_some; [exact I|].
  intros s0 I0. eapply wp_conseq; [apply Body, I0|]. intros r s' (l' & h' & -> & E1 & E2 & I1). eexists. split; [reflexivity|]. fl. now apply Cl.
Qed.

Definition write_element (x : ident * option expr) : words := wident (i_name (fst x)) :: write_value (snd x).
Definition bare_element (x : ident * option expr) : ident * option expr := (bare_ident (fst x), option_map bare_expr (snd x)).
Lemma new_ident_bare t i : word_of t = wident (i_name i) -> bare_ident (new_ident t) = bare_ident i.
Proof. intros W. apply wident_inv in W as [_ E]. unfold bare_ident. cbn [new_ident i_name]. now rewrite E. Qed.
(** A value behind an equals sign, or nothing. *)
Lemma d_value {B} sc s Q e (k : option expr -> prog B) (k2 : bool -> prog B) after rest :
  (forall b : bool, wp (e <- (if b then Next ;;; e <- r_expr R ;; Ret (Some e) else Ret None) ;; k e) s Q -> wp (k2 b) s Q) -> in_scope sc s (write_value e ++ after :: rest) ->
  length (write_value e) <= m -> good_value sc e -> ~ In after goes_on -> 
  (forall e' s1, option_map bare_expr e' = option_map bare_expr e -> in_scope sc s1 (after :: rest) -> wp (k e') s1 Q) ->
  wp (Bind (is (sym "=")) k2) s Q.
Proof.
  intros K2 I L G A K. destruct e as [e|]; cbn [write_value app length] in *.
  - eapply (d_is text sc s Q (sym "=") true); [exact I|wd|]. apply K2. fl. eapply d_next; [exact I|apply app_nonempty; discriminate|]. intros t s1 I1. fl.
    eapply d_expr; [exact I1|lia|exact G|now apply after_expr|]. intros e' s2 E I2. fl. apply K; [cbn; now rewrite E|exact I2].
  - eapply (d_is text sc s Q (sym "=") false); [exact I| |].
    + intros t W. rewrite sym_w, W. apply weqb_neq. intros ->. apply A. apply win_iff. vm_compute. reflexivity.
    + apply K2. fl. apply K; [reflexivity|exact I].
Qed.
Lemma enum_loop {B} (k : list (ident * option expr) -> prog B) es : forall fuel acc sc s Q w rest, es <> [] -> length es <= fuel ->
  (forall x, In x es -> length (write_element x) <= m) ->
  in_scope sc s (w :: joined (wsym ",") (map write_element es) ++ wsym ")" :: rest) ->
  in_turn (fun x sc _ => good_value sc (snd x) /\ may_declare sc [i_name (fst x)]) (fun x => declare [i_name (fst x)]) weof weof es sc ->
  (forall es' s1, map bare_element es' = map bare_element es ->
     in_scope (behind_all (fun x => declare [i_name (fst x)]) es sc) s1 (wsym ")" :: rest) -> wp (k (acc ++ es')) s1 Q) ->
  wp (Bind (loop fuel (enum_step R) acc) k) s Q.
Proof.
  induction es as [|x es IH]; intros fuel acc sc s Q w rest NE Lf Ll I G K; [congruence|].
  destruct fuel as [|fuel]; [cbn in Lf; lia|]. cbn [loop]. unfold enum_step at 1. fl. unfold parse_enum_element. fl.
  destruct G as ((Gv & Md) & G). specialize (Ll x (or_introl eq_refl)) as Lx.
  assert (exists after rest', joined (wsym ",") (map write_element (x :: es)) ++ wsym ")" :: rest = write_element x ++ after :: rest' /\
    match es with [] => after = wsym ")" /\ rest' = rest | _ => after = wsym "," /\ rest' = joined (wsym ",") (map write_element es) ++ wsym ")" :: rest end) as (after & rest' & Ew & Ha).
  { destruct es as [|y es]; [eexists _, _; split; [reflexivity|auto]|]. eexists _, _. cbn [map]. rewrite joined_cons by discriminate.
    rewrite <- app_assoc. split; [reflexivity|auto]. }
  rewrite Ew in I. unfold write_element in I, Lx. cbn [app length] in I, Lx.
  assert (Af : after = wsym ")" \/ after = wsym ",") by (destruct es; [left|right]; apply Ha).
  eapply d_expect_next; [exact I|wd|]. intros t s1 Wt I1. fl. eapply d_next; [exact I1|apply app_nonempty; discriminate|]. intros t2 s2 I2. fl.
  eapply d_value; [intros b Hb; fl; exact Hb|exact I2|lia|exact Gv|destruct Af as [->| ->]; apply win_not; vm_compute; reflexivity|]. intros e' s3 Be I3. fl.
  assert (En : i_name (new_ident t) = i_name (fst x)) by (now apply wident_inv in Wt as [_ E]).
  eapply d_set; [exact I3|discriminate|constructor; [repeat split; discriminate || intros []|constructor]| |].
  { change (map decl_name _) with [i_name (new_ident t)]. rewrite En. exact Md. }
  change (map decl_name _) with [i_name (new_ident t)]. rewrite En. intros s4 I4. fl. eapply d_cur; [exact I4|]. intros t3 W3. fl. rewrite !sym_w, W3.
  assert (Bx : bare_element (new_ident t, e') = bare_element x).
  { unfold bare_element. cbn [fst snd]. now rewrite Be, (new_ident_bare _ _ Wt). }
  destruct es as [|y es]; destruct Ha as [-> ->]; ev; fl.
  - apply K; [cbn [map]; now rewrite Bx|exact I4].
  - eapply IH; [discriminate|cbn in *; lia|intros z J; apply Ll; now right|exact I4|exact G|]. intros es' s5 Bl I5.
    rewrite <- app_assoc. apply (K ((new_ident t, e') :: es')); [|exact I5]. change (map bare_element ((new_ident t, e') :: es')) with (bare_element (new_ident t, e') :: map bare_element es').
    now rewrite Bx, Bl.
Qed.
Lemma fuel_level : r_fuel R = S m.
Proof. destruct m; reflexivity. Qed.
Lemma flat_one {A C} (f : A -> C) l : flat_map (fun x => [f x]) l = map f l.
Proof. induction l; cbn; congruence. Qed.
Lemma ty_enum es : length (write_ty st (TEnum es)) <= m -> ty_rule (parse_type R) (TEnum es).
Proof.
  intros L B k sc s Q after rest I G K. cbn [good_ty] in G. destruct G as [NE G].
  cbn [write_ty] in I, L. change (fun x => wident (i_name (fst x)) :: write_value (snd x)) with write_element in I, L.
  rewrite joined_commas in I, L. cbn [app length] in I, L. rewrite <- app_assoc in I. cbn [app] in I. rewrite app_length in L. cbn [length] in L.
  unfold parse_type. fl. eapply d_cur; [exact I|]. intros t Wt. fl.
  assert (t_type t = SpecialSymbol) as -> by (now apply (f_equal fst) in Wt). rewrite !sym_w, Wt. ev.
  unfold parse_enumerated_type. fl. eapply enum_loop; [exact NE| | |exact I|exact G|].
  - rewrite fuel_level. pose proof (joined_count write_element (wsym ",") es). lia.
  - intros x J. pose proof (joined_length write_element (wsym ",") x es J). lia.
  - intros es' s1 Be I1. fl. eapply d_next; [exact I1|discriminate|]. intros t1 s2 I2. fl. apply K.
    + cbn [bare_ty]. f_equal. exact Be.
    + intros _ f Lf. destruct f; [lia|reflexivity].
    + cbn [type_names]. rewrite <- flat_one. eapply in_scope_le; [|exact I2]. apply behind_declare.
Qed.

(** *** Class references and forward classes *)
Lemma ty_class_ref i : ty_rule (parse_type R) (TClassRef i).
Proof.
  intros B k sc s Q after rest I G K. cbn [good_ty] in G. destruct G as (Hu & S & A).
  cbn [write_ty] in I. unfold write_typeid in I. rewrite S in I. cbn [app] in I.
  unfold parse_type. fl. eapply d_cur; [exact I|]. intros t Wt. fl. destruct (wkey_inv _ _ Wt) as [-> Vt]. rewrite Vt. ev.
  unfold parse_class_type_or_class_ref. eapply d_traced; [exact I|]. fl. eapply d_expect; [exact I|wd|]. intros t1 W1. fl.
  eapply d_next; [exact I|discriminate|]. intros t2 s1 I1. fl. eapply (d_is text sc s1 Q (sym ";") false); [exact I1|wd|]. fl.
  eapply (d_is text sc s1 Q (kw "OF") true); [exact I1|wd|]. fl. eapply d_expect_next; [exact I1|wd|]. intros t3 s2 W3 I2. fl.
  rewrite value_w, W3. cbn [snd wident]. eapply d_get_node; [exact I2|exact A|]. intros r _. fl.
  eapply d_new_type_id; [exact I2|]. intros c s3 _ _ I3. fl. eapply d_cur; [exact I3|]. intros t4 W4. apply K.
  - cbn [bare_ty]. f_equal. apply bare_read; [reflexivity|exact Hu|]. unfold write_typeid. now rewrite S, W3.
  - intros [].
  - cbn [left_over]. unfold write_typeid. rewrite S. eapply in_scope_le; [apply declare_nil'|exact I3].
Qed.
Lemma ty_fwd_class a : ty_rule (parse_type R) (TFwdClass a).
Proof.
  intros B k sc s Q after rest I G K. cbn [good_ty] in G. subst after. cbn [write_ty app] in I.
  unfold parse_type. fl. eapply d_cur; [exact I|]. intros t Wt. fl. destruct (wkey_inv _ _ Wt) as [-> Vt]. rewrite Vt. ev.
  unfold parse_class_type_or_class_ref. eapply d_traced; [exact I|]. fl. eapply d_expect; [exact I|wd|]. intros t1 W1. fl.
  eapply d_next; [exact I|discriminate|]. intros t2 s1 I1. fl. eapply (d_is text sc s1 Q (sym ";") true); [exact I1|wd|]. fl.
  apply wp_bind. eapply wp_run; [reflexivity|]. fl. set (s2 := with_heap _ s1).
  assert (I2 : in_scope sc s2 (wsym ";" :: rest)).
  { eapply in_scope_calm; [exact I1| |apply stands_heap, I1]. unfold calm. cbn. auto 10. }
  eapply d_cur; [exact I2|]. intros t4 W4. apply K; [reflexivity|intros []|]. eapply in_scope_le; [apply declare_nil'|exact I2].
Qed.

(** *** Structured types *)
Lemma wp_bind_ext {A B} (p : prog A) (f g : A -> prog B) s Q : (forall a s1 Q, wp (f a) s1 Q -> wp (g a) s1 Q) ->
  wp (Bind p f) s Q -> wp (Bind p g) s Q.
Proof.
  intros H W. apply wp_elim in W as (b & s' & E & W). rewrite run_bind in E. destruct (run p s) as [a s1| | | |] eqn:P; try discriminate.
  apply wp_bind. eapply wp_run; [exact P|]. apply H. eapply wp_run; [exact E|exact W].
Qed.
Definition pk (packed : bool) : words := if packed then [wkey "PACKED"] else [].
Lemma d_struc {B} sc s Q packed K ws (k : typ -> prog B) p :
  In (K, p) [("ARRAY"%string, parse_array_type R); ("SET"%string, parse_set_type R); ("RECORD"%string, parse_rec_type R); ("FILE"%string, parse_file_type)] ->
  in_scope sc s (pk packed ++ wkey K :: ws) ->
  (forall s1, in_scope sc s1 (wkey K :: ws) -> wp (Bind p (fun mk => k (mk packed))) s1 Q) -> wp (Bind (parse_type R) k) s Q.
Proof.
  intros J I H. 
  assert (C : wp (Bind (parse_struc_type R) k) s Q).
  { unfold parse_struc_type. fl. 
    assert (X : forall s1 t, in_scope sc s1 (wkey K :: ws) -> word_of t = wkey K ->
        wp (Bind (if eqs (value t) "ARRAY" then parse_array_type R else if eqs (value t) "SET" then parse_set_type R else
          if eqs (value t) "RECORD" then parse_rec_type R else if eqs (value t) "FILE" then parse_file_type else FailAt t) (fun mk => Bind (Ret (mk packed)) k)) s1 Q).
    { intros s1 t I1 Wt. rewrite (proj2 (wkey_inv _ _ Wt)).
      destruct J as [[= <- <-]|[[= <- <-]|[[= <- <-]|[[= <- <-]|[]]]]]; ev; (eapply wp_bind_ext; [|apply H; exact I1]; intros mk s2 Q2 H2; fl; exact H2). }
    destruct packed; cbn [pk app] in I.
    - eapply (d_is text sc s Q (kw "PACKED") true); [exact I|wd|]. fl. eapply d_next; [exact I|discriminate|]. intros t s1 I1. fl.
      eapply d_cur; [exact I1|]. intros t1 W1. fl. now apply X.
    - eapply (d_is text sc s Q (kw "PACKED") false); [exact I| |].
      { intros t W. rewrite kw_w, W. destruct J as [[= <- <-]|[[= <- <-]|[[= <- <-]|[[= <- <-]|[]]]]]; vm_compute; reflexivity. }
      fl. eapply d_cur; [exact I|]. intros t1 W1. fl. now apply X. }
  unfold parse_type. fl.
  assert (exists K' ws', pk packed ++ wkey K :: ws = wkey K' :: ws' /\ eqs_any (rs K') ["PACKED"; "ARRAY"; "SET"; "RECORD"; "FILE"]%string = true) as (K' & ws' & Ew & Ek).
  { destruct packed; cbn [pk app]; eexists _, _; (split; [reflexivity|]); [vm_compute; reflexivity|].
    destruct J as [[= <- <-]|[[= <- <-]|[[= <- <-]|[[= <- <-]|[]]]]]; vm_compute; reflexivity. }
  pose proof I as I0. rewrite Ew in I0. eapply d_cur; [exact I0|]. intros t Wt. fl. destruct (wkey_inv _ _ Wt) as [-> Vt]. rewrite Vt, Ek. exact C.
Qed.
Lemma ty_file packed i : ty_rule (parse_type R) (TFile packed i).
Proof.
  intros B k sc s Q after rest I G K. cbn [good_ty] in G. cbn [write_ty] in I. rewrite <- app_assoc in I. cbn [app] in I.
  eapply (d_struc sc s Q packed "FILE"); [right; right; right; left; reflexivity|exact I|]. intros s1 I1. unfold parse_file_type. fl.
  eapply (d_is text sc s1 Q (kw "PACKED") false); [exact I1|wd|]. fl. eapply d_expect_or_fail; [exact I1|wd|]. intros t W. fl.
  eapply d_next; [exact I1|discriminate|]. intros t1 s2 I2. fl. eapply d_expect_or_fail; [exact I2|wd|]. intros t2 W2. fl.
  eapply d_next; [exact I2|discriminate|]. intros t3 s3 I3. fl. eapply d_type_id; [exact I3|discriminate|exact G|]. intros r s4 E I4. fl.
  apply K; [cbn [bare_ty]; now rewrite E|intros []|]. eapply in_scope_le; [apply declare_nil'|exact I4].
Qed.

(** The types inside a type. *)
Context (BT : forall t, length (write_ty st t) < m -> ty_rule (r_type R) t).
Lemma d_ordinal {B} t (k : typ -> prog B) sc s Q after rest : length (write_ty st t) < m -> finished t = true ->
  in_scope sc s (write_ty st t ++ after :: rest) -> good_ty st t sc after -> is_ordinal sc t ->
  (forall t' s1, bare_ty t' = bare_ty t -> in_scope (declare (type_names t) sc) s1 (after :: rest) -> wp (k t') s1 Q) ->
  wp (Bind (parse_type_as_ordinal R) k) s Q.
Proof.
  intros L F I G O K. unfold parse_type_as_ordinal. fl.
  assert (exists w ws, write_ty st t ++ after :: rest = w :: ws) as (w & ws & Ew) by (destruct (write_ty st t); cbn [app]; eauto).
  pose proof I as I0. rewrite Ew in I0. eapply d_Cur; [exact I0|]. intros t0 _. fl. eapply (BT t L); [exact I|exact G|].
  intros t' s1 E Or I1. rewrite (finished_left t F) in I1. cbn [app] in I1. fl. apply wp_bind.
  eapply wp_run; [cbn [run]; rewrite fuel_level, (Or O) by lia; reflexivity|]. fl.
  replace (with_heap (s_heap s1) s1) with s1 by (now destruct s1). now apply K.
Qed.

Lemma ty_set packed t : length (write_ty st (TSet packed t)) <= m -> ty_rule (parse_type R) (TSet packed t).
Proof.
  intros L B k sc s Q after rest I G K. cbn [good_ty] in G. destruct G as (F & G & O). cbn [write_ty] in I, L.
  rewrite <- app_assoc in I. cbn [app] in I. rewrite app_length in L. cbn [length] in L.
  eapply (d_struc sc s Q packed "SET"); [right; left; reflexivity|exact I|]. intros s1 I1. unfold parse_set_type. fl.
  eapply (d_is text sc s1 Q (kw "PACKED") false); [exact I1|wd|]. fl. eapply d_expect_or_fail; [exact I1|wd|]. intros t1 W. fl.
  eapply d_next; [exact I1|discriminate|]. intros t2 s2 I2. fl. eapply d_expect_or_fail; [exact I2|wd|]. intros t3 W3. fl.
  eapply d_next; [exact I2|apply app_nonempty; discriminate|]. intros t4 s3 I3. fl.
  eapply (d_ordinal t); [lia|exact F|exact I3|exact G|exact O|]. intros t' s4 E I4. fl.
  apply K; [cbn [bare_ty]; now rewrite E|intros []|exact I4].
Qed.
Lemma left_packed t after rest : after <> wkey "PACKED" -> exists w ws, left_over t ++ after :: rest = w :: ws /\ w <> wkey "PACKED".
Proof.
  intros N. induction t; cbn [left_over app]; eauto.
  - eexists _, _. split; [reflexivity|discriminate].
  - unfold write_typeid. destruct (is_string _); eexists _, _; (split; [reflexivity|]); discriminate.
  - eexists _, _. split; [reflexivity|discriminate].
Qed.
Definition index_names (index : option (list typ)) : list gostring := match index with None => [] | Some l => flat_map type_names l end.
Definition write_index (index : option (list typ)) : words :=
  match index with None => [] | Some l => wsym "[" :: commas (map (write_ty st) l) ++ [wsym "]"] end.
Lemma d_index {B} index (k : option (list typ) -> prog B) k2 sc s Q rest :
  (forall b : bool, wp (idx <- (if b then
            Next ;;;
            l <- until_list (r_fuel R) (sym "]") (Some (sym ",")) (parse_type_as_ordinal R) ;;
            Next ;;;
            Ret (Some l)
          else Ret None) ;; k idx) s Q -> wp (k2 b) s Q) ->
  in_scope sc s (write_index index ++ wkey "OF" :: rest) -> length (write_index index) <= m ->
  match index with
  | None => True
  | Some l => l <> [] /\ in_turn (fun t sc after => finished t = true /\ good_ty st t sc after /\ is_ordinal sc t) (fun t => declare (type_names t)) (wsym ",") (wsym "]") l sc
  end ->
  (forall index' s1, option_map (map bare_ty) index' = option_map (map bare_ty) index ->
     in_scope (declare (index_names index) sc) s1 (wkey "OF" :: rest) -> wp (k index') s1 Q) ->
  wp (Bind (is (sym "[")) k2) s Q.
Proof.
  intros K2 I L G K. destruct index as [l|]; cbn [write_index app] in I, L.
  - rewrite <- !app_assoc in I. cbn [app] in I. destruct G as [NE G].
    eapply (d_is text sc s Q (sym "[") true); [exact I|wd|]. apply K2. fl.
    eapply d_next; [exact I|apply app_nonempty; discriminate|]. intros t3 s3 I3. fl. unfold until_list.
    rewrite joined_commas in I3. cbn [length] in L. rewrite !app_length, joined_commas in L. cbn [length] in L.
    eapply (d_list text (write_ty st) bare_ty (fun t sc after => finished t = true /\ good_ty st t sc after /\ is_ordinal sc t)
      (fun t => declare (type_names t)) (append_with (parse_type_as_ordinal R)) (sym "]") (sym ",") (wsym ",") (wsym "]"));
      [wd|wd|wd|exact NE| | |exact I3|exact G|].
    + rewrite fuel_level. pose proof (joined_count (write_ty st) (wsym ",") l). lia.
    + intros x J B' k' acc sc' s' Q' a' r' I' (F' & G' & O') K'. unfold append_with. fl. 
      pose proof (joined_length (write_ty st) (wsym ",") x l J).
      eapply (d_ordinal x); [lia|exact F'|exact I'|exact G'|exact O'|]. intros t' s4 E4 I4. fl. now apply K'.
    + intros l' s4 El I4. fl. eapply d_next; [exact I4|discriminate|]. intros t5 s5 I5. fl. cbn [app].
      apply K; [cbn; now rewrite El|]. eapply in_scope_le; [apply behind_declare|exact I5].
  - eapply (d_is text sc s Q (sym "[") false); [exact I|wd|]. apply K2. fl. apply K; [reflexivity|].
    eapply in_scope_le; [apply declare_nil'|exact I].
Qed.
Lemma ty_array packed index base : length (write_ty st (TArray packed index base)) <= m -> ty_rule (parse_type R) (TArray packed index base).
Proof.
  intros L B k sc s Q after rest I G K. cbn [good_ty] in G. destruct G as (Gi & Gb & Np). cbn [write_ty] in I, L.
  fold (write_index index) in I, L. fold (index_names index) in Gb.
  rewrite <- app_assoc in I. cbn [app] in I. rewrite <- app_assoc in I. cbn [app] in I. rewrite app_length in L. cbn [length] in L.
  rewrite app_length in L. cbn [length] in L.
  eapply (d_struc sc s Q packed "ARRAY"); [left; reflexivity|exact I|]. intros s1 I1. unfold parse_array_type. fl.
  eapply (d_is text sc s1 Q (kw "PACKED") false); [exact I1|wd|]. fl. eapply d_expect_or_fail; [exact I1|wd|]. intros t1 W. fl.
  eapply d_next; [exact I1|apply app_nonempty; discriminate|]. intros t2 s2 I2. fl.
  eapply (d_index index); [intros b Hb; fl; exact Hb|exact I2|lia|exact Gi|]. intros idx s3 Ei I3. fl.
  eapply d_expect_or_fail; [exact I3|wd|]. intros t3 W3. fl. eapply d_next; [exact I3|apply app_nonempty; discriminate|].
  intros t4 s4 I4. fl. eapply (BT base); [lia|exact I4|exact Gb|]. intros b' s5 Eb _ I5. fl.
  destruct (left_packed base after rest Np) as (w & ws & Ew & Nw). pose proof I5 as I5'. rewrite Ew in I5'.
  eapply (d_is text _ s5 Q (kw "PACKED") false); [exact I5'|intros t W0; rewrite kw_w, W0; now apply weqb_neq|]. fl. apply K.
  - cbn [bare_ty]. rewrite Ei, Eb. destruct packed; reflexivity.
  - intros [].
  - eapply in_scope_le; [apply declare_app|exact I5].
Qed.

(** *** Records *)
Lemma in_turn_imp {X} (P P' : X -> scope -> ttype * gostring -> Prop) beh mid last l : forall sc,
  (forall x sc a, In x l -> (a = mid \/ a = last) -> P x sc a -> P' x sc a) -> in_turn P beh mid last l sc -> in_turn P' beh mid last l sc.
Proof.
  induction l as [|x l IH]; intros sc H; [auto|]. intros [G1 G2]. split.
  - apply H; [now left|destruct l; auto|exact G1].
  - apply IH; [|exact G2]. intros y sc' a J. apply H. now right.
Qed.
Lemma idents_first l : l <> [] -> exists n ws, write_idents l = wident n :: ws.
Proof. destruct l as [|i [|j l]]; [congruence| |]; intros _; unfold write_idents; cbn [map commas app]; eauto. Qed.
Lemma idents_count l : length l <= S (length (write_idents l)).
Proof. unfold write_idents. rewrite joined_commas. apply joined_count. Qed.
Lemma field_nonempty d : write_field st d <> [].
Proof. destruct d as [ids t]. rewrite w_field. apply app_nonempty. discriminate. Qed.
Lemma variant_nonempty v : write_variant st v <> [].
Proof. destruct v as [es fl]. rewrite w_variant. apply app_nonempty. discriminate. Qed.
Section Fields.
Context (term : predicator) (close : ttype * gostring) (Tc : forall t, word_of t = close -> term t = true)
  (Ts : forall t, word_of t = wsym ";" -> term t = false) (Ti : forall t n, word_of t = wident n -> term t = false).
Lemma field_element d : length (write_field st d) <= m ->
  element text (write_field st) bare_field (fun d sc a => good_field st d sc a /\ (a = wsym ";" \/ a = close)) (fun d => declare (field_names d))
    (field_decls_step R term) d.
Proof.
  intros L B k acc sc s Q after rest I [G A] K. destruct d as [ids t]. rewrite w_field in *. rewrite g_field in G. destruct G as (NE & F & G).
  rewrite <- app_assoc in I. cbn [app] in I. rewrite app_length in L. cbn [length] in L.
  destruct (idents_first ids NE) as (n & ws & Ei). pose proof I as I0. rewrite Ei in I0. cbn [app] in I0.
  unfold field_decls_step. fl. eapply (d_is text sc s Q (kw "CASE") false); [exact I0|wd|]. fl.
  eapply (d_is text sc s Q term false); [exact I0|intros t0 W0; eapply Ti, W0|]. cbn [orb]. fl. unfold parse_field_decl. fl.
  eapply (d_idents text sc s Q ids); [exact NE|rewrite fuel_level; pose proof (idents_count ids); lia| | |exact I|]; [wd|wd|].
  intros ids' s1 Ed I1. fl. eapply d_next; [exact I1|apply app_nonempty; discriminate|]. intros t1 s2 I2. fl.
  eapply (BT t); [lia|exact I2|exact G|]. intros t' s3 Et _ I3. rewrite (finished_left t F) in I3. cbn [app] in I3. fl.
  assert (Bf : bare_field (FieldDecl ids' t') = bare_field (FieldDecl ids t)).
  { change (FieldDecl (map bare_ident ids') (bare_ty t') = FieldDecl (map bare_ident ids) (bare_ty t)). now rewrite Et, (bare_names _ _ Ed). }
  destruct A as [->| ->].
  - eapply (d_is text _ s3 Q term false); [exact I3|exact Ts|]. fl. eapply d_expect; [exact I3|wd|]. intros t2 W2. fl. now apply K.
  - eapply (d_is text _ s3 Q term true); [exact I3|exact Tc|]. fl. now apply K.
Qed.
Definition fields_rule (p : prog fieldlist) (ds : list fielddecl) : Prop := forall B (k : fieldlist -> prog B) sc s Q rest,
  in_scope sc s (write_fields st (FieldList ds None) ++ close :: rest) ->
  in_turn (good_field st) (fun d => declare (field_names d)) (wsym ";") (behind (statements st) true close) ds sc ->
  (forall ds' s1, map bare_field ds' = map bare_field ds -> in_scope (declare (flat_map field_names ds) sc) s1 (close :: rest) -> wp (k (FieldList ds' None)) s1 Q) ->
  wp (Bind p k) s Q.
Lemma field_ends last : (last = close \/ last = wkey "CASE") -> ends text (field_decls_step R term) last.
Proof.
  intros Hl B k acc sc s Q rest I H. unfold field_decls_step. fl.
  destruct (stands_cur _ _ _ _ (sc_stands _ _ _ _ I)) as (t & C & Wt & _).
  eapply d_is with (b := kw "CASE" t); [exact I|intros t1 W1; rewrite !kw_w; congruence|]. fl.
  apply wp_bind. eapply wp_is; [exact C|]. fl.
  replace (kw "CASE" t || term t) with true; [fl; exact H|]. symmetry. apply orb_true_iff.
  destruct Hl as [->| ->]; [right; now apply Tc|left; rewrite kw_w, Wt; reflexivity].
Qed.
Lemma behind_cases c : behind (statements st) true c = wsym ";" \/ behind (statements st) true c = c.
Proof. unfold behind. cbn [andb]. destruct (semi _); auto. Qed.
Lemma fields_here ds : length (write_fields st (FieldList ds None)) <= m -> close <> wkey "CASE" -> fields_rule (parse_field_list R term) ds.
Proof.
  intros L Nc B k sc s Q rest I G K. rewrite w_fields in I, L. rewrite app_length in L. rewrite <- app_assoc in I.
  rewrite joined_semicolons in L.
  unfold parse_field_list. fl. eapply (d_semi_list text st (write_field st) bare_field _ (fun d => declare (field_names d)) (field_decls_step R term) term close);
    [exact Tc|exact Ts|apply field_ends; auto| | |exact I| |].
  - rewrite fuel_level. pose proof (joined_count2 (write_field st) (wsym ";") ds (fun d _ => field_nonempty d)). lia.
  - intros x J. apply field_element. pose proof (joined_length (write_field st) (wsym ";") x ds J). lia.
  - eapply in_turn_imp; [|exact G]. intros x sc' a J A Gx. split; [exact Gx|]. destruct A as [->| ->]; [auto|apply behind_cases].
  - intros ds' s1 E I1. fl. eapply (d_is text _ s1 Q (kw "CASE") false); [exact I1|intros t W; rewrite kw_w, W; now apply weqb_neq|]. fl.
    eapply (d_is text _ s1 Q term true); [exact I1|exact Tc|]. fl. apply K; [exact E|]. eapply in_scope_le; [apply behind_declare|exact I1].
Qed.
End Fields.

(** The fields of a variant. *)
Context (BF : forall ds, length (write_fields st (FieldList ds None)) < m -> fields_rule (wsym ")") (r_fields R (sym ")")) ds).
Lemma exprs_first en es ws : es <> [] -> all (good_expr (names en)) es -> exists w ws', commas (map write_expr es) ++ ws = w :: ws' /\ opening w.
Proof.
  destruct es as [|e es]; [congruence|]. intros _ [G _]. destruct (expr_opening en e G) as (w & ws' & E & O).
  destruct es; cbn [map commas]; rewrite E; cbn [app]; eauto.
Qed.
Lemma behind_same {X} (l : list X) : forall sc, behind_all (fun _ sc => sc) l sc = sc.
Proof. induction l; intros sc; [reflexivity|]. apply IHl. Qed.
Lemma in_turn_all en es : all (good_expr (names (known en))) es ->
  in_turn (fun e sc a => good_expr (names (known sc)) e /\ (a = wsym "," \/ a = wsym ":")) (fun _ sc => sc) (wsym ",") (wsym ":") es en.
Proof. induction es as [|e es IH]; [auto|]. intros [G1 G2]. split; [split; [exact G1|destruct es; auto]|now apply IH]. Qed.
Lemma variant_element v : length (write_variant st v) <= m ->
  element text (write_variant st) bare_variant (good_variant st) (fun v => declare (variant_names v)) (rec_variants_step R) v.
Proof.
  intros L B k acc sc s Q after rest I G K. destruct v as [es [ds [v|]]]; [destruct G as (_ & _ & [])|]. rewrite w_variant in *. rewrite g_variant in G.
  destruct G as (NE & Ge & G). rewrite <- app_assoc in I. cbn [app] in I. rewrite <- app_assoc in I. cbn [app] in I.
  rewrite app_length in L. cbn [length] in L. rewrite app_length in L. cbn [length] in L.
  destruct (exprs_first (known sc) es (wsym ":" :: wsym "(" :: write_fields st (FieldList ds None) ++ wsym ")" :: after :: rest) NE Ge) as (w & ws & Ew & O).
  pose proof I as I0. rewrite Ew in I0. unfold rec_variants_step. fl.
  eapply (d_is text sc s Q (kw "END") false); [exact I0|intros t W; rewrite kw_w, W; apply weqb_neq; intros ->; apply O; cbn; auto|]. fl.
  unfold parse_rec_variant. fl. unfold until_list. rewrite joined_commas in I, L.
  eapply (d_list text write_expr bare_expr _ (fun _ sc => sc) (append_with (parse_const_expr R)) (sym ":") (sym ",") (wsym ",") (wsym ":"));
    [wd|wd|wd|exact NE| | |exact I|apply in_turn_all, Ge|].
  - rewrite fuel_level. pose proof (joined_count write_expr (wsym ",") es). lia.
  - intros x J B' k' acc' sc' s' Q' a' r' I' (G' & A') K'. unfold append_with, parse_const_expr. fl.
    pose proof (joined_length write_expr (wsym ",") x es J).
    eapply (d_expr_here text sc' s' Q' m x); [exact I'|lia|exact G'|destruct A' as [->| ->]; apply stops_by; vm_compute; reflexivity|]. intros e' s1 E1 I1. fl. now apply K'.
  - intros es' s1 E1 I1. rewrite behind_same in I1. cbn [app]. fl. eapply d_expect_next; [exact I1|wd|]. intros t1 s2 _ I2. fl.
    eapply d_next; [exact I2|apply app_nonempty; discriminate|]. intros t2 s3 I3. fl.
    eapply (BF ds); [lia|exact I3|exact G|]. intros ds' s4 E4 I4. fl. eapply d_next; [exact I4|discriminate|]. intros t3 s5 I5. fl.
    apply K.
    + change (RecVariant (map bare_expr es') (FieldList (map bare_field ds') None) = RecVariant (map bare_expr es) (FieldList (map bare_field ds) None)).
      now rewrite E1, E4.
    + change (variant_names (RecVariant es (FieldList ds None))) with (flat_map field_names ds ++ []). rewrite app_nil_r. exact I5.
Qed.
Lemma second_word t sc after rest : good_ty st t sc after -> after <> wsym ":" -> match write_ty st t with (Identifier, _) :: _ => True | _ => False end ->
  exists n w ws, write_ty st t ++ after :: rest = wident n :: w :: ws /\ w <> wsym ":".
Proof.
  intros G A. destruct t; cbn [write_ty]; try contradiction;
    try (match goal with |- context [if ?b then [wkey "PACKED"] else []] => destruct b end; cbn [app]; contradiction).
  - unfold write_typeid. destruct (is_string _); [contradiction|]. cbn [app]. eauto.
  - cbn [good_ty] in G. destruct G as ((Gl & Fl) & _). destruct (write_expr low) as [|[ty v] ws] eqn:Ew; [now pose proof (write_expr_nonempty low)|].
    cbn [app]. destruct ty; try contradiction. intros _.
    destruct low as [[u [f muls] adds] rels]. destruct u; [contradiction|]. destruct f as [[[ns n] items] args| | | | | | | | |]; try contradiction.
    destruct ns; [contradiction|]. destruct items; [|contradiction]. destruct args; [contradiction|]. destruct muls; [|contradiction].
    destruct adds; [|contradiction]. destruct rels; [|contradiction]. cbn in Ew. injection Ew as <- <-. cbn [app].
    eexists _, _, _. split; [reflexivity|discriminate].
Qed.
Lemma d_variants {B} v (k : variantsection -> prog B) sc s Q rest : length (write_variants st v) <= m ->
  in_scope sc s (write_variants st v ++ wkey "END" :: rest) -> good_variants st v sc ->
  (forall v' s1, bare_variants v' = bare_variants v -> in_scope (declare (variants_names v) sc) s1 (wkey "END" :: rest) -> wp (k v') s1 Q) ->
  wp (Bind (parse_variant_section R) k) s Q.
Proof.
  intros L I G K. destruct v as [i t vs]. rewrite w_variants in *. rewrite g_variants in G. destruct G as (F & G & O & Gi & Gv).
  cbn [app length] in I, L. rewrite <- !app_assoc in I. cbn [app] in I. rewrite <- !app_assoc in I. rewrite !app_length in L. cbn [length] in L. rewrite !app_length in L.
  rewrite joined_semicolons in L.
  unfold parse_variant_section. fl. eapply d_expect_or_fail; [exact I|wd|]. intros t0 _. fl.
  eapply d_next; [exact I|apply app_nonempty, app_nonempty; discriminate|]. intros t1 s1 I1. fl.
  assert (Rest : forall B (k : typ -> prog B) s2 Q, in_scope sc s2 (write_ty st t ++ wkey "OF" :: semicolons (map (write_variant st) vs) ++ list_end st vs ++ wkey "END" :: rest) ->
    (forall t' s3, bare_ty t' = bare_ty t -> in_scope (declare (type_names t) sc) s3 (wkey "OF" :: semicolons (map (write_variant st) vs) ++ list_end st vs ++ wkey "END" :: rest) -> wp (k t') s3 Q) ->
    wp (Bind (parse_type_as_ordinal R) k) s2 Q).
  { intros B' k' s2 Q' I2 K'. eapply (d_ordinal t); [lia|exact F|exact I2|exact G|exact O|exact K']. }
  assert (Goal : forall i' s2, option_map bare_ident i' = option_map bare_ident i ->
    in_scope sc s2 (write_ty st t ++ wkey "OF" :: semicolons (map (write_variant st) vs) ++ list_end st vs ++ wkey "END" :: rest) ->
    wp (Bind (ty <- parse_type_as_ordinal R ;; expect_or_fail (kw "OF") ;;; Next ;;;
      vs <- until (r_fuel R) (kw "END") (Some (sym ";")) (rec_variants_step R) [] ;; Ret (VariantSection i' ty vs)) k) s2 Q).
  { intros i' s2 Ei I2. fl. apply Rest; [exact I2|]. intros t' s3 Et I3. fl. eapply d_expect_or_fail; [exact I3|wd|]. intros t2 _. fl.
    eapply d_next; [exact I3|apply app_nonempty, app_nonempty; discriminate|]. intros t3 s4 I4. fl.
    eapply (d_semi_list text st (write_variant st) bare_variant (good_variant st) (fun v => declare (variant_names v)) (rec_variants_step R) (kw "END") (wkey "END"));
      [wd|wd| | | |exact I4|exact Gv|].
    - intros B' k' acc sc' s' Q' r' I' H'. unfold rec_variants_step. fl. eapply (d_is text sc' s' Q' (kw "END") true); [exact I'|wd|]. fl. exact H'.
    - rewrite fuel_level. pose proof (joined_count2 (write_variant st) (wsym ";") vs (fun v _ => variant_nonempty v)). lia.
    - intros x J. apply variant_element. pose proof (joined_length (write_variant st) (wsym ";") x vs J). lia.
    - intros vs' s5 Ev I5. fl. apply K.
      + change (VariantSection (option_map bare_ident i') (bare_ty t') (map bare_variant vs') = VariantSection (option_map bare_ident i) (bare_ty t) (map bare_variant vs)).
        now rewrite Ei, Et, Ev.
      + change (variants_names (VariantSection i t vs)) with (type_names t ++ flat_map variant_names vs).
        eapply in_scope_le; [|exact I5]. eapply scope_le_trans; [apply declare_app|apply behind_declare]. }
  destruct i as [i|]; cbn [app] in I1.
  - eapply d_attempt_some; [exact I1|]. intros s0 I0. eapply d_expect; [exact I0|wd|]. intros t2 W2. fl.
    eapply d_next_tok; [exact I0|]. intros t3 s2 W3 I2. fl. rewrite sym_w, W3. ev.
    eapply d_next; [exact I2|apply app_nonempty; discriminate|]. intros t4 s3 I3. fl. apply wp_ret. eexists. split; [reflexivity|].
    cbv beta. apply Goal; [|exact I3]. cbn [option_map]. f_equal. now apply new_ident_bare.
  - destruct (second_word t sc (wkey "OF") (semicolons (map (write_variant st) vs) ++ list_end st vs ++ wkey "END" :: rest) G ltac:(discriminate) Gi)
      as (n & w & ws & E & N).
    pose proof I1 as I2. rewrite E in I2. eapply d_attempt; [exact I2| |].
    + intros s0 I0. destruct (stands_cur _ _ _ _ (sc_stands _ _ _ _ I0)) as (t2 & C2 & W2 & _). apply wp_bind.
      eapply wp_expect; [exact C2|now rewrite type_w, W2|]. apply wp_bind. apply wp_bind. eapply wp_next; [apply I0|discriminate|].
      intros t3 s2 C3 W3 _ S3. apply wp_ret. rewrite sym_w. injection W3 as W3. rewrite W3.
      replace (weqb w (wsym ":")) with false by (symmetry; now apply weqb_neq). apply wp_ret. now apply quiet_place.
    + intros s2 I3. rewrite <- E in I3. cbv beta. now apply Goal.
Qed.
Lemma ended_count2 {X} (W : X -> words) mid l : length l <= length (flat_map (fun x => W x ++ [mid]) l).
Proof. induction l as [|x l IH]; [auto|]. cbn [flat_map length]. rewrite !app_length. cbn [length]. lia. Qed.
Lemma d_fields {B} fs (k : fieldlist -> prog B) sc s Q rest : length (write_fields st fs) <= m ->
  in_scope sc s (write_fields st fs ++ wkey "END" :: rest) -> good_fields st fs sc ->
  (forall fs' s1, bare_fields fs' = bare_fields fs -> in_scope (declare (fields_names fs) sc) s1 (wkey "END" :: rest) -> wp (k fs') s1 Q) ->
  wp (Bind (parse_field_list R (kw "END")) k) s Q.
Proof.
  intros L I G K. destruct fs as [ds [v|]]; rewrite g_fields in G; destruct G as [Gd Gv].
  - rewrite w_fields_v in *. rewrite <- app_assoc in I. rewrite app_length in L. unfold parse_field_list. fl.
    destruct v as [i t vs]. pose proof I as I0. rewrite w_variants in I0. cbn [app] in I0.
    eapply (d_list_ended text (write_field st) bare_field _ (fun d => declare (field_names d)) (field_decls_step R (kw "END")) (kw "END") (sym ";") (wsym ";") (wkey "CASE"));
      [wd|wd|apply (field_ends (kw "END") (wkey "END")); [wd|auto]| | |exact I0| |].
    + rewrite fuel_level. pose proof (ended_count2 (write_field st) (wsym ";") ds). lia.
    + intros x J. apply (field_element (kw "END") (wkey "END")); [wd|wd|intros t0 n0 W0; now rewrite kw_w, W0|]. pose proof (ended_length (write_field st) (wsym ";") x ds J). lia.
    + eapply in_turn_imp; [|exact Gd]. intros x sc' a J A Gx. split; [exact Gx|]. destruct A as [->| ->]; auto.
    + intros ds' s1 E I1. fl. eapply (d_is text _ s1 Q (kw "CASE") true); [exact I1|wd|]. fl. cbn [app].
      eapply (d_variants (VariantSection i t vs)); [lia| |exact Gv|].
      * rewrite w_variants. cbn [app]. eapply in_scope_le; [apply behind_declare|exact I1].
      * intros v' s2 Ev I2. fl. apply K.
        -- change (FieldList (map bare_field ds') (Some (bare_variants v')) = FieldList (map bare_field ds) (Some (bare_variants (VariantSection i t vs)))).
           now rewrite E, Ev.
        -- eapply in_scope_le; [apply declare_app|exact I2].
  - eapply (fields_here (kw "END") (wkey "END")); [wd|wd|intros t0 n0 W0; now rewrite kw_w, W0|exact L|discriminate|exact I|exact Gd|]. intros ds' s1 E I1. apply K.
    + change (FieldList (map bare_field ds') None = FieldList (map bare_field ds) None). now rewrite E.
    + change (fields_names (FieldList ds None)) with (flat_map field_names ds ++ []). now rewrite app_nil_r.
Qed.
Lemma ty_rec packed fs : length (write_ty st (TRec packed fs)) <= m -> ty_rule (parse_type R) (TRec packed fs).
Proof.
  intros L B k sc s Q after rest I G K. rewrite w_rec in *. rewrite g_rec in G. rewrite app_length in L. cbn [length] in L. rewrite app_length in L.
  rewrite <- app_assoc in I. cbn [app] in I. rewrite <- app_assoc in I. cbn [app] in I.
  eapply (d_struc sc s Q packed "RECORD"); [right; right; left; reflexivity|exact I|]. intros s1 I1. unfold parse_rec_type. fl.
  eapply (d_is text sc s1 Q (kw "PACKED") false); [exact I1|wd|]. fl. eapply d_expect_or_fail; [exact I1|wd|]. intros t W. fl.
  eapply d_next; [exact I1|apply app_nonempty; discriminate|]. intros t1 s2 I2. fl.
  eapply (d_fields fs); [lia|exact I2|exact G|]. intros fs' s3 E I3. fl. eapply d_expect; [exact I3|wd|]. intros t2 W2. fl. apply K.
  - change (TRec (false || packed) (bare_fields fs') = TRec packed (bare_fields fs)). now rewrite E.
  - intros [].
  - exact I3.
Qed.

(** Parameters. *)
Lemma first_of_type t sc after ws : good_ty st t sc after -> match t with TArray false _ _ => False | _ => True end ->
  exists w ws', write_ty st t ++ ws = w :: ws' /\ w <> wkey "ARRAY" /\ w <> wkey "CONST".
Proof.
  intros G A. destruct t; try destruct packed; try contradiction; cbn [write_ty app];
    try (eexists _, _; (split; [reflexivity|split; discriminate]));
    try (unfold write_typeid; destruct (is_string _); eexists _, _; (split; [reflexivity|split; discriminate])).
  - cbn [good_ty] in G. destruct G as ((Gl & Fl) & _). destruct (write_expr low) as [|[ty v] ws'] eqn:Ew; [now pose proof (write_expr_nonempty low)|].
    cbn [app]. eexists _, _. split; [reflexivity|].
    assert (E : ty <> ReservedWord); [|split; intros [= E1 _]; contradiction].
    destruct ty; try discriminate.
    destruct low as [[u [f muls] adds] rels]. destruct u; [contradiction|]. destruct f as [[[ns n] items] args| | | | | | | | |]; try contradiction.
    destruct ns; [contradiction|]. destruct items; [|contradiction]. destruct args; [contradiction|]. destruct muls; [|contradiction].
    destruct adds; [|contradiction]. destruct rels; [|contradiction]. discriminate Ew.
  - destruct function; eexists _, _; (split; [reflexivity|split; discriminate]).
Qed.
Lemma first_not_const t sc after ws : good_ty st t sc after -> exists w ws', write_ty st t ++ ws = w :: ws' /\ w <> wkey "CONST".
Proof.
  intros G. destruct t; try (destruct (first_of_type _ sc after ws G Logic.I) as (w & ws' & E & _ & N); eauto; fail).
  destruct packed; cbn [write_ty app]; eexists _, _; (split; [reflexivity|discriminate]).
Qed.
Definition write_parm_type (ty : option (typ * bool)) : words :=
  match ty with
  | None => []
  | Some (t, isarray) => wsym ":" :: (if isarray then [wkey "ARRAY"; wkey "OF"] else []) ++ match t with TNil => [wkey "CONST"] | _ => write_ty st t end
  end.
Definition good_parm_type (ty : option (typ * bool)) sc after : Prop :=
  match ty with
  | None => True
  | Some (TNil, isarray) => isarray = true
  | Some (t, isarray) => finished t = true /\ good_ty st t sc after /\ (isarray = false -> match t with TArray false _ _ => False | _ => True end)
  end.
Definition parm_type_names (ty : option (typ * bool)) : list gostring := match ty with None => [] | Some (t, _) => type_names t end.
Definition bare_parm_type (ty : option (typ * bool)) : option (typ * bool) := match ty with None => None | Some (t, a) => Some (bare_ty t, a) end.
Lemma d_parm_type {B} ty (k : option (typ * bool) -> prog B) k2 sc s Q after rest :
  (forall b : bool, wp (Bind (if b then
           Next ;;;
           ba <- is (kw "ARRAY") ;;
           (if ba : bool then expect_next (kw "OF") ;;; Next ;;; Ret tt else Ret tt) ;;;
           bc <- (if ba : bool then is (kw "CONST") else Ret false) ;;
           if bc : bool then Next ;;; Ret (Some (TNil, ba))
           else t <- r_type R ;; Ret (Some (t, ba))
         else Ret None) k) s Q -> wp (k2 b) s Q) ->
  in_scope sc s (write_parm_type ty ++ after :: rest) -> length (write_parm_type ty) <= m -> after <> wsym ":" -> good_parm_type ty sc after ->
  (forall ty' s1, bare_parm_type ty' = bare_parm_type ty -> in_scope (declare (parm_type_names ty) sc) s1 (after :: rest) -> wp (k ty') s1 Q) ->
  wp (Bind (is (sym ":")) k2) s Q.
Proof.
  intros K2 I L A G K. destruct ty as [[t a]|].
  - cbn [write_parm_type app length] in I, L. rewrite <- app_assoc in I. rewrite app_length in L.
    eapply (d_is text sc s Q (sym ":") true); [exact I|wd|]. apply K2. fl.
    eapply d_next; [exact I|apply app_nonempty, app_nonempty; discriminate|]. intros t0 s1 I1. fl.
    assert (Ty : t <> TNil -> finished t = true /\ good_ty st t sc after /\ (a = false -> match t with TArray false _ _ => False | _ => True end))
      by (intros N; destruct t; try congruence; exact G).
    assert (Wt : t <> TNil -> match t with TNil => [wkey "CONST"] | _ => write_ty st t end = write_ty st t) by (intros N; destruct t; congruence).
    assert (Rest : t <> TNil -> forall s2, in_scope sc s2 (write_ty st t ++ after :: rest) -> wp (t <- r_type R ;; k (Some (t, a))) s2 Q).
    { intros N s2 I2. destruct (Ty N) as (F & Gt & _). rewrite (Wt N) in L. eapply (BT t); [lia|exact I2|exact Gt|].
      intros t' s3 E _ I3. rewrite (finished_left t F) in I3. apply K; [cbn [bare_parm_type]; now rewrite E|exact I3]. }
    destruct a; cbn [app] in I1.
    + eapply (d_is text sc s1 Q (kw "ARRAY") true); [exact I1|wd|]. fl. eapply d_expect_next; [exact I1|wd|]. intros t1 s2 _ I2. fl.
      eapply d_next; [exact I2|apply app_nonempty; discriminate|]. intros t2 s3 I3. fl.
      assert (D : t = TNil \/ t <> TNil) by (destruct t; auto; right; discriminate). destruct D as [->|N].
      * cbn [app] in I3. eapply (d_is text sc s3 Q (kw "CONST") true); [exact I3|wd|]. fl. eapply d_next; [exact I3|discriminate|]. intros t3 s4 I4. fl.
        apply K; [reflexivity|]. eapply in_scope_le; [apply declare_nil'|exact I4].
      * destruct (Ty N) as (F & Gt & _). rewrite (Wt N) in I3. destruct (first_not_const t sc after (after :: rest) Gt) as (w & ws & Ew & Nw).
        pose proof I3 as I4. rewrite Ew in I4.
        eapply (d_is text sc s3 Q (kw "CONST") false); [exact I4|intros t3 W3; rewrite kw_w, W3; now apply weqb_neq|]. fl.
        eapply wp_bind_ext; [|apply (Rest N), I3]. intros t' s5 Q5 H5. fl. exact H5.
    + assert (N : t <> TNil) by (intros ->; discriminate G). destruct (Ty N) as (F & Gt & Na). rewrite (Wt N) in I1.
      destruct (first_of_type t sc after (after :: rest) Gt (Na eq_refl)) as (w & ws & Ew & Nw & _). pose proof I1 as I4. rewrite Ew in I4.
      eapply (d_is text sc s1 Q (kw "ARRAY") false); [exact I4|intros t3 W3; rewrite kw_w, W3; now apply weqb_neq|]. fl.
      eapply wp_bind_ext; [|apply (Rest N), I1]. intros t' s5 Q5 H5. fl. exact H5.
  - cbn [write_parm_type app] in I. eapply (d_is text sc s Q (sym ":") false); [exact I|intros t3 W3; rewrite sym_w, W3; now apply weqb_neq|]. apply K2. fl.
    apply K; [reflexivity|]. eapply in_scope_le; [apply declare_nil'|exact I].
Qed.
Lemma may_names sc l l' : map i_name l = map i_name l' -> may_declare sc (idents l) -> may_declare sc (idents l').
Proof. unfold idents. now intros ->. Qed.
Lemma parm_words opt ids ty e : write_parm st (FormalParm opt ids ty e) =
  match opt with None => [] | Some w => [(ReservedWord, w)] end ++ write_idents ids ++ write_parm_type ty ++ write_value e.
Proof. reflexivity. Qed.
Lemma value_first e after rest : exists ws, write_value e ++ after :: rest = (match e with None => after | Some _ => wsym "=" end) :: ws.
Proof. destruct e; cbn [write_value app]; eauto. Qed.
(** The brackets of parameters: those of properties are square. *)
Definition closes (cl : string) : Prop := cl = ")"%string \/ cl = "]"%string.
Definition opens (cl : string) : string := if (cl =? ")")%string then "("%string else "["%string.
Lemma parm_element cl p : closes cl -> length (write_parm st p) <= m ->
  element text (write_parm st) bare_parm (fun p sc a => good_parm st p sc a /\ (a = wsym ";" \/ a = wsym cl)) (fun p => declare (parm_names p))
    (append_with (parse_formal_parm R cl)) p.
Proof.
  intros Hc L B k acc sc s Q after rest I [G A] K. destruct p as [opt ids ty e]. rewrite parm_words in *. rewrite g_parm in G.
  destruct G as (Go & NE & Gt & Ge & Md). rewrite <- !app_assoc in I. rewrite !app_length in L.
  unfold append_with, parse_formal_parm. fl.
  set (after1 := match e with None => after | Some _ => wsym "=" end) in *.
  assert (Gt' : good_parm_type ty sc after1) by (destruct ty as [[[]]|]; exact Gt || exact Logic.I).
  assert (Main : forall s1 opt', opt' = opt -> in_scope sc s1 (write_idents ids ++ write_parm_type ty ++ write_value e ++ after :: rest) ->
    wp (a <- parse_parameter R cl ;;
        a0 <- (let '(ids, ty, e) := a in set (map (fun i => mkDecl i NParm) ids) ;;; Ret (FormalParm opt' ids ty e)) ;;
        x <- Ret (Some (acc ++ [a0])) ;; k x) s1 Q).
  { intros s1 opt' -> I1. fl. unfold parse_parameter. fl.
    assert (exists T ls, write_parm_type ty ++ write_value e ++ after :: rest = T :: ls /\ In T [wsym ":"; wsym ";"; wsym cl]) as (T & ls & ET & JT).
    { destruct ty as [[t a]|]; cbn [write_parm_type app]; [eexists _, _; split; [reflexivity|cbn; auto]|].
      rewrite Gt. cbn [write_value app]. eexists _, _. split; [reflexivity|]. destruct A as [->| ->]; cbn; auto. }
    rewrite ET in I1.
    eapply (d_idents text sc s1 Q ids); [exact NE|rewrite fuel_level; pose proof (idents_count ids); lia| | |exact I1|].
    { intros t0 W0. cbn [p_some existsb]. rewrite !sym_w, W0. destruct Hc as [->| ->]; destruct JT as [<-|[<-|[<-|[]]]]; vm_compute; reflexivity. }
    { destruct Hc as [->| ->]; wd. }
    intros ids' s2 Ed I2. fl. rewrite <- ET in I2.
    destruct (value_first e after rest) as (ws1 & Ev). rewrite Ev in I2. fold after1 in I2.
    eapply (d_parm_type ty); [intros b Hb; fl; exact Hb|exact I2|lia| |exact Gt'|].
    { unfold after1. destruct e; [discriminate|]. destruct Hc as [->| ->]; destruct A as [->| ->]; discriminate. }
    intros ty' s3 Ety I3. fl. unfold after1 in I3. rewrite <- Ev in I3.
    eapply (d_value _ s3 Q e); [intros b Hb; fl; exact Hb|exact I3|lia|exact Ge| |].
    { destruct Hc as [->| ->]; destruct A as [->| ->]; intros X; apply win_iff in X; vm_compute in X; discriminate X. }
    intros e' s4 Ee I4. fl. eapply d_expect; [exact I4| |].
    { intros t0 W0. cbn [p_some existsb]. rewrite !sym_w, W0. destruct Hc as [->| ->]; destruct A as [->| ->]; vm_compute; reflexivity. }
    intros t1 _. fl.
    assert (EN : map decl_name (map (fun i => mkDecl i NParm) ids') = map i_name ids) by (rewrite map_map; exact Ed).
    eapply d_set; [exact I4|destruct ids'; [destruct ids; [congruence|discriminate Ed]|discriminate]| | |].
    - rewrite Forall_map, Forall_forall. intros x _. cbn [d_node]. repeat split; try discriminate; intros [].
    - rewrite EN. exact Md.
    - intros s5 I5. rewrite EN in I5. fl. apply K.
      + change (FormalParm opt (map bare_ident ids') (bare_parm_type ty') (option_map bare_expr e') = FormalParm opt (map bare_ident ids) (bare_parm_type ty) (option_map bare_expr e)).
        now rewrite (bare_names _ _ Ed), Ety, Ee.
      + eapply in_scope_le; [apply declare_app|exact I5]. }
  destruct opt as [w|]; cbn [app] in I.
  - eapply d_cur; [exact I|]. intros t Wt. fl. rewrite type_w, value_w, Wt. cbn [fst snd ttype_eqb].
    replace (eqs_any w ["VAR"; "CONST"; "OUT"]%string) with true by (destruct Go as [<-|[<-|[<-|[]]]]; vm_compute; reflexivity). fl.
    eapply d_next; [exact I|destruct (idents_first ids NE) as (n & ws & ->); discriminate|]. intros t1 s1 I1. fl. now apply Main.
  - destruct (idents_first ids NE) as (n & ws & Ei). pose proof I as I0. rewrite Ei in I0. cbn [app] in I0.
    eapply d_cur; [exact I0|]. intros t Wt. fl. rewrite type_w, Wt. cbn [fst wident ttype_eqb]. fl. now apply Main.
Qed.
Lemma parm_nonempty p : (forall opt ids ty e, p = FormalParm opt ids ty e -> ids <> []) -> write_parm st p <> [].
Proof.
  destruct p as [opt ids ty e]. intros H. specialize (H _ _ _ _ eq_refl). rewrite parm_words. destruct (idents_first ids H) as (n & ws & ->).
  destruct opt; discriminate.
Qed.
Lemma d_parms_by {B} cl l (k : list formalparm -> prog B) sc s Q rest : closes cl -> length (semicolons (map (write_parm st) l)) < m -> rest <> [] ->
  in_scope sc s (wsym (opens cl) :: semicolons (map (write_parm st) l) ++ wsym cl :: rest) -> l <> [] ->
  in_turn (good_parm st) (fun p => declare (parm_names p)) (wsym ";") (wsym cl) l sc ->
  (forall l' s1, map bare_parm l' = map bare_parm l -> in_scope (declare (flat_map parm_names l) sc) s1 rest -> wp (k l') s1 Q) ->
  wp (Bind (parse_formal_parameters R (opens cl) cl) k) s Q.
Proof.
  intros Hc L NR I NE G K. rewrite joined_semicolons in I, L. unfold parse_formal_parameters. fl. eapply d_expect; [exact I|destruct Hc as [->| ->]; wd|]. intros t1 _. fl.
  eapply d_next; [exact I|apply app_nonempty; discriminate|]. intros t2 s1 I1. fl. unfold until_list.
  eapply (d_list text (write_parm st) bare_parm _ (fun p => declare (parm_names p)) (append_with (parse_formal_parm R cl)) (sym cl) (sym ";") (wsym ";") (wsym cl));
    [destruct Hc as [->| ->]; wd|destruct Hc as [->| ->]; wd|wd|exact NE| | |exact I1| |].
  - rewrite fuel_level. pose proof (joined_count (write_parm st) (wsym ";") l). lia.
  - intros x J. apply parm_element; [exact Hc|]. pose proof (joined_length (write_parm st) (wsym ";") x l J). lia.
  - eapply in_turn_imp; [|exact G]. intros x sc' a J A Gx. split; [exact Gx|]. destruct A as [->| ->]; auto.
  - intros l' s2 E I2. fl. cbn [app]. eapply d_expect; [exact I2|destruct Hc as [->| ->]; wd|]. intros t3 _. fl.
    eapply d_next; [exact I2|exact NR|]. intros t4 s3 I3. fl. apply K; [exact E|]. eapply in_scope_le; [apply behind_declare|exact I3].
Qed.
Lemma d_parms {B} l (k : list formalparm -> prog B) sc s Q rest : length (semicolons (map (write_parm st) l)) < m -> rest <> [] ->
  in_scope sc s (wsym "(" :: semicolons (map (write_parm st) l) ++ wsym ")" :: rest) -> l <> [] ->
  in_turn (good_parm st) (fun p => declare (parm_names p)) (wsym ";") (wsym ")") l sc ->
  (forall l' s1, map bare_parm l' = map bare_parm l -> in_scope (declare (flat_map parm_names l) sc) s1 rest -> wp (k l') s1 Q) ->
  wp (Bind (parse_formal_parameters R "(" ")") k) s Q.
Proof. intros L NR I NE G K. apply (d_parms_by ")"%string l k sc s Q rest); auto. now left. Qed.
Lemma g_proc function params ret ofobject sc after : good_ty st (TProc function params ret ofobject) sc after =
  (match params with
   | None => function = true \/ after <> wsym "(" \/ ofobject = true
   | Some l => l <> [] /\ in_turn (good_parm st) (fun p => declare (parm_names p)) (wsym ";") (wsym ")") l (enter sc)
   end /\
   match ret with None => function = false | Some i => function = true /\ good_typeid sc i end /\
   (ofobject = false -> after <> wkey "OF")).
Proof. reflexivity. Qed.
Lemma w_proc function params ret ofobject : write_ty st (TProc function params ret ofobject) =
  wkey (if function then "FUNCTION" else "PROCEDURE") :: write_parms st params ++ write_ret ret ++ (if ofobject then [wkey "OF"; wkey "OBJECT"] else []).
Proof. reflexivity. Qed.
Definition parms_names (params : option (list formalparm)) : list gostring := match params with None => [] | Some l => flat_map parm_names l end.
(** What follows the name in a heading. *)
Definition good_parms (params : option (list formalparm)) sc : Prop := match params with
   | None => True
   | Some l => l <> [] /\ in_turn (good_parm st) (fun p => declare (parm_names p)) (wsym ";") (wsym ")") l sc
   end.
Lemma d_params {B} params (k : option (list formalparm) -> prog B) k2 sc s Q w0 w1 rest :
  (forall t s1, wp (Bind (if sym "(" t then l <- parse_formal_parameters R "(" ")" ;; Ret (Some l) else Ret None) k) s1 Q -> wp (k2 t) s1 Q) ->
  length (write_parms st params) <= m -> in_scope sc s (w0 :: write_parms st params ++ w1 :: rest) -> (params = None -> w1 <> wsym "(") ->
  good_parms params sc ->
  (forall params' s1, option_map (map bare_parm) params' = option_map (map bare_parm) params -> in_scope (declare (parms_names params) sc) s1 (w1 :: rest) -> wp (k params') s1 Q) ->
  wp (Bind next k2) s Q.
Proof.
  intros K2 L I N G K. destruct params as [l|]; cbn [write_parms app length] in I, L.
  - destruct G as [NE G]. rewrite app_length in L. cbn [length] in L. rewrite <- app_assoc in I. cbn [app] in I.
    eapply d_next_tok; [exact I|]. intros t s1 W I1. apply K2. rewrite sym_w, W. change (weqb (wsym "(") (wsym "(")) with true. fl.
    eapply (d_parms l _ _ _ _ (w1 :: rest)); [lia|discriminate|exact I1|exact NE|exact G|]. intros l' s2 E I2. fl. apply K; [cbn [option_map]; now rewrite E|exact I2].
  - eapply d_next_tok; [exact I|]. intros t s1 W I1. apply K2. rewrite sym_w, W. replace (weqb w1 (wsym "(")) with false by (symmetry; apply weqb_neq; auto).
    fl. apply K; [reflexivity|]. eapply in_scope_le; [apply declare_nil'|exact I1].
Qed.
Lemma d_ret {B} (function : bool) ret (k : option typeid -> prog B) sc s Q w1 rest :
  match ret with None => function = false | Some i => function = true /\ good_typeid sc i end -> in_scope sc s (write_ret ret ++ w1 :: rest) ->
  (forall ret' s1, option_map bare_tid ret' = option_map bare_tid ret -> in_scope sc s1 (w1 :: rest) -> wp (k ret') s1 Q) ->
  wp (Bind (if function : bool then expect (sym ":") ;;; Next ;;; r <- parse_type_id ;; Ret (Some r) else Ret None) k) s Q.
Proof.
  intros G I K. destruct ret as [i|]; cbn [write_ret app] in I.
  - destruct G as [-> G]. fl. eapply d_expect; [exact I|wd|]. intros t1 _. fl. eapply d_next; [exact I|discriminate|]. intros t2 s1 I1. fl.
    eapply d_type_id; [exact I1|discriminate|exact G|]. intros r s2 E I2. fl. apply K; [cbn [option_map]; now rewrite E|exact I2].
  - subst function. fl. now apply K.
Qed.
Lemma ty_proc function params ret ofobject : length (write_ty st (TProc function params ret ofobject)) <= m -> ty_rule (parse_type R) (TProc function params ret ofobject).
Proof.
  intros L B k sc s Q after rest I G K. rewrite w_proc in *. rewrite g_proc in G. destruct G as (Gp & Gr & Ga). cbn [app length] in I, L. rewrite <- !app_assoc in I.
  rewrite !app_length in L. unfold parse_type. fl. eapply d_cur; [exact I|]. intros t Wt. fl. destruct (wkey_inv _ _ Wt) as [-> Vt]. rewrite Vt.
  assert (C : wp (Bind (parse_procedure_type R) k) s Q); [|destruct function; ev; exact C].
  unfold parse_procedure_type. fl. eapply d_cur; [exact I|]. intros t0 W0. fl. rewrite (proj2 (wkey_inv _ _ W0)).
  set (X := if ofobject then [wkey "OF"; wkey "OBJECT"] else []) in *.
  assert (EF : (if eqs (rs (if function then "FUNCTION" else "PROCEDURE")) "FUNCTION" then Ret true
    else if eqs (rs (if function then "FUNCTION" else "PROCEDURE")) "PROCEDURE" then Ret false else FailAt t0) = Ret function) by (destruct function; reflexivity).
  rewrite EF. fl.
  eapply (d_scoped text _ _ sc (declare (parms_names params) (enter sc)) s Q
    (fun t' => bare_ty t' = bare_ty (TProc function params ret ofobject)) _ (after :: rest)); [exact I|apply ev_procedure_type_scope, recs_at_evolve| |].
  - intros s1 I1.
    assert (exists w1 ws1, write_ret ret ++ X ++ after :: rest = w1 :: ws1 /\ (params = None -> w1 <> wsym "(")) as (w1 & ws1 & E1 & N1).
    { destruct ret as [i|]; cbn [write_ret app]; [eexists _, _; split; [reflexivity|discriminate]|]. unfold X. destruct ofobject; cbn [app].
      - eexists _, _; split; [reflexivity|discriminate].
      - eexists _, _; split; [reflexivity|]. intros ->. destruct Gp as [E|[E|E]]; congruence. }
    rewrite E1 in I1.
    eapply (d_params params); [intros b s2 Hb; fl; exact Hb|lia|exact I1|exact N1|destruct params; [exact Gp|exact Logic.I]|].
    intros params' s2 Ep I2. rewrite <- E1 in I2.
    assert (exists w2 ws2, X ++ after :: rest = w2 :: ws2) as (w2 & ws2 & E2) by (unfold X; destruct ofobject; cbn [app]; eauto).
    rewrite E2 in I2. fl. eapply d_ret; [|exact I2|]; [destruct ret; exact Gr|]. intros ret' s3 Er I3. rewrite <- E2 in I3. fl.
    assert (Res : forall o, o = ofobject -> bare_ty (TProc function params' ret' o) = bare_ty (TProc function params ret ofobject)).
    { intros o ->. change (TProc function (option_map (map bare_parm) params') (option_map bare_tid ret') ofobject =
        TProc function (option_map (map bare_parm) params) (option_map bare_tid ret) ofobject). now rewrite Ep, Er. }
    unfold X in I3. destruct ofobject; cbn [app] in I3.
    + eapply (d_is text _ s3 _ (kw "OF") true); [exact I3|wd|]. fl. eapply d_next; [exact I3|discriminate|]. intros t1 s4 I4. fl.
      eapply d_expect; [exact I4|wd|]. intros t2 _. fl. eapply d_next; [exact I4|discriminate|]. intros t3 s5 I5. fl. apply wp_ret. auto.
    + eapply (d_is text _ s3 _ (kw "OF") false); [exact I3|intros t1 W1; rewrite kw_w, W1; apply weqb_neq; auto|]. fl. apply wp_ret. auto.
  - intros t' s3 E I3. apply K; [exact E|intros []|]. change (left_over (TProc function params ret ofobject)) with (@nil (ttype * gostring)). cbn [app].
    eapply in_scope_le; [apply leave_enter|exact I3].
Qed.
End Level.
End WithUnicode.
