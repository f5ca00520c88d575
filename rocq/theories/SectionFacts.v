(** The rules for sections and blocks. *)
From Coq Require Import String List Arith NArith Bool Lia.
From Verif Require Import ListUtil Runes UnicodeFacts Token Tokenizer LexSpec LexShape LexFacts LexMain Ext ExtMain Ast Heap Classes MapSpec MapFacts MapMain Prog Parser ParseSpec RunFacts
  ExprSpec WpFacts ExprFacts StmtSpec GrowFacts StmtFacts EvolveFacts EvolveParse DeclSpec ScopeFacts DeclFacts TypeFacts TypePropFacts.
Import ListNotations.
Local Open Scope list_scope.

Section WithUnicode.
Context {U : Unicode} {UOK : UnicodeOk U}.
Local Open Scope prog_scope.
Notation words := (list (ttype * gostring)).
Context (text : list rune) (st : style).
Notation in_scope := (in_scope text).

Ltac fl := cbv beta iota; repeat (match goal with
  | |- wp (Bind (Ret _) _) _ _ => apply wp_ret_bind
  | |- wp (Bind (Bind _ _) _) _ _ => apply wp_assoc
  end; cbv beta iota).
Ltac wd := let t := fresh "t" in let W := fresh "W" in intros t W; cbn [p_some existsb]; rewrite ?sym_w, ?kw_w, ?type_w, ?W; try reflexivity.

(** ** Lists of declarations *)
Definition ends_section (w : ttype * gostring) : bool := ttype_eqb (fst w) ReservedWord || ttype_eqb (fst w) EOF.
Lemma section_end_w t : section_end t = ends_section (word_of t).
Proof. reflexivity. Qed.
Section Decls.
Context {X : Type} (W : X -> words) (bare : X -> X) (P : X -> scope -> Prop) (beh : X -> scope -> scope)
  (step : list X -> prog (list X + list X)).
Definition declares (x : X) : Prop := forall B (k : list X + list X -> prog B) acc sc s Q w rest,
  in_scope sc s (W x ++ w :: rest) -> P x sc ->
  (forall x' s1, bare x' = bare x -> in_scope (beh x sc) s1 (w :: rest) -> wp (k ((if ends_section w then inr else inl) (acc ++ [x']))) s1 Q) ->
  wp (Bind (step acc) k) s Q.
Lemma d_decls {B} (k : list X -> prog B) l : (forall x, In x l -> exists n ws, W x = wident n :: ws) ->
  (forall x, In x l -> declares x) ->
  forall fuel acc sc s Q w rest, l <> [] -> length l <= fuel -> ends_section w = true ->
  in_scope sc s (flat_map W l ++ w :: rest) -> in_turn (fun x sc _ => P x sc) beh weof weof l sc ->
  (forall l' s1, map bare l' = map bare l -> in_scope (behind_all beh l sc) s1 (w :: rest) -> wp (k (acc ++ l')) s1 Q) ->
  wp (Bind (loop fuel step acc) k) s Q.
Proof.
  induction l as [|x l IH]; intros Hw Hd fuel acc sc s Q w rest NE Lf Ew I G K; [congruence|].
  destruct fuel as [|fuel]; [cbn in Lf; lia|]. destruct G as [G1 G2]. cbn [flat_map] in I. rewrite <- app_assoc in I.
  cbn [loop]. fl. destruct l as [|y l].
  - cbn [flat_map app] in I. eapply (Hd x (or_introl eq_refl)); [exact I|exact G1|]. intros x' s1 Bx I1. rewrite Ew. fl.
    apply K; [cbn [map]; now rewrite Bx|exact I1].
  - destruct (Hw y ltac:(cbn; auto)) as (n & ws & Ey). assert (exists ws', flat_map W (y :: l) ++ w :: rest = wident n :: ws') as (ws' & E').
    { cbn [flat_map]. rewrite Ey. cbn [app]. eauto. }
    rewrite E' in I. eapply (Hd x (or_introl eq_refl)); [exact I|exact G1|]. intros x' s1 Bx I1. rewrite <- E' in I1.
    change (ends_section (wident n)) with false. fl.
    eapply IH; [intros z J; apply Hw; now right|intros z J; apply Hd; now right|discriminate|cbn [length] in *; lia|exact Ew|exact I1|exact G2|].
    intros l' s2 E I2. rewrite <- app_assoc. cbn [app]. apply K; [cbn [map] in *; now rewrite Bx, E|exact I2].
Qed.
End Decls.

Section Level.
Context (m : nat).
Notation R := (recs_at m).
Lemma ty_at t : length (write_ty st t) <= m -> ty_rule text st (parse_type R) t.
Proof. apply types_at. Qed.
Lemma types_below t : length (write_ty st t) < m -> ty_rule text st (r_type R) t.
Proof. intros L. destruct m as [|m']; [lia|]. apply (types_at text st m'). lia. Qed.

(** Constants. *)
Definition write_ctype (t : typ) : words := match t with TNil => [] | _ => wsym ":" :: write_ty st t end.
Lemma w_const i ty e : write_const st (mkConstDecl i ty e) = wident (i_name i) :: write_ctype ty ++ wsym "=" :: write_expr e ++ [wsym ";"].
Proof. destruct ty; reflexivity. Qed.
Lemma const_declares d : length (write_const st d) <= m ->
  declares (write_const st) bare_const (good_const st) after_const (const_section_step R) d.
Proof.
  intros L B k acc sc s Q w rest I (Md & Gt & Ge) K. destruct d as [i ty e]. rewrite w_const in *. cbn [cd_ident cd_type cd_expr] in *.
  unfold const_section_step, parse_constant_decl. fl. cbn [app length] in I, L. rewrite <- app_assoc in I. cbn [app] in I. rewrite <- app_assoc in I. cbn [app] in I.
  rewrite app_length in L. cbn [length] in L. rewrite app_length in L.
  eapply d_expect; [exact I|wd|]. intros t Wt. fl. pose proof (new_ident_bare t i Wt) as Bi. assert (Ni : i_name (new_ident t) = i_name i) by (now injection Bi).
  eapply (d_set text); [exact I|discriminate|repeat constructor; try discriminate; intros []| |].
  { change (map decl_name [mkDecl (new_ident t) NConst]) with [i_name (new_ident t)]. now rewrite Ni. }
  change (map decl_name [mkDecl (new_ident t) NConst]) with [i_name (new_ident t)].
  rewrite Ni. intros s1 I1. fl.
  set (sc1 := declare [i_name i] sc) in *.
  assert (Main : forall ty' s2, bare_ty ty' = bare_ty ty -> in_scope (declare (type_names ty) sc1) s2 (wsym "=" :: write_expr e ++ wsym ";" :: w :: rest) ->
    wp (expect (sym "=") ;;; a <- (Next ;;; e <- parse_const_expr R ;; Ret (mkConstDecl (new_ident t) ty' e)) ;; x <- (expect (sym ";") ;;; t <- next ;;
      if section_end t then Ret (inr (acc ++ [a])) else Ret (inl (acc ++ [a]))) ;; k x) s2 Q).
  { intros ty' s2 Ety I2. eapply d_expect; [exact I2|wd|]. intros t1 _. fl. eapply d_next; [exact I2|apply app_nonempty; discriminate|]. intros t2 s3 I3. fl.
    unfold parse_const_expr. eapply (d_expr_here text _ s3 Q m e); [exact I3|lia|exact Ge|apply stops_by; vm_compute; reflexivity|]. intros e' s4 Ee I4. fl.
    eapply d_expect; [exact I4|wd|]. intros t3 _. fl. eapply d_next_tok; [exact I4|]. intros t4 s5 W4 I5. fl. rewrite section_end_w, W4.
    assert (Kx : wp (k ((if ends_section w then inr else inl) (acc ++ [mkConstDecl (new_ident t) ty' e']))) s5 Q).
    { apply K; [unfold bare_const; cbn [cd_ident cd_type cd_expr]; now rewrite Bi, Ety, Ee|exact I5]. }
    destruct (ends_section w); fl; exact Kx. }
  assert (D : ty = TNil \/ ty <> TNil) by (destruct ty; auto; right; discriminate). destruct D as [->|N].
  - cbn [app] in I1. eapply d_next; [exact I1|discriminate|]. intros t1 s2 I2. fl. eapply (d_is text _ s2 Q (sym ":") false); [exact I2|wd|]. fl.
    apply Main; [reflexivity|]. eapply in_scope_le; [apply declare_nil'|exact I2].
  - assert (Gt' : finished ty = true /\ good_ty st ty sc1 (wsym "=")) by (destruct ty; try exact Gt; congruence). destruct Gt' as [F Gt'].
    assert (Wty : write_ctype ty = wsym ":" :: write_ty st ty) by (destruct ty; congruence || reflexivity).
    rewrite Wty in I1, L. cbn [app length] in I1, L. eapply d_next; [exact I1|discriminate|]. intros t1 s2 I2. fl.
    eapply (d_is text _ s2 Q (sym ":") true); [exact I2|wd|]. fl. eapply d_next; [exact I2|apply app_nonempty; discriminate|]. intros t2 s3 I3. fl.
    eapply (ty_at ty); [lia|exact I3|exact Gt'|]. intros ty' s4 Ety _ I4. rewrite (finished_left ty F) in I4. cbn [app] in I4. fl. now apply Main.
Qed.

(** Variables. *)
Lemma names_w ids ids' nd : map i_name ids' = map i_name ids -> map decl_name (map (fun i => mkDecl i nd) ids') = map i_name ids.
Proof. intros E. now rewrite map_map. Qed.
Lemma d_set_vars {B} ids ids' nd sc s Q (k : unit -> prog B) ws : map i_name ids' = map i_name ids -> ids <> [] -> ordinary nd -> may_declare sc (idents ids) ->
  in_scope sc s ws -> (forall s1, in_scope (declare (idents ids) sc) s1 ws -> wp (k tt) s1 Q) ->
  wp (Bind (set (map (fun i => mkDecl i nd) ids')) k) s Q.
Proof.
  intros E NE O Md I K. pose proof (names_w ids ids' nd E) as EN. eapply (d_set text); [exact I| | | |].
  - destruct ids'; [destruct ids; [congruence|discriminate E]|discriminate].
  - rewrite Forall_map, Forall_forall. auto.
  - now rewrite EN.
  - intros s1 I1. rewrite EN in I1. now apply K.
Qed.
Lemma threadvar_declares d : length (write_threadvar st d) <= m ->
  declares (write_threadvar st) bare_threadvar (good_threadvar st) after_threadvar (threadvar_section_step R) d.
Proof.
  intros L B k acc sc s Q w rest I (NE & F & Gt & Md) K. destruct d as [ids ty]. unfold write_threadvar in *. cbn [tv_idents tv_type] in *.
  rewrite <- app_assoc in I. cbn [app] in I. rewrite <- app_assoc in I. cbn [app] in I. rewrite app_length in L. cbn [length] in L. rewrite app_length in L.
  unfold threadvar_section_step, parse_threadvar_decl. fl.
  eapply (d_idents text sc s Q ids); [exact NE|rewrite fuel_level; pose proof (idents_count ids); lia| | |exact I|]; [wd|wd|].
  intros ids' s1 Ed I1. fl. eapply d_next; [exact I1|apply app_nonempty; discriminate|]. intros t1 s2 I2. fl.
  eapply (ty_at ty); [lia|exact I2|exact Gt|]. intros ty' s3 Et _ I3. rewrite (finished_left ty F) in I3. cbn [app] in I3. fl.
  eapply (d_set_vars ids ids' NThreadVar); [exact Ed|exact NE|repeat split; try discriminate; intros []|exact Md|exact I3|]. intros s4 I4. fl.
  eapply d_expect; [exact I4|wd|]. intros t2 _. fl. eapply d_next_tok; [exact I4|]. intros t3 s5 W3 I5. fl. rewrite section_end_w, W3.
  assert (Kx : wp (k ((if ends_section w then inr else inl) (acc ++ [mkThreadVarDecl ids' ty']))) s5 Q).
  { apply K; [unfold bare_threadvar; cbn [tv_idents tv_type]; now rewrite (bare_names _ _ Ed), Et|exact I5]. }
  destruct (ends_section w); fl; exact Kx.
Qed.
Lemma absolute_w t : word_of t = wident (absolute_word st) -> upper_is "ABSOLUTE" t = true.
Proof. intros W. rewrite upper_w, W. cbn [snd wident]. rewrite (absolute_upper st). now apply runes_equal_eq. Qed.
Lemma d_absolute {B} ab (k : option ident -> prog B) k2 sc s Q after rest :
  (forall b : bool, wp (Bind (if b then t <- expect_next (p_type Identifier) ;; Next ;;; Ret (Some (new_ident t)) else Ret None) k) s Q -> wp (k2 b) s Q) ->
  in_scope sc s (match ab with None => [] | Some i => [wident (absolute_word st); wident (i_name i)] end ++ after :: rest) ->
  (after = wsym "=" \/ after = wsym ";") ->
  (forall ab' s1, option_map bare_ident ab' = option_map bare_ident ab -> in_scope sc s1 (after :: rest) -> wp (k ab') s1 Q) ->
  wp (Bind (is (upper_is "ABSOLUTE")) k2) s Q.
Proof.
  intros K2 I A K. destruct ab as [i|]; cbn [app] in I.
  - eapply (d_is text _ s Q (upper_is "ABSOLUTE") true); [exact I|apply absolute_w|]. apply K2. fl.
    eapply d_expect_next; [exact I|wd|]. intros t1 s1 W1 I1. fl. eapply d_next; [exact I1|discriminate|]. intros t2 s2 I2. fl.
    apply K; [|exact I2]. cbn [option_map]. now rewrite (new_ident_bare _ _ W1).
  - eapply (d_is text _ s Q (upper_is "ABSOLUTE") false); [exact I| |].
    + intros t W. rewrite upper_w, W. destruct A as [->| ->]; (apply upper_not; vm_compute; reflexivity).
    + apply K2. fl. now apply K.
Qed.
Lemma d_init {B} sc s Q e (k : option expr -> prog B) (k2 : bool -> prog B) after rest :
  (forall b : bool, wp (e <- (if b then Next ;;; e <- parse_const_expr R ;; Ret (Some e) else Ret None) ;; k e) s Q -> wp (k2 b) s Q) -> in_scope sc s (write_value e ++ after :: rest) ->
  length (write_value e) <= m -> good_value sc e -> ~ In after goes_on ->
  (forall e' s1, option_map bare_expr e' = option_map bare_expr e -> in_scope sc s1 (after :: rest) -> wp (k e') s1 Q) ->
  wp (Bind (is (sym "=")) k2) s Q.
Proof.
  intros K2 I L G A K. destruct e as [e|]; cbn [write_value app length] in *.
  - eapply (d_is text sc s Q (sym "=") true); [exact I|wd|]. apply K2. fl. eapply d_next; [exact I|apply app_nonempty; discriminate|]. intros t s1 I1. fl.
    eapply (d_expr_here text _ s1 Q m e); [exact I1|lia|exact G|now apply after_expr|]. intros e' s2 E I2. fl. apply K; [cbn; now rewrite E|exact I2].
  - eapply (d_is text sc s Q (sym "=") false); [exact I| |].
    + intros t W. rewrite sym_w, W. apply weqb_neq. intros ->. apply A. apply win_iff. vm_compute. reflexivity.
    + apply K2. fl. apply K; [reflexivity|exact I].
Qed.
Lemma var_declares d : length (write_var st d) <= m ->
  declares (write_var st) bare_var (good_var st) after_var (var_section_step R) d.
Proof.
  intros L B k acc sc s Q w rest I (NE & F & Gt & Ge & Md) K. destruct d as [ids ty ab e]. unfold write_var in *. cbn [vd_idents vd_type vd_absolute vd_expr] in *.
  rewrite <- app_assoc in I. cbn [app] in I. rewrite <- !app_assoc in I. cbn [app] in I. rewrite app_length in L. cbn [length] in L. rewrite !app_length in L.
  unfold var_section_step, parse_var_decl. fl.
  eapply (d_idents text sc s Q ids); [exact NE|rewrite fuel_level; pose proof (idents_count ids); lia| | |exact I|]; [wd|wd|].
  intros ids' s1 Ed I1. fl. eapply d_next; [exact I1|apply app_nonempty, app_nonempty, app_nonempty; discriminate|]. intros t1 s2 I2. fl.
  destruct (value_first e (wsym ";") (w :: rest)) as (ws1 & Ev). rewrite Ev in I2.
  set (after1 := match e with None => wsym ";" | Some _ => wsym "=" end) in *.
  assert (exists ws2, match ab with None => [] | Some i => [wident (absolute_word st); wident (i_name i)] end ++ after1 :: ws1 =
    match ab with Some _ => wident (absolute_word st) | None => match e with Some _ => wsym "=" | None => wsym ";" end end :: ws2) as (ws2 & Ea).
  { destruct ab; cbn [app]; [eauto|]. unfold after1. destruct e; eauto. }
  rewrite Ea in I2. eapply (ty_at ty); [lia|exact I2|exact Gt|]. intros ty' s3 Et _ I3. rewrite (finished_left ty F) in I3. cbn [app] in I3. rewrite <- Ea in I3. fl.
  eapply (d_absolute ab); [intros b Hb; fl; exact Hb|exact I3|unfold after1; destruct e; auto|]. intros ab' s4 Eab I4. rewrite <- Ev in I4. fl.
  eapply (d_init _ s4 Q e); [intros b Hb; fl; exact Hb|exact I4|lia|exact Ge|intros X; apply win_iff in X; vm_compute in X; discriminate X|].
  intros e' s5 Ee I5. fl.
  eapply (d_set_vars ids ids' NVar); [exact Ed|exact NE|repeat split; try discriminate; intros []|exact Md|exact I5|]. intros s6 I6. fl.
  eapply d_cur; [exact I6|]. intros t2 W2. fl. rewrite section_end_w, W2. change (ends_section (wsym ";")) with false. fl.
  eapply d_expect; [exact I6|wd|]. intros t3 _. fl. eapply d_next_tok; [exact I6|]. intros t4 s7 W4 I7. fl. rewrite section_end_w, W4.
  assert (Kx : wp (k ((if ends_section w then inr else inl) (acc ++ [mkVarDecl ids' ty' ab' e']))) s7 Q).
  { apply K; [unfold bare_var; cbn [vd_idents vd_type vd_absolute vd_expr]; now rewrite (bare_names _ _ Ed), Et, Eab, Ee|exact I7]. }
  destruct (ends_section w); fl; exact Kx.
Qed.

(** Types. *)
Lemma first_not_type t sc after ws : good_ty st t sc after -> exists w ws', write_ty st t ++ ws = w :: ws' /\ w <> wkey "TYPE".
Proof.
  intros G. destruct t; try destruct packed; try contradiction; cbn [write_ty app];
    try (eexists _, _; (split; [reflexivity|discriminate]));
    try (unfold write_typeid; destruct (is_string _); eexists _, _; (split; [reflexivity|discriminate])).
  - cbn [good_ty] in G. destruct G as ((Gl & Fl) & _). destruct (write_expr low) as [|[ty v] ws'] eqn:Ew; [now pose proof (write_expr_nonempty low)|].
    cbn [app]. eexists _, _. split; [reflexivity|].
    assert (E : ty <> ReservedWord); [|intros [= E1 _]; contradiction].
    destruct ty; try discriminate.
    destruct low as [[u [f muls] adds] rels]. destruct u; [contradiction|]. destruct f as [[[ns n] items] args| | | | | | | | |]; try contradiction.
    destruct ns; [contradiction|]. destruct items; [|contradiction]. destruct args; [contradiction|]. destruct muls; [|contradiction].
    destruct adds; [|contradiction]. destruct rels; [|contradiction]. discriminate Ew.
  - destruct function; eexists _, _; (split; [reflexivity|discriminate]).
Qed.
Lemma left_one t : left_over t = [] \/ exists w, left_over t = [w] /\ w <> wsym ";".
Proof.
  induction t; cbn [left_over]; auto; right; eexists; (split; [reflexivity|]); try discriminate. destruct (is_string _); discriminate.
Qed.
Lemma left_unfinished t : finished t = false -> left_over t <> [].
Proof. induction t; cbn [finished left_over]; auto; discriminate. Qed.
Lemma dir_w names t : p_directive_set names t = str_in (match word_of t with (ReservedWord, v) => v | (_, v) => to_upper v end) names.
Proof. unfold p_directive_set, word_of, value. destruct (t_type t); reflexivity. Qed.
Lemma not_port t : word_of t = wsym ";" -> p_portability t = false.
Proof. intros W. unfold p_portability. rewrite dir_w, W. cbn [wsym]. rewrite to_upper_ascii by (now apply all_ascii_spec). reflexivity. Qed.
Lemma port_w t w : word_of t = hd weof (write_port (Some w)) -> In (to_upper w) portability_directives -> (to_upper w = rs "LIBRARY" -> w = rs "LIBRARY") ->
  p_portability t = true /\ value t = w.
Proof.
  intros W J Li. unfold p_portability. rewrite dir_w, value_w, W. cbn [write_port hd]. destruct (runes_equal w (rs "LIBRARY")) eqn:E.
  - apply runes_equal_eq in E. subst w. split; [vm_compute; reflexivity|reflexivity].
  - cbn [wident snd]. split; [|reflexivity]. unfold str_in. apply existsb_exists. exists (to_upper w). split; [exact J|now apply runes_equal_eq].
Qed.
Lemma typedecl_declares d : length (write_typedecl st d) <= m ->
  declares (write_typedecl st) bare_typedecl (good_typedecl st) after_typedecl (type_section_step R) d.
Proof.
  intros L B k acc sc s Q w rest I (Gt & Un & Fr) K. destruct d as [i ty po]. unfold write_typedecl in *. cbn [td_ident td_type td_port] in *.
  cbn [app length] in I, L. rewrite <- !app_assoc in I. cbn [app] in I. rewrite !app_length in L.
  unfold type_section_step, parse_type_decl. fl. eapply d_traced; [exact I|]. fl. eapply d_expect; [exact I|wd|]. intros t Wt. fl.
  pose proof (new_ident_bare t i Wt) as Bi. assert (Ni : i_name (new_ident t) = i_name i) by (now injection Bi).
  eapply d_expect_next; [exact I|wd|]. intros t1 s1 _ I1. fl.
  assert (Gt' : good_ty st ty sc (hd (wsym ";") (write_port po))) by (destruct po; [apply Gt|exact Gt]).
  destruct (first_not_type ty sc _ (write_port po ++ wsym ";" :: w :: rest) Gt') as (w1 & ws1 & E1 & N1). pose proof I1 as I1'. rewrite E1 in I1'.
  eapply d_next_tok; [exact I1'|]. intros t2 s2 W2 I2. rewrite <- E1 in I2. fl.
  rewrite kw_w, W2. replace (weqb w1 (wkey "TYPE")) with false by (symmetry; now apply weqb_neq). fl.
  assert (exists ws3, write_port po ++ wsym ";" :: w :: rest = hd (wsym ";") (write_port po) :: ws3) as (ws3 & E3).
  { destruct po; cbn [write_port hd app]; eauto. }
  rewrite E3 in I2. eapply (ty_at ty); [lia|exact I2|exact Gt'|]. intros ty' s3 Et _ I3. rewrite <- E3 in I3. fl.
  eapply (d_declare_type text); [exact I3|now rewrite Ni|now rewrite Ni|]. rewrite Ni. intros s4 I4. fl.
  assert (En : enumerates ty' = enumerates ty) by (destruct ty, ty'; try discriminate Et; reflexivity). rewrite En in I4.
  assert (Last : forall a s5, bare_typedecl a = bare_typedecl (mkTypeDecl i ty po) -> in_scope (after_typedecl (mkTypeDecl i ty po) sc) s5 (wsym ";" :: w :: rest) ->
    wp (a0 <- cur ;; x <- (t <- cur ;; if section_end t then Ret (inr (acc ++ [a])) else expect (sym ";") ;;; t1 <- next ;;
      if section_end t1 then Ret (inr (acc ++ [a])) else Ret (inl (acc ++ [a]))) ;; k x) s5 Q).
  { intros a s5 Ea I5. eapply d_cur; [exact I5|]. intros _ _. fl. eapply d_cur; [exact I5|]. intros t3 W3. fl. rewrite section_end_w, W3.
    change (ends_section (wsym ";")) with false. fl. eapply d_expect; [exact I5|wd|]. intros t4 _. fl. eapply d_next_tok; [exact I5|]. intros t5 s6 W5 I6. fl.
    rewrite section_end_w, W5. assert (Kx : wp (k ((if ends_section w then inr else inl) (acc ++ [a]))) s6 Q) by (apply K; [exact Ea|exact I6]).
    destruct (ends_section w); fl; exact Kx. }
  assert (Ba : forall p, p = po -> bare_typedecl (mkTypeDecl (new_ident t) ty' p) = bare_typedecl (mkTypeDecl i ty po)).
  { intros p ->. unfold bare_typedecl. cbn [td_ident td_type td_port]. now rewrite Bi, Et. }
  destruct (left_one ty) as [El|(w4 & El & N4)]; rewrite El in I4; cbn [app] in I4.
  - destruct po as [p|]; [destruct Gt as (Fi & _); now apply left_unfinished in Fi|]. cbn [write_port app] in I4.
    eapply d_cur; [exact I4|]. intros t3 W3. fl. rewrite sym_w, W3. change (weqb (wsym ";") (wsym ";")) with true. fl.
    apply Last; [now apply Ba|exact I4].
  - eapply d_cur; [exact I4|]. intros t3 W3. fl. rewrite sym_w, W3. replace (weqb w4 (wsym ";")) with false by (symmetry; now apply weqb_neq). fl.
    destruct po as [p|].
    + destruct Gt as (Fi & J & Li & _). rewrite E3 in I4. eapply d_next_tok; [exact I4|]. intros t4 s5 W4 I5. fl. rewrite <- E3 in I5.
      destruct (port_w t4 p W4 J Li) as [-> Vt]. fl. rewrite Vt. cbn [write_port app] in I5. eapply d_next; [exact I5|discriminate|]. intros t5 s6 I6. fl.
      apply Last; [now apply Ba|exact I6].
    + cbn [write_port app] in I4. eapply d_next_tok; [exact I4|]. intros t4 s5 W4 I5. fl. rewrite (not_port t4 W4). fl. apply Last; [now apply Ba|exact I5].
Qed.

(** Directives. *)
Definition no_directive (w : ttype * gostring) : Prop := forall t, word_of t = w -> p_directive t = false.
Lemma directive_set_w d t : In d directives -> word_of t = wident (directive_word st d) -> forall names, p_directive_set names t = str_in d names.
Proof. intros J W names. rewrite dir_w, W. cbn [wident]. now rewrite (directive_upper st d J). Qed.
Lemma str_in_iff s l : str_in s l = true <-> In s l.
Proof.
  unfold str_in. rewrite existsb_exists. split; [intros (x & J & E); apply runes_equal_eq in E; now subst|intros J; exists s; split; [exact J|now apply runes_equal_eq]].
Qed.
Definition ext_of (o : option extopts) : Prop := match o with None => True | Some x => xo_index x = None end.
Lemma d_external {B} o (k : option extopts -> prog B) sc s Q rest : ext_of o ->
  in_scope sc s (wident (directive_word st (rs "EXTERNAL")) :: write_external st o ++ wsym ";" :: rest) ->
  (forall s1, in_scope sc s1 (wsym ";" :: rest) -> wp (k o) s1 Q) -> wp (Bind parse_external_options k) s Q.
Proof.
  intros Eo I K. assert (J : In (rs "EXTERNAL") directives) by (apply str_in_iff; vm_compute; reflexivity).
  unfold parse_external_options. fl. eapply d_expect; [exact I|intros t W; rewrite (directive_set_w _ t J W); vm_compute; reflexivity|]. intros t _. fl.
  destruct o as [[lib nm ix]|]; cbn [write_external app xo_lib xo_name ext_of xo_index] in *.
  - subst ix. eapply d_next_tok; [exact I|]. intros t1 s1 W1 I1. fl. rewrite sym_w, W1.
    change (weqb (CharacterString, lib) (wsym ";")) with false. fl. unfold parse_string_factor. cbn [orb]. rewrite type_w, value_w, W1. cbn [fst snd ttype_eqb]. fl.
    destruct nm as [n|]; cbn [app] in I1.
    + eapply d_next; [exact I1|discriminate|]. intros t2 s2 I2. fl. eapply d_cur; [exact I2|]. intros t3 W3. fl. rewrite sym_w, W3.
      change (weqb (wident (name_word st)) (wsym ";")) with false. fl. rewrite dir_w, W3. cbn [wident]. rewrite (name_upper st).
      replace (str_in (rs "NAME") [rs "NAME"]) with true by reflexivity. fl.
      eapply d_next_tok; [exact I2|]. intros t4 s4 W4 I4. fl. rewrite type_w, value_w, W4. cbn [fst snd ttype_eqb]. fl.
      eapply d_next; [exact I4|discriminate|]. intros t5 s5 I5. fl. now apply K.
    + eapply d_next; [exact I1|discriminate|]. intros t2 s2 I2. fl. eapply d_cur; [exact I2|]. intros t3 W3. fl. rewrite sym_w, W3.
      change (weqb (wsym ";") (wsym ";")) with true. fl. now apply K.
  - eapply d_next_tok; [exact I|]. intros t1 s1 W1 I1. fl. rewrite sym_w, W1. change (weqb (wsym ";") (wsym ";")) with true. fl. now apply K.
Qed.
Lemma d_directive_loop {B} o (k : list gostring * option extopts -> prog B) l : ext_of o -> Forall (fun d => In d directives) l ->
  forall fuel acc opts sc s Q w rest, length l < fuel -> no_directive w ->
  in_scope sc s (flat_map (write_directive st o) l ++ w :: rest) ->
  (forall s1, in_scope sc s1 (w :: rest) -> wp (k (acc ++ l, if str_in (rs "EXTERNAL") l then o else opts)) s1 Q) ->
  wp (Bind (loop fuel directives_step (acc, opts)) k) s Q.
Proof.
  intros Eo. induction l as [|d l IH]; intros Fd fuel acc opts sc s Q w rest Lf Nw I K; (destruct fuel as [|fuel]; [cbn in Lf; lia|]); cbn [loop]; unfold directives_step at 1; fl.
  - cbn [flat_map app] in I. eapply d_cur; [exact I|]. intros t Wt. fl. rewrite (Nw t Wt). cbn [negb]. fl. rewrite <- (app_nil_r acc). now apply K.
  - inversion Fd as [|? ? J Fd']. subst. cbn [flat_map] in I. unfold write_directive in I at 1. cbn [app] in I. rewrite <- !app_assoc in I. cbn [app] in I.
    eapply d_cur; [exact I|]. intros t Wt. fl. unfold p_directive. rewrite (directive_set_w d t J Wt). rewrite (proj2 (str_in_iff d directives) J). cbn [negb]. fl.
    rewrite value_w, Wt. cbn [snd wident]. rewrite (directive_upper st d J). unfold eqs.
    assert (Rest : forall o' s1, in_scope sc s1 (wsym ";" :: flat_map (write_directive st o) l ++ w :: rest) ->
      (forall s2, in_scope sc s2 (w :: rest) -> wp (k ((acc ++ [d]) ++ l, if str_in (rs "EXTERNAL") l then o else o')) s2 Q) ->
      wp (expect (sym ";") ;;; a <- (Next ;;; Ret (inl (acc ++ [d], o'))) ;; x <- match a with inl s' => loop fuel directives_step s' | inr a0 => Ret a0 end ;; k x) s1 Q).
    { intros o' s1 I1 K'. eapply d_expect; [exact I1|wd|]. intros t1 _. fl. eapply d_next; [exact I1|apply app_nonempty; discriminate|]. intros t2 s2 I2. fl.
      eapply IH; [exact Fd'|cbn in Lf; lia|exact Nw|exact I2|exact K']. }
    destruct (runes_equal d (rs "EXTERNAL")) eqn:Ed.
    + apply runes_equal_eq in Ed. subst d. eapply (d_external o); [exact Eo|exact I|]. intros s1 I1. fl. apply Rest; [exact I1|]. intros s2 I2.
      rewrite <- app_assoc. cbn [app]. specialize (K s2 I2). cbn [str_in existsb] in K. change (runes_equal (rs "EXTERNAL") (rs "EXTERNAL")) with true in K.
      destruct (str_in (rs "EXTERNAL") l); exact K.
    + fl. cbn [app] in I. eapply d_next; [exact I|discriminate|]. intros t1 s1 I1. fl. apply Rest; [exact I1|]. intros s2 I2.
      rewrite <- app_assoc. cbn [app]. specialize (K s2 I2). cbn [str_in existsb] in K.
      replace (runes_equal (rs "EXTERNAL") d) with false in K; [exact K|]. symmetry. destruct (runes_equal (rs "EXTERNAL") d) eqn:E; [|reflexivity].
      apply runes_equal_eq in E. subst d. discriminate Ed.
Qed.
Lemma d_directives {B} dirs o (k : option (list gostring) * option extopts -> prog B) sc s Q w rest : good_directives dirs o ->
  length (write_directives st dirs o) <= m -> no_directive w -> in_scope sc s (write_directives st dirs o ++ w :: rest) ->
  (forall s1, in_scope sc s1 (w :: rest) -> wp (k (dirs, o)) s1 Q) -> wp (Bind (parse_optional_directives R) k) s Q.
Proof.
  intros G L Nw I K. unfold parse_optional_directives. fl. destruct dirs as [l|]; cbn [write_directives good_directives app] in *.
  - destruct G as (NE & Fd & Go). destruct l as [|d l]; [congruence|]. pose proof I as I0. cbn [flat_map] in I0. unfold write_directive in I0 at 1. cbn [app] in I0.
    assert (J : In d directives) by (now inversion Fd).
    eapply (d_is text _ s Q p_directive true); [exact I0|intros t W; unfold p_directive; rewrite (directive_set_w d t J W); now apply str_in_iff|]. fl.
    unfold parse_function_directives. eapply (d_directive_loop o); [destruct o; [apply Go|exact Logic.I]|exact Fd| |exact Nw|exact I|].
    + rewrite fuel_level. assert (X : forall l, length l <= length (flat_map (write_directive st o) l)); [|specialize (X (d :: l)); lia].
      clear. induction l as [|x l IH]; [auto|]. cbn [flat_map]. rewrite app_length. unfold write_directive at 1. cbn [length]. lia.
    + intros s1 I1. fl. cbn [app]. specialize (K s1 I1).
      replace (if str_in (rs "EXTERNAL") (d :: l) then o else None) with o; [exact K|]. destruct o as [x|]; [|now destruct (str_in _ _)].
      now rewrite (proj2 (str_in_iff _ _) (proj1 Go)).
  - subst o. eapply (d_is text _ s Q p_directive false); [exact I|exact Nw|]. fl. now apply K.
Qed.

(** Headings. *)
Lemma w_heading f i params ret : write_heading st (Heading f i params ret) = wkey (if f then "FUNCTION" else "PROCEDURE") :: wident (i_name i) :: write_parms st params ++ write_ret ret.
Proof. reflexivity. Qed.
Lemma d_heading {B} h (k : heading -> prog B) sc s Q rest : length (write_heading st h) <= m -> in_scope sc s (write_heading st h ++ wsym ";" :: rest) -> good_heading st h sc ->
  (forall h' s1, bare_heading h' = bare_heading h -> in_scope (declare (heading_names h) sc) s1 (wsym ";" :: rest) -> wp (k h') s1 Q) ->
  wp (Bind (parse_function_heading R) k) s Q.
Proof.
  intros L I G K. destruct h as [f i params ret]. rewrite w_heading in *. destruct G as [Gp Gr]. cbn [app length] in I, L. rewrite <- app_assoc in I. rewrite app_length in L.
  unfold parse_function_heading. fl. eapply d_cur; [exact I|]. intros t0 W0. fl. rewrite (proj2 (wkey_inv _ _ W0)).
  assert (EF : (if eqs (rs (if f then "FUNCTION" else "PROCEDURE")) "FUNCTION" then Ret true
    else if eqs (rs (if f then "FUNCTION" else "PROCEDURE")) "PROCEDURE" then Ret false else FailAt t0) = Ret f) by (destruct f; reflexivity).
  rewrite EF. fl. eapply d_expect_next; [exact I|wd|]. intros t1 s1 W1 I1. fl. eapply d_traced; [exact I1|]. fl.
  assert (exists w1 ws1, write_ret ret ++ wsym ";" :: rest = w1 :: ws1 /\ w1 <> wsym "(") as (w1 & ws1 & E1 & N1).
  { destruct ret; cbn [write_ret app]; eexists _, _; (split; [reflexivity|discriminate]). }
  rewrite E1 in I1. eapply (d_params text st m types_below params); [intros b s2 Hb; fl; exact Hb|lia|exact I1|auto|exact Gp|].
  intros params' s2 Ep I2. fl. rewrite <- E1 in I2. eapply d_ret; [|exact I2|]; [destruct ret; exact Gr|]. intros ret' s3 Er I3. fl.
  eapply d_cur; [exact I3|]. intros t2 _. apply K; [|exact I3].
  unfold bare_heading. now rewrite (new_ident_bare _ _ W1), Ep, Er.
Qed.

(** Exports. *)
Lemma set_w nm w t : to_upper w = rs nm -> word_of t = wident w -> forall names, p_directive_set names t = str_in (rs nm) names.
Proof. intros E W names. rewrite dir_w, W. cbn [wident]. now rewrite E. Qed.
Lemma export_element x : length (write_export st x) <= m ->
  element text (write_export st) bare_export (fun x sc a => good_export sc x /\ (a = wsym "," \/ a = wsym ";")) (fun _ sc => sc) (append_with (parse_exports_item R)) x.
Proof.
  intros L B k acc sc s Q after rest I [G A] K. destruct x as [i nm ix]. unfold write_export in *. cbn [ex_ident ex_name ex_index good_export] in *.
  cbn [app length] in I, L. unfold append_with, parse_exports_item. fl. eapply d_expect; [exact I|wd|]. intros t Wt. fl.
  assert (Sx : stops expr_on (after :: rest)) by (destruct A as [->| ->]; apply stops_by; vm_compute; reflexivity).
  unfold good_export in G. cbn [ex_name ex_index] in G.
  assert (Fin : forall nm' ix' s1, option_map bare_expr nm' = option_map bare_expr nm -> option_map bare_expr ix' = option_map bare_expr ix ->
    in_scope sc s1 (after :: rest) -> wp (k (Some (acc ++ [mkExports (new_ident t) nm' ix']))) s1 Q).
  { intros nm' ix' s1 E1 E2 I1. apply K; [|exact I1]. unfold bare_export. cbn [ex_ident ex_name ex_index]. now rewrite (new_ident_bare _ _ Wt), E1, E2. }
  destruct nm as [e|].
  - destruct ix; [contradiction|]. cbn [app length] in I, L. eapply d_next_tok; [exact I|]. intros t1 s1 W1 I1. fl.
    rewrite (set_w "NAME" _ t1 (name_upper st) W1). change (str_in (rs "NAME") [rs "NAME"]) with true. fl.
    eapply d_next; [exact I1|apply app_nonempty; discriminate|]. intros t2 s2 I2. fl. unfold parse_const_expr.
    eapply (d_expr_here text _ s2 Q m e); [exact I2|lia|exact G|exact Sx|]. intros e' s3 E I3. fl. apply Fin; [cbn; now rewrite E|reflexivity|exact I3].
  - destruct ix as [e|]; cbn [app length] in I, L.
    + eapply d_next_tok; [exact I|]. intros t1 s1 W1 I1. fl.
      rewrite (set_w "INDEX" _ t1 (index_upper st) W1). change (str_in (rs "INDEX") [rs "NAME"]) with false. fl.
      rewrite (set_w "INDEX" _ t1 (index_upper st) W1). change (str_in (rs "INDEX") [rs "INDEX"]) with true. fl.
      eapply d_next; [exact I1|apply app_nonempty; discriminate|]. intros t2 s2 I2. fl. unfold parse_const_expr.
      eapply (d_expr_here text _ s2 Q m e); [exact I2|lia|exact G|exact Sx|]. intros e' s3 E I3. fl. apply Fin; [reflexivity|cbn; now rewrite E|exact I3].
    + eapply d_next_tok; [exact I|]. intros t1 s1 W1 I1. fl.
      assert (Nd : forall nm, In nm [rs "NAME"; rs "INDEX"] -> p_directive_set [nm] t1 = false).
      { intros nm J. rewrite dir_w, W1. destruct A as [->| ->]; cbn [wsym]; (rewrite to_upper_ascii by (now apply all_ascii_spec)); destruct J as [<-|[<-|[]]]; reflexivity. }
      rewrite !Nd by (cbn; auto). fl. now apply Fin.
Qed.
Lemma d_exports_stmt {B} l (k : option (list exportsitem) -> prog B) sc s Q w rest : l <> [] -> Forall (good_export sc) l -> length (write_exports st l) <= m ->
  in_scope sc s (write_exports st l ++ w :: rest) ->
  (forall l' s1, map bare_export l' = map bare_export l -> in_scope sc s1 (w :: rest) -> wp (k (Some l')) s1 Q) ->
  wp (Bind (parse_exports_stmt R) k) s Q.
Proof.
  intros NE G L I K. unfold write_exports in *. rewrite joined_commas in *. cbn [app length] in I, L. rewrite <- app_assoc in I. cbn [app] in I. rewrite app_length in L.
  unfold parse_exports_stmt. fl. eapply (d_is text _ s Q (kw "EXPORTS") true); [exact I|wd|]. fl. eapply d_next; [exact I|apply app_nonempty; discriminate|]. intros t1 s1 I1. fl.
  unfold until_list.
  eapply (d_list text (write_export st) bare_export _ (fun _ sc => sc) (append_with (parse_exports_item R)) (sym ";") (sym ",") (wsym ",") (wsym ";"));
    [wd|wd|wd|exact NE| | |exact I1| |].
  - rewrite fuel_level. pose proof (joined_count (write_export st) (wsym ",") l). lia.
  - intros x J. apply export_element. pose proof (joined_length (write_export st) (wsym ",") x l J). lia.
  - clear - G. induction l as [|x l IH]; [exact I|]. inversion G. subst. split; [split; [assumption|destruct l; auto]|auto].
  - intros l' s2 E I2. rewrite behind_same in I2. fl. eapply d_next; [exact I2|discriminate|]. intros t2 s3 I3. fl. cbn [app]. now apply K.
Qed.
Lemma d_exports_loop {B} (k : list (list exportsitem) -> prog B) l : forall fuel acc sc s Q w rest, length l < fuel -> w <> wkey "EXPORTS" ->
  Forall (fun x => x <> [] /\ Forall (good_export sc) x /\ length (write_exports st x) <= m) l -> in_scope sc s (flat_map (write_exports st) l ++ w :: rest) ->
  (forall l' s1, map (map bare_export) l' = map (map bare_export) l -> in_scope sc s1 (w :: rest) -> wp (k (acc ++ l')) s1 Q) ->
  wp (Bind (loop fuel (exports_step R) acc) k) s Q.
Proof.
  induction l as [|x l IH]; intros fuel acc sc s Q w rest Lf Nw G I K; (destruct fuel as [|fuel]; [cbn in Lf; lia|]); cbn [loop]; unfold exports_step at 1; fl.
  - cbn [flat_map app] in I. unfold parse_exports_stmt. fl. eapply (d_is text _ s Q (kw "EXPORTS") false); [exact I|intros t W; rewrite kw_w, W; now apply weqb_neq|]. fl.
    rewrite <- (app_nil_r acc). now apply K.
  - inversion G as [|? ? (NE & Gx & Lx) G']. subst. cbn [flat_map] in I. rewrite <- app_assoc in I.
    assert (exists w1 ws1, flat_map (write_exports st) l ++ w :: rest = w1 :: ws1) as (w1 & ws1 & E1).
    { destruct (flat_map (write_exports st) l); cbn [app]; eauto. }
    rewrite E1 in I. eapply (d_exports_stmt x); [exact NE|exact Gx|exact Lx|exact I|]. intros x' s1 Ex I1. rewrite <- E1 in I1. fl.
    eapply IH; [cbn in Lf; lia|exact Nw|exact G'|exact I1|]. intros l' s2 E I2. rewrite <- app_assoc. cbn [app]. apply K; [cbn [map]; now rewrite Ex, E|exact I2].
Qed.
Lemma nonempty_map {A C} (f : A -> C) l : option_map (map f) (nonempty l) = nonempty (map f l).
Proof. now destruct l. Qed.
Lemma d_exports {B} ex (k : option (list (list exportsitem)) -> prog B) sc s Q w rest : w <> wkey "EXPORTS" ->
  match ex with None => True | Some l => l <> [] /\ Forall (fun x => x <> [] /\ Forall (good_export sc) x) l end ->
  length match ex with None => [] | Some l => flat_map (write_exports st) l end <= m ->
  in_scope sc s (match ex with None => [] | Some l => flat_map (write_exports st) l end ++ w :: rest) ->
  (forall ex' s1, option_map (map (map bare_export)) ex' = option_map (map (map bare_export)) ex -> in_scope sc s1 (w :: rest) -> wp (k ex') s1 Q) ->
  wp (Bind (parse_exports_stmts R) k) s Q.
Proof.
  intros Nw G L I K. unfold parse_exports_stmts. fl.
  set (l := match ex with None => [] | Some l => l end).
  assert (El : match ex with None => [] | Some l => flat_map (write_exports st) l end = flat_map (write_exports st) l) by (now destruct ex).
  assert (Ex : ex = nonempty l) by (destruct ex as [[|]|]; try reflexivity; now destruct G).
  assert (Gl : Forall (fun x => x <> [] /\ Forall (good_export sc) x) l) by (destruct ex; [apply G|constructor]).
  rewrite El in I, L. assert (Ll : forall l, length l <= length (flat_map (write_exports st) l) /\ forall x, In x l -> length (write_exports st x) <= length (flat_map (write_exports st) l)).
  { clear. induction l as [|x l [IH1 IH2]]; [split; [auto|intros x []]|]. cbn [flat_map]. rewrite app_length.
    assert (1 <= length (write_exports st x)) by (cbn; lia). split; [cbn [length]; lia|]. intros y [->|J]; [lia|]. specialize (IH2 y J). lia. }
  destruct (Ll l) as [L1 L2].
  eapply (d_exports_loop _ l); [rewrite fuel_level; lia|exact Nw| |exact I|].
  - rewrite Forall_forall in *. intros x J. destruct (Gl x J). specialize (L2 x J). repeat split; auto; lia.
  - intros l' s1 E I1. fl. cbn [app]. apply K; [|exact I1]. now rewrite Ex, !nonempty_map, E.
Qed.

(** ** Sections *)
Context (BB : forall b, length (write_block st b) < m -> forall B (k : block -> prog B) sc s Q after rest,
  in_scope sc s (write_block st b ++ after :: rest) -> good_block st b sc -> after <> wkey "EXPORTS" ->
  (forall b' s1, bare_block b' = bare_block b -> in_scope (after_block b sc) s1 (after :: rest) -> wp (k b') s1 Q) ->
  wp (Bind (r_block R) k) s Q).
Definition section_words : list string := ["LABEL"; "CONST"; "TYPE"; "VAR"; "THREADVAR"; "PROCEDURE"; "FUNCTION"]%string.
Definition block_words : list string := section_words ++ ["EXPORTS"; "BEGIN"]%string.
Lemma section_first d : exists x ws, write_section st d = wkey x :: ws /\ In x section_words.
Proof.
  destruct d as [i|l|l|l|l|[f i params ret] dirs opts b]; try (eexists _, _; split; [reflexivity|cbn; tauto]).
  destruct f; (eexists _, _; split; [reflexivity|cbn; tauto]).
Qed.
Lemma block_first b sc : good_block st b sc -> exists x ws, write_block st b = wkey x :: ws /\ In x block_words.
Proof.
  destruct b as [ds ex body]. intros (Gd & Ge & Gb). destruct body as [[]|]; try contradiction.
  change (write_block st (Block ds ex (Some (SCompound l)))) with
    (match ds with None => [] | Some l => flat_map (write_section st) l end ++
     match ex with None => [] | Some l => flat_map (write_exports st) l end ++ write_body (statements st) (SCompound l)).
  unfold block_words. destruct ds as [[|d ds]|]; [now destruct Gd| |].
  - cbn [flat_map]. destruct (section_first d) as (x & ws & -> & J). eexists _, _. split; [reflexivity|apply in_or_app; now left].
  - cbn [app]. destruct ex as [[|x ex]|]; [now destruct Ge| |]; (eexists _, _; split; [reflexivity|apply in_or_app; right; cbn; auto]).
Qed.
Lemma block_no_directive x : In x block_words -> no_directive (wkey x).
Proof.
  intros J t W. unfold p_directive. rewrite dir_w, W. cbn [wkey]. unfold block_words, section_words in J. cbn [app] in J.
  repeat (destruct J as [<-|J]; [vm_compute; reflexivity|]). destruct J.
Qed.
Definition tail_of (d : declsection) : words := match d with DSFunc _ _ _ _ => [wsym ";"] | _ => [] end.
Definition section_rule (d : declsection) : Prop := forall B (k : option declsection -> prog B) sc s Q w rest, ends_section w = true ->
  in_scope sc s (write_section st d ++ w :: rest) -> good_section st d sc ->
  (forall d' s1, bare_section d' = bare_section d -> in_scope (after_section d sc) s1 (tail_of d ++ w :: rest) -> wp (k (Some d')) s1 Q) ->
  wp (Bind (parse_decl_section R) k) s Q.
Lemma list_bounds {X} (W : X -> words) (l : list X) : (forall x, W x <> []) -> length l <= length (flat_map W l) /\ forall x, In x l -> length (W x) <= length (flat_map W l).
Proof.
  intros H. induction l as [|x l [IH1 IH2]]; [split; [auto|intros x []]|]. cbn [flat_map]. rewrite app_length.
  assert (1 <= length (W x)) by (specialize (H x); destruct (W x); [congruence|cbn; lia]). split; [cbn [length]; lia|]. intros y [->|J]; [lia|]. specialize (IH2 y J). lia.
Qed.
Ltac no := eapply d_is with (b := false); [eassumption|wd|]; fl.
Lemma label_section i : section_rule (DSLabel i).
Proof.
  intros B k sc s Q w rest Ew I [Fr Pl] K. cbn [write_section app] in I. unfold parse_decl_section, parse_label_decl_section. fl.
  eapply (d_is text _ s Q (kw "LABEL") true); [exact I|wd|]. fl. eapply d_expect_next; [exact I|wd|]. intros t s1 Wt I1. fl.
  eapply d_expect_next; [exact I1|wd|]. intros t1 s2 _ I2. fl. eapply d_next; [exact I2|discriminate|]. intros t2 s3 I3. fl.
  pose proof (new_ident_bare t i Wt) as Bi. assert (Ni : i_name (new_ident t) = i_name i) by (now injection Bi).
  eapply (d_set_label text); [exact I3|now rewrite Ni|now rewrite Ni|]. rewrite Ni. intros s4 I4. fl. apply K; [cbn [bare_section]; now rewrite Bi|exact I4].
Qed.
Lemma const_section l : length (write_section st (DSConst l)) <= m -> section_rule (DSConst l).
Proof.
  intros L B k sc s Q w rest Ew I [NE G] K. cbn [write_section app length] in I, L. unfold parse_decl_section, parse_label_decl_section. fl. no.
  unfold parse_const_section, section_head. fl. eapply (d_is text _ s Q (kw "CONST") true); [exact I|wd|]. fl. eapply d_next; [exact I|apply app_nonempty; discriminate|]. intros t s1 I1. fl.
  destruct (list_bounds (write_const st) l ltac:(discriminate)) as [L1 L2].
  eapply (d_decls (write_const st) bare_const _ after_const (const_section_step R) _ l); [| |exact NE| |exact Ew|exact I1|exact G|].
  - intros x J. unfold write_const. eauto.
  - intros x J. apply const_declares. specialize (L2 x J). lia.
  - rewrite fuel_level. lia.
  - intros l' s2 E I2. fl. cbn [app]. apply K; [cbn [bare_section]; now rewrite E|exact I2].
Qed.
Lemma var_first ids ws : ids <> [] -> exists n ws', write_idents ids ++ ws = wident n :: ws'.
Proof. intros NE. destruct (idents_first ids NE) as (n & ws' & ->). cbn [app]. eauto. Qed.
Lemma in_turn_in {X} (P : X -> scope -> Prop) beh l : forall sc x, In x l -> in_turn (fun x sc _ => P x sc) beh weof weof l sc -> exists sc', P x sc'.
Proof. induction l as [|y l IH]; intros sc x J G; [destruct J|]. destruct J as [->|J]; destruct G; eauto. Qed.
Lemma var_section l : length (write_section st (DSVar l)) <= m -> section_rule (DSVar l).
Proof.
  intros L B k sc s Q w rest Ew I [NE G] K. cbn [write_section app length] in I, L. unfold parse_decl_section, parse_label_decl_section. fl. no.
  unfold parse_const_section, section_head. fl. no. unfold parse_type_section, section_head. fl. no.
  unfold parse_var_section, section_head. fl. eapply (d_is text _ s Q (kw "VAR") true); [exact I|wd|]. fl. eapply d_next; [exact I|apply app_nonempty; discriminate|]. intros t s1 I1. fl.
  destruct (list_bounds (write_var st) l ltac:(intros x; unfold write_var; apply app_nonempty; discriminate)) as [L1 L2].
  eapply (d_decls (write_var st) bare_var _ after_var (var_section_step R) _ l); [| |exact NE| |exact Ew|exact I1|exact G|].
  - intros x J. unfold write_var. apply var_first. now destruct (in_turn_in _ _ _ _ _ J G) as (sc' & N & _).
  - intros x J. apply var_declares. specialize (L2 x J). lia.
  - rewrite fuel_level. lia.
  - intros l' s2 E I2. fl. cbn [app]. apply K; [cbn [bare_section]; now rewrite E|exact I2].
Qed.
Lemma threadvar_section l : length (write_section st (DSThreadVar l)) <= m -> section_rule (DSThreadVar l).
Proof.
  intros L B k sc s Q w rest Ew I [NE G] K. cbn [write_section app length] in I, L. unfold parse_decl_section, parse_label_decl_section. fl. no.
  unfold parse_const_section, section_head. fl. no. unfold parse_type_section, section_head. fl. no. unfold parse_var_section, section_head. fl. no.
  unfold parse_threadvar_section, section_head. fl. eapply (d_is text _ s Q (kw "THREADVAR") true); [exact I|wd|]. fl. eapply d_next; [exact I|apply app_nonempty; discriminate|]. intros t s1 I1. fl.
  destruct (list_bounds (write_threadvar st) l ltac:(intros x; unfold write_threadvar; apply app_nonempty; discriminate)) as [L1 L2].
  eapply (d_decls (write_threadvar st) bare_threadvar _ after_threadvar (threadvar_section_step R) _ l); [| |exact NE| |exact Ew|exact I1|exact G|].
  - intros x J. unfold write_threadvar. apply var_first. now destruct (in_turn_in _ _ _ _ _ J G) as (sc' & N & _).
  - intros x J. apply threadvar_declares. specialize (L2 x J). lia.
  - rewrite fuel_level. lia.
  - intros l' s2 E I2. fl. cbn [app]. apply K; [cbn [bare_section]; now rewrite E|exact I2].
Qed.
Lemma type_section l : length (write_section st (DSType l)) <= m -> section_rule (DSType l).
Proof.
  intros L B k sc s Q w rest Ew I [NE G] K. cbn [write_section app length] in I, L. unfold parse_decl_section, parse_label_decl_section. fl. no.
  unfold parse_const_section, section_head. fl. no.
  unfold parse_type_section, section_head. fl. eapply (d_is text _ s Q (kw "TYPE") true); [exact I|wd|]. fl.
  apply d_postscope. apply (in_scope_post text []) in I. eapply d_next; [exact I|apply app_nonempty; discriminate|]. intros t s1 I1. fl.
  destruct (list_bounds (write_typedecl st) l ltac:(discriminate)) as [L1 L2].
  eapply (d_decls (write_typedecl st) bare_typedecl _ after_typedecl (type_section_step R) _ l); [| |exact NE| |exact Ew|exact I1|exact G|].
  - intros x J. unfold write_typedecl. eauto.
  - intros x J. apply typedecl_declares. specialize (L2 x J). lia.
  - rewrite fuel_level. lia.
  - intros l' s2 E I2. fl. cbn [app]. eapply (d_runpost text); [exact I2|]. intros s3 I3. fl. apply wp_ret. fl. apply K; [cbn [bare_section]; now rewrite E|].
    now apply in_scope_post.
Qed.
Lemma func_section h dirs opts b : length (write_section st (DSFunc h dirs opts b)) <= m -> section_rule (DSFunc h dirs opts b).
Proof.
  intros L B k sc s Q w rest Ew I G K.
  change (write_section st (DSFunc h dirs opts b)) with (write_heading st h ++ wsym ";" :: write_directives st dirs opts ++ write_block st b ++ [wsym ";"]) in I, L.
  rewrite <- app_assoc in I. cbn [app] in I. rewrite <- !app_assoc in I. cbn [app] in I. rewrite app_length in L. cbn [length] in L. rewrite !app_length in L. cbn [length] in L.
  change (good_heading st h (enter sc) /\ may_declare (declare (heading_names h) (enter sc)) [heading_name h] /\ good_directives dirs opts /\
    good_block st b (declare [heading_name h] (declare (heading_names h) (enter sc)))) in G.
  destruct G as (Gh & Md & Gd & Gb).
  assert (exists x ws, write_heading st h = wkey x :: ws /\ In x ["PROCEDURE"; "FUNCTION"]%string) as (x & ws & Ex & Jx).
  { destruct h as [f i params ret]. rewrite w_heading. destruct f; eexists _, _; (split; [reflexivity|cbn; auto]). }
  pose proof I as I0. rewrite Ex in I0. cbn [app] in I0.
  assert (No : forall y, In y ["LABEL"; "CONST"; "TYPE"; "VAR"; "THREADVAR"]%string -> forall t, word_of t = wkey x -> kw y t = false).
  { intros y Jy t W. rewrite kw_w, W. destruct Jx as [<-|[<-|[]]]; destruct Jy as [<-|[<-|[<-|[<-|[<-|[]]]]]]; vm_compute; reflexivity. }
  unfold parse_decl_section, parse_label_decl_section. fl. eapply (d_is text _ s Q (kw "LABEL") false); [exact I0|apply No; cbn; tauto|]. fl.
  unfold parse_const_section, section_head. fl. eapply (d_is text _ s Q (kw "CONST") false); [exact I0|apply No; cbn; tauto|]. fl.
  unfold parse_type_section, section_head. fl. eapply (d_is text _ s Q (kw "TYPE") false); [exact I0|apply No; cbn; tauto|]. fl.
  unfold parse_var_section, section_head. fl. eapply (d_is text _ s Q (kw "VAR") false); [exact I0|apply No; cbn; tauto|]. fl.
  unfold parse_threadvar_section, section_head. fl. eapply (d_is text _ s Q (kw "THREADVAR") false); [exact I0|apply No; cbn; tauto|]. fl.
  unfold parse_procedure_decl_section. fl. eapply d_cur; [exact I0|]. intros t0 W0. fl. rewrite (proj2 (wkey_inv _ _ W0)).
  replace (eqs_any (rs x) ["PROCEDURE"; "FUNCTION"]%string) with true by (destruct Jx as [<-|[<-|[]]]; vm_compute; reflexivity). fl.
  set (sc1 := declare [heading_name h] (declare (heading_names h) (enter sc))) in *.
  eapply (d_scoped text _ _ sc (after_block b sc1) s Q (fun r => exists d', r = Some d' /\ bare_section d' = bare_section (DSFunc h dirs opts b)) _ (wsym ";" :: w :: rest));
    [exact I|apply ev_procedure_decl_scope, recs_at_evolve| |].
  - intros s1 I1. eapply (d_heading h); [lia|exact I1|exact Gh|]. intros h' s2 Eh I2. fl. eapply d_expect; [exact I2|wd|]. intros t1 _. fl.
    assert (Nh : i_name (heading_ident h') = heading_name h) by (destruct h, h'; now injection Eh).
    eapply (d_set text); [exact I2|discriminate|repeat constructor; try discriminate; intros []| |].
    { change (map decl_name [mkDecl (heading_ident h') NFunc]) with [i_name (heading_ident h')]. now rewrite Nh. }
    change (map decl_name [mkDecl (heading_ident h') NFunc]) with [i_name (heading_ident h')]. rewrite Nh. fold sc1. intros s3 I3. fl.
    eapply d_next; [exact I3|apply app_nonempty, app_nonempty; discriminate|]. intros t2 s4 I4. fl.
    destruct (block_first b _ Gb) as (y & ws1 & Eb & Jb). pose proof I4 as I4'. rewrite Eb in I4'. cbn [app] in I4'.
    eapply (d_directives dirs opts); [exact Gd|lia|apply (block_no_directive y Jb)|exact I4'|]. intros s5 I5. fl.
    change (wkey y :: ws1 ++ wsym ";" :: w :: rest) with ((wkey y :: ws1) ++ wsym ";" :: w :: rest) in I5. rewrite <- Eb in I5.
    eapply (BB b); [lia|exact I5|exact Gb|discriminate|]. intros b' s6 Ebk I6. fl. apply wp_ret. split; [|exact I6].
    eexists. split; [reflexivity|]. change (DSFunc (bare_heading h') dirs opts (bare_block b') = DSFunc (bare_heading h) dirs opts (bare_block b)). now rewrite Eh, Ebk.
  - intros r s3 (d' & -> & Ed) I3. now apply K.
Qed.
Lemma section_here d : length (write_section st d) <= m -> section_rule d.
Proof.
  intros L. destruct d; [apply label_section|now apply const_section|now apply type_section|now apply var_section|now apply threadvar_section|now apply func_section].
Qed.
Definition no_section_words : list string := ["EXPORTS"; "BEGIN"; "INITIALIZATION"; "END"]%string.
Lemma no_section {B} x (k : option declsection -> prog B) sc s Q rest : In x no_section_words -> in_scope sc s (wkey x :: rest) ->
  wp (k None) s Q -> wp (Bind (parse_decl_section R) k) s Q.
Proof.
  intros Jx I K. assert (No : forall y, In y ["LABEL"; "CONST"; "TYPE"; "VAR"; "THREADVAR"]%string -> forall t, word_of t = wkey x -> kw y t = false).
  { intros y Jy t W. rewrite kw_w, W. destruct Jx as [<-|[<-|[<-|[<-|[]]]]]; destruct Jy as [<-|[<-|[<-|[<-|[<-|[]]]]]]; vm_compute; reflexivity. }
  unfold parse_decl_section, parse_label_decl_section. fl. eapply (d_is text _ s Q (kw "LABEL") false); [exact I|apply No; cbn; tauto|]. fl.
  unfold parse_const_section, section_head. fl. eapply (d_is text _ s Q (kw "CONST") false); [exact I|apply No; cbn; tauto|]. fl.
  unfold parse_type_section, section_head. fl. eapply (d_is text _ s Q (kw "TYPE") false); [exact I|apply No; cbn; tauto|]. fl.
  unfold parse_var_section, section_head. fl. eapply (d_is text _ s Q (kw "VAR") false); [exact I|apply No; cbn; tauto|]. fl.
  unfold parse_threadvar_section, section_head. fl. eapply (d_is text _ s Q (kw "THREADVAR") false); [exact I|apply No; cbn; tauto|]. fl.
  unfold parse_procedure_decl_section. fl. eapply d_cur; [exact I|]. intros t0 W0. fl. rewrite (proj2 (wkey_inv _ _ W0)).
  replace (eqs_any (rs x) ["PROCEDURE"; "FUNCTION"]%string) with false by (destruct Jx as [<-|[<-|[<-|[<-|[]]]]]; vm_compute; reflexivity). fl. exact K.
Qed.
Lemma d_sections_loop {B} (k : list declsection -> prog B) l : (forall d, In d l -> section_rule d) ->
  forall fuel acc sc s Q x rest, length l < fuel -> In x no_section_words ->
  in_scope sc s (flat_map (write_section st) l ++ wkey x :: rest) -> in_turn (fun d sc _ => good_section st d sc) after_section weof weof l sc ->
  (forall l' s1, map bare_section l' = map bare_section l -> in_scope (behind_all after_section l sc) s1 (wkey x :: rest) -> wp (k (acc ++ l')) s1 Q) ->
  wp (Bind (loop fuel (decl_sections_step R) acc) k) s Q.
Proof.
  induction l as [|d l IH]; intros Hd fuel acc sc s Q x rest Lf Jx I G K; (destruct fuel as [|fuel]; [cbn in Lf; lia|]); cbn [loop]; unfold decl_sections_step at 1; fl.
  - cbn [flat_map app] in I. eapply (no_section x); [exact Jx|exact I|]. fl. rewrite <- (app_nil_r acc). now apply K.
  - destruct G as [G1 G2]. cbn [flat_map] in I. rewrite <- app_assoc in I.
    assert (exists y ws1, flat_map (write_section st) l ++ wkey x :: rest = wkey y :: ws1) as (y & ws1 & E1).
    { destruct l as [|d' l]; cbn [flat_map app]; [eauto|]. destruct (section_first d') as (y & ws1 & -> & _). cbn [app]. eauto. }
    rewrite E1 in I. eapply (Hd d (or_introl eq_refl) _ _ sc s Q (wkey y) ws1); [reflexivity|exact I|exact G1|]. intros d' s1 Ed I1. fl.
    assert (Main : forall s2, in_scope (after_section d sc) s2 (wkey y :: ws1) -> wp (Bind (loop fuel (decl_sections_step R) (acc ++ [d'])) k) s2 Q).
    { intros s2 I2. rewrite <- E1 in I2. eapply IH; [intros z J; apply Hd; now right|cbn in Lf; lia|exact Jx|exact I2|exact G2|].
      intros l' s3 E I3. rewrite <- app_assoc. cbn [app]. apply K; [cbn [map]; now rewrite Ed, E|exact I3]. }
    destruct d; cbn [tail_of app] in I1; try (eapply (d_is text _ s1 Q (sym ";") false); [exact I1|wd|]; fl; now apply Main).
    eapply (d_is text _ s1 Q (sym ";") true); [exact I1|wd|]. fl. eapply d_next; [exact I1|discriminate|]. intros t s2 I2. fl. now apply Main.
Qed.
Lemma w_block ds ex l : write_block st (Block ds ex (Some (SCompound l))) =
  match ds with None => [] | Some l => flat_map (write_section st) l end ++
  match ex with None => [] | Some l => flat_map (write_exports st) l end ++ write_body (statements st) (SCompound l).
Proof. reflexivity. Qed.
Lemma block_here b : length (write_block st b) <= m -> forall B (k : block -> prog B) sc s Q after rest,
  in_scope sc s (write_block st b ++ after :: rest) -> good_block st b sc -> after <> wkey "EXPORTS" ->
  (forall b' s1, bare_block b' = bare_block b -> in_scope (after_block b sc) s1 (after :: rest) -> wp (k b') s1 Q) ->
  wp (Bind (parse_block R) k) s Q.
Proof.
  intros L B k sc s Q after rest I G Na K. destruct b as [ds ex body]. destruct body as [[]|]; try (destruct G as (_ & _ & []); fail).
  rewrite w_block in *. destruct G as (Gd & Ge & Gb & Md). rewrite <- !app_assoc in I. rewrite !app_length in L.
  set (sds := match ds with None => [] | Some l => l end).
  assert (El : match ds with None => [] | Some l => flat_map (write_section st) l end = flat_map (write_section st) sds) by (now destruct ds).
  assert (Ed : ds = nonempty sds) by (destruct ds as [[|]|]; try reflexivity; now destruct Gd).
  assert (Gs : in_turn (fun d sc _ => good_section st d sc) after_section weof weof sds sc) by (destruct ds; [apply Gd|exact Logic.I]).
  assert (Sc : match ds with None => sc | Some l => behind_all after_section l sc end = behind_all after_section sds sc) by (now destruct ds).
  rewrite El in I, L. cbv zeta in Ge, Gb, Md. rewrite Sc in Ge, Gb, Md.
  destruct (list_bounds (write_section st) sds ltac:(intros d; destruct (section_first d) as (y & ws & -> & _); discriminate)) as [L1 L2].
  unfold parse_block. fl. unfold parse_decl_sections. fl.
  assert (exists x ws, match ex with None => [] | Some l => flat_map (write_exports st) l end ++ write_body (statements st) (SCompound l) ++ after :: rest = wkey x :: ws /\ In x no_section_words) as (x & ws & Ex & Jx).
  { destruct ex as [[|e ex]|]; [now destruct Ge| |]; (eexists _, _; split; [reflexivity|cbn; auto]). }
  rewrite Ex in I. eapply (d_sections_loop _ sds); [intros d J; apply section_here; specialize (L2 d J); lia|rewrite fuel_level; lia|exact Jx|exact I|exact Gs|].
  intros ds' s1 Es I1. fl. rewrite <- Ex in I1. cbn [app].
  assert (exists ws2, write_body (statements st) (SCompound l) ++ after :: rest = wkey "BEGIN" :: ws2) as (ws2 & E2) by (eexists; reflexivity).
  rewrite E2 in I1. eapply (d_exports ex _ _ s1 Q (wkey "BEGIN") ws2); [discriminate|exact Ge|lia|exact I1|]. intros ex' s2 Eex I2. fl.
  eapply d_cur; [exact I2|]. intros t Wt. fl. rewrite (proj2 (wkey_inv _ _ Wt)). change (eqs (rs "BEGIN") "BEGIN") with true. fl.
  rewrite <- E2 in I2. eapply (d_compound text m); [exact I2|lia| |exact Md|].
  { destruct l; exact Gb. }
  intros bd s3 Eb I3. fl. eapply (d_exports None); [exact Na|exact Logic.I|cbn; lia|exact I3|]. intros ex2 s4 E4 I4. fl.
  assert (ex2 = None) by (now destruct ex2). subst ex2. apply K.
  - change (Block (option_map (map bare_section) (nonempty ds')) (option_map (map (map bare_export)) ex') (Some (bare_body bd)) =
            Block (option_map (map bare_section) ds) (option_map (map (map bare_export)) ex) (Some (bare_body (SCompound l)))).
    now rewrite Ed, !nonempty_map, Es, Eex, Eb.
  - change (after_block (Block ds ex (Some (SCompound l))) sc) with (declare (body_vars (SCompound l)) match ds with None => sc | Some l => behind_all after_section l sc end).
    now rewrite Sc.
Qed.
End Level.
Theorem blocks_at m b : length (write_block st b) <= m -> forall B (k : block -> prog B) sc s Q after rest,
  in_scope sc s (write_block st b ++ after :: rest) -> good_block st b sc -> after <> wkey "EXPORTS" ->
  (forall b' s1, bare_block b' = bare_block b -> in_scope (after_block b sc) s1 (after :: rest) -> wp (k b') s1 Q) ->
  wp (Bind (parse_block (recs_at m)) k) s Q.
Proof.
  revert b. induction m as [|m IH]; intros b L; apply block_here; auto; intros b' L'; [lia|].
  cbn [recs_at r_block]. apply IH. lia.
Qed.
Lemma blocks_below m b : length (write_block st b) < m -> forall B (k : block -> prog B) sc s Q after rest,
  in_scope sc s (write_block st b ++ after :: rest) -> good_block st b sc -> after <> wkey "EXPORTS" ->
  (forall b' s1, bare_block b' = bare_block b -> in_scope (after_block b sc) s1 (after :: rest) -> wp (k b') s1 Q) ->
  wp (Bind (r_block (recs_at m)) k) s Q.
Proof. destruct m as [|m]; [lia|]. intros L. apply (blocks_at m). lia. Qed.
Theorem sections_at m d : length (write_section st d) <= m -> section_rule m d.
Proof. apply section_here, blocks_below. Qed.
End WithUnicode.
