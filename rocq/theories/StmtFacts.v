(** The parser reads statements in source form. *)
From Coq Require Import String List NArith Bool Arith Lia.
From Verif Require Import Runes UnicodeFacts Token Tokenizer LexSpec LexShape LexFacts LexMain
  Ast Heap MapSpec MapFacts MapMain Prog ParseSpec Parser RunFacts ExprSpec WpFacts ExprFacts StmtSpec GrowFacts.
Import ListNotations.
Local Open Scope list_scope.

Section WithUnicode.
Context {U : Unicode} {UOK : UnicodeOk U}.
Context (text : list rune) (sp : spelling) (en : senv).

Notation words := (list (ttype * gostring)).

(** ** Rules *)
Definition fits (s : pst) : Prop :=
  env_le (names en) (names (senv_of s)) /\ (forall n, a_label en n <-> a_label (senv_of s) n) /\
  (forall n, no_label en n -> no_label (senv_of s) n).
Record ready (vs : list gostring) (s : pst) (ws : words) : Prop := mkReady {
  re_context : parser_context s;
  re_fits : fits s;
  re_vacant : Forall (vacant (s_heap s) (s_ctx s)) vs;
  re_keys : NoDup (keys vs);
  re_stands : stands text s ws }.
Definition reads {A} (p : prog A) (s : pst) (rest : words) (vs : list gostring) (P : A -> Prop) : Prop :=
  wp p s (fun a s' => P a /\ stands text s' rest /\ grown vs s s').

Lemma nodup_app {A} (l1 l2 : list A) : NoDup (l1 ++ l2) -> NoDup l2 /\ forall x, In x l2 -> ~ In x l1.
Proof.
  induction l1 as [|a l1 IH]; cbn; [auto|]. intros N. apply NoDup_cons_iff in N as [Na N].
  destruct (IH N) as [N2 D]. split; [exact N2|]. intros x I [->|J]; [|now apply (D x I)].
  apply Na, in_or_app. auto.
Qed.
Lemma ready_grown v1 v2 s s' ws ws' : ready (v1 ++ v2) s ws -> grown v1 s s' -> stands text s' ws' -> ready v2 s' ws'.
Proof.
  intros [PC (F1 & F2 & F3) V K St] [A1 A2 A3 A4 A5 A6 _ _ _] St'. unfold keys in *. rewrite map_app in K.
  apply nodup_app in K as [K2 D]. constructor; auto.
  - split; [eapply env_le_trans; eauto|]. split; [intros n; rewrite F2; auto|auto].
  - apply Forall_app in V as [_ V]. rewrite Forall_forall in *. intros x I. apply A5; auto. apply D, in_map, I.
Qed.
Lemma ready_quiet vs s s' ws ws' : ready vs s ws -> quiet s s' -> stands text s' ws' -> ready vs s' ws'.
Proof. intros R Q St. eapply (ready_grown [] vs); [exact R|now apply quiet_grown|exact St]. Qed.

Lemma reads_bind {A B} (p : prog A) (k : A -> prog B) s v1 v2 ws ws1 rest (Q : A -> Prop) P :
  ready (v1 ++ v2) s ws -> reads p s ws1 v1 Q ->
  (forall a s1, Q a -> ready v2 s1 ws1 -> reads (k a) s1 rest v2 P) -> reads (Bind p k) s rest (v1 ++ v2) P.
Proof.
  intros R H K. apply wp_bind. eapply wp_conseq; [exact H|]. intros a s1 (Qa & St & G). cbn beta.
  eapply wp_conseq; [apply (K a s1 Qa); eapply ready_grown; eauto|]. intros b s2 (Pb & St2 & G2).
  split; [exact Pb|]. split; [exact St2|]. eapply grown_trans; eauto.
Qed.
Lemma reads_quiet {A B} (p : prog A) (k : A -> prog B) s vs ws ws1 rest (Q : A -> Prop) P :
  ready vs s ws -> wp p s (fun a s' => Q a /\ stands text s' ws1 /\ quiet s s') ->
  (forall a s1, Q a -> ready vs s1 ws1 -> reads (k a) s1 rest vs P) -> reads (Bind p k) s rest vs P.
Proof.
  intros R H K. apply (reads_bind p k s [] vs ws ws1 rest Q P R); [|exact K].
  eapply wp_conseq; [exact H|]. intros a s1 (Qa & St & G). split; [exact Qa|]. split; [exact St|now apply quiet_grown].
Qed.
Lemma reads_ret {A} (a : A) s rest (P : A -> Prop) : ready [] s rest -> P a -> reads (Ret a) s rest [] P.
Proof. intros R H. apply wp_ret. split; [exact H|]. split; [apply R|apply quiet_grown, quiet_refl]. Qed.
Lemma reads_ret_bind {A B} (a : A) (k : A -> prog B) s rest vs P : reads (k a) s rest vs P -> reads (Bind (Ret a) k) s rest vs P.
Proof. intros H. apply wp_bind, wp_ret. exact H. Qed.
Lemma reads_assoc {A B C} (p : prog A) (f : A -> prog B) (g : B -> prog C) s rest vs P :
  reads (Bind p (fun a => Bind (f a) g)) s rest vs P -> reads (Bind (Bind p f) g) s rest vs P.
Proof.
  intros H. apply wp_elim in H as (c & s' & E & H). apply (wp_run _ _ c s'); [|exact H].
  cbn [run] in E |- *. destruct (run p s); try discriminate. exact E.
Qed.
Lemma reads_next {B} (k : option token -> prog B) s vs w ws rest P :
  ready vs s (w :: ws) -> ws <> [] -> (forall t s1, ready vs s1 ws -> reads (k t) s1 rest vs P) ->
  reads (Bind Next k) s rest vs P.
Proof.
  intros R NE K. eapply (reads_quiet Next k s vs (w :: ws) ws rest (fun _ => True) P R); [|intros t s1 _; apply K].
  eapply wp_next; [apply R|exact NE|]. intros t s1 C Hd St SB. split; [exact I|]. split; [exact St|now apply quiet_place].
Qed.
Lemma reads_is {B} pred b (k : bool -> prog B) s vs w ws rest P :
  ready vs s (w :: ws) -> (forall t, word_of t = w -> pred t = b) -> reads (k b) s rest vs P ->
  reads (Bind (is pred) k) s rest vs P.
Proof.
  intros R E K. destruct (stands_cur _ _ _ _ (re_stands _ _ _ R)) as (t & C & Wt & _).
  apply wp_bind. eapply wp_is; [exact C|]. rewrite (E t Wt). exact K.
Qed.
Lemma reads_cur {B} (k : token -> prog B) s vs w ws rest P :
  ready vs s (w :: ws) -> (forall t, word_of t = w -> reads (k t) s rest vs P) -> reads (Bind cur k) s rest vs P.
Proof.
  intros R K. destruct (stands_cur _ _ _ _ (re_stands _ _ _ R)) as (t & C & Wt & _).
  apply wp_bind. eapply wp_cur; [exact C|]. now apply K.
Qed.
Lemma reads_expect {B} pred (k : token -> prog B) s vs w ws rest P :
  ready vs s (w :: ws) -> (forall t, word_of t = w -> pred t = true) ->
  (forall t, word_of t = w -> reads (k t) s rest vs P) -> reads (Bind (expect pred) k) s rest vs P.
Proof.
  intros R E K. destruct (stands_cur _ _ _ _ (re_stands _ _ _ R)) as (t & C & Wt & _).
  apply wp_bind. eapply wp_expect; [exact C|now apply E|]. now apply K.
Qed.
Lemma reads_skip {B} pred (k : prog B) s vs w ws rest P :
  ready vs s (w :: ws) -> (forall t, word_of t = w -> pred t = true) -> ws <> [] ->
  (forall s1, ready vs s1 ws -> reads k s1 rest vs P) ->
  reads (Bind (expect pred) (fun _ => Bind Next (fun _ => k))) s rest vs P.
Proof.
  intros R E NE K. eapply reads_expect; [exact R|exact E|]. intros _ _.
  eapply reads_next; [exact R|exact NE|]. intros _. apply K.
Qed.
Lemma reads_expect_next {B} pred (k : token -> prog B) s vs w w2 ws rest P :
  ready vs s (w :: w2 :: ws) -> (forall t, word_of t = w2 -> pred t = true) ->
  (forall t s1, word_of t = w2 -> ready vs s1 (w2 :: ws) -> reads (k t) s1 rest vs P) ->
  reads (Bind (expect_next pred) k) s rest vs P.
Proof.
  intros R E K.
  eapply (reads_quiet (expect_next pred) k s vs _ (w2 :: ws) rest (fun t => word_of t = w2) P R); [|exact K].
  eapply wp_expect_next; [apply R|exact E|]. intros t s1 C Wt St SB. split; [exact Wt|]. split; [exact St|now apply quiet_place].
Qed.
Lemma reads_conseq {A} (p : prog A) s rest vs (P Q : A -> Prop) :
  reads p s rest vs P -> (forall a, P a -> Q a) -> reads p s rest vs Q.
Proof. intros H I. eapply wp_conseq; [exact H|]. intros a s' (Pa & X). auto. Qed.
Lemma reads_run {A B} (p : prog A) a (k : A -> prog B) s rest vs P :
  run p s = OOk a s -> reads (k a) s rest vs P -> reads (Bind p k) s rest vs P.
Proof. intros E H. apply wp_bind. eapply wp_run; [exact E|exact H]. Qed.
Lemma reads_next_tok {B} (k : token -> prog B) s vs w w2 ws rest P :
  ready vs s (w :: w2 :: ws) ->
  (forall t s1, word_of t = w2 -> ready vs s1 (w2 :: ws) -> reads (k t) s1 rest vs P) ->
  reads (Bind next k) s rest vs P.
Proof.
  intros R K.
  eapply (reads_quiet next k s vs _ (w2 :: ws) rest (fun t => word_of t = w2) P R); [|exact K].
  apply wp_bind. eapply wp_next; [apply R|discriminate|]. intros t s1 C Hd St SB. apply wp_ret.
  split; [cbn [hd_error] in Hd; congruence|]. split; [exact St|now apply quiet_place].
Qed.
(** At the end of a method. *)
Lemma reads_last {A} (p : prog A) s rest vs P : reads (Bind p (fun a => Ret a)) s rest vs P -> reads p s rest vs P.
Proof.
  intros H. apply wp_elim in H as (c & s' & E & H). apply (wp_run _ _ c s'); [|exact H].
  rewrite run_bind in E. destruct (run p s); try discriminate. exact E.
Qed.

Ltac flat := cbv beta; repeat match goal with
  | |- reads (Bind (Ret _) _) _ _ _ _ => apply reads_ret_bind
  | |- reads (Bind (Bind _ _) _) _ _ _ _ => apply reads_assoc
  end.

(** ** Words *)
Lemma upper_w x t : upper_is x t = runes_equal (to_upper (snd (word_of t))) (rs x).
Proof. reflexivity. Qed.
Lemma upper_up x : all_ascii (rs x) = true -> map ascii_up (rs x) = rs x -> runes_equal (to_upper (rs x)) (rs x) = true.
Proof. intros A E. apply runes_equal_eq. rewrite to_upper_ascii by (now apply all_ascii_spec). exact E. Qed.
Lemma upper_not x y : all_ascii (rs x) = true -> runes_equal (map ascii_up (rs x)) (rs y) = false ->
  runes_equal (to_upper (rs x)) (rs y) = false.
Proof. intros A E. rewrite to_upper_ascii by (now apply all_ascii_spec). exact E. Qed.
Lemma is_on t : word_of t = wident (on_word sp) -> upper_is "ON" t = true.
Proof. intros Wt. rewrite upper_w, Wt. cbn [snd wident]. rewrite on_upper. now apply runes_equal_eq. Qed.
Lemma is_at t : word_of t = wident (at_word sp) -> upper_is "AT" t = true.
Proof. intros Wt. rewrite upper_w, Wt. cbn [snd wident]. rewrite at_upper. now apply runes_equal_eq. Qed.
Definition starters : words :=
  map wkey ["INHERITED"; "GOTO"; "BEGIN"; "IF"; "CASE"; "REPEAT"; "WHILE"; "FOR"; "WITH"; "TRY"; "RAISE"]%string.
Definition starts (w : ttype * gostring) : Prop := fst w = Identifier \/ In w starters.
Lemma name_starts d : exists nm ws, write_desig d = wident nm :: ws.
Proof.
  destruct d as [[[ns|] i] items]; cbn [write_desig write_name q_ns q_ident app]; eauto.
Qed.
Lemma body_start b after : good_body sp en b after -> exists w ws, write_body sp b = w :: ws /\ starts w.
Proof.
  destruct b as [d e|d args| |i r|l|e s1 s2|e sels els|l e|e s|q e1 e2 dn s|qs s|l hs els|l1 l2|o a|]; cbn [good_body write_body];
    intros G; try contradiction; try (eexists _, _; split; [reflexivity|right; apply win_iff; vm_compute; reflexivity]).
  - destruct (name_starts d) as (nm & ws & ->). eexists _, _. split; [reflexivity|now left].
  - destruct (name_starts d) as (nm & ws & ->). eexists _, _. split; [reflexivity|now left].
Qed.
Lemma stmt_start st after : good_stmt sp en st after -> exists w ws, write_stmt sp st = w :: ws /\ starts w.
Proof.
  destruct st as [[i|] b]; cbn [good_stmt write_stmt]; intros [_ G].
  - eexists _, _. split; [reflexivity|now left].
  - apply body_start in G. exact G.
Qed.
Lemma starts_not w x : starts w -> existsb (weqb (wkey x)) starters = false -> weqb w (wkey x) = false.
Proof.
  intros S E. apply weqb_neq. intros ->. destruct S as [S|S]; [discriminate|]. apply win_iff in S. congruence.
Qed.
Lemma starts_not_sym w x : starts w -> weqb w (wsym x) = false.
Proof.
  intros S. apply weqb_neq. intros ->. destruct S as [S|S]; [discriminate|]. apply win_iff in S. discriminate.
Qed.
Lemma ends_stop w rest : In w stmt_ends -> stops (expr_on ++ map wsym [":="]%string) (w :: rest).
Proof.
  intros I. assert (H : forallb (fun w => stopsb (expr_on ++ map wsym [":="]%string) [w]) stmt_ends = true) by (vm_compute; reflexivity).
  rewrite forallb_forall in H. specialize (H w I). apply stops_by in H. exact H.
Qed.

Lemma style close :
  (behind sp true close = wsym ";" /\ last_semi sp = [wsym ";"]) \/
  (behind sp true close = close /\ last_semi sp = []).
Proof. unfold behind, last_semi. destruct (semi sp); auto. Qed.

Section Rec.
Context (m : nat).
Notation R := (recs_at m).
Context (Hstmt : forall st after, length (write_stmt sp st) < m -> good_stmt sp en st after -> In after stmt_ends ->
  forall s rest, ready (handler_vars st) s (write_stmt sp st ++ after :: rest) ->
  reads (r_stmt R) s (after :: rest) (handler_vars st) (fun st' => bare_stmt st' = bare_stmt st)).

Lemma fuel_m : r_fuel R = S m.
Proof. destruct m; reflexivity. Qed.

(** ** Expressions and names *)
Lemma reads_expr {B} e (k : expr -> prog B) s vs w ws rest P : ready vs s (write_expr e ++ w :: ws) ->
  length (write_expr e) <= m -> good_expr (names en) e -> stops expr_on (w :: ws) ->
  (forall e' s1, bare_expr e' = bare_expr e -> ready vs s1 (w :: ws) -> reads (k e') s1 rest vs P) ->
  reads (Bind (parse_expression R) k) s rest vs P.
Proof.
  intros Re L G Sp K. eapply reads_quiet; [exact Re| |exact K].
  apply (proj1 (accepts_at text (names (senv_of s)) m) e L); [|apply agrees_here, Re|apply Re|exact Sp].
  eapply mono_expr; [apply Re|exact G].
Qed.
Lemma expr_below e0 e : length (write_expr e) < m -> good_expr e0 e ->
  accepts text e0 (r_expr R) (write_expr e) expr_on (fun e' => bare_expr e' = bare_expr e).
Proof.
  intros L G. destruct m as [|m']; [lia|]. apply (proj1 (accepts_at text e0 m') e); [lia|exact G].
Qed.
Lemma factor_below e0 e : length (write_factor e) < m -> good_factor e0 e ->
  accepts text e0 (r_factor R) (write_factor e) factor_on (fun e' => bare_factor e' = bare_factor e).
Proof.
  intros L G. destruct m as [|m']; [lia|]. apply (proj2 (accepts_at text e0 m') e); [lia|exact G].
Qed.
Lemma reads_desig {B} d (k : desig -> prog B) s vs w ws rest P : ready vs s (write_desig d ++ w :: ws) ->
  length (write_desig d) <= m -> good_desig (names en) d -> stops (map wsym ["."; "["; "^"]%string) (w :: ws) ->
  (forall e' s1, bare_desig e' = bare_desig d -> ready vs s1 (w :: ws) -> reads (k e') s1 rest vs P) ->
  reads (Bind (parse_designator R) k) s rest vs P.
Proof.
  intros Re L G Sp K. eapply reads_quiet; [exact Re| |exact K].
  apply (accepts_designator text (names (senv_of s)) R m (expr_below _)); try assumption;
    [rewrite fuel_m; lia| |apply agrees_here, Re|apply Re].
  eapply mono_desig; [apply Re|exact G].
Qed.
Lemma reads_exprs {B} l (k : list expr -> prog B) s vs ws rest P : ready vs s (commas (map write_expr l) ++ wsym ")" :: ws) ->
  length (commas (map write_expr l)) < m -> l <> [] -> all (good_expr (names en)) l ->
  (forall l' s1, map bare_expr l' = map bare_expr l -> ready vs s1 (wsym ")" :: ws) -> reads (k l') s1 rest vs P) ->
  reads (Bind (parse_expr_list R (sym ")")) k) s rest vs P.
Proof.
  intros Re L NE G K. eapply reads_quiet; [exact Re| |exact K].
  apply (accepts_exprs text (names (senv_of s)) R m (expr_below _)); try assumption; try reflexivity;
    [rewrite fuel_m; lia| |apply agrees_here, Re|apply Re].
  apply all_forall. apply all_forall in G. eapply Forall_impl; [|exact G]. intros e. apply mono_expr, Re.
Qed.
Lemma reads_name {B} q (k : qualid -> prog B) s vs w ws rest P : ready vs s (write_name q ++ w :: ws) ->
  good_name (names en) q ->
  (forall q' s1, bare_qual q' = bare_qual q -> ready vs s1 (w :: ws) -> reads (k q') s1 rest vs P) ->
  reads (Bind parse_qual_id k) s rest vs P.
Proof.
  intros Re G K. eapply reads_quiet; [exact Re| |exact K].
  apply (accepts_name text (names (senv_of s))); [|apply agrees_here, Re|apply Re|intros []].
  eapply mono_name; [apply Re|exact G].
Qed.
Lemma reads_names {B} l : forall acc fuel (k : list qualid -> prog B) s vs ws rest P,
  l <> [] -> length l <= fuel -> all (good_name (names en)) l ->
  ready vs s (commas (map write_name l) ++ wkey "DO" :: ws) ->
  (forall l' s1, map bare_qual l' = map bare_qual l -> ready vs s1 (wkey "DO" :: ws) -> reads (k (acc ++ l')) s1 rest vs P) ->
  reads (Bind (until fuel (p_not (sym ",")) (Some (sym ",")) (append_with parse_qual_id) acc) k) s rest vs P.
Proof.
  induction l as [|q l IH]; intros acc fuel k s vs ws rest P NE Lf G Re K; [congruence|].
  destruct fuel as [|fuel]; [cbn in Lf; lia|]. destruct G as [Gq G].
  unfold until. cbn [loop]. apply reads_assoc. unfold until_step at 1. apply reads_assoc. unfold append_with at 1. apply reads_assoc.
  destruct l as [|q2 l].
  - cbn [map commas] in Re. eapply reads_name; [exact Re|exact Gq|]. intros q' s1 Bq R1.
    apply reads_ret_bind, reads_assoc. destruct (stands_cur _ _ _ _ (re_stands _ _ _ R1)) as (t & C & Wt & _).
    apply wp_bind. eapply wp_cur_opt; [exact C|]. unfold p_not. rewrite sym_w, Wt.
    replace (weqb (wkey "DO") (wsym ",")) with false by (vm_compute; reflexivity). cbn [negb].
    apply reads_ret_bind, reads_ret_bind. apply K; [cbn [map]; now rewrite Bq|exact R1].
  - cbn [map] in Re. rewrite commas_cons in Re by discriminate. rewrite <- app_assoc in Re. cbn [app] in Re.
    eapply reads_name; [exact Re|exact Gq|]. intros q' s1 Bq R1.
    apply reads_ret_bind, reads_assoc. destruct (stands_cur _ _ _ _ (re_stands _ _ _ R1)) as (t & C & Wt & _).
    apply wp_bind. eapply wp_cur_opt; [exact C|]. unfold p_not. rewrite sym_w, Wt.
    replace (weqb (wsym ",") (wsym ",")) with true by (vm_compute; reflexivity). cbn [negb].
    apply reads_assoc. cbn [validate]. rewrite sym_w, Wt.
    replace (weqb (wsym ",") (wsym ",")) with true by (vm_compute; reflexivity).
    apply reads_ret_bind, reads_assoc.
    eapply reads_next; [exact R1|apply app_nonempty; discriminate|]. intros _ s2 R2.
    apply reads_ret_bind. apply (IH (acc ++ [q']) fuel k s2 vs ws rest P); [discriminate|cbn in *; lia|exact G|exact R2|].
    intros l' s3 Bl R3. rewrite <- app_assoc. apply (K (q' :: l')); [|exact R3]. cbn [map] in *. congruence.
Qed.

(** ** Lists of statements *)
Lemma reads_stmt {B} st (k : stmt -> prog B) s vs after ws rest P :
  ready (handler_vars st ++ vs) s (write_stmt sp st ++ after :: ws) ->
  length (write_stmt sp st) < m -> good_stmt sp en st after -> In after stmt_ends ->
  (forall st' s1, bare_stmt st' = bare_stmt st -> ready vs s1 (after :: ws) -> reads (k st') s1 rest vs P) ->
  reads (Bind (r_stmt R) k) s rest (handler_vars st ++ vs) P.
Proof.
  intros Re L G I K. eapply reads_bind; [exact Re| |exact K]. apply (Hstmt st after L G I s ws).
  destruct Re as [PC F V N St]. constructor; auto.
  - now apply Forall_app in V.
  - unfold keys in *. rewrite map_app in N. clear -N. induction (map to_lower (handler_vars st)) as [|a l IH]; [constructor|].
    cbn [app] in N. apply NoDup_cons_iff in N as [Na N]. constructor; [|auto]. intros J. apply Na, in_or_app. auto.
Qed.
Lemma semicolons_cons p ps : ps <> [] -> semicolons (p :: ps) = p ++ wsym ";" :: semicolons ps.
Proof. destruct ps; [congruence|reflexivity]. Qed.
Lemma reads_stmts {B} term close l : In close stmt_ends -> weqb (wsym ";") close = false ->
  (forall t, word_of t = close -> term t = true) -> (forall t, word_of t = wsym ";" -> term t = false) ->
  (forall t, starts (word_of t) -> term t = false) ->
  forall acc fuel (k : list stmt -> prog B) s vs ws rest P,
  length l <= fuel -> Forall (fun st => length (write_stmt sp st) < m) l ->
  each (fun last st => good_stmt sp en st (behind sp last close)) l ->
  ready (flat_map handler_vars l ++ vs) s (semicolons (map (write_stmt sp) l) ++ last_semi sp ++ close :: ws) ->
  (forall l' s1, map bare_stmt l' = map bare_stmt l -> ready vs s1 (close :: ws) -> reads (k (acc ++ l')) s1 rest vs P) ->
  reads (Bind (loop fuel (stmt_list_step R term) acc) k) s rest (flat_map handler_vars l ++ vs) P.
Proof.
  intros Ic Hs Tc Ts Tn. induction l as [|st l IH]; intros acc fuel k s vs ws rest P Lf Ls G Re K; [contradiction|].
  destruct fuel as [|fuel]; [cbn in Lf; lia|]. inversion Ls as [|? ? L1 L2]; subst.
  cbn [loop]. apply reads_assoc. unfold stmt_list_step at 1. apply reads_assoc.
  cbn [flat_map] in *. rewrite <- app_assoc in *. destruct l as [|st2 l].
  - cbn [each] in G. cbn [map semicolons flat_map app] in Re. cbn [flat_map app].
    destruct (style close) as [[E1 E2]|[E1 E2]]; rewrite E1 in G; rewrite E2 in Re; cbn [app] in Re.
    + eapply reads_stmt; [exact Re|exact L1|exact G|left; reflexivity|]. intros st' s1 Bs R1.
      apply reads_assoc. eapply reads_is; [exact R1|exact Ts|]. apply reads_assoc.
      eapply reads_expect; [exact R1|intros t Wt; rewrite sym_w, Wt; vm_compute; reflexivity|]. intros _ _. apply reads_assoc.
      eapply reads_next; [exact R1|discriminate|]. intros _ s2 R2. apply reads_assoc.
      eapply reads_is; [exact R2|exact Tc|]. apply reads_ret_bind, reads_ret_bind. apply K; [cbn [map]; now rewrite Bs|exact R2].
    + eapply reads_stmt; [exact Re|exact L1|exact G|exact Ic|]. intros st' s1 Bs R1.
      apply reads_assoc. eapply reads_is; [exact R1|exact Tc|].
      apply reads_ret_bind, reads_ret_bind. apply K; [cbn [map]; now rewrite Bs|exact R1].
  - destruct G as [G1 G2]. cbn [map] in Re. rewrite semicolons_cons in Re by discriminate.
    rewrite <- app_assoc in Re. cbn [app] in Re. change (behind sp false close) with (wsym ";") in G1.
    eapply reads_stmt; [exact Re|exact L1|exact G1|left; reflexivity|]. intros st' s1 Bs R1.
    apply reads_assoc. eapply reads_is; [exact R1|exact Ts|]. apply reads_assoc.
    eapply reads_expect; [exact R1|intros t Wt; rewrite sym_w, Wt; vm_compute; reflexivity|]. intros _ _. apply reads_assoc.
    assert (exists w ws', semicolons (map (write_stmt sp) (st2 :: l)) ++ last_semi sp ++ close :: ws = w :: ws' /\ starts w) as (w & ws' & Ew & Sw).
    { assert (exists a2, good_stmt sp en st2 a2) as (a2 & Ga).
      { destruct l; [exists (behind sp true close); exact G2|exists (behind sp false close); apply G2]. }
      apply stmt_start in Ga as (w & w1 & E1 & Sw). exists w. destruct l; cbn [map semicolons]; rewrite E1; cbn [app]; eauto. }
    eapply reads_next; [exact R1|change (semicolons (map (write_stmt sp) (st2 :: l)) ++ last_semi sp ++ close :: ws <> []); rewrite Ew; discriminate|].
    intros _ s2 R2. apply reads_assoc.
    assert (R2' : ready (flat_map handler_vars (st2 :: l) ++ vs) s2 (w :: ws')) by (rewrite <- Ew; exact R2).
    eapply reads_is; [exact R2'|intros t Wt; apply Tn; now rewrite Wt|]. apply reads_ret_bind.
    apply (IH (acc ++ [st']) fuel k s2 vs ws rest P); [cbn in *; lia|exact L2|exact G2|exact R2|].
    intros l' s3 Bl R3. rewrite <- app_assoc. apply (K (st' :: l')); [|exact R3]. cbn [map] in *. congruence.
Qed.

(** ** The type of an exception handler *)
Lemma wp_type nm s ws : parser_context s -> stands text s (wident nm :: wkey "DO" :: ws) ->
  plain_name (names (senv_of s)) nm \/ type_name (names (senv_of s)) nm ->
  wp (parse_type R) s (fun ty s' => bare_type ty = TId (mkTypeId None (mkIdent nm None) 0) /\
    stands text s' (wkey "DO" :: ws) /\ calm s s').
Proof.
  intros PC St Nm. destruct (stands_cur _ _ _ _ St) as (t & C & Wt & _). destruct (wident_inv _ _ Wt) as [Tt Rt].
  assert (Vt : value t = nm) by (rewrite value_w, Wt; reflexivity).
  unfold parse_type. apply wp_bind. eapply wp_cur; [exact C|]. cbn beta. rewrite Tt. unfold parse_type_for_identifier.
  destruct (plain_get (names (senv_of s)) s nm (agrees_here s PC) Nm) as (r & Gn & _ & NN & _). rewrite <- Vt in Gn.
  apply wp_bind. unfold parse_type_id_with_unit. apply wp_bind. eapply wp_cur; [exact C|].
  apply wp_bind. eapply wp_run; [apply (run_is_unit _ _ _ _ Gn)|].
  replace (match r with Some (_, NUses _) => true | _ => false end) with false by (destruct r as [[? []]|]; auto; contradiction).
  apply wp_ret.
  assert (Bi : forall u i c, u = None -> i_name i = nm -> bare_type (TId (mkTypeId u i c)) = TId (mkTypeId None (mkIdent nm None) 0)).
  { intros u i c -> <-. reflexivity. }
  assert (Emb : forall kd, embedded_type_decl kd (value t) = None \/
    wp (parse_embedded kd false) s (fun ti s' => exists i, ti = Some i /\ bare_type (TId i) = TId (mkTypeId None (mkIdent nm None) 0) /\
      stands text s' (wkey "DO" :: ws) /\ calm s s')).
  { intros kd. destruct (embedded_type_decl kd (value t)) as [d|] eqn:Ee; [right|auto].
    unfold parse_embedded. apply wp_bind. eapply wp_cur; [exact C|]. rewrite Ee.
    apply wp_bind. eapply wp_next; [exact St|discriminate|]. intros t1 s1 C1 _ St1 SB1. apply wp_bind, wp_new_type_id, wp_ret.
    eexists. split; [reflexivity|]. split; [now apply Bi|]. split; [now apply stands_heap|].
    eapply calm_trans; [apply quiet_calm, quiet_place, SB1|apply quiet_calm, quiet_refs]. }
  assert (Non : forall kd (Q : option typeid -> pst -> Prop), embedded_type_decl kd (value t) = None -> Q None s -> wp (parse_embedded kd false) s Q).
  { intros kd Q Ee H. unfold parse_embedded. apply wp_bind. eapply wp_cur; [exact C|]. rewrite Ee. now apply wp_ret. }
  apply wp_bind. destruct (Emb EtkReal) as [E1|W]; [apply Non; [exact E1|]|eapply wp_conseq; [exact W|]; intros x s1 (i & -> & X); now apply wp_ret].
  apply wp_bind. destruct (Emb EtkOrdIdent) as [E2|W]; [apply Non; [exact E2|]|eapply wp_conseq; [exact W|]; intros x s1 (i & -> & X); now apply wp_ret].
  apply wp_bind. destruct (Emb EtkStringType) as [E3|W]; [apply Non; [exact E3|]|eapply wp_conseq; [exact W|]; intros x s1 (i & -> & X); now apply wp_ret].
  clear Emb Non E1 E2 E3.
  destruct (parser_context_clone _ PC) as (o & Eo & Kc).
  apply wp_bind. unfold parse_subrange_for_identifier. eapply wp_attempt; [exact C|exact Kc|].
  apply wp_bind. eapply wp_cur; [exact C|]. apply wp_bind. unfold next. apply wp_bind.
  eapply wp_next; [apply stands_heap; exact St|discriminate|]. intros t1 s1 C1 Hd St1 SB1.
  assert (W1 : word_of t1 = wkey "DO") by (cbn [hd_error] in Hd; congruence). apply wp_ret. unfold p_value. rewrite value_w, W1.
  replace (runes_equal (snd (wkey "DO")) (rs "..")) with false by (vm_compute; reflexivity). apply wp_ret. cbn beta iota.
  rewrite <- C. set (s2 := mkPst _ _ _ _ _).
  assert (St2 : stands text s2 (wident nm :: wkey "DO" :: ws)) by (now apply stands_back).
  assert (Q2 : quiet s s2).
  { apply (quiet_back s s1 o Eo). now apply quiet_place. }
  assert (PC2 : parser_context s2) by (eapply quiet_context; eauto).
  apply wp_bind. unfold parse_type_id_without_unit. destruct (stands_cur _ _ _ _ St2) as (u & Cu & Wu & _).
  destruct (wident_inv _ _ Wu) as [Tu Ru].
  apply wp_bind. eapply wp_cur; [exact Cu|]. apply wp_bind. eapply wp_next; [exact St2|discriminate|].
  intros t3 s3 C3 _ St3 SB3. apply quiet_place in SB3.
  assert (Gg : exists d, run (get (raw u)) s3 = OOk d s3).
  { rewrite run_get, Ru. rewrite (quiet_get _ _ _ PC2 SB3), (quiet_get _ _ _ PC Q2). rewrite run_get_node, Vt in Gn.
    destruct (ctx_get (s_heap s) (s_ctx s) nm); [eauto|eauto|discriminate]. }
  destruct Gg as (d & Gg). apply wp_bind. eapply wp_run; [exact Gg|].
  apply wp_bind, wp_new_type_id. set (s4 := with_heap _ _).
  assert (St4 : stands text s4 (wkey "DO" :: ws)) by (now apply stands_heap).
  assert (C4 : calm s s4).
  { eapply calm_trans; [apply quiet_calm, Q2|]. eapply calm_trans; [apply quiet_calm, SB3|]. apply quiet_calm, quiet_refs. }
  destruct d as [d|].
  - apply wp_ret, wp_ret. split; [now apply Bi|]. auto.
  - apply wp_bind. eapply wp_run; [reflexivity|]. apply wp_ret, wp_ret. split; [now apply Bi|]. split; [|exact C4].
    destruct St4 as (t4 & ws4 & E4 & C4' & A4). exists t4, ws4. auto.
Qed.
Lemma reads_type {B} nm (k : typ -> prog B) s vs ws rest P : ready vs s (wident nm :: wkey "DO" :: ws) -> a_name en nm ->
  (forall ty s1, bare_type ty = TId (mkTypeId None (mkIdent nm None) 0) -> ready vs s1 (wkey "DO" :: ws) -> reads (k ty) s1 rest vs P) ->
  reads (Bind (parse_type R) k) s rest vs P.
Proof.
  intros Re A K. eapply (reads_bind _ _ _ [] vs); [exact Re| |exact K].
  eapply wp_conseq; [apply wp_type; [apply Re|apply Re|]|].
  - destruct (re_fits _ _ _ Re) as ((LP & LT & _) & _). destruct A as [A|A]; [left; auto|right; now apply LT].
  - intros ty s1 (H & St & Q). split; [exact H|]. split; [exact St|now apply calm_grown].
Qed.

(** ** Exception handlers *)
Definition write_handler (h : option ident * typ * stmt) : words :=
  wident (on_word sp) ::
  match fst (fst h) with None => [] | Some i => [wident (i_name i); wsym ":"] end ++
  write_type (snd (fst h)) ++ wkey "DO" :: write_stmt sp (snd h).
Definition handler_names (h : option ident * typ * stmt) : list gostring :=
  match fst (fst h) with None => [] | Some i => [i_name i] end ++ handler_vars (snd h).
Definition good_handler (after : ttype * gostring) (h : option ident * typ * stmt) : Prop :=
  good_type en (snd (fst h)) /\
  match fst (fst h) with
  | None => match snd (fst h) with TId i => type_name (names en) (i_name (ti_ident i)) | _ => False end
  | Some i => forall n, same_name n (i_name i) -> plain_name (names en) n /\ no_label en n
  end /\ good_stmt sp en (snd h) after.
Definition bare_handler (h : option ident * typ * stmt) : option ident * typ * stmt :=
  (option_map bare_ident (fst (fst h)), bare_type (snd (fst h)), bare_stmt (snd h)).

Lemma lookup_word s n : parser_context s -> no_label (senv_of s) n \/ a_label (senv_of s) n ->
  exists r, run (get_node n) s = OOk r s /\ (a_label (senv_of s) n <-> match r with Some (_, NLabel) => True | _ => False end) /\
    (type_name (names (senv_of s)) n <-> match r with Some (_, NType _) => True | _ => False end).
Proof.
  intros PC H. rewrite run_get_node. unfold senv_of in *. cbn [no_label a_label names senv_at type_name env_at] in *. unfold resolves in *.
  destruct (ctx_get (s_heap s) (s_ctx s) n) as [|d|] eqn:E.
  - exists None. split; [reflexivity|]. split; (split; [|contradiction]); [intros (d & X & _)|intros (d & t & X & _)]; congruence.
  - assert (exists o, deref (s_heap s) d = Some o) as (o & D).
    { destruct H as [[H|(d' & x & (X & o & D & _) & _)]|(d' & X & o & D & _)]; [discriminate| |];
        injection X as <-; eauto. }
    rewrite D. exists (Some (d, d_node o)). split; [reflexivity|]. split; split.
    + intros (d' & X & o' & D' & Y). injection X as <-. replace o with o' by congruence. now rewrite Y.
    + destruct (d_node o) eqn:Y; try contradiction. intros _. exists d. eauto.
    + intros (d' & ty & X & o' & D' & Y). injection X as <-. replace o with o' by congruence. now rewrite Y.
    + destruct (d_node o) eqn:Y; try contradiction. intros _. exists d, t. eauto.
  - exfalso. destruct H as [[H|(d' & x & (X & _) & _)]|(d' & X & _)]; discriminate.
Qed.
Lemma lookup_type s n : parser_context s -> plain_name (names (senv_of s)) n \/ type_name (names (senv_of s)) n ->
  exists r, run (get_node n) s = OOk r s /\
    (type_name (names (senv_of s)) n <-> match r with Some (_, NType _) => True | _ => False end).
Proof.
  intros PC H. destruct (plain_get (names (senv_of s)) s n (agrees_here s PC) H) as (r & G & _ & _ & T).
  exists r. split; [exact G|]. now rewrite T.
Qed.

Lemma plain_not_type s n : plain_name (names (senv_of s)) n -> ~ type_name (names (senv_of s)) n.
Proof.
  unfold senv_of. cbn [plain_name type_name names senv_at env_at].
  intros [E|(d & x & (E & o & D & X) & _ & N)] (d' & t & E' & o' & D' & Y); [congruence|]. apply (N t). congruence.
Qed.

Lemma reads_handler {B} h (k : option ident * typ * stmt -> prog B) s vs after ws rest P :
  ready (handler_names h ++ vs) s (write_handler h ++ after :: ws) ->
  length (write_stmt sp (snd h)) < m -> good_handler after h -> In after stmt_ends ->
  (forall h' s1, bare_handler h' = bare_handler h -> ready vs s1 (after :: ws) -> reads (k h') s1 rest vs P) ->
  reads (Bind (parse_handler R) k) s rest (handler_names h ++ vs) P.
Proof.
  intros Re L (Gt & Gi & Gs) Ia K. destruct h as [[oi ty] st]. cbn [fst snd] in *.
  destruct ty as [|i| | | | | | | | | | | | |]; try contradiction. destruct Gt as [Ui Ai].
  unfold parse_handler, handler_names, write_handler in *. cbn [fst snd write_type] in *. apply reads_assoc.
  pose proof is_on as On.
  assert (Do : forall t, word_of t = wkey "DO" -> upper_is "DO" t = true).
  { intros t Wt. rewrite upper_w, Wt. now apply upper_up. }
  destruct oi as [v|]; cbn [app] in *.
  - eapply reads_expect; [exact Re|exact On|]. intros _ _. apply reads_assoc.
    eapply reads_next_tok; [exact Re|]. intros t s1 Wt R1. destruct (wident_inv _ _ Wt) as [Tt Rt].
    destruct (Gi (i_name v) eq_refl) as [Gp Gl].
    destruct (re_fits _ _ _ R1) as (LE & _ & _). pose proof LE as (LP & LT & _).
    destruct (lookup_type s1 (i_name v)) as (r & Gn & Tn); [apply R1|left; auto|].
    apply reads_assoc. rewrite Rt. eapply reads_run; [exact Gn|].
    assert (X : forall (A : Type) (a b : A), match r with Some (_, NType _) => a | _ => b end = b).
    { intros A a b. destruct r as [[d []]|]; auto. exfalso. apply (plain_not_type s1 (i_name v)); [auto|now apply Tn]. }
    rewrite X. clear X. do 2 apply reads_assoc.
    eapply reads_expect_next; [exact R1|intros u Wu; rewrite sym_w, Wu; vm_compute; reflexivity|]. intros _ s2 _ R2. apply reads_assoc.
    eapply reads_next; [exact R2|discriminate|]. intros _ s3 R3. apply reads_ret_bind, reads_assoc.
    eapply reads_type; [exact R3|exact Ai|]. intros ty s4 Bty R4.
    apply reads_assoc.
    assert (Nv : i_name (new_ident t) = i_name v) by exact Rt.
    change (i_name v :: handler_vars st ++ vs) with ([i_name v] ++ (handler_vars st ++ vs)) in *.
    eapply (reads_bind _ _ _ _ _ _ (wkey "DO" :: write_stmt sp st ++ after :: ws) _ (fun _ => True)); [exact R4| |].
    { destruct R4 as [PC4 (LE4 & _ & NL4) V4 K4 St4].
      destruct (set_handler s4 (new_ident t) PC4) as (h' & Er & Gr).
      - rewrite Nv. now inversion V4.
      - rewrite Nv. intros n Sn. destruct (Gi n Sn) as [Gp' Gl']. split; [now apply LE4|now apply NL4].
      - eapply (wp_run _ _ tt); [exact Er|]. split; [exact I|]. split; [apply stands_heap; exact St4|]. now rewrite Nv in Gr. }
    intros _ s5 _ R5. apply reads_assoc. eapply reads_expect; [exact R5|exact Do|]. intros _ _. apply reads_assoc.
    destruct (stmt_start _ _ Gs) as (w0 & ws0 & E0 & _).
    eapply reads_next; [exact R5|apply app_nonempty; discriminate|]. intros _ s6 R6. apply reads_assoc.
    eapply reads_stmt; [exact R6|exact L|exact Gs|exact Ia|]. intros st' s7 Bs R7. apply reads_ret_bind.
    apply K; [|exact R7]. unfold bare_handler. cbn [fst snd option_map]. rewrite Bs, Bty.
    unfold bare_ident at 1. rewrite Nv. cbn [bare_type]. unfold bare_typeid. rewrite Ui. reflexivity.
  - eapply reads_expect; [exact Re|exact On|]. intros _ _. apply reads_assoc.
    eapply reads_next_tok; [exact Re|]. intros t s1 Wt R1. destruct (wident_inv _ _ Wt) as [Tt Rt].
    destruct (re_fits _ _ _ R1) as (LE & _ & _). pose proof LE as (LP & LT & _).
    destruct (lookup_type s1 (i_name (ti_ident i))) as (r & Gn & Tn); [apply R1|right; now apply LT|].
    apply reads_assoc. rewrite Rt. eapply reads_run; [exact Gn|].
    assert (X : forall (A : Type) (a b : A), match r with Some (_, NType _) => a | _ => b end = a).
    { intros A a b. apply LT in Gi. apply Tn in Gi. destruct r as [[d []]|]; auto; contradiction. }
    rewrite X. clear X. flat.
    eapply reads_type; [exact R1|exact Ai|]. intros ty s4 Bty R4. flat.
    eapply reads_expect; [exact R4|exact Do|]. intros _ _. apply reads_assoc.
    destruct (stmt_start _ _ Gs) as (w0 & ws0 & E0 & _).
    eapply reads_next; [exact R4|apply app_nonempty; discriminate|]. intros _ s6 R6. apply reads_assoc.
    eapply reads_stmt; [exact R6|exact L|exact Gs|exact Ia|]. intros st' s7 Bs R7. apply reads_ret_bind.
    apply K; [|exact R7]. unfold bare_handler. cbn [fst snd option_map]. rewrite Bs, Bty.
    cbn [bare_type]. unfold bare_typeid. rewrite Ui. reflexivity.
Qed.

Lemma reads_handlers {B} close hs : (close = wkey "END" \/ close = wkey "ELSE") ->
  forall acc fuel (k : list (option ident * typ * stmt) -> prog B) s vs ws rest P,
  length hs <= fuel -> Forall (fun h => length (write_stmt sp (snd h)) < m) hs ->
  each (fun last h => good_handler (behind sp last close) h) hs ->
  ready (flat_map handler_names hs ++ vs) s (semicolons (map write_handler hs) ++ last_semi sp ++ close :: ws) ->
  (forall l' s1, map bare_handler l' = map bare_handler hs -> ready vs s1 (close :: ws) -> reads (k (acc ++ l')) s1 rest vs P) ->
  reads (Bind (loop fuel (handlers_step R) acc) k) s rest (flat_map handler_names hs ++ vs) P.
Proof.
  intros Hc. assert (Ic : In close stmt_ends) by (destruct Hc as [-> | ->]; apply win_iff; vm_compute; reflexivity).
  assert (Sc : weqb close (wsym ";") = false) by (destruct Hc as [-> | ->]; vm_compute; reflexivity).
  assert (Oc : forall t, word_of t = close -> upper_is "ON" t = false).
  { intros t Wt. rewrite upper_w, Wt. destruct Hc as [-> | ->]; apply upper_not; reflexivity. }
  induction hs as [|h hs IH]; intros acc fuel k s vs ws rest P Lf Ls G Re K; [contradiction|].
  destruct fuel as [|fuel]; [cbn in Lf; lia|]. inversion Ls as [|? ? L1 L2]; subst.
  cbn [loop]. apply reads_assoc. unfold handlers_step at 1. apply reads_assoc.
  cbn [flat_map] in *. rewrite <- app_assoc in *. destruct hs as [|h2 hs].
  - cbn [each] in G. cbn [map semicolons flat_map app] in Re. cbn [flat_map app].
    destruct (style close) as [[E1 E2]|[E1 E2]]; rewrite E1 in G; rewrite E2 in Re; cbn [app] in Re.
    + eapply reads_handler; [exact Re|exact L1|exact G|left; reflexivity|]. intros h' s1 Bh R1.
      apply reads_assoc. eapply (reads_is _ true); [exact R1|intros t Wt; rewrite sym_w, Wt; now apply weqb_eq|]. do 2 apply reads_assoc.
      eapply reads_next; [exact R1|discriminate|]. intros _ s2 R2. apply reads_ret_bind, reads_assoc.
      eapply reads_is; [exact R2|exact Oc|]. apply reads_ret_bind, reads_ret_bind. apply K; [cbn [map]; now rewrite Bh|exact R2].
    + eapply reads_handler; [exact Re|exact L1|exact G|exact Ic|]. intros h' s1 Bh R1.
      apply reads_assoc. eapply (reads_is _ false); [exact R1|intros t Wt; now rewrite sym_w, Wt|]. apply reads_assoc, reads_ret_bind.
      apply reads_assoc. eapply reads_is; [exact R1|exact Oc|]. apply reads_ret_bind, reads_ret_bind.
      apply K; [cbn [map]; now rewrite Bh|exact R1].
  - destruct G as [G1 G2]. cbn [map] in Re. rewrite semicolons_cons in Re by discriminate.
    rewrite <- app_assoc in Re. cbn [app] in Re. change (behind sp false close) with (wsym ";") in G1.
    eapply reads_handler; [exact Re|exact L1|exact G1|left; reflexivity|]. intros h' s1 Bh R1.
    apply reads_assoc. eapply (reads_is _ true); [exact R1|intros t Wt; rewrite sym_w, Wt; now apply weqb_eq|]. do 2 apply reads_assoc.
    assert (exists ws', semicolons (map write_handler (h2 :: hs)) ++ last_semi sp ++ close :: ws = wident (on_word sp) :: ws') as (ws' & Ew).
    { destruct hs; cbn [map semicolons]; eexists; reflexivity. }
    eapply reads_next; [exact R1|change (semicolons (map write_handler (h2 :: hs)) ++ last_semi sp ++ close :: ws <> []); rewrite Ew; discriminate|].
    intros _ s2 R2. apply reads_ret_bind, reads_assoc.
    assert (R2' : ready (flat_map handler_names (h2 :: hs) ++ vs) s2 (wident (on_word sp) :: ws')) by (rewrite <- Ew; exact R2).
    eapply (reads_is _ true); [exact R2'|exact is_on|]. apply reads_ret_bind.
    apply (IH (acc ++ [h']) fuel k s2 vs ws rest P); [cbn in *; lia|exact L2|exact G2|exact R2|].
    intros l' s3 Bl R3. rewrite <- app_assoc. apply (K (h' :: l')); [|exact R3]. cbn [map] in *. congruence.
Qed.

(** ** Case *)
Definition bare_label (r : expr * option expr) : expr * option expr := (bare_expr (fst r), option_map bare_expr (snd r)).
Lemma reads_label {B} r (k : expr * option expr -> prog B) s vs w ws rest P :
  ready vs s (write_label r ++ w :: ws) -> (w = wsym "," \/ w = wsym ":") ->
  length (write_label r) <= m -> good_label en r ->
  (forall r' s1, bare_label r' = bare_label r -> ready vs s1 (w :: ws) -> reads (k r') s1 rest vs P) ->
  reads (Bind (parse_case_label R) k) s rest vs P.
Proof.
  intros Re Hw L [G1 G2] K. destruct r as [e1 [e2|]]; unfold parse_case_label, parse_const_expr, write_label in *; cbn [fst snd] in *; flat;
    rewrite app_length in L; cbn [length] in L; rewrite <- app_assoc in Re; cbn [app] in Re.
  - eapply reads_expr; [exact Re|lia|exact G1|apply stops_by; vm_compute; reflexivity|]. intros e1' s1 B1 R1. flat.
    eapply (reads_is _ true); [exact R1|intros t Wt; rewrite sym_w, Wt; vm_compute; reflexivity|]. flat.
    eapply reads_next; [exact R1|apply app_nonempty; discriminate|]. intros _ s2 R2. flat.
    eapply reads_expr; [exact R2|lia|exact G2|destruct Hw as [-> | ->]; apply stops_by; vm_compute; reflexivity|].
    intros e2' s3 B2 R3. flat. apply K; [|exact R3]. unfold bare_label. cbn. now rewrite B1, B2.
  - eapply reads_expr; [exact Re|lia|exact G1|destruct Hw as [-> | ->]; apply stops_by; vm_compute; reflexivity|]. intros e1' s1 B1 R1. flat.
    eapply (reads_is _ false); [exact R1|intros t Wt; rewrite sym_w, Wt; destruct Hw as [-> | ->]; vm_compute; reflexivity|]. flat.
    apply K; [|exact R1]. unfold bare_label. cbn. now rewrite B1.
Qed.
Lemma write_label_nonempty r : write_label r <> [].
Proof. unfold write_label. pose proof (write_expr_nonempty (fst r)). destruct (write_expr (fst r)); [congruence|discriminate]. Qed.
Lemma reads_labels {B} l : forall acc fuel (k : list (expr * option expr) -> prog B) s vs ws rest P,
  l <> [] -> length l <= fuel -> Forall (fun r => length (write_label r) <= m) l -> all (good_label en) l ->
  ready vs s (commas (map write_label l) ++ wsym ":" :: ws) ->
  (forall l' s1, map bare_label l' = map bare_label l -> ready vs s1 (wsym ":" :: ws) -> reads (k (acc ++ l')) s1 rest vs P) ->
  reads (Bind (loop fuel (case_labels_step R) acc) k) s rest vs P.
Proof.
  induction l as [|r l IH]; intros acc fuel k s vs ws rest P NE Lf Ls G Re K; [congruence|].
  destruct fuel as [|fuel]; [cbn in Lf; lia|]. inversion Ls as [|? ? L1 L2]; subst. destruct G as [G1 G2].
  cbn [loop]. unfold case_labels_step at 1. flat. destruct l as [|r2 l].
  - cbn [map commas] in Re. eapply reads_label; [exact Re|auto|exact L1|exact G1|]. intros r' s1 Br R1. flat.
    eapply (reads_is _ false); [exact R1|intros t Wt; rewrite sym_w, Wt; vm_compute; reflexivity|]. flat.
    apply K; [cbn [map]; now rewrite Br|exact R1].
  - cbn [map] in Re. rewrite commas_cons in Re by discriminate. rewrite <- app_assoc in Re. cbn [app] in Re.
    eapply reads_label; [exact Re|auto|exact L1|exact G1|]. intros r' s1 Br R1. flat.
    eapply (reads_is _ true); [exact R1|intros t Wt; rewrite sym_w, Wt; vm_compute; reflexivity|]. flat.
    eapply reads_next; [exact R1|apply app_nonempty; discriminate|]. intros _ s2 R2. flat.
    apply (IH (acc ++ [r']) fuel k s2 vs ws rest P); [discriminate|cbn in *; lia|exact L2|exact G2|exact R2|].
    intros l' s3 Bl R3. rewrite <- app_assoc. apply (K (r' :: l')); [|exact R3]. cbn [map] in *. congruence.
Qed.

Definition write_sel (r : list (expr * option expr) * stmt) : words :=
  commas (map write_label (fst r)) ++ wsym ":" :: write_stmt sp (snd r) ++ [wsym ";"].
Definition good_sel (r : list (expr * option expr) * stmt) : Prop :=
  fst r <> [] /\ all (good_label en) (fst r) /\ good_stmt sp en (snd r) (wsym ";").
Definition bare_sel (r : list (expr * option expr) * stmt) : list (expr * option expr) * stmt :=
  (map bare_label (fst r), bare_stmt (snd r)).

Definition opening (w : ttype * gostring) : Prop := ~ In w (map wkey ["ELSE"; "END"]%string).
Lemma desig_opening d : exists w ws, write_desig d = w :: ws /\ opening w.
Proof. destruct (name_starts d) as (nm & ws & ->). eexists _, _. split; [reflexivity|]. apply win_not. reflexivity. Qed.
Lemma factor_opening f : good_factor (names en) f -> exists w ws, write_factor f = w :: ws /\ opening w.
Proof.
  assert (X : forall w ws, existsb (weqb w) (map wkey ["ELSE"; "END"]%string) = false -> exists w' ws', w :: ws = w' :: ws' /\ opening w').
  { intros w ws E. exists w, ws. split; [reflexivity|now apply win_not]. }
  destruct f as [d args|d|v|v|v| |e|f|es|t e]; cbn [write_factor good_factor]; intros G; try (apply X; vm_compute; reflexivity).
  - destruct (desig_opening d) as (w & ws & -> & O). exists w. eexists. split; [reflexivity|exact O].
  - apply X. unfold wnumber. destruct (existsb _ v); reflexivity.
Qed.
Lemma expr_opening e : good_expr (names en) e -> exists w ws, write_expr e = w :: ws /\ opening w.
Proof.
  destruct e as [[u [f l1] l2] l3]. cbn [good_expr good_sexpr good_term write_expr write_sexpr write_term].
  intros [(Gu & [Gf _] & _) _]. destruct u as [v|].
  - cbn [app]. eexists _, _. split; [reflexivity|]. destruct Gu as [<-|[<-|[]]]; apply win_not; reflexivity.
  - destruct (factor_opening f Gf) as (w & ws & -> & O). cbn [app]. exists w. eexists. split; [reflexivity|exact O].
Qed.
Lemma sel_opening r ws : good_sel r -> exists w ws', write_sel r ++ ws = w :: ws' /\ opening w.
Proof.
  intros (NE & G & _). destruct r as [[|r1 l] st]; cbn [fst snd] in *; [congruence|]. destruct G as [[G1 _] _].
  destruct (expr_opening _ G1) as (w & ws1 & E & O). exists w. unfold write_sel. cbn [fst snd map].
  assert (exists ws2, commas (write_label r1 :: map write_label l) = w :: ws2) as (ws2 & E2).
  { destruct l; cbn [map commas]; unfold write_label at 1; rewrite E; cbn [app]; eauto. }
  rewrite E2. cbn [app]. eauto.
Qed.

Lemma reads_sels {B} close l : (close = wkey "ELSE" \/ close = wkey "END") ->
  forall acc fuel (k : list (list (expr * option expr) * stmt) -> prog B) s vs ws rest P,
  l <> [] -> length l <= fuel -> Forall (fun r => length (write_sel r) <= m) l -> all good_sel l ->
  ready (flat_map (fun r => handler_vars (snd r)) l ++ vs) s (flat_map write_sel l ++ close :: ws) ->
  (forall l' s1, map bare_sel l' = map bare_sel l -> ready vs s1 (close :: ws) -> reads (k (acc ++ l')) s1 rest vs P) ->
  reads (Bind (loop fuel (case_selectors_step R) acc) k) s rest (flat_map (fun r => handler_vars (snd r)) l ++ vs) P.
Proof.
  intros Hc. induction l as [|r l IH]; intros acc fuel k s vs ws rest P NE Lf Ls G Re K; [congruence|].
  destruct fuel as [|fuel]; [cbn in Lf; lia|]. inversion Ls as [|? ? L1 L2]; subst. destruct G as [(NE1 & G1 & Gs) G2].
  cbn [loop]. unfold case_selectors_step at 1, parse_case_selector at 1. flat.
  cbn [flat_map] in *. rewrite <- !app_assoc in *. unfold write_sel in L1.
  rewrite !app_length in L1. cbn [length] in L1. rewrite app_length in L1. cbn [length] in L1.
  unfold write_sel at 1 in Re. rewrite <- app_assoc in Re. cbn [app] in Re. rewrite <- app_assoc in Re. cbn [app] in Re.
  assert (NEl : Forall (fun x => write_label x <> []) (fst r)) by (apply Forall_forall; intros x _; apply write_label_nonempty).
  eapply (reads_labels (fst r)); [exact NE1| | |exact G1|exact Re|].
  { pose proof (commas_count write_label (fst r) NEl). rewrite fuel_m. lia. }
  { apply Forall_forall. intros x I. pose proof (commas_length write_label x (fst r) I). lia. }
  intros l' s1 Bl R1. cbn [app]. flat.
  eapply reads_expect; [exact R1|intros t Wt; rewrite sym_w, Wt; vm_compute; reflexivity|]. intros _ _. flat.
  eapply reads_next; [exact R1|apply app_nonempty; discriminate|]. intros _ s2 R2. flat.
  eapply reads_stmt; [exact R2|lia|exact Gs|left; reflexivity|]. intros st' s3 Bs R3. flat.
  eapply reads_expect; [exact R3|intros t Wt; rewrite sym_w, Wt; vm_compute; reflexivity|]. intros _ _. flat.
  destruct l as [|r2 l].
  - cbn [flat_map app] in *. eapply reads_next; [exact R3|discriminate|]. intros _ s4 R4. flat.
    eapply (reads_is _ true); [exact R4| |].
    { intros t Wt. unfold p_some. cbn [existsb]. rewrite !kw_w, Wt. destruct Hc as [-> | ->]; vm_compute; reflexivity. }
    flat. apply K; [|exact R4]. cbn [map]. unfold bare_sel. cbn [fst snd]. now rewrite Bl, Bs.
  - assert (exists w ws', flat_map write_sel (r2 :: l) ++ close :: ws = w :: ws' /\ opening w) as (w & ws' & Ew & O).
    { cbn [flat_map]. rewrite <- app_assoc. apply sel_opening. apply G2. }
    eapply reads_next; [exact R3|rewrite Ew; discriminate|]. intros _ s4 R4. flat.
    pose proof R4 as R4'. rewrite Ew in R4'.
    eapply (reads_is _ false); [exact R4'| |].
    { intros t Wt. unfold p_some. cbn [existsb]. rewrite !kw_w, Wt. apply win_not in O. exact O. }
    flat. apply (IH (acc ++ [(l', st')]) fuel k s4 vs ws rest P); [discriminate|cbn in *; lia|exact L2|exact G2|exact R4|].
    intros l'' s5 Bl' R5. rewrite <- app_assoc. apply (K ((l', st') :: l'')); [|exact R5].
    cbn [map] in *. rewrite Bl'. f_equal. unfold bare_sel. cbn [fst snd]. now rewrite Bl, Bs.
Qed.

(** ** Statements *)
Lemma semicolons_length {X} (W : X -> words) x l : In x l -> length (W x) <= length (semicolons (map W l)).
Proof.
  induction l as [|y l IH]; [contradiction|]. intros [->|I].
  - destruct l; cbn [map semicolons]; [lia|]. rewrite app_length. lia.
  - specialize (IH I). destruct l; [contradiction|]. cbn [map] in *. rewrite semicolons_cons by discriminate.
    rewrite app_length. cbn [length]. lia.
Qed.
Lemma semicolons_count {X} (W : X -> words) l : Forall (fun x => W x <> []) l -> length l <= length (semicolons (map W l)).
Proof.
  induction 1 as [|y l NE F IH]; [auto|]. destruct l; cbn [map] in *.
  - cbn [semicolons length]. destruct (W y); [congruence|cbn; lia].
  - rewrite semicolons_cons by discriminate. rewrite app_length. cbn [length] in *. lia.
Qed.
Lemma each_all {A} (P : bool -> A -> Prop) (Q : A -> Prop) l :
  (forall b a, P b a -> Q a) -> each P l -> Forall Q l.
Proof.
  intros H. induction l as [|a l IH]; [constructor|]. destruct l; cbn [each].
  - intros G. constructor; [eauto|constructor].
  - intros [G1 G2]. constructor; [eauto|]. apply IH. exact G2.
Qed.
Lemma stmts_nonempty l close : each (fun last st => good_stmt sp en st (behind sp last close)) l ->
  Forall (fun x => write_stmt sp x <> []) l.
Proof.
  apply each_all. intros b st G. apply stmt_start in G as (w & ws & -> & _). discriminate.
Qed.

Ltac kwd := let t := fresh "t" in let Wt := fresh "Wt" in
  intros t Wt; rewrite ?kw_w, ?sym_w, Wt; vm_compute; reflexivity.
Ltac nonempty := let E := fresh in intros E;
  repeat (let E' := fresh in let E0 := fresh in apply app_eq_nil in E; destruct E as [E0 E']; clear E0; rename E' into E); discriminate E.
Ltac stop := solve [apply stops_by; vm_compute; reflexivity].
Ltac len := cbn [length] in *; rewrite ?app_length in *; cbn [length] in *; rewrite ?app_length in *; cbn [length] in *;
  rewrite ?app_length in *; cbn [length] in *; rewrite ?app_length in *; cbn [length] in *; try lia.

Ltac shown := cbn [write_body body_vars good_body] in *;
  fold (write_stmt sp) in *; fold (good_stmt sp en) in *; fold handler_vars in *; cbn [app] in *.
Ltac norm H := repeat (progress (cbn [app] in H; rewrite <- ?app_assoc in H)); rewrite <- ?app_assoc; cbn [app].
Ltac same := cbn [bare_body option_map]; fold bare_stmt.

(** A list of statements that ends with one of the reserved words. *)
Lemma reads_list {B} x term l (k : list stmt -> prog B) s vs ws rest P :
  In (wkey x) stmt_ends -> existsb (weqb (wkey x)) starters = false ->
  (term = kw x \/ exists a b, In x [a; b] /\ term = p_some [kw a; kw b] /\
     existsb (weqb (wkey a)) starters = false /\ existsb (weqb (wkey b)) starters = false) ->
  length (semicolons (map (write_stmt sp) l)) < m ->
  each (fun last st => good_stmt sp en st (behind sp last (wkey x))) l ->
  ready (flat_map handler_vars l ++ vs) s (semicolons (map (write_stmt sp) l) ++ last_semi sp ++ wkey x :: ws) ->
  (forall l' s1, map bare_stmt l' = map bare_stmt l -> ready vs s1 (wkey x :: ws) -> reads (k l') s1 rest vs P) ->
  reads (Bind (parse_stmt_list R term) k) s rest (flat_map handler_vars l ++ vs) P.
Proof.
  intros Ix Nx Ht L G Re K. unfold parse_stmt_list.
  eapply (reads_stmts term (wkey x) l Ix); [reflexivity| | | | | |exact G|exact Re|exact K].
  - intros t Wt. destruct Ht as [-> |(a & b & Hx & -> & _ & _)].
    + rewrite kw_w, Wt. now apply weqb_eq.
    + unfold p_some. cbn [existsb]. rewrite !kw_w, Wt.
      destruct Hx as [<-|[<-|[]]]; rewrite (proj2 (weqb_eq (wkey _) _) (eq_refl (wkey _))); [reflexivity|now destruct (weqb _ _)].
  - intros t Wt. destruct Ht as [-> |(a & b & Hx & -> & _ & _)].
    + rewrite kw_w, Wt. apply weqb_neq. discriminate.
    + unfold p_some. cbn [existsb]. rewrite !kw_w, Wt.
      now rewrite !(proj2 (weqb_neq _ _)) by discriminate.
  - intros t St. destruct Ht as [-> |(a & b & Hx & -> & Na & Nb)].
    + rewrite kw_w. now apply starts_not.
    + unfold p_some. cbn [existsb]. rewrite !kw_w. rewrite !starts_not by assumption. reflexivity.
  - rewrite fuel_m. pose proof (semicolons_count _ _ (stmts_nonempty _ _ G)). lia.
  - apply Forall_forall. intros st I. pose proof (semicolons_length (write_stmt sp) st l I). lia.
Qed.

Lemma last_semi_length : length (last_semi sp) <= 1.
Proof. unfold last_semi. destruct (semi sp); cbn; lia. Qed.

Section Body.
Context {B : Type} (k : sbody -> prog B) (s : pst) (vs : list gostring) (after : ttype * gostring)
  (ws rest : words) (P : B -> Prop) (Ia : In after stmt_ends).
Definition reads_body (p : prog sbody) (b : sbody) : Prop :=
  length (write_body sp b) <= m -> good_body sp en b after ->
  ready (body_vars b ++ vs) s (write_body sp b ++ after :: ws) ->
  (forall b' s1, bare_body b' = bare_body b -> ready vs s1 (after :: ws) -> reads (k b') s1 rest vs P) ->
  reads (Bind p k) s rest (body_vars b ++ vs) P.

Lemma after_expr : stops expr_on (after :: ws).
Proof. eapply stops_incl; [|apply ends_stop, Ia]. intros w I. apply in_or_app. auto. Qed.

Lemma body_assign d e : reads_body (parse_designator_statement R) (SAssign d e).
Proof.
  intros L [Gd Ge] Re K. shown. norm Re. len.
  unfold parse_designator_statement. flat.
  eapply reads_desig; [exact Re|lia|exact Gd|stop|]. intros d' s1 Bd R1. flat.
  eapply reads_cur; [exact R1|]. intros t Wt. rewrite value_w, Wt.
  replace (eqs (snd (wsym ":=")) ":=") with true by (vm_compute; reflexivity). flat.
  eapply reads_next; [exact R1|nonempty|]. intros _ s2 R2. flat.
  eapply reads_expr; [exact R2|lia|exact Ge|apply after_expr|]. intros e' s3 Be R3. flat.
  apply K; [same; now rewrite Bd, Be|exact R3].
Qed.
Lemma body_call d args : reads_body (parse_designator_statement R) (SCall d args).
Proof.
  intros L [Gd Ge] Re K. shown. unfold parse_designator_statement. flat.
  destruct args as [es|].
  - destruct Ge as [NE Ge]. norm Re. len.
    eapply reads_desig; [exact Re|lia|exact Gd|stop|]. intros d' s1 Bd R1. flat.
    eapply reads_cur; [exact R1|]. intros t Wt. rewrite value_w, sym_w, Wt.
    replace (eqs (snd (wsym "(")) ":=") with false by (vm_compute; reflexivity).
    replace (weqb (wsym "(") (wsym "(")) with true by (vm_compute; reflexivity). flat.
    eapply reads_next; [exact R1|nonempty|]. intros _ s2 R2. flat.
    eapply reads_exprs; [exact R2|lia|exact NE|exact Ge|]. intros l' s3 Bl R3. flat.
    eapply reads_expect; [exact R3|kwd|]. intros _ _. flat.
    eapply reads_next; [exact R3|discriminate|]. intros _ s4 R4. flat.
    apply K; [same; now rewrite Bd, Bl|exact R4].
  - rewrite app_nil_r in *. pose proof (ends_stop after ws Ia) as Sp.
    eapply reads_desig; [exact Re|lia|exact Gd| |].
    { eapply stops_incl; [|exact Sp]. intros w I. unfold expr_on, sexpr_on, term_on. apply in_or_app. left.
      do 3 (apply in_or_app; right). right. exact I. }
    intros d' s1 Bd R1. flat. eapply reads_cur; [exact R1|]. intros t Wt.
    assert (X : forallb (fun w => negb (eqs (snd w) ":=") && negb (weqb w (wsym "("))) stmt_ends = true) by (vm_compute; reflexivity).
    rewrite forallb_forall in X. specialize (X after Ia). apply andb_true_iff in X as [X1 X2]. apply negb_true_iff in X1, X2.
    rewrite value_w, sym_w, Wt, X1, X2. flat. apply K; [same; now rewrite Bd|exact R1].
Qed.
Lemma body_inherited : reads_body parse_inherited SInherited.
Proof.
  intros L _ Re K. shown. unfold parse_inherited. flat.
  eapply reads_expect; [exact Re|kwd|]. intros _ _. flat.
  eapply reads_next; [exact Re|discriminate|]. intros _ s1 R1. flat. apply K; [reflexivity|exact R1].
Qed.
Lemma body_goto i r : reads_body parse_goto (SGoto i r).
Proof.
  intros L G Re K. shown. unfold parse_goto. flat.
  eapply reads_expect; [exact Re|kwd|]. intros _ _. flat.
  eapply reads_expect_next; [exact Re|intros t Wt; destruct (wident_inv _ _ Wt) as [Tt _]; unfold p_type; now rewrite Tt|].
  intros t s1 Wt R1. destruct (wident_inv _ _ Wt) as [Tt Rt]. flat.
  assert (exists d, run (get (value t)) s1 = OOk d s1) as (d & Gd).
  { rewrite value_w, Wt. cbn [snd wident]. rewrite run_get. destruct (re_fits _ _ _ R1) as (_ & F1 & F2).
    assert (X : a_label (senv_of s1) (i_name i) \/ no_label (senv_of s1) (i_name i)).
    { destruct G as [G|G]; [left; now apply F1|right; auto]. }
    unfold senv_of in X. cbn [a_label no_label senv_at] in X. unfold resolves in X.
    destruct (ctx_get (s_heap s1) (s_ctx s1) (i_name i)); [eauto|eauto|].
    exfalso. destruct X as [(d & E & _)|[E|(d & x & (E & _) & _)]]; discriminate. }
  eapply reads_run; [exact Gd|]. flat. eapply reads_next; [exact R1|discriminate|]. intros _ s2 R2. flat.
  apply K; [|exact R2]. same. unfold bare_ident. cbn. now rewrite Rt.
Qed.
Lemma body_compound l : reads_body (parse_compound_stmt R) (SCompound l).
Proof.
  intros L G Re K. shown. unfold parse_compound_stmt. flat. norm Re. len.
  eapply reads_expect; [exact Re|kwd|]. intros _ _. flat.
  eapply reads_next; [exact Re|nonempty|]. intros _ s1 R1. flat.
  eapply (reads_list "END"); [right; left; reflexivity|reflexivity|auto|lia|exact G|exact R1|]. intros l' s2 Bl R2. flat.
  eapply reads_expect; [exact R2|kwd|]. intros _ _. flat.
  eapply reads_next; [exact R2|discriminate|]. intros _ s3 R3. flat. apply K; [same; now rewrite Bl|exact R3].
Qed.
Lemma body_if e s1 s2 : reads_body (parse_if R) (SIf e s1 s2).
Proof.
  intros L [Ge G] Re K. shown. unfold parse_if. flat. norm Re.
  eapply reads_expect; [exact Re|kwd|]. intros _ _. flat.
  eapply reads_next; [exact Re|nonempty|]. intros _ x1 R1. flat. norm R1. 
  len. eapply reads_expr; [exact R1|lia|exact Ge|stop|]. intros e' x2 Be R2. flat.
  eapply reads_expect; [exact R2|kwd|]. intros _ _. flat.
  eapply reads_next; [exact R2|nonempty|]. intros _ x3 R3. flat.
  norm R3. destruct s2 as [s2|].
  - destruct G as [G1 G2]. norm R3. len.
    eapply reads_stmt; [exact R3|lia|exact G1|apply win_iff; vm_compute; reflexivity|]. intros s1' x4 Bs R4. flat.
    eapply (reads_is _ true); [exact R4|kwd|]. flat.
    eapply reads_next; [exact R4|nonempty|]. intros _ x5 R5. flat.
    eapply reads_stmt; [exact R5|lia|exact G2|exact Ia|]. intros s2' x6 Bs2 R6. flat.
    apply K; [same; now rewrite Be, Bs, Bs2|exact R6].
  - destruct G as [NE G1]. norm R3. len.
    eapply reads_stmt; [exact R3|lia|exact G1|exact Ia|]. intros s1' x4 Bs R4. flat.
    eapply (reads_is _ false); [exact R4|intros t Wt; rewrite kw_w, Wt; now apply weqb_neq|]. flat.
    apply K; [same; now rewrite Be, Bs|exact R4].
Qed.
Lemma body_case e sels els : reads_body (parse_case R) (SCase e sels els).
Proof.
  intros L (Ge & NE & Gs & Gl) Re K. shown. unfold parse_case. flat. norm Re.
  change (flat_map (fun r => commas (map write_label (fst r)) ++ wsym ":" :: write_stmt sp (snd r) ++ [wsym ";"]) sels)
    with (flat_map write_sel sels) in *.
  change (all good_sel sels) in Gs.
  eapply reads_expect; [exact Re|kwd|]. intros _ _. flat.
  eapply reads_next; [exact Re|nonempty|]. intros _ x1 R1. flat. norm R1. len.
  eapply reads_expr; [exact R1|lia|exact Ge|stop|]. intros e' x2 Be R2. flat.
  eapply reads_expect; [exact R2|kwd|]. intros _ _. flat.
  eapply reads_next; [exact R2|nonempty|].
  intros _ x3 R3. flat. norm R3. 
  assert (NEs : Forall (fun x => write_sel x <> []) sels).
  { apply Forall_forall. intros x _ E. unfold write_sel in E. apply app_eq_nil in E as [_ E]. discriminate. }
  destruct els as [l|].
  - cbn [app] in R3. norm R3. len.
    eapply (reads_sels (wkey "ELSE")); [auto|exact NE| | |exact Gs|exact R3|].
    { rewrite fuel_m. pose proof (flat_map_count write_sel sels NEs). lia. }
    { apply Forall_forall. intros x I. pose proof (flat_map_length_in write_sel x sels I). lia. }
    intros sels' x4 Bs R4. flat. cbn [app]. eapply (reads_is _ true); [exact R4|kwd|]. flat.
    eapply reads_next; [exact R4|nonempty|]. intros _ x5 R5. flat.
    eapply (reads_list "END"); [right; left; reflexivity|reflexivity|auto|lia|exact Gl|exact R5|]. intros l' x6 Bl R6. flat.
    eapply reads_expect; [exact R6|kwd|]. intros _ _. flat.
    eapply reads_next; [exact R6|discriminate|]. intros _ x7 R7. flat.
    apply K; [|exact R7]. same. rewrite Be, Bl. f_equal. exact Bs.
  - norm R3. len.
    eapply (reads_sels (wkey "END")); [auto|exact NE| | |exact Gs|exact R3|].
    { rewrite fuel_m. pose proof (flat_map_count write_sel sels NEs). lia. }
    { apply Forall_forall. intros x I. pose proof (flat_map_length_in write_sel x sels I). lia. }
    intros sels' x4 Bs R4. flat. cbn [app]. eapply (reads_is _ false); [exact R4|kwd|]. flat.
    eapply reads_expect; [exact R4|kwd|]. intros _ _. flat.
    eapply reads_next; [exact R4|discriminate|]. intros _ x7 R7. flat.
    apply K; [|exact R7]. same. rewrite Be. f_equal. exact Bs.
Qed.
Lemma body_repeat l e : reads_body (parse_repeat R) (SRepeat l e).
Proof.
  intros L [G Ge] Re K. shown. unfold parse_repeat. flat. norm Re. len.
  eapply reads_expect; [exact Re|kwd|]. intros _ _. flat.
  eapply reads_next; [exact Re|nonempty|]. intros _ s1 R1. flat.
  eapply (reads_list "UNTIL"); [apply win_iff; vm_compute; reflexivity|reflexivity|auto|lia|exact G|exact R1|]. intros l' s2 Bl R2. flat.
  eapply reads_expect; [exact R2|kwd|]. intros _ _. flat.
  eapply reads_next; [exact R2|nonempty|]. intros _ s3 R3. flat.
  eapply reads_expr; [exact R3|lia|exact Ge|apply after_expr|]. intros e' s4 Be R4. flat.
  apply K; [same; now rewrite Bl, Be|exact R4].
Qed.
Lemma body_while e st : reads_body (parse_while R) (SWhile e st).
Proof.
  intros L [Ge G] Re K. shown. unfold parse_while. flat. norm Re. len.
  eapply reads_expect; [exact Re|kwd|]. intros _ _. flat.
  eapply reads_next; [exact Re|nonempty|]. intros _ s1 R1. flat.
  eapply reads_expr; [exact R1|lia|exact Ge|stop|]. intros e' s2 Be R2. flat.
  eapply reads_expect; [exact R2|kwd|]. intros _ _. flat.
  eapply reads_next; [exact R2|nonempty|]. intros _ s3 R3. flat.
  eapply reads_stmt; [exact R3|lia|exact G|exact Ia|]. intros st' s4 Bs R4. flat.
  apply K; [same; now rewrite Bs, Be|exact R4].
Qed.
Lemma body_for q e1 e2 dn st : reads_body (parse_for R) (SFor q e1 e2 dn st).
Proof.
  intros L (Gq & G1 & G2 & G) Re K. shown. unfold parse_for. flat.
  norm Re. len.
  eapply reads_expect; [exact Re|kwd|]. intros _ _. flat.
  eapply reads_next; [exact Re|nonempty|]. intros _ s1 R1. flat.
  eapply reads_name; [exact R1|exact Gq|]. intros q' s2 Bq R2. flat.
  eapply reads_expect; [exact R2|kwd|]. intros _ _. flat.
  eapply reads_next; [exact R2|nonempty|]. intros _ s3 R3. flat.
  eapply reads_expr; [exact R3|lia|exact G1|destruct dn; stop|]. intros e1' s4 B1 R4. flat.
  eapply reads_cur; [exact R4|]. intros t Wt. rewrite value_w, Wt.
  assert (X : forall K', reads (Bind (Ret dn) K') s4 rest (handler_vars st ++ vs) P -> reads (Bind (if eqs (snd (wkey (if dn then "DOWNTO" else "TO"))) "TO" then Ret false
    else if eqs (snd (wkey (if dn then "DOWNTO" else "TO"))) "DOWNTO" then Ret true else FailAt t) K') s4 rest (handler_vars st ++ vs) P).
  { intros K'. destruct dn.
    - replace (eqs (snd (wkey "DOWNTO")) "TO") with false by (vm_compute; reflexivity).
      replace (eqs (snd (wkey "DOWNTO")) "DOWNTO") with true by (vm_compute; reflexivity). auto.
    - replace (eqs (snd (wkey "TO")) "TO") with true by (vm_compute; reflexivity). auto. }
  flat. apply X. clear X. flat.
  eapply reads_next; [exact R4|nonempty|]. intros _ s5 R5. flat.
  eapply reads_expr; [exact R5|lia|exact G2|stop|]. intros e2' s6 B2 R6. flat.
  eapply reads_expect; [exact R6|kwd|]. intros _ _. flat.
  eapply reads_next; [exact R6|nonempty|]. intros _ s7 R7. flat.
  eapply reads_stmt; [exact R7|lia|exact G|exact Ia|]. intros st' s8 Bs R8. flat.
  apply K; [same; now rewrite Bs, Bq, B1, B2|exact R8].
Qed.
Lemma body_with qs st : reads_body (parse_with R) (SWith qs st).
Proof.
  intros L (NE & Gq & G) Re K. shown. unfold parse_with, parse_qual_ids, until_list. flat.
  norm Re. len.
  eapply reads_expect; [exact Re|kwd|]. intros _ _. flat.
  eapply reads_next; [exact Re|nonempty|]. intros _ s1 R1. flat.
  eapply (reads_names qs); [exact NE| |exact Gq|exact R1|].
  { rewrite fuel_m. assert (F : Forall (fun q => write_name q <> []) qs) by (apply Forall_forall; intros q _; apply write_name_nonempty).
    pose proof (commas_count write_name qs F). lia. }
  intros qs' s2 Bq R2. cbn [app]. flat.
  eapply reads_expect; [exact R2|kwd|]. intros _ _. flat.
  eapply reads_next; [exact R2|nonempty|]. intros _ s3 R3. flat.
  eapply reads_stmt; [exact R3|lia|exact G|exact Ia|]. intros st' s4 Bs R4. flat.
  apply K; [same; now rewrite Bs, Bq|exact R4].
Qed.
Lemma body_finally l1 l2 : reads_body (parse_try R) (STryFinally l1 l2).
Proof.
  intros L [G1 G2] Re K. shown. unfold parse_try. flat.
  norm Re.  len.
  eapply reads_expect; [exact Re|kwd|]. intros _ _. flat.
  eapply reads_next; [exact Re|nonempty|]. intros _ s1 R1. flat.
  eapply (reads_list "FINALLY"); [apply win_iff; vm_compute; reflexivity|reflexivity|right; exists "EXCEPT"%string, "FINALLY"%string; repeat split; cbn; auto|lia|exact G1|exact R1|]. intros l' s2 Bl R2. flat.
  eapply (reads_is _ false); [exact R2|kwd|]. flat.
  eapply reads_cur; [exact R2|]. intros t Wt. rewrite kw_w, Wt.
  replace (weqb (wkey "FINALLY") (wkey "FINALLY")) with true by (vm_compute; reflexivity). flat.
  eapply reads_next; [exact R2|nonempty|]. intros _ s3 R3. flat.
  eapply (reads_list "END"); [right; left; reflexivity|reflexivity|auto|lia|exact G2|exact R3|]. intros l2' s4 Bl2 R4. flat.
  eapply reads_next; [exact R4|discriminate|]. intros _ s5 R5. flat. apply K; [same; now rewrite Bl, Bl2|exact R5].
Qed.
Lemma body_raise o a : reads_body (parse_raise R) (SRaise o a).
Proof.
  intros L G Re K. shown. unfold parse_raise. flat.
  assert (Ea : forall t, word_of t = after -> upper_is "AT" t = false).
  { intros t Wt. rewrite upper_w, Wt. assert (X : forallb (fun w => all_ascii (snd w) && negb (runes_equal (map ascii_up (snd w)) (rs "AT"))) stmt_ends = true) by (vm_compute; reflexivity).
    rewrite forallb_forall in X. specialize (X after Ia). apply andb_true_iff in X as [X1 X2]. apply negb_true_iff in X2.
    rewrite to_upper_ascii by (now apply all_ascii_spec). exact X2. }
  pose proof is_at as At.
  eapply reads_expect; [exact Re|kwd|]. intros _ _. flat.
  destruct o as [o|].
  - assert (G' : (good_expr (names en) o /\ to_upper (first_word (write_expr o)) <> rs "AT") /\
                 match a with None => True | Some e => good_expr (names en) e end) by (destruct a; exact G).
    clear G. destruct G' as [[Go Nat] Ga]. norm Re. 
    pose proof (write_expr_nonempty o) as NEo.
    assert (exists w0 ws0, write_expr o = w0 :: ws0) as (w0 & ws0 & E0) by (destruct (write_expr o); [congruence|eauto]).
    assert (NS : weqb w0 (wsym ";") = false).
    { destruct o as [[u [f l1] l2] l3]. cbn [good_expr good_sexpr good_term write_expr write_sexpr write_term] in *.
      destruct Go as [(Gu & [Gf _] & _) _]. destruct u as [v|].
      - cbn [app] in E0. injection E0 as <- _. destruct Gu as [<-|[<-|[]]]; reflexivity.
      - cbn [app] in E0. destruct f as [d args|d|v|v|v| |e|f|es|t e]; cbn [write_factor app] in E0; try (injection E0 as <- _; reflexivity).
        + destruct (name_starts d) as (nm & wx & E). rewrite E in E0. cbn [app] in E0. injection E0 as <- _. reflexivity.
        + injection E0 as <- _. unfold wnumber. destruct (existsb _ v); reflexivity. }
    assert (NA : forall t, word_of t = w0 -> upper_is "AT" t = false).
    { intros t Wt. rewrite upper_w, Wt. rewrite E0 in Nat. cbn [first_word] in Nat.
      destruct (runes_equal _ _) eqn:E; [|reflexivity]. apply runes_equal_eq in E. contradiction. }
    eapply reads_next; [exact Re|rewrite E0; discriminate|]. intros _ s1 R1. flat.
    pose proof R1 as R1'. rewrite E0 in R1'. cbn [app] in R1'.
    eapply (reads_is _ false); [exact R1'|intros t Wt; now rewrite sym_w, Wt|]. flat.
    eapply (reads_is _ false); [exact R1'|exact NA|]. flat. clear R1'. len.
    destruct a as [a|].
    + cbn [app] in R1. len. eapply reads_expr; [exact R1|lia|exact Go|stop|]. intros o' s2 Bo R2. flat.
      eapply (reads_is _ true); [exact R2|exact At|]. flat.
      eapply reads_next; [exact R2|nonempty|]. intros _ s3 R3. flat.
      eapply reads_expr; [exact R3|lia|exact Ga|apply after_expr|]. intros a' s4 Ba R4. flat.
      apply K; [same; now rewrite Bo, Ba|exact R4].
    + cbn [app] in R1. eapply reads_expr; [exact R1|lia|exact Go|apply after_expr|]. intros o' s2 Bo R2. flat.
      eapply (reads_is _ false); [exact R2|exact Ea|]. flat.
      apply K; [same; now rewrite Bo|exact R2].
  - destruct a as [a|]; cbn [app] in *.
    + destruct G as [_ Ga]. len. eapply reads_next; [exact Re|discriminate|]. intros _ s1 R1. flat.
      eapply (reads_is _ false); [exact R1|kwd|]. flat.
      eapply (reads_is _ true); [exact R1|exact At|]. flat.
      eapply (reads_is _ true); [exact R1|exact At|]. flat.
      eapply reads_next; [exact R1|nonempty|]. intros _ s3 R3. flat.
      eapply reads_expr; [exact R3|lia|exact Ga|apply after_expr|]. intros a' s4 Ba R4. flat.
      apply K; [same; now rewrite Ba|exact R4].
    + eapply reads_next; [exact Re|discriminate|]. intros _ s1 R1. flat.
      eapply (reads_is _ true); [exact R1|intros t Wt; rewrite sym_w, Wt, G; vm_compute; reflexivity|]. flat.
      apply K; [reflexivity|exact R1].
Qed.
Lemma body_except l hs els : reads_body (parse_try R) (STryExcept l hs els).
Proof.
  intros L [G1 G2] Re K. shown. unfold parse_try, parse_exception_block. flat.
  change (flat_map (fun h : option ident * typ * stmt => match fst (fst h) with None => [] | Some i => [i_name i] end ++ handler_vars (snd h)) hs)
    with (flat_map handler_names hs) in *.
  norm Re.  len.
  eapply reads_expect; [exact Re|kwd|]. intros _ _. flat.
  eapply reads_next; [exact Re|nonempty|]. intros _ s1 R1. flat.
  eapply (reads_list "EXCEPT"); [apply win_iff; vm_compute; reflexivity|reflexivity|right; exists "EXCEPT"%string, "FINALLY"%string; repeat split; cbn; auto|lia|exact G1|exact R1|]. intros l' s2 Bl R2. flat.
  eapply (reads_is _ true); [exact R2|kwd|]. flat.
  eapply reads_next; [exact R2|nonempty|]. intros _ s3 R3. flat.
  destruct hs as [|h hs].
  - destruct els as [l2|]; [|contradiction]. destruct G2 as [G2 NO]. cbn [flat_map app] in *. norm R3. len.
    assert (exists w ws', semicolons (map (write_stmt sp) l2) = w :: ws') as (w & ws' & Ew).
    { destruct l2 as [|st l2]; [contradiction|]. pose proof (Forall_inv (stmts_nonempty _ _ G2)) as NE. cbn in NE.
      destruct (write_stmt sp st) as [|w1 ws1] eqn:E1; [congruence|]. destruct l2; cbn [map semicolons]; rewrite E1; cbn [app]; eauto. }
    pose proof R3 as R3'. rewrite Ew in R3'. cbn [app] in R3'.
    eapply (reads_is _ false); [exact R3'| |].
    { intros t Wt. rewrite upper_w, Wt. rewrite Ew in NO. cbn [first_word] in NO.
      destruct (runes_equal _ _) eqn:E; [|reflexivity]. apply runes_equal_eq in E. contradiction. }
    cbn [negb]. flat.
    eapply (reads_list "END"); [right; left; reflexivity|reflexivity|auto|lia|exact G2|exact R3|]. intros l2' s4 Bl2 R4. flat.
    eapply reads_expect; [exact R4|kwd|]. intros _ _. flat.
    eapply reads_next; [exact R4|discriminate|]. intros _ s5 R5. flat.
    apply K; [same; now rewrite Bl, Bl2|exact R5].
  - destruct G2 as [Gh Gl].
    change (semicolons (map (fun h : option ident * typ * stmt => wident (on_word sp) ::
            match fst (fst h) with None => [] | Some i => [wident (i_name i); wsym ":"] end ++
            write_type (snd (fst h)) ++ wkey "DO" :: write_stmt sp (snd h)) (h :: hs)))
      with (semicolons (map write_handler (h :: hs))) in *.
    assert (exists ws', semicolons (map write_handler (h :: hs)) = wident (on_word sp) :: ws') as (ws' & Ew).
    { destruct hs; cbn [map semicolons]; eexists; reflexivity. }
    assert (NEh : Forall (fun x => write_handler x <> []) (h :: hs)) by (apply Forall_forall; intros x _; discriminate).
    assert (Hl : length (h :: hs) <= length (semicolons (map write_handler (h :: hs)))) by (now apply semicolons_count).
    assert (Hs : Forall (fun x => length (write_stmt sp (snd x)) < length (semicolons (map write_handler (h :: hs)))) (h :: hs)).
    { apply Forall_forall. intros x I. pose proof (semicolons_length write_handler x (h :: hs) I) as X.
      unfold write_handler at 1 in X. len. }
    assert (Pre : forall close ws2, semicolons (map write_handler (h :: hs)) ++ last_semi sp ++ close :: ws2 <> []).
    { intros close ws2. rewrite Ew. discriminate. }
    destruct els as [l2|].
    + norm R3. len.
      pose proof R3 as R3'. rewrite Ew in R3'. cbn [app] in R3'.
      eapply (reads_is _ true); [exact R3'|exact is_on|]. cbn [negb]. flat. clear R3'.
      eapply (reads_handlers (wkey "ELSE") (h :: hs)); [auto| | |exact Gh|exact R3|].
      { rewrite fuel_m. cbn [length]. lia. }
      { eapply Forall_impl; [|exact Hs]. intros x Lx. cbn beta in Lx. lia. }
      intros hs' s4 Bh R4. cbn [app]. flat. eapply (reads_is _ false); [exact R4|kwd|]. flat.
      eapply (reads_is _ true); [exact R4|kwd|]. flat.
      eapply reads_next; [exact R4|nonempty|]. intros _ s5 R5. flat.
      eapply (reads_list "END"); [right; left; reflexivity|reflexivity|auto|lia|exact Gl|exact R5|]. intros l2' s6 Bl2 R6. flat.
      eapply (reads_is _ false); [exact R6|kwd|]. flat.
      eapply reads_expect; [exact R6|kwd|]. intros _ _. flat.
      eapply reads_next; [exact R6|discriminate|]. intros _ s7 R7. flat.
      apply K; [same; rewrite Bl, Bl2; f_equal; exact Bh|exact R7].
    + norm R3. len.
      pose proof R3 as R3'. rewrite Ew in R3'. cbn [app] in R3'.
      eapply (reads_is _ true); [exact R3'|exact is_on|]. cbn [negb]. flat. clear R3'.
      eapply (reads_handlers (wkey "END") (h :: hs)); [auto| | |exact Gh|exact R3|].
      { rewrite fuel_m. cbn [length]. lia. }
      { eapply Forall_impl; [|exact Hs]. intros x Lx. cbn beta in Lx. lia. }
      intros hs' s4 Bh R4. cbn [app]. flat. eapply (reads_is _ true); [exact R4|kwd|]. flat.
      eapply reads_next; [exact R4|discriminate|]. intros _ s7 R7. flat.
      apply K; [same; rewrite Bl; f_equal; exact Bh|exact R7].
Qed.

Ltac pick Re := eapply reads_cur; [exact Re|];
  let t := fresh "t" in let Wt := fresh "Wt" in intros t Wt; rewrite value_w, type_w, Wt; cbv zeta;
  match goal with |- context [if ttype_eqb ?a ?b then _ else _] => let v := eval vm_compute in (ttype_eqb a b) in
    replace (ttype_eqb a b) with v by (vm_compute; reflexivity) end;
  repeat match goal with |- context [if eqs ?a ?b then _ else _] => let v := eval vm_compute in (eqs a b) in
    replace (eqs a b) with v by (vm_compute; reflexivity) end; cbv iota.
Lemma body_any b : reads_body (parse_statement_body R) b.
Proof.
  intros L G Re K. unfold parse_statement_body. flat.
  destruct b as [d e|d args| |i r|l|e s1 s2|e sels els|l e|e s1|q e1 e2 dn s1|qs s1|l hs els|l1 l2|o a|]; try contradiction;
    pose proof Re as Re'; cbn [write_body] in Re'.
  - destruct (name_starts d) as (nm & wx & E). rewrite E in Re'. cbn [app] in Re'. pick Re'. now apply body_assign.
  - destruct (name_starts d) as (nm & wx & E). rewrite E in Re'. cbn [app] in Re'. pick Re'. now apply body_call.
  - pick Re'. now apply body_inherited.
  - pick Re'. now apply body_goto.
  - pick Re'. now apply body_compound.
  - pick Re'. now apply body_if.
  - pick Re'. now apply body_case.
  - pick Re'. now apply body_repeat.
  - pick Re'. now apply body_while.
  - pick Re'. now apply body_for.
  - pick Re'. now apply body_with.
  - pick Re'. now apply body_except.
  - pick Re'. now apply body_finally.
  - pick Re'. now apply body_raise.
Qed.
End Body.

Lemma not_both s n : no_label (senv_of s) n -> ~ a_label (senv_of s) n.
Proof.
  unfold senv_of. cbn [no_label a_label senv_at]. unfold resolves.
  intros [E|(d & x & (E & o & D & X) & NE)] (d' & E' & o' & D' & X'); [congruence|].
  rewrite E in E'. injection E' as <-. congruence.
Qed.
Lemma reads_statement st after : length (write_stmt sp st) <= m -> good_stmt sp en st after -> In after stmt_ends ->
  forall s rest, ready (handler_vars st) s (write_stmt sp st ++ after :: rest) ->
  reads (parse_statement R) s (after :: rest) (handler_vars st) (fun st' => bare_stmt st' = bare_stmt st).
Proof.
  intros L G Ia s rest Re. destruct st as [label b]. cbn [good_stmt write_stmt handler_vars] in *.
  fold (write_body sp) in *. fold (good_body sp en) in *. fold body_vars in *. destruct G as [Gl Gb].
  unfold parse_statement. flat. rewrite <- (app_nil_r (body_vars b)) in Re |- *.
  destruct (body_start b after Gb) as (w & ws & Ew & _).
  assert (NE : write_body sp b ++ after :: rest <> []) by (rewrite Ew; discriminate).
  destruct label as [i|]; cbn [app length] in *.
  - assert (Al : a_label (senv_of s) (i_name i)) by (apply (re_fits _ _ _ Re), Gl).
    destruct (lookup_word s (i_name i) (re_context _ _ _ Re) (or_intror Al)) as (r & E & HL & _).
    eapply reads_cur; [exact Re|]. intros t Wt. rewrite value_w, Wt. cbn [snd wident]. flat.
    eapply reads_run; [exact E|]. destruct r as [[d x]|]; [|destruct (proj1 HL Al)].
    apply HL in Al. destruct x; try contradiction. cbv iota. flat.
    eapply reads_expect_next; [exact Re|kwd|]. intros _ s1 _ R1. flat.
    eapply reads_next; [exact R1|exact NE|]. intros _ s2 R2. flat.
    eapply body_any; [exact Ia|lia|exact Gb|exact R2|]. intros b' s3 Bb R3. flat.
    apply reads_ret; [exact R3|]. cbn [bare_stmt option_map]. fold bare_body. rewrite Bb. destruct (wident_inv _ _ Wt) as [_ Rt].
    unfold bare_ident, new_ident. cbn [i_name]. now rewrite Rt.
  - assert (Nl : no_label (senv_of s) (first_word (write_body sp b))) by (apply (re_fits _ _ _ Re), Gl).
    destruct (lookup_word s _ (re_context _ _ _ Re) (or_introl Nl)) as (r & E & HL & _).
    apply not_both in Nl. rewrite Ew in E. pose proof Re as Re'. rewrite Ew in Re'. cbn [app] in Re'.
    eapply reads_cur; [exact Re'|]. intros t Wt. rewrite value_w, Wt. clear Re'. flat.
    eapply reads_run; [exact E|].
    assert (X : forall q (K : option ident -> prog stmt), reads (K None) s (after :: rest) (body_vars b ++ []) q ->
      reads (Bind match r with Some (_, NLabel) => Bind (expect_next (sym ":")) (fun _ => Bind Next (fun _ => Ret (Some (new_ident t)))) | _ => Ret None end K)
        s (after :: rest) (body_vars b ++ []) q).
    { intros q K HK. destruct r as [[d x]|]; [|now apply reads_ret_bind].
      destruct x; try (now apply reads_ret_bind). exfalso. apply Nl, HL. exact I. }
    apply X. clear X. flat.
    eapply body_any; [exact Ia|lia|exact Gb|exact Re|]. intros b' s3 Bb R3. flat.
    apply reads_ret; [exact R3|]. cbn [bare_stmt option_map]. fold bare_body. now rewrite Bb.
Qed.
End Rec.

Theorem statement_at m : forall st after, length (write_stmt sp st) <= m -> good_stmt sp en st after -> In after stmt_ends ->
  forall s rest, ready (handler_vars st) s (write_stmt sp st ++ after :: rest) ->
  reads (parse_statement (recs_at m)) s (after :: rest) (handler_vars st) (fun st' => bare_stmt st' = bare_stmt st).
Proof.
  induction m as [|m IH].
  - apply reads_statement. intros. lia.
  - apply reads_statement. intros st after L G Ia s rest Re. change (r_stmt (recs_at (S m))) with (parse_statement (recs_at m)).
    apply IH; auto. lia.
Qed.
Lemma compound_at m l after : length (write_body sp (SCompound l)) <= m -> good_body sp en (SCompound l) after ->
  forall s rest, ready (body_vars (SCompound l)) s (write_body sp (SCompound l) ++ after :: rest) ->
  reads (parse_compound_stmt (recs_at m)) s (after :: rest) (body_vars (SCompound l)) (fun b' => bare_body b' = bare_body (SCompound l)).
Proof.
  intros L G s rest Re. apply reads_last. rewrite <- (app_nil_r (body_vars _)) in Re |- *.
  apply (body_compound m) with (after := after) (ws := rest); [|exact L|exact G|exact Re|].
  - destruct m as [|m]; [intros; lia|]. intros st a Ls Gs Ia s1 r1 R1. apply statement_at; auto. lia.
  - intros b' s1 Bb R1. now apply reads_ret.
Qed.
Lemma stmts_at m x term l : In (wkey x) stmt_ends -> existsb (weqb (wkey x)) starters = false ->
  (term = kw x \/ exists a b, In x [a; b] /\ term = p_some [kw a; kw b] /\
     existsb (weqb (wkey a)) starters = false /\ existsb (weqb (wkey b)) starters = false) ->
  length (semicolons (map (write_stmt sp) l)) < m ->
  each (fun last st => good_stmt sp en st (behind sp last (wkey x))) l ->
  forall s rest, ready (flat_map handler_vars l) s (semicolons (map (write_stmt sp) l) ++ last_semi sp ++ wkey x :: rest) ->
  reads (parse_stmt_list (recs_at m) term) s (wkey x :: rest) (flat_map handler_vars l) (fun l' => map bare_stmt l' = map bare_stmt l).
Proof.
  intros Ix Nx Ht L G s rest Re. apply reads_last. rewrite <- (app_nil_r (flat_map handler_vars l)) in Re |- *.
  eapply (reads_list m); [|exact Ix|exact Nx|exact Ht|exact L|exact G|exact Re|].
  - destruct m as [|m]; [intros; lia|]. intros st a Ls Gs Ia s1 r1 R1. apply statement_at; auto. lia.
  - intros l' s1 Bb R1. now apply reads_ret.
Qed.
End WithUnicode.
