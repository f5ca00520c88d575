(** The methods for properties, sections and classes read their source form, and so every type is read. *)
From Coq Require Import String List NArith Bool Arith Lia.
From Verif Require Import ListUtil Runes UnicodeFacts Token Tokenizer LexSpec LexShape LexFacts LexMain Ext ExtMain
  Ast Heap Classes MapSpec MapFacts MapMain Prog ParseSpec Parser RunFacts ExprSpec WpFacts ExprFacts StmtSpec GrowFacts
  StmtFacts EvolveFacts EvolveParse SteadyFacts DeclSpec ScopeFacts DeclFacts TypeFacts TypeClassFacts.
Import ListNotations.
Local Open Scope list_scope.
Local Open Scope prog_scope.

Section WithUnicode.
Context {U : Unicode} {UOK : UnicodeOk U}.

Notation words := (list (ttype * gostring)).
Context (text : list rune) (st : style).
Notation in_scope := (in_scope text).

Ltac fl := cbv beta iota; repeat (match goal with
  | |- wp (Bind (Ret _) _) _ _ => apply wp_ret_bind
  | |- wp (Bind (Bind _ _) _) _ _ => apply wp_assoc
  end; cbv beta iota).
Ltac wd := let t := fresh "t" in let W := fresh "W" in intros t W; cbn [p_some existsb]; rewrite ?sym_w, ?kw_w, ?type_w, ?W; try reflexivity.
Ltac ev := repeat match goal with
  | |- context [eqs_any ?a ?b] => let v := eval vm_compute in (eqs_any a b) in replace (eqs_any a b) with v by (vm_compute; reflexivity)
  | |- context [eqs ?a ?b] => let v := eval vm_compute in (eqs a b) in replace (eqs a b) with v by (vm_compute; reflexivity)
  end.

Section Level.
Context (m : nat).
Notation R := (recs_at m).
Context (BT : forall t, length (write_ty st t) < m -> ty_rule text st (r_type R) t).

(** ** The clauses of a property *)
(** The word behind a clause: one of the clauses of [l], or the end. *)
Definition heads (l : list string) (w : ttype * gostring) : Prop :=
  w = wsym ";" \/ exists K, In K l /\ In (rs K) property_words /\ w = wident (class_word st (rs K)).
Definition differ (K : string) (l : list string) : bool := forallb (fun K' => negb (runes_equal (rs K') (rs K))) (";"%string :: l).
Lemma property_up w : In w property_words -> to_upper (class_word st w) = w.
Proof. intros J. apply class_upper. apply in_or_app. right. apply in_or_app. now right. Qed.
Lemma semi_up : to_upper (rs ";") = rs ";".
Proof. apply upper_rs; reflexivity. Qed.
Lemma heads_not l w K t : heads l w -> word_of t = w -> differ K l = true -> upper_eq t K = false.
Proof.
  intros H W D. unfold upper_eq, eqs. rewrite value_w, W. unfold differ in D. cbn [forallb] in D. apply andb_true_iff in D as [D1 D2].
  destruct H as [->|(K' & J & Jp & ->)]; cbn [snd wsym wident].
  - rewrite semi_up. now apply negb_true_iff.
  - rewrite (property_up _ Jp). rewrite forallb_forall in D2. apply negb_true_iff. now apply D2.
Qed.
Lemma heads_on l w : heads l w -> ~ In w goes_on.
Proof. intros [->|(K & _ & _ & ->)]; apply win_not; reflexivity. Qed.
Lemma heads_itf l w t : heads l w -> word_of t = w -> p_some [sym ":"; sym "["] t = false.
Proof. intros H W. cbn [p_some]. rewrite !sym_w, W. destruct H as [->|(K & _ & _ & ->)]; reflexivity. Qed.
Lemma clause_head K c l w ws : In (rs K) property_words -> heads l w -> exists w' ws', write_clause st K c ++ w :: ws = w' :: ws' /\ heads (K :: l) w'.
Proof.
  intros J H. destruct c as [c|]; cbn [write_clause app]; eexists _, _; (split; [reflexivity|]).
  - right. exists K. split; [now left|auto].
  - destruct H as [->|(K' & J' & H)]; [now left|]. right. exists K'. split; [now right|exact H].
Qed.
Lemma clause_yes K t : In (rs K) property_words -> word_of t = wident (class_word st (rs K)) -> upper_eq t K = true.
Proof. intros J W. unfold upper_eq, eqs. rewrite value_w, W. cbn [snd wident]. rewrite (property_up _ J). now apply runes_equal_eq. Qed.

Lemma d_opt_expr {B} K e (k : option expr -> prog B) k2 sc s Q l w rest : In (rs K) property_words -> heads l w -> differ K l = true ->
  (forall t, wp (Bind (if upper_eq t K then Next ;;; e <- r_expr R ;; Ret (Some e) else Ret None) k) s Q -> wp (k2 t) s Q) ->
  in_scope sc s (write_clause st K (option_map write_expr e) ++ w :: rest) -> length (write_clause st K (option_map write_expr e)) <= m -> good_value sc e ->
  (forall e' s1, option_map bare_expr e' = option_map bare_expr e -> in_scope sc s1 (w :: rest) -> kept s s1 -> wp (k e') s1 Q) ->
  wp (Bind cur k2) s Q.
Proof.
  intros J H D K2 I L G Kk. destruct e as [e|]; cbn [option_map write_clause app length] in I, L.
  - eapply d_cur; [exact I|]. intros t Wt. apply K2. rewrite (clause_yes K t J Wt). fl.
    eapply d_next_kept; [exact I|apply app_nonempty; discriminate|]. intros t1 s1 I1 Hk1. fl.
    eapply (d_kept (r_expr R) _ s1 Q (fun e' s2 => bare_expr e' = bare_expr e /\ in_scope sc s2 (w :: rest))); [apply st_r_expr, recs_at_steady| |].
    + eapply d_expr; [exact I1|lia|exact G|apply after_expr; now apply heads_on in H|]. intros e' s2 E I2. apply wp_ret. auto.
    + intros e' s2 [E I2] Hk2. fl. apply Kk; [cbn [option_map]; now rewrite E|exact I2|eapply kept_trans; eauto].
  - eapply d_cur; [exact I|]. intros t Wt. apply K2. rewrite (heads_not l w K t H Wt D). fl. apply Kk; [reflexivity|exact I|apply kept_refl].
Qed.
Lemma d_member {B} her mem nm (k : option dref -> prog B) sc s Q ws : in_scope sc s ws -> to_lower (to_lower nm) = to_lower nm ->
  In (to_lower nm) (map to_lower (flat_map members_of mem)) -> (forall d s1, in_scope sc s1 ws -> wp (k (Some d)) s1 Q) -> wp (Bind (find_member_decl R her mem nm) k) s Q.
Proof.
  intros I Lo J K. destruct (member_found mem (to_lower nm) Lo J) as (d & E). destruct (sc_context _ _ _ _ I) as (o & Eo & Ko).
  unfold find_member_decl. apply wp_bind. eapply wp_run.
  { cbn [run]. rewrite fuel_level. cbn [find_member sections]. rewrite E. reflexivity. }
  apply K. eapply in_scope_keep; [exact I|exact Eo|exact Eo|apply same_maps_eq; reflexivity|eexists; reflexivity|reflexivity|reflexivity|reflexivity|apply stands_heap, I].
Qed.
Lemma d_accessor {B} K rd her mem (k : option identref -> prog B) sc s Q l w rest : In (rs K) property_words -> heads l w -> differ K l = true ->
  in_scope sc s (write_clause st K (option_map (fun r => [wident (i_name (ir_ident r))]) rd) ++ w :: rest) ->
  Forall (a_member mem) (match rd with None => [] | Some r => [i_name (ir_ident r)] end) ->
  (forall rd' s1, option_map bare_ref rd' = option_map bare_ref rd -> in_scope sc s1 (w :: rest) -> wp (k rd') s1 Q) ->
  wp (Bind (parse_accessor R K her mem) k) s Q.
Proof.
  intros J H D I F Kk. unfold parse_accessor. fl. destruct rd as [r|]; cbn [option_map write_clause app] in I.
  - eapply d_cur; [exact I|]. intros t Wt. fl. rewrite (clause_yes K t J Wt). fl. eapply d_next_tok; [exact I|]. intros t1 s1 W1 I1. fl.
    apply Forall_inv in F as [Lo Jm]. rewrite value_w, W1. cbn [snd wident]. eapply d_member; [exact I1|exact Lo|exact Jm|]. intros d s2 I2. fl.
    eapply d_next; [exact I2|discriminate|]. intros t2 s3 I3. fl. apply Kk; [|exact I3]. cbn [option_map]. unfold bare_ref. cbn [ir_ident].
    now rewrite (new_ident_bare _ _ W1).
  - eapply d_cur; [exact I|]. intros t Wt. fl. rewrite (heads_not l w K t H Wt D). fl. apply Kk; [reflexivity|exact I].
Qed.
Definition bare_stored (x : option cstored) : option cstored := match x with Some (StoredIdent r) => Some (StoredIdent (bare_ref r)) | x => x end.
Lemma d_stored {B} x her mem (k : option cstored -> prog B) sc s Q l w rest : heads l w -> differ "STORED" l = true ->
  in_scope sc s (write_clause st "STORED" (option_map (write_stored st) x) ++ w :: rest) ->
  match x with Some (StoredIdent r) => ~ In (to_lower (i_name (ir_ident r))) (map rs ["true"; "false"]%string) | _ => True end ->
  Forall (a_member mem) (match x with Some (StoredIdent r) => [i_name (ir_ident r)] | _ => [] end) ->
  (forall x' s1, bare_stored x' = bare_stored x -> in_scope sc s1 (w :: rest) -> wp (k x') s1 Q) ->
  wp (Bind (parse_stored R her mem) k) s Q.
Proof.
  intros H D I G F Kk. unfold parse_stored. fl. assert (J : In (rs "STORED") property_words) by (cbn; auto 10).
  destruct x as [x|]; cbn [option_map write_clause write_stored app] in I.
  - eapply d_cur; [exact I|]. intros t Wt. fl. rewrite (clause_yes _ t J Wt). fl. eapply d_next_tok; [exact I|]. intros t1 s1 W1 I1. fl.
    rewrite value_w, W1. cbn [snd wident]. destruct x as [r|b].
    + apply Forall_inv in F as [Lo Jm]. set (n := i_name (ir_ident r)) in *.
      assert (N : forall x, In x ["true"; "false"]%string -> eqs (to_lower n) x = false).
      { intros x Jx. unfold eqs. destruct (runes_equal (to_lower n) (rs x)) eqn:E; [|reflexivity]. exfalso. apply G. apply runes_equal_eq in E. rewrite E. now apply in_map. }
      rewrite (N "true"%string), (N "false"%string) by (cbn; auto). fl. eapply d_member; [exact I1|now rewrite !Lo|now rewrite Lo|]. intros d s2 I2. fl.
      eapply d_next; [exact I2|discriminate|]. intros t2 s3 I3. fl. apply Kk; [|exact I3]. cbn [bare_stored]. unfold bare_ref. cbn [ir_ident].
      now rewrite (new_ident_bare _ _ W1).
    + rewrite (bool_lower st). destruct b; ev; fl; (eapply d_next; [exact I1|discriminate|]; intros t2 s2 I2; fl; now apply Kk).
  - eapply d_cur; [exact I|]. intros t Wt. fl. rewrite (heads_not l w _ t H Wt D). fl. apply Kk; [reflexivity|exact I].
Qed.

(** ** Properties *)
Definition write_itf (x : option (list formalparm) * typeid) : words :=
  match fst x with None => [] | Some l => wsym "[" :: semicolons (map (write_parm st) l) ++ [wsym "]"] end ++ wsym ":" :: write_typeid (snd x).
Definition good_itf (x : option (list formalparm) * typeid) sc : Prop :=
  match fst x with
  | None => True
  | Some l => l <> [] /\ in_turn (good_parm st) (fun p => declare (parm_names p)) (wsym ";") (wsym "]") l (enter sc)
  end /\ good_typeid sc (snd x).
Definition bare_itf (x : option (list formalparm) * typeid) := (option_map (map bare_parm) (fst x), bare_tid (snd x)).
Lemma d_itf_rest {B} ti p (k : option (list formalparm) * typeid -> prog B) sc s Q rest : in_scope sc s (wsym ":" :: write_typeid ti ++ rest) -> rest <> [] -> good_typeid sc ti ->
  (forall r s1, bare_tid r = bare_tid ti -> in_scope sc s1 rest -> wp (k (p, r)) s1 Q) ->
  wp (Bind (expect (sym ":") ;;; Next ;;; r <- parse_type_id ;; Ret (p, r)) k) s Q.
Proof.
  intros I N G K. fl. eapply d_expect; [exact I|wd|]. intros t1 _. fl. eapply d_next; [exact I|discriminate|]. intros t2 s1 I1. fl.
  eapply d_type_id; [exact I1|exact N|exact G|]. intros r s2 E I2. fl. now apply K.
Qed.
Lemma ev_itf_scope : evolves (l <- parse_formal_parameters R "[" "]" ;; expect (sym ":") ;;; Next ;;; r <- parse_type_id ;; Ret (Some l, r)).
Proof.
  pose proof (recs_at_evolve m) as RE. apply evolves_bind; [now apply ev_parse_formal_parameters|]. intros l. apply evolves_bind; [apply evolves_expect|]. intros _.
  apply evolves_bind; [apply evolves_next|]. intros _. apply evolves_bind; [apply ev_parse_type_id|]. intros r. apply evolves_ret.
Qed.
Lemma d_itf {B} x (k : option (list formalparm) * typeid -> prog B) sc s Q w rest : length (write_itf x) <= m -> in_scope sc s (write_itf x ++ w :: rest) -> good_itf x sc ->
  (forall x' s1, bare_itf x' = bare_itf x -> in_scope (declare (parms_names (fst x)) sc) s1 (w :: rest) -> wp (k x') s1 Q) ->
  wp (Bind (parse_property_interface R) k) s Q.
Proof.
  intros L I [Gp Gt] K. destruct x as [[l|] ti]; unfold write_itf in I, L; cbn [fst snd app] in *.
  - destruct Gp as [NE Gp]. rewrite <- !app_assoc in I. cbn [app] in I. cbn [length] in L. rewrite !app_length in L. cbn [length] in L.
    unfold parse_property_interface. cbv zeta. fl. eapply (d_is text sc s Q (sym "[") true); [exact I|wd|]. fl.
    eapply (d_scoped text _ _ sc (declare (flat_map parm_names l) (enter sc)) s Q (fun x' => bare_itf x' = bare_itf (Some l, ti)) _ (w :: rest));
      [exact I|apply ev_itf_scope| |].
    + intros s1 I1. apply wp_last. fl. eapply (d_parms_by text st m BT "]"%string l); [now right|lia| |exact I1|exact NE|exact Gp|].
      { discriminate. }
      intros l' s2 E I2. eapply (d_itf_rest ti); [exact I2|discriminate|exact Gt|]. intros r s3 Er I3. apply wp_ret. split; [|exact I3].
      unfold bare_itf. cbn [fst snd option_map]. now rewrite E, Er.
    + intros x' s3 E I3. apply K; [exact E|]. eapply in_scope_le; [apply leave_enter|exact I3].
  - unfold parse_property_interface. cbv zeta. fl. eapply (d_is text sc s Q (sym "[") false); [exact I|wd|]. eapply (d_itf_rest ti); [exact I|discriminate|exact Gt|].
    intros r s1 Er I1. apply K; [unfold bare_itf; cbn [fst snd option_map]; now rewrite Er|]. eapply in_scope_le; [apply declare_nil'|exact I1].
Qed.
Lemma w_cprop i itf idx rd wr sd df im par : write_cprop st (ClassProp i itf idx rd wr sd df im par) =
  wkey "PROPERTY" :: wident (i_name i) :: match itf with None => [] | Some x => write_itf x end ++ write_clauses st idx rd wr sd df ++ [wsym ";"].
Proof. destruct itf as [[[|] ?]|]; reflexivity. Qed.
Lemma g_cprop i itf idx rd wr sd df im par sc a : good_cprop st (ClassProp i itf idx rd wr sd df im par) sc a =
  (match itf with None => True | Some x => good_itf x sc end /\ good_clauses sc idx sd df /\ im = None).
Proof. destruct itf as [[[|] ?]|]; reflexivity. Qed.
Lemma n_cprop i itf idx rd wr sd df im par : cprop_names (ClassProp i itf idx rd wr sd df im par) =
  match itf with None => [] | Some x => parms_names (fst x) end.
Proof. destruct itf as [[[|] ?]|]; reflexivity. Qed.
Definition bare_default (x : option cdefault) : option cdefault := match x with Some (DefaultValue e) => Some (DefaultValue (bare_expr e)) | x => x end.
Lemma b_cprop i itf idx rd wr sd df im par : bare_cprop (ClassProp i itf idx rd wr sd df im par) =
  ClassProp (bare_ident i) (option_map bare_itf itf) (option_map bare_expr idx) (option_map bare_ref rd) (option_map bare_ref wr)
    (bare_stored sd) (bare_default df) (option_map bare_tid im) None.
Proof. destruct itf as [[[|] ?]|]; reflexivity. Qed.
Definition after_prop (w : ttype * gostring) : Prop := w = wkey "PROPERTY" \/ section_stop w.
Lemma property_here her s mem nm : orphan her s -> exists r, find_property (S m) (s_heap s) her (Some mem) nm true = Some r.
Proof. intros O. cbn [find_property]. rewrite (orphan_parent _ _ O). destruct (prop_in_sections _ _); eauto. Qed.
Definition default_value (df : option cdefault) : option expr := match df with Some (DefaultValue e) => Some e | _ => None end.
Lemma cprop_item her mem pre x : length (write_cprop st x) <= m -> Forall (a_member mem) (accessors x) ->
  item text (write_cprop st) bare_cprop (good_cprop st) (fun p => declare (cprop_names p)) (class_props_step R her mem) (orphan her) after_prop pre x.
Proof.
  intros L Fm B k acc sc s Q after rest _ O I G Fa K.
  eapply (d_kept (class_props_step R her mem acc) k s Q (fun r s1 => exists x', r = Some (acc ++ [x']) /\ bare_cprop x' = bare_cprop x /\ in_scope (declare (cprop_names x) sc) s1 (after :: rest)));
    [apply st_class_props_step, recs_at_steady| |].
  2:{ intros r s1 (x' & -> & E & I1) Hk. apply K; [exact E|eapply orphan_kept; eauto|exact I1]. }
  set (Q' := fun (r : option (list cprop)) s1 => _). clear K k Q B.
  assert (K : forall x' s1, bare_cprop x' = bare_cprop x -> in_scope (declare (cprop_names x) sc) s1 (after :: rest) -> Q' (Some (acc ++ [x'])) s1) by (intros; unfold Q'; eauto).
  clearbody Q'. destruct x as [i itf idx rd wr sd df im par]. rewrite w_cprop in *. rewrite g_cprop in G. rewrite n_cprop in *. rewrite b_cprop in K.
  destruct G as (Gi & (Gx & Gs & Gd) & ->). cbn [accessors] in Fm. apply Forall_app in Fm as [Fr Fm]. apply Forall_app in Fm as [Fw Fs].
  cbn [app length] in I, L. rewrite !app_length in L. rewrite <- !app_assoc in I. cbn [app] in I.
  unfold class_props_step. fl. eapply (d_is text sc s _ property_break false); [exact I|intros t W; rewrite property_break_w, W; unfold pb; rewrite vis_ascii; reflexivity|]. fl.
  unfold parse_class_property. fl. eapply d_expect; [exact I|wd|]. intros t1 _. fl. eapply d_next_tok_kept; [exact I|]. intros t0 s1 W0 I1 Hk1. fl.
  eapply d_traced; [exact I1|]. fl.
  unfold write_clauses in I1, L. rewrite <- !app_assoc in I1. rewrite !app_length in L.
  change (write_clause st "DEFAULT" match df with Some (DefaultValue e) => Some (write_expr e) | _ => None end)
    with (write_clause st "DEFAULT" match df with Some (DefaultValue e) => Some (write_expr e) | _ => None end) in *.
  set (wd := write_clause st "DEFAULT" _) in *. set (ws := write_clause st "STORED" _) in *. set (ww := write_clause st "WRITE" _) in *.
  set (wr' := write_clause st "READ" _) in *. set (wi := write_clause st "INDEX" _) in *.
  destruct (clause_head "DEFAULT" (match df with Some (DefaultValue e) => Some (write_expr e) | _ => None end) [] (wsym ";") (after :: rest)) as (w5 & ls5 & E5 & H5); [cbn; auto 10|now left|]. fold wd in E5.
  destruct (clause_head "STORED" (option_map (write_stored st) sd) _ w5 ls5 ltac:(cbn; auto 10) H5) as (w4 & ls4 & E4 & H4). fold ws in E4.
  destruct (clause_head "WRITE" (option_map (fun r => [wident (i_name (ir_ident r))]) wr) _ w4 ls4 ltac:(cbn; auto 10) H4) as (w3 & ls3 & E3 & H3). fold ww in E3.
  destruct (clause_head "READ" (option_map (fun r => [wident (i_name (ir_ident r))]) rd) _ w3 ls3 ltac:(cbn; auto 10) H3) as (w2 & ls2 & E2 & H2). fold wr' in E2.
  destruct (clause_head "INDEX" (option_map write_expr idx) _ w2 ls2 ltac:(cbn; auto 10) H2) as (w1 & ls1 & E1 & H1). fold wi in E1.
  rewrite E5, E4, E3, E2 in I1.
  assert (Main : forall itf' s2, option_map bare_itf itf' = option_map bare_itf itf -> kept s s2 ->
    in_scope (declare match itf with None => [] | Some x => parms_names (fst x) end sc) s2 (wi ++ w2 :: ls2) ->
    wp (ti <- cur ;;
    a <- (idx <- (if upper_eq ti "INDEX" then Next ;;; e <- r_expr R ;; Ret (Some e) else Ret None) ;;
    par <- OnHeap (fun _ h => match find_property (r_fuel R) h her (Some mem) (raw t0) true with
                              | None => HStuck
                              | Some r => HOk r h
                              end) ;;
    rd <- parse_accessor R "READ" her mem ;;
    wr <- parse_accessor R "WRITE" her mem ;;
    st <- parse_stored R her mem ;;
    td <- cur ;;
    df <- (if upper_eq td "DEFAULT" then Next ;;; e <- r_expr R ;; Ret (Some (DefaultValue e))
           else if upper_eq td "NODEFAULT" then Ret (Some NoDefault)
           else Ret None) ;;
    tm <- cur ;;
    im <- (if upper_eq tm "IMPLEMENTS" then r <- parse_type_id ;; Ret (Some r) else Ret None) ;;
    Ret (if inherits_from (ClassProp (new_ident t0) itf' idx rd wr st df im None) par
         then ClassProp (new_ident t0) itf' idx rd wr st df im par
         else ClassProp (new_ident t0) itf' idx rd wr st df im None)) ;;
    cur ;;;
    a0 <- (b2 <- is (sym ";") ;;
    (if b2 : bool then Next ;;; Ret tt else Ret tt) ;;;
    Ret (Some (acc ++ [a]))) ;; Ret a0) s2 Q').
  { intros itf' s2 Ei Hk2 I2. set (sc' := declare _ sc) in *.
    eapply (d_opt_expr "INDEX" idx); [cbn; auto 10|exact H2|reflexivity|intros t Ht; fl; exact Ht|exact I2|fold wi; lia|exact Gx|]. intros idx' s3 Ex I3 Hk3. fl.
    destruct (property_here her s3 mem (raw t0)) as (pr & Ep); [eapply orphan_kept; [|exact O]; eapply kept_trans; [exact Hk2|exact Hk3]|].
    apply wp_bind. eapply wp_run; [cbn [run]; rewrite fuel_level, Ep; reflexivity|]. fl. replace (with_heap (s_heap s3) s3) with s3 by (now destruct s3).
    rewrite <- E2 in I3. eapply (d_accessor "READ" rd); [cbn; auto 10|exact H3|reflexivity|exact I3|exact Fr|]. intros rd' s4 Er I4. fl.
    rewrite <- E3 in I4. eapply (d_accessor "WRITE" wr); [cbn; auto 10|exact H4|reflexivity|exact I4|exact Fw|]. intros wr2 s5 Ewr I5. fl.
    rewrite <- E4 in I5. eapply (d_stored sd); [exact H5|reflexivity|exact I5|exact Gs|exact Fs|]. intros sd' s6 Es I6. fl.
    rewrite <- E5 in I6.
    assert (Fin : forall df' s7, bare_default df' = bare_default df -> in_scope sc' s7 (wsym ";" :: after :: rest) ->
      wp (tm <- cur ;;
    a <- (im <- (if upper_eq tm "IMPLEMENTS" then r <- parse_type_id ;; Ret (Some r) else Ret None) ;;
    Ret (if inherits_from (ClassProp (new_ident t0) itf' idx' rd' wr2 sd' df' im None) pr
         then ClassProp (new_ident t0) itf' idx' rd' wr2 sd' df' im pr
         else ClassProp (new_ident t0) itf' idx' rd' wr2 sd' df' im None)) ;;
    cur ;;;
    a0 <- (b2 <- is (sym ";") ;;
    (if b2 : bool then Next ;;; Ret tt else Ret tt) ;;;
    Ret (Some (acc ++ [a]))) ;; Ret a0) s7 Q').
    { intros df' s7 Ed I7. eapply d_cur; [exact I7|]. intros tm Wm. fl. rewrite (heads_not [] (wsym ";") "IMPLEMENTS" tm) by (reflexivity || exact Wm || now left). fl.
      eapply d_cur; [exact I7|]. intros t8 _. fl. eapply (d_is text sc' s7 _ (sym ";") true); [exact I7|intros t W; rewrite sym_w, W; reflexivity|]. fl.
      eapply d_next; [exact I7|discriminate|]. intros t9 s8 I8. fl. apply wp_ret. apply K; [|exact I8].
      assert (Bp : forall q, bare_cprop (ClassProp (new_ident t0) itf' idx' rd' wr2 sd' df' None q) =
        ClassProp (bare_ident i) (option_map bare_itf itf) (option_map bare_expr idx) (option_map bare_ref rd) (option_map bare_ref wr) (bare_stored sd) (bare_default df) (option_map bare_tid None) None).
      { intros q. rewrite b_cprop. now rewrite (new_ident_bare _ _ W0), Ei, Ex, Er, Ewr, Es, Ed. }
      destruct (inherits_from _ _); apply Bp. }
    destruct df as [[e|]|]; [|contradiction|].
    - unfold wd in I6, L. cbn [write_clause app length] in I6, L. eapply d_cur; [exact I6|]. intros td Wd. fl. rewrite (clause_yes "DEFAULT" td) by (exact Wd || (cbn; auto 10)). fl.
      eapply d_next; [exact I6|apply app_nonempty; discriminate|]. intros t8 s7 I7. fl. eapply d_expr; [exact I7|lia|exact Gd|apply after_expr, win_not; reflexivity|].
      intros e' s8 Ee I8. fl. apply Fin; [cbn [bare_default]; now rewrite Ee|exact I8].
    - unfold wd in I6. cbn [write_clause app] in I6. eapply d_cur; [exact I6|]. intros td Wd. fl.
      rewrite (heads_not [] (wsym ";") "DEFAULT" td), (heads_not [] (wsym ";") "NODEFAULT" td) by (reflexivity || exact Wd || now left). fl. now apply Fin. }
  assert (NE : match itf with None => [] | Some x => write_itf x end ++ wi ++ w2 :: ls2 <> []) by (apply app_nonempty, app_nonempty; discriminate).
  eapply d_next_kept; [exact I1|exact NE|]. intros t2 s2 I2 Hk2. fl. clear NE.
  assert (Hk : kept s s2) by (eapply kept_trans; eauto).
  destruct itf as [x|].
  - cbn [option_map] in *. rewrite E1 in I2. pose proof I2 as I2'.
    assert (exists v vs, write_itf x = v :: vs /\ (v = wsym ":" \/ v = wsym "[")) as (v & vs & Ev & Hv).
    { unfold write_itf. destruct x as [[l|] ti]; cbn [fst app]; eexists _, _; (split; [reflexivity|auto]). }
    rewrite Ev in I2'. cbn [app] in I2'. eapply (d_is text sc s2 _ (p_some [sym ":"; sym "["]) true); [exact I2'| |].
    { intros t W. cbn [p_some]. rewrite !sym_w, W. destruct Hv as [->| ->]; reflexivity. }
    fl. eapply (d_kept (parse_property_interface R) _ s2 _ (fun x' s3 => bare_itf x' = bare_itf x /\ in_scope (declare (parms_names (fst x)) sc) s3 (w1 :: ls1)));
      [apply st_parse_property_interface, recs_at_steady| |].
    + eapply (d_itf x); [lia|exact I2|exact Gi|]. intros x' s3 E I3. apply wp_ret. auto.
    + intros x' s3 [E I3] Hk3. fl. rewrite <- E1 in I3. apply (Main (Some x') s3); cbn [option_map].
      * now rewrite E.
      * eapply kept_trans; eauto.
      * exact I3.
  - cbn [app] in I2. rewrite E1 in I2. eapply (d_is text sc s2 _ (p_some [sym ":"; sym "["]) false); [exact I2|intros t W; eapply heads_itf; eauto|]. fl.
    apply (Main None s2); [reflexivity|exact Hk|]. rewrite E1. eapply in_scope_le; [apply declare_nil'|exact I2].
Qed.
Lemma d_cprops {B} her mem ps (k : list cprop -> prog B) sc s Q w rest : length (flat_map (write_cprop st) ps) <= m -> section_stop w ->
  (ps <> [] -> orphan her s) -> Forall (fun p => Forall (a_member mem) (accessors p)) ps ->
  in_scope sc s (flat_map (write_cprop st) ps ++ w :: rest) ->
  in_turn (good_cprop st) (fun p => declare (cprop_names p)) weof weof ps sc ->
  (forall ps' s1, map bare_cprop ps' = map bare_cprop ps -> in_scope (declare (flat_map cprop_names ps) sc) s1 (w :: rest) -> wp (k ps') s1 Q) ->
  wp (Bind (parse_class_property_list R her mem) k) s Q.
Proof.
  intros L Hw O F I G K. unfold parse_class_property_list.
  assert (Tw : forall t, word_of t = w -> property_break t = true) by (intros t Wt; rewrite property_break_w, Wt; now apply stop_pb).
  destruct (first_word (flat_map (write_cprop st) ps) w rest) as (v & vs & Ev). pose proof I as I0. rewrite Ev in I0. eapply d_traced; [exact I0|].
  destruct ps as [|x ps].
  - rewrite fuel_level. unfold until. cbn [loop]. unfold until_step at 1. fl. unfold class_props_step. fl. cbn [flat_map app] in I.
    eapply (d_is text sc s Q property_break true); [exact I|exact Tw|]. fl. eapply d_cur; [exact I|]. intros t1 _. apply K; [reflexivity|].
    eapply in_scope_le; [apply declare_nil'|exact I].
  - eapply (d_run text (write_cprop st) bare_cprop (good_cprop st) (fun p => declare (cprop_names p)) (class_props_step R her mem) property_break w (orphan her) after_prop
      Tw ltac:(now right) _ ps x []); [|reflexivity|apply O; discriminate| | |exact I|exact G|].
    + rewrite fuel_level. pose proof (run_count (write_cprop st) (x :: ps)) as C. cbn [length] in *.
      assert (forall x0, In x0 (x :: ps) -> write_cprop st x0 <> []) as C0; [|specialize (C C0); lia].
      intros [] _. rewrite w_cprop. discriminate.
    + intros p y q E. assert (J : In y (x :: ps)) by (rewrite E; apply in_or_app; right; now left). apply cprop_item.
      * pose proof (run_length (write_cprop st) y (x :: ps) J). lia.
      * rewrite Forall_forall in F. now apply F.
    + intros [] _. rewrite w_cprop. eexists _, _. split; [reflexivity|]. split; [now left|].
      intros t Wt. rewrite property_break_w, Wt. unfold pb. now rewrite vis_ascii.
    + intros l' s1 E _ I1. cbn [app]. eapply d_cur; [exact I1|]. intros t1 _. apply K; [exact E|]. eapply in_scope_le; [apply behind_declare|exact I1].
Qed.

(** ** Sections *)
Lemma prop_head ps w rest : section_stop w -> exists v vs, flat_map (write_cprop st) ps ++ w :: rest = v :: vs /\ (v = wkey "PROPERTY" \/ section_stop v) /\ (v = wkey "END" -> ps = []).
Proof.
  intros Hw. destruct ps as [|[] ps]; cbn [flat_map app]; [eexists _, _; split; [reflexivity|auto]|]. rewrite w_cprop. cbn [app].
  eexists _, _. split; [reflexivity|]. split; [now left|discriminate].
Qed.
Lemma method_head ms w rest : (w = wkey "PROPERTY" \/ section_stop w) ->
  exists v vs, flat_map (write_cmethod st) ms ++ w :: rest = v :: vs /\ fb v = true /\ (v = wkey "END" -> ms = [] /\ w = wkey "END").
Proof.
  intros Hw. destruct ms as [|x ms]; cbn [flat_map app].
  - eexists _, _. split; [reflexivity|]. split; [|auto]. unfold fb, mb. destruct Hw as [->|Hw]; [reflexivity|]. rewrite (stop_pb _ Hw). now rewrite !orb_true_r.
  - destruct (cmethod_first st x) as (v & vs & -> & J). cbn [app]. eexists _, _. split; [reflexivity|].
    assert (X : fb v = true /\ v <> wkey "END").
    { unfold method_words_of in J. repeat (destruct J as [<-|J]; [split; [reflexivity|discriminate]|]). destruct J. }
    split; [apply X|]. intros E. now apply X in E.
Qed.
Lemma field_head fs w rest : exists v vs, flat_map (fun f => write_cfield st f ++ [wsym ";"]) fs ++ w :: rest = v :: vs /\ (v = wkey "END" -> fs = [] /\ w = wkey "END").
Proof.
  destruct fs as [|[[|i [|j ids]] t] fs]; cbn [flat_map app]; [eexists _, _; split; [reflexivity|auto]| | |];
    unfold write_cfield, write_idents; cbn [map commas app]; eexists _, _; (split; [reflexivity|discriminate]).
Qed.
Lemma w_csection v fs ms ps : write_csection st (ClassSection v fs ms ps) =
  write_visibility st v ++ flat_map (fun f => write_cfield st f ++ [wsym ";"]) fs ++ flat_map (write_cmethod st) ms ++ flat_map (write_cprop st) ps.
Proof.
  cbn [write_csection]. f_equal. f_equal. apply flat_map_ext. intros [ids t]. unfold write_cfield. rewrite <- app_assoc. reflexivity.
Qed.
Lemma vis_upper w : In w visibility_words -> to_upper (class_word st w) = w.
Proof. intros J. apply class_upper. apply in_or_app. now left. Qed.
Definition vis_words (v : visibility) : list gostring :=
  match v with
  | CvDefault => []
  | CvPrivate => [rs "PRIVATE"]
  | CvProtected => [rs "PROTECTED"]
  | CvPublic => [rs "PUBLIC"]
  | CvPublished => [rs "PUBLISHED"]
  end.
Lemma vis_first v : write_visibility st v = map (fun w => wident (class_word st w)) (vis_words v).
Proof. now destruct v. Qed.
Lemma vis_ok v w : In w (vis_words v) -> to_upper (class_word st w) = w /\ In w visibility_words.
Proof. intros J. assert (In w visibility_words) by (destruct v; cbn in J |- *; repeat destruct J as [<-|J]; auto 10; destruct J). split; [now apply vis_upper|assumption]. Qed.
Lemma d_visibility {B} v t0 (k : visibility -> prog B) sc s Q w ws n : in_scope sc s (write_visibility st v ++ w :: ws) -> word_of t0 = wident n ->
  (v <> CvDefault -> vis_words v = [to_upper n]) -> (v = CvDefault -> ~ In (to_upper n) visibility_words) ->
  (forall s1, in_scope sc s1 (w :: ws) -> kept s s1 -> wp (k v) s1 Q) ->
  wp (Bind (if upper_eq t0 "PRIVATE" then Next ;;; Ret CvPrivate
            else if upper_eq t0 "PROTECTED" then Next ;;; Ret CvProtected
            else if upper_eq t0 "PUBLIC" then Next ;;; Ret CvPublic
            else if upper_eq t0 "PUBLISHED" then Next ;;; Ret CvPublished
            else Ret CvDefault) k) s Q.
Proof.
  intros I W Hn Hd K. unfold upper_eq. rewrite value_w, W. cbn [snd wident].
  destruct v; cbn [write_visibility app] in I.
  1:{ specialize (Hd eq_refl). assert (N : forall x, In (rs x) visibility_words -> eqs (to_upper n) x = false).
    { intros x J. unfold eqs. destruct (runes_equal (to_upper n) (rs x)) eqn:E; [|reflexivity]. apply runes_equal_eq in E. rewrite E in Hd. contradiction. }
    rewrite !N by (cbn; auto 10). fl. apply K; [exact I|apply kept_refl]. }
  all: specialize (Hn ltac:(discriminate)); injection Hn as <-; ev; fl; (eapply d_next_kept; [exact I|discriminate|]); intros t1 s1 I1 Hk; fl; now apply K.
Qed.

Definition begins_well (x : csection) : Prop := match x with ClassSection v fs _ _ => v = CvDefault -> fs <> [] end.
Definition section_reads (pre : list csection) (x : csection) : Prop :=
  match x with ClassSection v fs ms ps => Forall (fun p => Forall (a_member (pre ++ [ClassSection v fs ms []])) (accessors p)) ps end.
Definition section_props (x : csection) : list cprop := match x with ClassSection _ _ _ ps => ps end.
(** A section begins with its visibility or with the name of a field. *)
Lemma section_first v fs ms ps sc : (v = CvDefault -> fs <> []) -> good_csection st (ClassSection v fs ms ps) sc weof ->
  exists n, (forall rest, exists ws, write_csection st (ClassSection v fs ms ps) ++ rest = wident n :: ws) /\
    (v <> CvDefault -> vis_words v = [to_upper n]) /\ (v = CvDefault -> ~ In (to_upper n) visibility_words).
Proof.
  intros Hb [G _]. rewrite w_csection. destruct (vis_words v) as [|x [|y l]] eqn:E.
  - assert (v = CvDefault) as -> by (now destruct v). destruct fs as [|[[|i ids] t] fs]; [now destruct Hb|destruct G as [[[] _] _]|].
    destruct G as [[N _] _]. exists (i_name i). split; [|split; [congruence|auto]]. intros rest. cbn [write_visibility flat_map app].
    unfold write_cfield, write_idents. destruct ids; cbn [map commas app]; eauto.
  - destruct (vis_ok v x) as [Ux Jx]; [rewrite E; now left|]. exists (class_word st x). rewrite vis_first, E. cbn [map app]. rewrite Ux.
    split; [eauto|]. split; [auto|]. intros ->. discriminate.
  - exfalso. destruct v; discriminate.
Qed.
Lemma csection_item her HP pre x : length (write_csection st x) <= m -> begins_well x -> section_reads pre x -> (section_props x <> [] -> HP = true) ->
  item text (write_csection st) bare_csection (good_csection st) (fun x => declare (csection_names x)) (class_sections_step R her)
    (fun s => HP = true -> orphan her s) section_stop pre x.
Proof.
  intros L Hb Hr Hp B k acc sc s Q after rest Ba O I G Fa K.
  eapply (d_kept (class_sections_step R her acc) k s Q (fun r s1 => exists x', r = Some (acc ++ [x']) /\ bare_csection x' = bare_csection x /\ in_scope (declare (csection_names x) sc) s1 (after :: rest)));
    [apply st_class_sections_step, recs_at_steady| |].
  2:{ intros r s1 (x' & -> & E & I1) Hk. apply K; [exact E|intros H; eapply orphan_kept; eauto|exact I1]. }
  set (Q' := fun (r : option (list csection)) s1 => _). clear K k Q B.
  assert (K : forall x' s1, bare_csection x' = bare_csection x -> in_scope (declare (csection_names x) sc) s1 (after :: rest) -> Q' (Some (acc ++ [x'])) s1) by (intros; unfold Q'; eauto).
  clearbody Q'. destruct x as [v fs ms ps]. cbn [begins_well section_reads section_props] in Hb, Hr, Hp.
  destruct (section_first v fs ms ps sc Hb G) as (n & Fn & Hv & Hd). destruct (Fn (after :: rest)) as (ws0 & Ew).
  destruct G as (Gf & Gm & Gp). pose proof I as I0. rewrite Ew in I0.
  unfold class_sections_step. fl. unfold parse_class_member_section. eapply d_traced; [exact I0|]. fl.
  eapply d_expect; [exact I0|wd|]. intros t0 W0. fl.
  rewrite w_csection in I, L. rewrite !app_length in L. rewrite <- !app_assoc in I.
  destruct (prop_head ps after rest Fa) as (w1 & ws1 & E1 & H1 & N1).
  destruct (method_head ms w1 ws1 H1) as (w2 & ws2 & E2 & H2 & N2).
  destruct (field_head fs w2 ws2) as (w3 & ws3 & E3 & N3).
  rewrite E1, E2, E3 in I.
  eapply d_visibility; [exact I|exact W0|exact Hv|exact Hd|]. intros s1 I1 Hk1. fl.
  destruct (weqb w3 (wkey "END")) eqn:Ee.
  - apply weqb_eq in Ee. destruct (N3 Ee) as [-> Ee2]. destruct (N2 Ee2) as [-> Ee1]. specialize (N1 Ee1). subst ps.
    cbn [flat_map app] in *. assert (w3 :: ws3 = after :: rest) as Ea by congruence. 
    eapply (d_is text sc s1 _ (kw "END") true); [exact I1|intros t W; rewrite kw_w, W, Ee; reflexivity|]. fl.
    eapply d_cur; [exact I1|]. intros t1 _. fl. apply wp_ret. apply K; [reflexivity|]. rewrite <- Ea. eapply in_scope_le; [apply declare_nil'|exact I1].
  - eapply (d_is text sc s1 _ (kw "END") false); [exact I1|intros t W; rewrite kw_w, W; exact Ee|]. fl. rewrite <- E3 in I1.
    eapply (d_kept (parse_class_field_list R) _ s1 _ (fun fs' s2 => map bare_cfield fs' = map bare_cfield fs /\ in_scope (declare (flat_map cfield_names fs) sc) s2 (w2 :: ws2)));
      [apply st_parse_class_field_list, recs_at_steady| |].
    { eapply (d_cfields text st m BT fs); [lia|exact H2|exact I1|exact Gf|]. intros fs' s2 E I2. apply wp_ret. auto. }
    intros fs' s2 [Ef I2] Hk2. fl. rewrite <- E2 in I2.
    eapply (d_kept (parse_class_method_list R) _ s2 _ (fun ms' s3 => map bare_cmethod ms' = map bare_cmethod ms /\ in_scope (declare (flat_map cmethod_names ms) (declare (flat_map cfield_names fs) sc)) s3 (w1 :: ws1)));
      [apply st_parse_class_method_list, recs_at_steady| |].
    { eapply (d_cmethods text st m BT ms); [lia|exact H1|exact I2|exact Gm|]. intros ms' s3 E I3. apply wp_ret. auto. }
    intros ms' s3 [Em I3] Hk3. fl. rewrite <- E1 in I3.
    assert (Bs : forall ps' ps'', map bare_cprop ps' = map bare_cprop ps'' -> bare_csection (ClassSection v fs' ms' ps') = bare_csection (ClassSection v fs ms ps'')).
    { intros ps' ps'' E. change (ClassSection v (map bare_cfield fs') (map bare_cmethod ms') (map bare_cprop ps') = ClassSection v (map bare_cfield fs) (map bare_cmethod ms) (map bare_cprop ps'')).
      now rewrite Ef, Em, E. }
    eapply (d_cprops her (acc ++ [ClassSection v fs' ms' []]) ps); [lia|exact Fa| | |exact I3|exact Gp|].
    { intros NE. eapply orphan_kept; [|apply O, Hp, NE]. eapply kept_trans; [exact Hk1|]. eapply kept_trans; eauto. }
    { eapply Forall_impl; [|exact Hr]. intros p Fp. eapply Forall_impl; [|exact Fp]. intros a [Lo J]. split; [exact Lo|].
      rewrite (members_of_bare (acc ++ [ClassSection v fs' ms' []]) (pre ++ [ClassSection v fs ms []])); [exact J|].
      rewrite !map_app, Ba. f_equal. cbn [map]. f_equal. now apply Bs. }
    intros ps' s4 Ep I4. fl. eapply d_cur; [exact I4|]. intros t1 _. fl. apply wp_ret. apply K; [now apply Bs|].
    cbn [csection_names]. eapply in_scope_le; [|exact I4]. eapply scope_le_trans; [apply declare_app|apply declare_app].
Qed.
Lemma accessible_at p : forall before x q, accessible before (p ++ x :: q) -> section_reads (before ++ p) x.
Proof.
  induction p as [|[v fs ms ps] p IH]; intros before x q A; cbn [app accessible] in A.
  - rewrite app_nil_r. destruct x. apply A.
  - destruct A as [_ A]. apply IH in A. rewrite <- app_assoc in A. exact A.
Qed.
Lemma section_nonempty x : begins_well x -> write_csection st x <> [].
Proof.
  destruct x as [v fs ms ps]. cbn [begins_well]. rewrite w_csection. destruct v; try discriminate. intros H. specialize (H eq_refl).
  destruct fs as [|[ids t] fs]; [congruence|]. cbn [flat_map write_visibility app]. destruct (write_cfield st (ids, t)); discriminate.
Qed.
Lemma begin_all l : sections_begin l -> Forall begins_well l.
Proof.
  destruct l as [|[v fs ms ps] l]; [intros []|]. intros [H F]. constructor; [exact H|]. eapply Forall_impl; [|exact F]. intros [v' fs' ms' ps'] N E. contradiction.
Qed.
Lemma d_csections {B} her l (k : list csection -> prog B) sc s Q rest : length (flat_map (write_csection st) l) <= m ->
  sections_begin l -> accessible [] l -> (has_properties l = true -> orphan her s) ->
  in_scope sc s (flat_map (write_csection st) l ++ wkey "END" :: rest) ->
  in_turn (good_csection st) (fun x => declare (csection_names x)) weof weof l sc ->
  (forall l' s1, map bare_csection l' = map bare_csection l -> in_scope (declare (flat_map csection_names l) sc) s1 (wkey "END" :: rest) -> wp (k l') s1 Q) ->
  wp (Bind (parse_class_member_sections R her) k) s Q.
Proof.
  intros L Hb Ha O I G K. unfold parse_class_member_sections. pose proof (begin_all l Hb) as Fb. rewrite Forall_forall in Fb.
  destruct (first_word (flat_map (write_csection st) l) (wkey "END") rest) as (v & vs & Ev). pose proof I as I0. rewrite Ev in I0. eapply d_traced; [exact I0|].
  destruct l as [|x l]; [destruct Hb|].
  eapply (d_run text (write_csection st) bare_csection (good_csection st) (fun x => declare (csection_names x)) (class_sections_step R her) (kw "END") (wkey "END")
    (fun s => has_properties (x :: l) = true -> orphan her s) section_stop ltac:(intros t W; rewrite kw_w, W; reflexivity) ltac:(now left) _ l x []); [|reflexivity|exact O| | |exact I|exact G|].
  - rewrite fuel_level. pose proof (run_count (write_csection st) (x :: l) (fun y J => section_nonempty y (Fb y J))). cbn [length] in *. lia.
  - intros p y q E. assert (J : In y (x :: l)) by (rewrite E; apply in_or_app; right; now left). apply csection_item.
    + pose proof (run_length (write_csection st) y (x :: l) J). lia.
    + now apply Fb.
    + rewrite E in Ha. now apply accessible_at in Ha.
    + intros NE. unfold has_properties. apply existsb_exists. exists y. split; [exact J|]. destruct y as [? ? ? [|]]; cbn in NE; [congruence|reflexivity].
  - intros y J. destruct x as [v0 fs0 ms0 ps0]. destruct Hb as [_ F]. rewrite Forall_forall in F. specialize (F y J). destruct y as [vy fs ms ps].
    rewrite w_csection, vis_first. destruct (vis_words vy) as [|z zs] eqn:E; [destruct vy; try discriminate; congruence|].
    destruct (vis_ok vy z) as [Uz Jz]; [rewrite E; now left|]. cbn [map app]. eexists _, _. split; [reflexivity|]. split.
    + right. eexists. split; [reflexivity|]. now rewrite Uz.
    + intros t Wt. rewrite kw_w, Wt. reflexivity.
  - intros l' s1 E _ I1. cbn [app]. eapply d_cur; [exact I1|]. intros t1 _. apply K; [exact E|]. eapply in_scope_le; [apply behind_declare|exact I1].
Qed.

(** ** Classes *)
Lemma tid_element i : element text write_typeid bare_tid (fun i sc _ => good_typeid sc i) (fun _ sc => sc) (append_with parse_type_id) i.
Proof.
  intros B k acc sc s Q after rest I G K. unfold append_with. fl. eapply d_type_id; [exact I|discriminate|exact G|]. intros r s1 E I1. fl. now apply K.
Qed.
Lemma same_scope {A} l : forall sc, behind_all (fun (_ : A) (sc : scope) => sc) l sc = sc.
Proof. induction l as [|a l IH]; intros sc; [reflexivity|]. apply IH. Qed.
Lemma in_turn_all {A} (P : A -> scope -> Prop) mid last l sc : Forall (fun i => P i sc) l -> in_turn (fun i sc _ => P i sc) (fun _ sc => sc) mid last l sc.
Proof. induction 1; [exact Logic.I|]. split; auto. Qed.
Lemma d_heritage {B} her (k : option (list typeid) -> prog B) sc s Q w rest : length (write_heritage her) <= m -> good_heritage sc her -> w <> wsym "(" ->
  in_scope sc s (write_heritage her ++ w :: rest) ->
  (forall her' s1, option_map (map bare_tid) her' = option_map (map bare_tid) her -> (no_parent sc her -> orphan her' s1) -> in_scope sc s1 (w :: rest) -> wp (k her') s1 Q) ->
  wp (Bind (parse_class_heritage R) k) s Q.
Proof.
  intros L G Nw I K. unfold parse_class_heritage. destruct her as [[|i l]|]; [now destruct G| |].
  2:{ cbn [write_heritage app] in I. eapply d_traced; [exact I|]. fl. eapply (d_is text sc s Q (sym "(") false); [exact I|intros t W; rewrite sym_w, W; now apply weqb_neq|]. fl.
    eapply d_cur; [exact I|]. intros t1 _. apply K; [reflexivity|intros _; exact Logic.I|exact I]. }
  destruct G as [_ G]. cbn [write_heritage] in I, L. rewrite joined_commas in I, L. cbn [app] in I. rewrite <- app_assoc in I. cbn [app length] in I, L. rewrite app_length in L. cbn [length] in L.
  eapply d_traced; [exact I|]. fl. eapply (d_is text sc s Q (sym "(") true); [exact I|wd|]. fl.
  eapply d_next; [exact I|apply app_nonempty; discriminate|]. intros t1 s1 I1. fl.
  unfold until_list. rewrite fuel_level. unfold until. cbn [loop]. unfold until_step at 1. fl. unfold append_with at 1. fl.
  inversion_clear G as [|? ? Gi Gl]. destruct l as [|j l].
  - cbn [map joined] in I1. eapply d_type_id_ref; [exact I1|discriminate|exact Gi|]. intros r s2 E O I2. fl.
    eapply d_Cur; [exact I2|]. intros t2 W2. fl. replace (sym ")" t2) with true by (now rewrite sym_w, W2). fl.
    eapply d_next_kept; [exact I2|discriminate|]. intros t3 s3 I3 Hk. fl. eapply d_cur; [exact I3|]. intros t4 _. apply K; [cbn [option_map map app]; now rewrite E| |exact I3].
    intros [Hs Hu]. eapply orphan_kept; [exact Hk|]. cbn [app orphan]. now apply O.
  - cbn [map] in I1. rewrite joined_cons in I1 by discriminate. rewrite <- app_assoc in I1. cbn [app] in I1.
    eapply d_type_id_ref; [exact I1|discriminate|exact Gi|]. intros r s2 E O I2. fl.
    eapply d_Cur; [exact I2|]. intros t2 W2. fl. replace (sym ")" t2) with false by (now rewrite sym_w, W2). cbn [validate]. replace (sym "," t2) with true by (now rewrite sym_w, W2). fl.
    eapply d_next_kept; [exact I2|apply app_nonempty; discriminate|]. intros t3 s3 I3 Hk3. fl.
    assert (Ll : length (j :: l) <= m).
    { cbn [map] in L. rewrite joined_cons in L by discriminate. rewrite app_length in L. cbn [length] in L |- *. pose proof (joined_count write_typeid (wsym ",") (j :: l)) as C. cbn [map length] in C. lia. }
    change (loop m (until_step (sym ")") (Some (sym ",")) (append_with parse_type_id)) ([] ++ [r])) with (until m (sym ")") (Some (sym ",")) (append_with parse_type_id) [r]).
    eapply (d_kept (until m (sym ")") (Some (sym ",")) (append_with parse_type_id) [r]) _ s3 Q (fun l' s4 => exists l2, l' = r :: l2 /\ map bare_tid l2 = map bare_tid (j :: l) /\ in_scope sc s4 (wsym ")" :: w :: rest))).
    { apply steady_until. intros acc. unfold append_with. apply steady_bind; [apply st_parse_type_id|intros a; apply steady_ret]. }
    { eapply (d_list text write_typeid bare_tid (fun i sc _ => good_typeid sc i) (fun _ sc => sc) (append_with parse_type_id) (sym ")") (sym ",") (wsym ",") (wsym ")")
        ltac:(wd) ltac:(wd) ltac:(wd) _ (j :: l)); [discriminate|exact Ll|intros x _; apply tid_element|exact I3|now apply in_turn_all|].
      intros l' s4 El I4. apply wp_ret. rewrite same_scope in I4. exists l'. auto. }
    intros l' s4 (l2 & -> & El & I4) Hk4. fl. eapply d_next_kept; [exact I4|discriminate|]. intros t5 s5 I5 Hk5. fl. eapply d_cur; [exact I5|]. intros t6 _.
    apply K; [cbn [option_map]; f_equal; change (bare_tid r :: map bare_tid l2 = bare_tid i :: map bare_tid (j :: l)); now rewrite E, El| |exact I5].
    intros [Hs Hu]. eapply orphan_kept; [exact Hk5|]. eapply orphan_kept; [exact Hk4|]. eapply orphan_kept; [exact Hk3|]. cbn [orphan]. now apply O.
Qed.
Lemma ty_class her mem : length (write_ty st (TClass her mem)) <= m -> ty_rule text st (parse_type R) (TClass her mem).
Proof.
  intros L B k sc s Q after rest I G K. cbn [good_ty] in G. destruct G as [Gh G].
  change (write_ty st (TClass her mem)) with (wkey "CLASS" :: write_heritage her ++ match mem with None => [] | Some l => flat_map (write_csection st) l end ++ [wkey "END"]) in *.
  change (left_over (TClass her mem)) with [wkey "END"] in K. cbn [app length] in I, L. rewrite !app_length in L. cbn [length] in L. rewrite <- !app_assoc in I. cbn [app] in I.
  unfold parse_type. fl. eapply d_cur; [exact I|]. intros t Wt. fl. destruct (wkey_inv _ _ Wt) as [-> Vt]. rewrite Vt. ev.
  unfold parse_class_type_or_class_ref. eapply d_traced; [exact I|]. fl. eapply d_expect; [exact I|wd|]. intros t1 _. fl.
  eapply d_next; [exact I|apply app_nonempty, app_nonempty; discriminate|]. intros t2 s1 I1. fl.
  (* the word behind the heritage *)
  assert (exists w ws, match mem with None => [] | Some l => flat_map (write_csection st) l end ++ wkey "END" :: after :: rest = w :: ws /\
    (match mem with None => w = wkey "END" | Some _ => exists n, w = wident n end)) as (w & ws & Ew & Hw).
  { destruct mem as [l|]; [|cbn [app]; eauto]. destruct G as (Hb & _ & _ & G). destruct l as [|[v fs ms ps] l]; [destruct Hb|]. destruct Hb as [Hb _], G as [G _].
    destruct (section_first v fs ms ps sc Hb G) as (n & Fn & _). cbn [flat_map]. rewrite <- app_assoc. destruct (Fn (flat_map (write_csection st) l ++ wkey "END" :: after :: rest)) as (ws & ->). eauto. }
  assert (Hw2 : w = wkey "END" \/ exists n, w = wident n) by (destruct mem; auto).
  rewrite Ew in I1. 
  assert (exists v vs, write_heritage her ++ w :: ws = v :: vs /\ (v = wsym "(" \/ v = wkey "END" \/ exists n, v = wident n)) as (v & vs & Ev & Hv).
  { destruct her; cbn [write_heritage app]; eexists _, _; (split; [reflexivity|auto]). }
  pose proof I1 as I1'. rewrite Ev in I1'.
  eapply (d_is text sc s1 Q (sym ";") false); [exact I1'|intros t' W; rewrite sym_w, W; destruct Hv as [->|[->|(n & ->)]]; reflexivity|]. fl.
  eapply (d_is text sc s1 Q (kw "OF") false); [exact I1'|intros t' W; rewrite kw_w, W; destruct Hv as [->|[->|(n & ->)]]; reflexivity|]. fl.
  unfold parse_class_type. eapply d_traced; [exact I1'|]. fl.
  eapply (d_heritage her _ sc s1 Q w ws); [lia|exact Gh|destruct Hw2 as [E0|(n & E0)]; rewrite E0; discriminate|exact I1|]. intros her' s2 Eh Oh I2. fl.
  assert (Fin : forall mem' s3, option_map (map bare_csection) mem' = option_map (map bare_csection) mem -> in_scope (declare (type_names (TClass her mem)) sc) s3 (wkey "END" :: after :: rest) ->
    wp (k (TClass her' mem')) s3 Q).
  { intros mem' s3 Em I3. apply K; [|intros []|exact I3].
    change (TClass (option_map (map bare_tid) her') (option_map (map bare_csection) mem') = TClass (option_map (map bare_tid) her) (option_map (map bare_csection) mem)). now rewrite Eh, Em. }
  destruct mem as [l|].
  - destruct Hw as (n & ->). destruct G as (Hb & Ha & Hn & G).
    eapply (d_is text sc s2 Q (kw "END") false); [exact I2|wd|]. fl. eapply (d_is text sc s2 Q (sym ";") false); [exact I2|wd|]. fl. rewrite <- Ew in I2.
    eapply (d_csections her' l); [lia|exact Hb|exact Ha|intros H; apply Oh, Hn, H|exact I2|exact G|]. intros l' s3 El I3. fl.
    eapply d_cur; [exact I3|]. intros t3 _. eapply d_cur; [exact I3|]. intros t4 _. apply Fin; [cbn [option_map]; now rewrite El|exact I3].
  - subst w. injection Ew as <-. eapply (d_is text sc s2 Q (kw "END") true); [exact I2|wd|]. fl.
    eapply d_cur; [exact I2|]. intros t3 _. eapply d_cur; [exact I2|]. intros t4 _. apply Fin; [reflexivity|]. eapply in_scope_le; [apply declare_nil'|exact I2].
Qed.

(** ** Every type *)
Context (BF : forall ds, length (write_fields st (FieldList ds None)) < m -> fields_rule text st (wsym ")") (r_fields R (sym ")")) ds).
Lemma ty_here t : length (write_ty st t) <= m -> ty_rule text st (parse_type R) t.
Proof.
  intros L. destruct t; try (intros ? ? ? ? ? ? ? ? []; fail).
  - match goal with |- ty_rule _ _ _ (TId ?i) => destruct (is_string (i_name (ti_ident i))) eqn:E end; [now apply ty_string|now apply ty_name].
  - now apply ty_enum.
  - now apply ty_subrange.
  - apply ty_pointer.
  - now apply ty_fixed.
  - now apply ty_array.
  - now apply ty_set.
  - now apply ty_rec.
  - apply ty_file.
  - now apply ty_proc.
  - apply ty_fwd_class.
  - apply ty_class_ref.
  - now apply ty_class.
Qed.
End Level.

Theorem types_at m : (forall t, length (write_ty st t) <= m -> ty_rule text st (parse_type (recs_at m)) t) /\
  (forall ds, length (write_fields st (FieldList ds None)) <= m -> fields_rule text st (wsym ")") (parse_field_list (recs_at m) (sym ")")) ds).
Proof.
  induction m as [|m [IT IF]].
  - split.
    + intros t L. assert (BT : forall t, length (write_ty st t) < 0 -> ty_rule text st (r_type (recs_at 0)) t) by (intros; lia).
      apply ty_here; [exact BT|intros; lia|exact L].
    + intros ds L. apply (fields_here text st 0); [intros; lia|wd|wd|intros t0 n0 W0; now rewrite sym_w, W0|exact L|discriminate].
  - assert (BT : forall t, length (write_ty st t) < S m -> ty_rule text st (r_type (recs_at (S m))) t) by (intros t L; apply (IT t); lia).
    split.
    + intros t L. apply ty_here; [exact BT|intros ds L'; apply (IF ds); lia|exact L].
    + intros ds L. apply (fields_here text st (S m)); [exact BT|wd|wd|intros t0 n0 W0; now rewrite sym_w, W0|exact L|discriminate].
Qed.
End WithUnicode.
