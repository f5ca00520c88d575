(** What the parser takes for an expression is one, and its names are resolved. *)
From Coq Require Import String List NArith Bool Arith Lia.
From Verif Require Import Runes UnicodeFacts Token Tokenizer LexSpec LexShape LexFacts LexMain
  Ast Heap MapFacts MapMain Prog ParseSpec Parser RunFacts ExprSpec WpFacts ExprFacts.
Import ListNotations.
Local Open Scope list_scope.

Section WithUnicode.
Context {U : Unicode} {UOK : UnicodeOk U}.
Context (text : list rune) (en : env).

Notation words := (list (ttype * gostring)).

Lemma token_lexeme t : token_of text t ->
  t_type t = NumeralInt \/ t_type t = NumeralReal \/ t_type t = CharacterString -> lexeme (t_type t) (raw t).
Proof.
  intros TO Ty. destruct (fits_after _ _ (token_of_fits _ _ TO)) as (post & _ & _ & _ & [(E & _)|(_ & _ & _ & Sh)]).
  - rewrite E in Ty. destruct Ty as [Ty|[Ty|Ty]]; discriminate.
  - destruct (t_type t); try (destruct Ty as [Ty|[Ty|Ty]]; discriminate); apply Sh.
Qed.

(** ** Inversion *)
Lemma bind_inv {A B} (p : prog A) (k : A -> prog B) s b s' : run (Bind p k) s = OOk b s' ->
  exists a s1, run p s = OOk a s1 /\ run (k a) s1 = OOk b s'.
Proof. cbn [run]. destruct (run p s) as [a s1| | | |]; try discriminate. eauto. Qed.
Lemma ret_inv {A} (a b : A) s s' : run (Ret a) s = OOk b s' -> b = a /\ s' = s.
Proof. intros [= -> ->]. auto. Qed.
Lemma cur_opt_inv s t s' : run Cur s = OOk t s' -> s' = s /\ t = s_cur s.
Proof. intros [= <- <-]. auto. Qed.
Lemma cur_inv s t s' : run cur s = OOk t s' -> s' = s /\ s_cur s = Some t.
Proof.
  intros E. apply bind_inv in E as (o & s1 & E1 & E2). apply cur_opt_inv in E1 as [-> ->].
  destruct (s_cur s) eqn:C; [|discriminate]. apply ret_inv in E2 as [-> ->]. auto.
Qed.
Lemma is_inv pred s b s' : run (is pred) s = OOk b s' -> exists t, s' = s /\ s_cur s = Some t /\ b = pred t.
Proof.
  intros E. apply bind_inv in E as (t & s1 & E1 & E2). apply cur_inv in E1 as [-> C]. apply ret_inv in E2 as [-> ->]. eauto.
Qed.
Lemma validate_inv o pred s t s' : run (validate o pred) s = OOk t s' -> s' = s /\ o = Some t /\ pred t = true.
Proof.
  unfold validate. destruct o as [u|]; [|discriminate]. destruct (pred u) eqn:P; [|cbn [run]; destruct (ctx_path _ _); discriminate].
  intros E. apply ret_inv in E as [-> ->]. auto.
Qed.
Lemma expect_inv pred s t s' : run (expect pred) s = OOk t s' -> s' = s /\ s_cur s = Some t /\ pred t = true.
Proof.
  intros E. apply bind_inv in E as (o & s1 & E1 & E2). apply cur_opt_inv in E1 as [-> ->]. now apply validate_inv in E2.
Qed.
(** [s'] is one token behind [s]. *)
Definition stepped (s s' : pst) : Prop :=
  same_but_place s s' /\ forall t ws, s_cur s = Some t -> stands text s' ws -> stands text s (word_of t :: ws).
Lemma next_stepped s c s' : parsing text s -> run Next s = OOk c s' -> stepped s s' /\ c = s_cur s' /\ parsing text s'.
Proof.
  intros P E. assert (P' : parsing text s').
  { apply (run_parsing Next _ _ s' P). left. eauto. }
  cbn [run] in E. pose proof E as E0. unfold next_token in E. split; [split|split; [|exact P']].
  - destruct (get_next (s_tok s)); try discriminate; injection E as <- <-; repeat split.
  - intros t ws C St. eapply stands_cons; [apply P|exact C| |exact St].
    destruct St as (u & ws' & -> & C' & _). rewrite C'. destruct (next_inv _ _ _ _ _ (proj1 (proj1 P)) E0 C') as [G _]. exact G.
  - destruct (get_next (s_tok s)); try discriminate; now injection E as <- <-.
Qed.
Lemma expect_next_inv pred s t s' : parsing text s -> run (expect_next pred) s = OOk t s' ->
  stepped s s' /\ s_cur s' = Some t /\ pred t = true /\ parsing text s'.
Proof.
  intros P E. apply bind_inv in E as (o & s1 & E1 & E2). apply next_stepped in E1 as (A & -> & P1); [|exact P].
  apply validate_inv in E2 as (-> & C & Pt). auto.
Qed.
Lemma parsing_run {A} (p : prog A) s a s' : parsing text s -> run p s = OOk a s' -> parsing text s'.
Proof. intros P E. apply (run_parsing p _ _ s' P). left. eauto. Qed.

Definition extends (l l' : list (option dref)) : Prop := exists more, l' = l ++ more.
Lemma extends_refl l : extends l l.
Proof. exists []. now rewrite app_nil_r. Qed.
Lemma quiet_extends s s' l : quiet s s' -> extends (h_refs (s_heap s')) l -> extends (h_refs (s_heap s)) l.
Proof.
  intros (_ & _ & _ & _ & _ & _ & (r & E) & _) (m & ->). exists (r ++ m). now rewrite E, app_assoc.
Qed.

(** What [p] reads is written as its result, and the result is in [G]. *)
Definition sound {A} (p : prog A) (W : A -> words) (G : list (option dref) -> A -> Prop) : Prop :=
  forall s a s', parsing text s -> agrees en s -> run p s = OOk a s' ->
  quiet s s' /\ (forall rest, stands text s' rest -> stands text s (W a ++ rest)) /\
  (forall refs, extends (h_refs (s_heap s')) refs -> G refs a).

(** ** Loops *)
Lemma loop_inv {S A} f (body : S -> prog (S + A)) v s a s' : run (loop (Datatypes.S f) body v) s = OOk a s' ->
  exists r s1, run (body v) s = OOk r s1 /\
    match r with inl v' => run (loop f body v') s1 = OOk a s' | inr b => a = b /\ s' = s1 end.
Proof.
  cbn [loop]. intros E. apply bind_inv in E as (r & s1 & E1 & E2). exists r, s1. split; [exact E1|].
  destruct r; [exact E2|]. now apply ret_inv in E2.
Qed.

Section Ops.
Context {X : Type} (op : predicator) (ops : list gostring) (p : prog X) (W : X -> words)
  (G : list (option dref) -> X -> Prop).
Context (Hop : forall t, op t = existsb (weqb (word_of t)) (map wop ops)) (Hp : sound p W G).

Lemma op_word t : op t = true -> In (value t) ops /\ word_of t = wop (value t).
Proof.
  rewrite Hop, win_iff, in_map_iff. intros (v & E & I). assert (value t = v) as -> by (rewrite value_w, <- E; reflexivity). auto.
Qed.
Lemma op_loop_sound fuel : forall acc s l s', parsing text s -> agrees en s ->
  run (loop fuel (op_step op p) acc) s = OOk l s' ->
  exists l1, l = acc ++ l1 /\ quiet s s' /\
    (forall rest, stands text s' rest -> stands text s (flat_map (fun r => wop (fst r) :: W (snd r)) l1 ++ rest)) /\
    (forall refs, extends (h_refs (s_heap s')) refs -> all (fun r => In (fst r) ops /\ G refs (snd r)) l1).
Proof.
  induction fuel as [|fuel IH]; intros acc s l s' P Ag E; [discriminate|].
  apply loop_inv in E as (r & s1 & E1 & E2). unfold op_step in E1.
  apply bind_inv in E1 as (t & s2 & Ec & E1). apply cur_inv in Ec as [-> C].
  destruct (op t) eqn:O.
  - apply bind_inv in E1 as (c & s3 & En & E1). apply next_stepped in En as ((SB & Hs) & _ & P3); [|exact P].
    apply bind_inv in E1 as (x & s4 & Ex & E1). apply ret_inv in E1 as [-> ->].
    pose proof (quiet_place _ _ SB) as Q3. pose proof (quiet_agrees _ _ _ Ag Q3) as Ag3.
    destruct (Hp _ _ _ P3 Ag3 Ex) as (Q4 & W4 & G4). pose proof (parsing_run _ _ _ _ P3 Ex) as P4.
    destruct (IH _ _ _ _ P4 (quiet_agrees _ _ _ Ag3 Q4) E2) as (l1 & -> & Q5 & W5 & G5).
    exists ((value t, x) :: l1). rewrite <- app_assoc. split; [reflexivity|].
    split; [eapply quiet_trans; [exact Q3|]; eapply quiet_trans; eauto|]. destruct (op_word t O) as [I Ew]. split.
    + intros rest St. cbn [flat_map fst snd app]. rewrite <- Ew. apply (Hs _ _ C). rewrite <- app_assoc. apply W4. now apply W5.
    + intros refs X1. cbn [all fold_right fst snd]. split; [split; [exact I|]|exact (G5 _ X1)]. apply G4. eapply quiet_extends; eauto.
  - apply ret_inv in E1 as [-> ->]. destruct E2 as [-> ->]. exists []. rewrite app_nil_r. split; [reflexivity|].
    split; [apply quiet_refl|]. split; [auto|]. intros. exact I.
Qed.
End Ops.

Lemma commas_snoc (ps : list words) p : commas (ps ++ [p]) = match ps with [] => p | _ => commas ps ++ wsym "," :: p end.
Proof.
  induction ps as [|q ps IH]; [reflexivity|]. cbn [app]. rewrite commas_cons by (destruct ps; discriminate). rewrite IH.
  destruct ps as [|q2 ps]; [reflexivity|]. rewrite (commas_cons q) by discriminate. now rewrite <- app_assoc.
Qed.

Section Commas.
Context {X : Type} (p : prog X) (W : X -> words) (G : list (option dref) -> X -> Prop).
Context (Hp : sound p W G).

Lemma comma_loop_sound close fuel : forall acc s l s', parsing text s -> agrees en s ->
  run (loop fuel (list_step p (sym close)) acc) s = OOk l s' ->
  exists l1, l = acc ++ l1 /\ l1 <> [] /\ quiet s s' /\
    (exists t, s_cur s' = Some t /\ word_of t = wsym close) /\
    (forall rest, stands text s' rest -> stands text s (commas (map W l1) ++ rest)) /\
    (forall refs, extends (h_refs (s_heap s')) refs -> all (G refs) l1).
Proof.
  induction fuel as [|fuel IH]; intros acc s l s' P Ag E; [discriminate|].
  apply loop_inv in E as (r & s1 & E1 & E2). unfold list_step in E1.
  apply bind_inv in E1 as (x & s2 & Ex & E1). destruct (Hp _ _ _ P Ag Ex) as (Q2 & W2 & G2).
  pose proof (parsing_run _ _ _ _ P Ex) as P2. apply bind_inv in E1 as (b & s3 & Eb & E1).
  apply is_inv in Eb as (t & -> & C & ->). rewrite sym_w in E1. destruct (weqb (word_of t) (wsym close)) eqn:Et.
  - apply ret_inv in E1 as [-> ->]. destruct E2 as [-> ->]. exists [x]. split; [reflexivity|]. split; [discriminate|].
    split; [exact Q2|]. split; [exists t; split; [exact C|now apply weqb_eq]|]. split; [exact W2|]. intros refs X1.
    split; [now apply G2|exact I].
  - apply bind_inv in E1 as (t' & s3 & Ec & E1). apply expect_inv in Ec as (-> & C' & Wt). rewrite C in C'. injection C' as <-.
    rewrite sym_w, weqb_eq in Wt.
    apply bind_inv in E1 as (c & s4 & En & E1). apply next_stepped in En as ((SB & Hs) & _ & P4); [|exact P2].
    apply ret_inv in E1 as [-> ->]. pose proof (quiet_place _ _ SB) as Q4. pose proof (quiet_agrees _ _ _ Ag (quiet_trans _ _ _ Q2 Q4)) as Ag4.
    destruct (IH _ _ _ _ P4 Ag4 E2) as (l1 & -> & NE & Q5 & C5 & W5 & G5). exists (x :: l1). rewrite <- app_assoc.
    split; [reflexivity|]. split; [discriminate|]. split; [eapply quiet_trans; [exact Q2|]; eapply quiet_trans; eauto|].
    split; [exact C5|]. split.
    + intros rest St. cbn [map]. rewrite commas_cons by (destruct l1; [congruence|discriminate]). rewrite <- app_assoc. cbn [app].
      apply W2. rewrite <- Wt. apply (Hs _ _ C). now apply W5.
    + intros refs X1. split; [|exact (G5 _ X1)]. apply G2. eapply quiet_extends; [exact Q4|]. eapply quiet_extends; eauto.
Qed.

Lemma until_loop_sound (terminator : predicator) fuel : forall acc s l s', parsing text s -> agrees en s ->
  run (until fuel terminator (Some (sym ",")) (append_with p) acc) s = OOk l s' ->
  exists l1, l = acc ++ l1 /\ l1 <> [] /\ quiet s s' /\
    (exists t, s_cur s' = Some t /\ terminator t = true) /\
    (forall rest, stands text s' rest -> stands text s (commas (map W l1) ++ rest)) /\
    (forall refs, extends (h_refs (s_heap s')) refs -> all (G refs) l1).
Proof.
  induction fuel as [|fuel IH]; intros acc s l s' P Ag E; [discriminate|]. unfold until in E.
  apply loop_inv in E as (r & s1 & E1 & E2). unfold until_step in E1.
  apply bind_inv in E1 as (o & s2 & Ex & E1). unfold append_with in Ex. apply bind_inv in Ex as (x & s0 & Ex & Er).
  apply ret_inv in Er as [-> ->]. destruct (Hp _ _ _ P Ag Ex) as (Q2 & W2 & G2).
  pose proof (parsing_run _ _ _ _ P Ex) as P2. apply bind_inv in E1 as (b & s3 & Eb & E1).
  apply cur_opt_inv in Eb as [-> ->]. destruct (s_cur s0) as [t|] eqn:C; [|discriminate].
  destruct (terminator t) eqn:Et.
  - apply ret_inv in E1 as [-> ->]. destruct E2 as [-> ->]. exists [x]. split; [reflexivity|]. split; [discriminate|].
    split; [exact Q2|]. split; [eauto|]. split; [exact W2|]. intros refs X1.
    split; [now apply G2|exact I].
  - apply bind_inv in E1 as (t' & s3 & Ec & E1). apply validate_inv in Ec as (-> & [= <-] & Wt).
    rewrite sym_w, weqb_eq in Wt.
    apply bind_inv in E1 as (c & s4 & En & E1). apply next_stepped in En as ((SB & Hs) & _ & P4); [|exact P2].
    apply ret_inv in E1 as [-> ->]. pose proof (quiet_place _ _ SB) as Q4. pose proof (quiet_agrees _ _ _ Ag (quiet_trans _ _ _ Q2 Q4)) as Ag4.
    destruct (IH _ _ _ _ P4 Ag4 E2) as (l1 & -> & NE & Q5 & C5 & W5 & G5). exists (x :: l1). rewrite <- app_assoc.
    split; [reflexivity|]. split; [discriminate|]. split; [eapply quiet_trans; [exact Q2|]; eapply quiet_trans; eauto|].
    split; [exact C5|]. split.
    + intros rest St. cbn [map]. rewrite commas_cons by (destruct l1; [congruence|discriminate]). rewrite <- app_assoc. cbn [app].
      apply W2. rewrite <- Wt. apply (Hs _ _ C). now apply W5.
    + intros refs X1. split; [|exact (G5 _ X1)]. apply G2. eapply quiet_extends; [exact Q4|]. eapply quiet_extends; eauto.
Qed.
End Commas.

(** ** Names *)
Lemma get_node_inv nm s r s' : run (get_node nm) s = OOk r s' -> s' = s /\
  match r with
  | None => ctx_get (s_heap s) (s_ctx s) nm = LNil
  | Some (d, x) => resolves (s_heap s) (s_ctx s) nm d x
  end.
Proof.
  rewrite run_get_node. destruct (ctx_get _ _ _) as [|d|] eqn:G; try discriminate; [intros [= <- <-]; auto|].
  destruct (deref _ _) as [o|] eqn:D; [|discriminate]. intros [= <- <-]. split; [reflexivity|]. split; [exact G|eauto].
Qed.
Lemma get_inv nm s r s' : run (get nm) s = OOk r s' -> s' = s /\
  match r with None => ctx_get (s_heap s) (s_ctx s) nm = LNil | Some d => ctx_get (s_heap s) (s_ctx s) nm = LFound d end.
Proof. rewrite run_get. destruct (ctx_get _ _ _) eqn:G; try discriminate; intros [= <- <-]; auto. Qed.
Lemma word_ident t : p_type Identifier t = true -> word_of t = wident (raw t) /\ value t = raw t.
Proof. unfold p_type, word_of, value, wident. destruct (t_type t); try discriminate. auto. Qed.
Lemma stepped_quiet s s' : stepped s s' -> quiet s s'.
Proof. intros [SB _]. now apply quiet_place. Qed.

Lemma name_sound : sound parse_qual_id write_name (fun _ q => good_name en q /\ linked_name en q).
Proof.
  intros s q s' P Ag E. unfold parse_qual_id in E.
  apply bind_inv in E as (t & s1 & Et & E). apply expect_inv in Et as (-> & C & Tt). destruct (word_ident _ Tt) as [Wt Vt].
  apply bind_inv in E as (b1 & s1 & E1 & E). unfold is_namespace_identifier in E1. apply bind_inv in E1 as (r & s0 & Er & E1).
  apply ret_inv in E1 as [-> ->]. pose proof Er as Gn. apply get_node_inv in Er as [-> Hr].
  apply bind_inv in E as (b2 & s1 & E2 & E).
  assert (Eb : s1 = s /\ b2 = match r with Some (_, NUses _) | Some (_, NUnit _) | Some (_, NProgram _) => true | _ => false end).
  { destruct r as [[d x]|].
    - destruct x; try (apply ret_inv in E2 as [-> ->]; auto); rewrite (run_is_unit _ _ _ _ Gn) in E2; now injection E2 as <- <-.
    - rewrite (run_is_unit _ _ _ _ Gn) in E2. now injection E2 as <- <-. }
  destruct Eb as [-> ->]. clear E2. pose proof Ag as (PC & EV & EP & ET & EM).
  set (isns := match r with Some (_, NUses _) | Some (_, NUnit _) | Some (_, NProgram _) => true | _ => false end) in *.
  destruct isns eqn:Is.
  - apply bind_inv in E as (u1 & s1 & E1 & E). apply expect_next_inv in E1 as (St1 & C1 & W1 & P1); [|exact P].
    rewrite sym_w, weqb_eq in W1.
    apply bind_inv in E as (u2 & s2 & E2 & E). apply expect_next_inv in E2 as (St2 & C2 & T2 & P2); [|exact P1].
    destruct (word_ident _ T2) as [W2 V2].
    pose proof (same_but_place_trans _ _ _ (proj1 St1) (proj1 St2)) as SB2. pose proof (quiet_place _ _ SB2) as Q2.
    apply bind_inv in E as (r2 & s3 & Er & E). apply get_node_inv in Er as [-> Hr2].
    destruct r2 as [[d x]|]; [|cbn [run] in E; destruct (ctx_path _ _); discriminate].
    apply (quiet_resolves s s2 _ _ _ PC Q2) in Hr2.
    apply bind_inv in E as (d2 & s3 & Ed & E).
    assert (Hm : s3 = s2 /\ (forall d', d2 = Some d' -> exists mp, namespace_map (s_heap s2) x mp /\ dget (s_heap s2) mp (value u2) = LFound d')).
    { destruct x; try (cbn [run] in Ed; destruct (ctx_path _ _); discriminate).
      - apply bind_inv in Ed as (u & s4 & Eu & Ed). unfold uses_item_unit in Eu. cbn [run] in Eu.
        destruct (nth_error (h_uses (s_heap s2)) a) as [it|] eqn:N1; [|discriminate]. injection Eu as <- <-. rewrite with_same_heap in Ed.
        destruct (u_unit it) as [u|] eqn:N2; [|cbn [run] in Ed; destruct (ctx_path _ _); discriminate].
        unfold unit_get in Ed. cbn [run] in Ed. destruct (nth_error (h_units (s_heap s2)) u) as [uo|] eqn:N3; [|discriminate].
        destruct (dget _ _ _) eqn:Dg; try discriminate; injection Ed as <- <-; rewrite with_same_heap; (split; [reflexivity|]);
          intros d' X; inversion X; subst. exists (un_map uo). split; [exists it, u, uo; auto|exact Dg].
      - unfold unit_get in Ed. cbn [run] in Ed. destruct (nth_error (h_units (s_heap s2)) a) as [uo|] eqn:N3; [|discriminate].
        destruct (dget _ _ _) eqn:Dg; try discriminate; injection Ed as <- <-; rewrite with_same_heap; (split; [reflexivity|]);
          intros d' X; inversion X; subst. exists (un_map uo). split; [exists uo; auto|exact Dg].
      - unfold program_get in Ed. cbn [run] in Ed. destruct (nth_error (h_progs (s_heap s2)) a) as [uo|] eqn:N3; [|discriminate].
        destruct (dget _ _ _) eqn:Dg; try discriminate; injection Ed as <- <-; rewrite with_same_heap; (split; [reflexivity|]);
          intros d' X; inversion X; subst. exists (pr_map uo). split; [exists uo; auto|exact Dg]. }
    destruct Hm as [-> Hm]. destruct d2 as [d2|]; [|cbn [run] in E; destruct (ctx_path _ _); discriminate].
    destruct (Hm d2 eq_refl) as (mp & NM & Dg).
    apply bind_inv in E as (c & s3 & En & E). apply next_stepped in En as (St3 & _ & P3); [|exact P2].
    apply ret_inv in E as [-> ->]. cbn [q_ns q_ident ir_ident i_name new_ident].
    assert (M : member en (raw t) (raw u2) d d2).
    { apply EM. exists x, mp. rewrite Vt in Hr2. split; [exact Hr2|]. split; [now apply (quiet_namespace s s2)|].
      rewrite <- Dg, V2. symmetry. apply dget_same_maps, Q2. }
    split; [eapply quiet_trans; [exact Q2|now apply stepped_quiet]|]. split.
    + intros rest St. unfold write_name. cbn [q_ns q_ident ir_ident i_name new_ident app]. rewrite <- Wt, <- W1, <- W2.
      apply (proj2 St1 _ _ C), (proj2 St2 _ _ C1), (proj2 St3 _ _ C2), St.
    + intros _ _. unfold good_name, linked_name. cbn [q_ns q_ident ir_ident i_name new_ident ir_ref]. eauto 10.
  - apply bind_inv in E as (c & s1 & En & E). apply next_stepped in En as (St1 & _ & P1); [|exact P].
    apply bind_inv in E as (ir & s2 & Ei & E). unfold new_ident_ref in Ei. apply bind_inv in Ei as (d & s3 & Ed & Ei).
    apply get_inv in Ed as [-> Hd]. apply ret_inv in Ei as [-> ->]. apply ret_inv in E as [-> ->].
    pose proof (stepped_quiet _ _ St1) as Q1. rewrite (quiet_get s s1 _ PC Q1) in Hd.
    split; [exact Q1|]. split.
    + intros rest St. unfold write_name. cbn [q_ns q_ident ir_ident i_name new_ident app]. rewrite <- Wt. apply (proj2 St1 _ _ C), St.
    + intros _ _. unfold good_name, linked_name. cbn [q_ns q_ident ir_ident i_name new_ident ir_ref]. split.
      * rewrite EP, ET. cbn [plain_name type_name env_at]. rewrite Vt in Hr. destruct r as [[d' x]|]; [|auto].
        unfold isns in Is. destruct x; try discriminate; eauto; left; right; exists d'; eexists; (split; [exact Hr|]); (split; [intros []|discriminate]).
      * rewrite EV. cbn [visible env_at]. destruct d; now rewrite Hd.
Qed.

Lemma all_and {A} (P Q : A -> Prop) l : all (fun x => P x /\ Q x) l <-> all P l /\ all Q l.
Proof. induction l as [|a l IH]; cbn [all fold_right]; [tauto|]. unfold all in IH. rewrite IH. tauto. Qed.
Lemma all_impl {A} (P Q : A -> Prop) l : (forall x, P x -> Q x) -> all P l -> all Q l.
Proof. intros I. induction l as [|a l IH]; cbn [all fold_right]; [auto|]. intros [X Y]. split; [auto|apply IH; exact Y]. Qed.

(** ** Factors *)
Definition Gexpr refs e := good_expr en e /\ linked_expr en refs e.
Definition Gsexpr refs e := good_sexpr en e /\ linked_sexpr en refs e.
Definition Gterm refs e := good_term en e /\ linked_term en refs e.
Definition Gfactor refs e := good_factor en e /\ linked_factor en refs e.
Definition Gdesig refs e := good_desig en e /\ linked_desig en refs e.
Definition Gitem refs e := good_item en e /\ linked_item en refs e.

Section Rec.
Context (R : recs).
Context (Hexpr : sound (r_expr R) write_expr Gexpr) (Hfactor : sound (r_factor R) write_factor Gfactor).

Lemma items_sound fuel : forall acc s l s', parsing text s -> agrees en s ->
  run (loop fuel (designator_step R) acc) s = OOk l s' ->
  exists l1, l = acc ++ l1 /\ quiet s s' /\
    (forall rest, stands text s' rest -> stands text s (flat_map write_item l1 ++ rest) ) /\
    (forall refs, extends (h_refs (s_heap s')) refs -> all (Gitem refs) l1).
Proof.
  induction fuel as [|fuel IH]; intros acc s l s' P Ag E; [discriminate|].
  apply loop_inv in E as (r & s1 & E1 & E2).
  assert (Hstop : r = inr acc -> s1 = s -> exists l1, l = acc ++ l1 /\ quiet s s' /\
    (forall rest, stands text s' rest -> stands text s (flat_map write_item l1 ++ rest)) /\
    (forall refs, extends (h_refs (s_heap s')) refs -> all (Gitem refs) l1)).
  { intros -> ->. destruct E2 as [-> ->]. exists []. rewrite app_nil_r. split; [reflexivity|]. split; [apply quiet_refl|].
    split; [auto|]. intros. exact I. }
  assert (Hgo : forall i s2 c s3, r = inl (acc ++ [i]) -> s1 = s3 -> parsing text s2 -> run Next s2 = OOk c s3 ->
    quiet s s2 -> (forall t rest, s_cur s2 = Some t -> stands text s2 (word_of t :: rest) -> stands text s (write_item i ++ rest)) ->
    (exists t, s_cur s2 = Some t) ->
    (forall refs, extends (h_refs (s_heap s2)) refs -> Gitem refs i) ->
    exists l1, l = acc ++ l1 /\ quiet s s' /\
    (forall rest, stands text s' rest -> stands text s (flat_map write_item l1 ++ rest)) /\
    (forall refs, extends (h_refs (s_heap s')) refs -> all (Gitem refs) l1)).
  { intros i s2 c s3 -> -> P2 En Q2 Wi [u Cu] Gi. apply next_stepped in En as (St3 & _ & P3); [|exact P2].
    pose proof (stepped_quiet _ _ St3) as Q3. pose proof (quiet_trans _ _ _ Q2 Q3) as Q23.
    destruct (IH _ _ _ _ P3 (quiet_agrees _ _ _ Ag Q23) E2) as (l1 & -> & Q4 & W4 & G4).
    exists (i :: l1). rewrite <- app_assoc. split; [reflexivity|]. split; [eapply quiet_trans; eauto|]. split.
    - intros rest St. cbn [flat_map]. rewrite <- app_assoc. apply (Wi u _ Cu). apply (proj2 St3 _ _ Cu). now apply W4.
    - intros refs X. split; [|now apply G4]. apply Gi. eapply quiet_extends; [exact Q3|]. eapply quiet_extends; eauto. }
  unfold designator_step in E1. apply bind_inv in E1 as (o & s2 & Ec & E1). apply cur_opt_inv in Ec as [-> ->].
  destruct (s_cur s) as [t|] eqn:C; [|apply ret_inv in E1 as [-> ->]; auto].
  destruct (p_type SpecialSymbol t) eqn:Ty; cbn [negb] in E1; [|apply ret_inv in E1 as [-> ->]; auto].
  rewrite !sym_value in E1 by exact Ty.
  destruct (weqb (word_of t) (wsym ".")) eqn:W1.
  { apply weqb_eq in W1. apply bind_inv in E1 as (it & s2 & Ei & E1). apply bind_inv in Ei as (t1 & s3 & E3 & Ei).
    apply expect_next_inv in E3 as (St3 & C3 & T3 & P3); [|exact P]. apply ret_inv in Ei as [-> ->].
    apply bind_inv in E1 as (c & s4 & En & E1). apply ret_inv in E1 as [-> ->]. destruct (word_ident _ T3) as [W3 _].
    eapply Hgo; [reflexivity|reflexivity|exact P3|exact En|now apply stepped_quiet| |eauto|].
    - intros u rest Cu St. cbn [write_item app i_name new_ident]. rewrite <- W1. apply (proj2 St3 _ _ C). rewrite <- W3.
      rewrite C3 in Cu. injection Cu as ->. exact St.
    - intros refs _. split; exact I. }
  destruct (weqb (word_of t) (wsym "[")) eqn:W2.
  { apply weqb_eq in W2. apply bind_inv in E1 as (it & s2 & Ei & E1). apply bind_inv in Ei as (c & s3 & E3 & Ei).
    apply next_stepped in E3 as (St3 & _ & P3); [|exact P]. apply bind_inv in Ei as (es & s4 & Es & Ei). apply ret_inv in Ei as [-> ->].
    pose proof (stepped_quiet _ _ St3) as Q3. pose proof (parsing_run _ _ _ _ P3 Es) as P4. unfold parse_expr_list in Es.
    apply (comma_loop_sound _ _ _ Hexpr "]" _ _ _ _ _ P3 (quiet_agrees _ _ _ Ag Q3)) in Es as (es' & -> & NE & Q4 & (u & Cu & Wu) & W4 & G4).
    apply bind_inv in E1 as (c' & s5 & En & E1). apply ret_inv in E1 as [-> ->]. cbn [app].
    eapply Hgo; [reflexivity|reflexivity|exact P4|exact En|eapply quiet_trans; eauto| |eauto|].
    - intros u' rest Cu' St. cbn [write_item app]. rewrite <- W2. apply (proj2 St3 _ _ C). rewrite <- app_assoc. cbn [app]. apply W4.
      rewrite <- Wu. rewrite Cu in Cu'. injection Cu' as <-. exact St.
    - intros refs X. specialize (G4 _ X). apply all_and in G4 as [G4 L4]. split; [split; [exact NE|exact G4]|exact L4]. }
  destruct (weqb (word_of t) (wsym "^")) eqn:W3.
  { apply weqb_eq in W3. apply bind_inv in E1 as (it & s2 & Ei & E1). apply ret_inv in Ei as [-> ->].
    apply bind_inv in E1 as (c' & s5 & En & E1). apply ret_inv in E1 as [-> ->].
    eapply Hgo; [reflexivity|reflexivity|exact P|exact En|apply quiet_refl| |eauto|].
    - intros u' rest Cu' St. cbn [write_item app]. rewrite <- W3. rewrite C in Cu'. injection Cu' as <-. exact St.
    - intros refs _. split; exact I. }
  apply bind_inv in E1 as (it & s2 & Ei & E1). apply ret_inv in Ei as [-> ->]. apply ret_inv in E1 as [-> ->]. auto.
Qed.

Lemma first_word d : exists ws, write_desig d = wident (first_name d) :: ws.
Proof. destruct d as [[[ns|] i] items]; cbn; eauto. Qed.

Lemma designator_sound : sound (parse_designator R) write_desig Gdesig.
Proof.
  intros s d s' P Ag E. unfold parse_designator in E. apply bind_inv in E as (t & s1 & Et & E).
  apply expect_inv in Et as (-> & C & Tt). apply bind_inv in E as (q & s1 & Eq & E).
  destruct (name_sound _ _ _ P Ag Eq) as (Q1 & W1 & G1). pose proof (parsing_run _ _ _ _ P Eq) as P1.
  apply bind_inv in E as (items & s2 & Ei & E). apply ret_inv in E as [-> ->].
  apply (items_sound _ _ _ _ _ P1 (quiet_agrees _ _ _ Ag Q1)) in Ei as (l1 & -> & Q2 & W2 & G2). cbn [app].
  split; [eapply quiet_trans; eauto|]. split.
  - intros rest St. cbn [write_desig]. rewrite <- app_assoc. now apply W1, W2.
  - intros refs X. specialize (G2 _ X). apply all_and in G2 as [G2 L2]. destruct (G1 _ (quiet_extends _ _ _ Q2 X)) as [Gq Lq].
    split; split; assumption.
Qed.

(** The current token is the first identifier of what was read. *)
Lemma designator_first s d s' t : parsing text s -> agrees en s -> run (parse_designator R) s = OOk d s' -> s_cur s = Some t ->
  raw t = first_name d.
Proof.
  intros P Ag E C. unfold parse_designator in E. apply bind_inv in E as (t' & s1 & Et & E).
  apply expect_inv in Et as (-> & C' & Tt). rewrite C in C'. injection C' as <-.
  apply bind_inv in E as (q & s1 & Eq & E). apply bind_inv in E as (items & s2 & Ei & E). apply ret_inv in E as [-> ->].
  cbn [first_name]. clear Ei. unfold parse_qual_id in Eq.
  apply bind_inv in Eq as (t' & s3 & Et & E). apply expect_inv in Et as (-> & C' & _). rewrite C in C'. injection C' as <-.
  apply bind_inv in E as (b1 & s3 & _ & E). apply bind_inv in E as (b2 & s4 & _ & E). destruct b2.
  - apply bind_inv in E as (u1 & s5 & _ & E). apply bind_inv in E as (u2 & s6 & _ & E). apply bind_inv in E as (r & s7 & _ & E).
    destruct r as [[d x]|]; [|cbn [run] in E; destruct (ctx_path _ _); discriminate].
    apply bind_inv in E as (d2 & s8 & _ & E). destruct d2 as [d2|]; [|cbn [run] in E; destruct (ctx_path _ _); discriminate].
    apply bind_inv in E as (c & s9 & _ & E). apply ret_inv in E as [-> _]. reflexivity.
  - apply bind_inv in E as (c & s5 & _ & E). apply bind_inv in E as (ir & s6 & Ei & E). unfold new_ident_ref in Ei.
    apply bind_inv in Ei as (d & s7 & _ & Ei). apply ret_inv in Ei as [-> _]. apply ret_inv in E as [-> _]. reflexivity.
Qed.

Lemma attempt_inv {B} (p : prog (option B)) s b s' : parser_context s -> run (Attempt p) s = OOk b s' ->
  exists t o r s1, s_cur s = Some t /\ nth_error (h_ctxs (s_heap s)) (s_ctx s) = Some o /\
    run p (with_heap (with_ctxs (h_ctxs (s_heap s) ++ [o]) (s_heap s)) s) = OOk r s1 /\ b = r /\
    s' = match r with
         | Some _ => s1
         | None => mkPst (tokenizer_clone (s_tok s)) (s_cur s) (length (h_ctxs (s_heap s))) (s_post s1) (s_heap s1)
         end.
Proof.
  intros PC E. destruct (parser_context_clone _ PC) as (o & Eo & K). cbn [run] in E. rewrite K in E.
  destruct (s_cur s) as [t|] eqn:C; [|discriminate]. destruct (run p _) as [r s1| | | |] eqn:Er; try discriminate.
  rewrite token_clone_eq in E. exists t, o, r, s1. split; [reflexivity|]. split; [exact Eo|]. split; [exact Er|].
  destruct r; injection E as <- <-; auto.
Qed.
Lemma stepped_heap h s s' : stepped (with_heap h s) s' -> forall t ws, s_cur s = Some t -> stands text s' ws -> stands text s (word_of t :: ws).
Proof.
  intros [_ Hs] t ws C St. specialize (Hs t ws C St). destruct Hs as (u & ws' & E & Cu & A). exists u, ws'. auto.
Qed.
Lemma parsing_heap h s : parsing text s -> parsing text (with_heap h s).
Proof. auto. Qed.
Lemma agrees_quiet_heap s h : agrees en s -> quiet s (with_heap h s) -> agrees en (with_heap h s).
Proof. apply quiet_agrees. Qed.

Lemma new_type_id_inv u i d s ti s' : run (new_type_id u i d) s = OOk ti s' ->
  ti = mkTypeId u i (length (h_refs (s_heap s))) /\ s' = with_heap (with_refs (h_refs (s_heap s) ++ [d]) (s_heap s)) s.
Proof. unfold new_type_id. cbn [run]. intros [= <- <-]. auto. Qed.

Lemma cast_inv s t d c s' : parsing text s -> agrees en s -> s_cur s = Some t -> p_type Identifier t = true ->
  run (parse_cast R t d) s = OOk c s' -> quiet s s' /\
  match c with
  | Some f => exists ti e, f = FCast ti e /\ ti_unit ti = None /\ i_name (ti_ident ti) = raw t /\
      (forall rest, stands text s' rest -> stands text s (write_factor f ++ rest)) /\
      (forall refs, extends (h_refs (s_heap s')) refs -> Gexpr refs e /\ nth_error refs (ti_ref ti) = Some (Some d))
  | None => s_cur s' = Some t /\ s_tok s' = tokenizer_clone (s_tok s) /\ ~ stands text s [word_of t; wsym "("]
  end.
Proof.
  intros P Ag C Tt E. pose proof Ag as [PC _]. unfold parse_cast in E. apply attempt_inv in E as (t' & o & r & s1 & C' & Eo & E & -> & ->); [|exact PC].
  rewrite C in C'. injection C' as <-. pose proof (quiet_clone s o Eo) as Q0.
  set (s0 := with_heap (with_ctxs (h_ctxs (s_heap s) ++ [o]) (s_heap s)) s) in *.
  apply bind_inv in E as (ti & s2 & Ei & E). apply new_type_id_inv in Ei as [-> ->].
  set (s2 := with_heap (with_refs (h_refs (s_heap s0) ++ [Some d]) (s_heap s0)) s0) in *.
  assert (Q2 : quiet s0 s2) by apply quiet_refs.
  apply bind_inv in E as (c1 & s3 & En & E).
  pose proof En as En0. apply next_stepped in En as (St3 & -> & P3); [|exact P]. pose proof (stepped_quiet _ _ St3) as Q3.
  apply bind_inv in E as (b & s4 & Eb & E). apply is_inv in Eb as (t1 & -> & C1 & ->). rewrite sym_w in E.
  destruct (word_ident _ Tt) as [Wt _].
  destruct (weqb (word_of t1) (wsym "(")) eqn:W1.
  - apply weqb_eq in W1. apply bind_inv in E as (c2 & s4 & En & E). apply next_stepped in En as (St4 & _ & P4); [|exact P3].
    pose proof (stepped_quiet _ _ St4) as Q4.
    assert (Q04 : quiet s s4).
    { eapply quiet_trans; [exact Q0|]. eapply quiet_trans; [exact Q2|]. eapply quiet_trans; eauto. }
    apply bind_inv in E as (e & s5 & Ee & E). destruct (Hexpr _ _ _ P4 (quiet_agrees _ _ _ Ag Q04) Ee) as (Q5 & W5 & G5).
    pose proof (parsing_run _ _ _ _ P4 Ee) as P5. apply bind_inv in E as (t5 & s6 & Et & E). apply expect_inv in Et as (-> & C5 & T5).
    rewrite sym_w, weqb_eq in T5. apply bind_inv in E as (c6 & s6 & En & E). apply next_stepped in En as (St6 & _ & P6); [|exact P5].
    pose proof (stepped_quiet _ _ St6) as Q6. apply ret_inv in E as [-> ->].
    split; [eapply quiet_trans; [exact Q04|]; eapply quiet_trans; eauto|].
    eexists _, _. split; [reflexivity|]. split; [reflexivity|]. split; [reflexivity|]. split.
    + intros rest St. cbn [write_factor ti_ident i_name new_ident app]. rewrite <- Wt, <- W1. apply (stepped_heap (s_heap s2) s s3 St3 t); [exact C|].
      apply (proj2 St4 _ _ C1). rewrite <- app_assoc. apply W5. cbn [app]. rewrite <- T5. apply (proj2 St6 _ _ C5), St.
    + intros refs X. pose proof (quiet_extends _ _ _ Q6 X) as X5. split; [now apply G5|].
      pose proof (quiet_extends _ _ _ Q3 (quiet_extends _ _ _ Q4 (quiet_extends _ _ _ Q5 X5))) as (more & ->).
      cbn [ti_ref]. unfold s2. cbn [s_heap with_heap h_refs with_refs]. rewrite <- app_assoc, nth_error_app2 by lia.
      rewrite Nat.sub_diag. reflexivity.
  - apply ret_inv in E as [-> ->].
    assert (Q03 : quiet s0 s3) by (eapply quiet_trans; eauto).
    split; [apply (quiet_back s s3 o Eo Q03)|]. split; [exact C|]. split; [reflexivity|].
    intros St. assert (St' : stands text s2 [word_of t; wsym "("]) by (do 2 apply stands_heap; exact St).
    destruct (stands_next _ _ _ _ _ St') as (u & s4 & N & Wu & _). change (run Next s2) with (next_token s2) in En0. rewrite N in En0.
    injection En0 as E1 _. rewrite C1 in E1. injection E1 as <-. apply weqb_neq in W1. contradiction.
Qed.

Lemma stands_one s t : parsing text s -> s_cur s = Some t -> stands text s [word_of t].
Proof.
  intros P C. exists t, []. split; [reflexivity|]. split; [exact C|]. split; [apply P|]. exists [], (s_tok s). split; [constructor|reflexivity].
Qed.

Lemma designator_factor_sound s f s' : parsing text s -> agrees en s -> run (parse_designator_factor R) s = OOk f s' ->
  quiet s s' /\ (forall rest, stands text s' rest -> stands text s (write_factor f ++ rest)) /\
  exists d args, f = FDesignator d args /\ (forall t, s_cur s = Some t -> raw t = first_name d) /\
    (args <> None -> stands text s (write_desig d ++ [wsym "("])) /\
    (forall refs, extends (h_refs (s_heap s')) refs -> Gdesig refs d /\
       match args with None => True | Some es => es <> [] /\ all (Gexpr refs) es end).
Proof.
  intros P Ag E. unfold parse_designator_factor in E. apply bind_inv in E as (d & s1 & Ed & E).
  pose proof (fun t => designator_first _ _ _ t P Ag Ed) as F1.
  destruct (designator_sound _ _ _ P Ag Ed) as (Q1 & W1 & G1). pose proof (parsing_run _ _ _ _ P Ed) as P1.
  apply bind_inv in E as (b & s2 & Eb & E). apply is_inv in Eb as (t1 & -> & C1 & ->). rewrite sym_w in E.
  destruct (weqb (word_of t1) (wsym "(")) eqn:Wt.
  - apply weqb_eq in Wt. apply bind_inv in E as (c & s2 & En & E). apply next_stepped in En as (St2 & _ & P2); [|exact P1].
    pose proof (quiet_trans _ _ _ Q1 (stepped_quiet _ _ St2)) as Q2.
    apply bind_inv in E as (es & s3 & Es & E). pose proof (parsing_run _ _ _ _ P2 Es) as P3. unfold parse_expr_list in Es.
    apply (comma_loop_sound _ _ _ Hexpr ")" _ _ _ _ _ P2 (quiet_agrees _ _ _ Ag Q2)) in Es as (es' & -> & NE & Q3 & (u & Cu & Wu) & W3 & G3).
    apply bind_inv in E as (c' & s4 & En & E). apply next_stepped in En as (St4 & _ & P4); [|exact P3].
    pose proof (stepped_quiet _ _ St4) as Q4. apply ret_inv in E as [-> ->]. cbn [app].
    split; [eapply quiet_trans; [exact Q2|]; eapply quiet_trans; eauto|]. split.
    + intros rest St. cbn [write_factor]. rewrite <- app_assoc. apply W1. cbn [app]. rewrite <- Wt. apply (proj2 St2 _ _ C1).
      rewrite <- app_assoc. apply W3. cbn [app]. rewrite <- Wu. apply (proj2 St4 _ _ Cu), St.
    + exists d, (Some es'). split; [reflexivity|]. split; [exact F1|]. split.
      * intros _. apply W1. rewrite <- Wt. now apply stands_one.
      * intros refs X. pose proof (quiet_extends _ _ _ Q4 X) as X3. split; [|auto]. apply G1.
        eapply quiet_extends; [exact (stepped_quiet _ _ St2)|]. eapply quiet_extends; eauto.
  - apply ret_inv in E as [-> ->]. split; [exact Q1|]. split.
    + intros rest St. cbn [write_factor]. rewrite app_nil_r. now apply W1.
    + exists d, None. split; [reflexivity|]. split; [exact F1|]. split; [congruence|]. intros refs X. split; [now apply G1|exact I].
Qed.

Lemma set_element_sound : sound (parse_set_element R)
  (fun r => write_expr (fst r) ++ match snd r with None => [] | Some e2 => wsym ".." :: write_expr e2 end)
  (fun refs r => Gexpr refs (fst r) /\ match snd r with None => True | Some e2 => Gexpr refs e2 end).
Proof.
  intros s a s' P Ag E. unfold parse_set_element in E. apply bind_inv in E as (e1 & s1 & E1 & E).
  destruct (Hexpr _ _ _ P Ag E1) as (Q1 & W1 & G1). pose proof (parsing_run _ _ _ _ P E1) as P1.
  apply bind_inv in E as (b & s2 & Eb & E). apply is_inv in Eb as (t & -> & C & ->). rewrite symtext_w in E.
  destruct (weqb (word_of t) (wsym "..")) eqn:Wt.
  - apply weqb_eq in Wt. apply bind_inv in E as (c & s2 & En & E). apply next_stepped in En as (St2 & _ & P2); [|exact P1].
    pose proof (quiet_trans _ _ _ Q1 (stepped_quiet _ _ St2)) as Q2.
    apply bind_inv in E as (e2 & s3 & E2 & E). destruct (Hexpr _ _ _ P2 (quiet_agrees _ _ _ Ag Q2) E2) as (Q3 & W3 & G3).
    apply ret_inv in E as [-> ->]. cbn [fst snd]. split; [eapply quiet_trans; eauto|]. split.
    + intros rest St. rewrite <- app_assoc. apply W1. cbn [app]. rewrite <- Wt. apply (proj2 St2 _ _ C), W3, St.
    + intros refs X. split; [|now apply G3]. apply G1. eapply quiet_extends; [exact (stepped_quiet _ _ St2)|]. eapply quiet_extends; eauto.
  - apply ret_inv in E as [-> ->]. cbn [fst snd]. split; [exact Q1|]. split.
    + intros rest St. rewrite app_nil_r. now apply W1.
    + intros refs X. split; [now apply G1|exact I].
Qed.

Lemma fail_inv {A} t s (a : A) s' : run (FailAt t) s = OOk a s' -> False.
Proof. cbn [run]. destruct (ctx_path _ _); discriminate. Qed.

Lemma factor_sound : sound (parse_factor R) write_factor Gfactor.
Proof.
  intros s f s' P Ag E. unfold parse_factor in E. apply bind_inv in E as (t & s1 & Ec & E). apply cur_inv in Ec as [-> C].
  destruct (proj2 P t C) as (TO & _ & NS & NC).
  destruct (p_type SpecialSymbol t) eqn:Ty.
  { rewrite !sym_value in E by exact Ty. destruct (weqb (word_of t) (wsym "@")) eqn:W1.
    { apply weqb_eq in W1. apply bind_inv in E as (c & s1 & En & E). apply next_stepped in En as (St1 & _ & P1); [|exact P].
      pose proof (stepped_quiet _ _ St1) as Q1. apply bind_inv in E as (d & s2 & Ed & E). apply ret_inv in E as [-> ->].
      destruct (designator_sound _ _ _ P1 (quiet_agrees _ _ _ Ag Q1) Ed) as (Q2 & W2 & G2).
      split; [eapply quiet_trans; eauto|]. split.
      - intros rest St. cbn [write_factor app]. rewrite <- W1. apply (proj2 St1 _ _ C), W2, St.
      - intros refs X. exact (G2 refs X). }
    destruct (weqb (word_of t) (wsym "[")) eqn:W2.
    { apply weqb_eq in W2. apply bind_inv in E as (f1 & s1 & Es & E). unfold parse_set_constructor in Es.
      apply bind_inv in Es as (t' & s2 & Et & Es). apply expect_inv in Et as (-> & C' & _). rewrite C in C'. injection C' as <-.
      apply bind_inv in Es as (c & s2 & En & Es). apply next_stepped in En as (St2 & _ & P2); [|exact P].
      pose proof (stepped_quiet _ _ St2) as Q2. apply bind_inv in Es as (es & s3 & Eu & Es). apply ret_inv in Es as [-> ->].
      pose proof (parsing_run _ _ _ _ P2 Eu) as P3. unfold until_list in Eu.
      apply (until_loop_sound _ _ _ set_element_sound (sym "]") _ _ _ _ _ P2 (quiet_agrees _ _ _ Ag Q2)) in Eu
        as (es' & -> & NE & Q3 & (u & Cu & Wu) & W3 & G3). rewrite sym_w, weqb_eq in Wu.
      apply bind_inv in E as (c' & s4 & En & E). apply next_stepped in En as (St4 & _ & P4); [|exact P3].
      pose proof (stepped_quiet _ _ St4) as Q4. apply ret_inv in E as [-> ->]. cbn [app].
      split; [eapply quiet_trans; [exact Q2|]; eapply quiet_trans; eauto|]. split.
      - intros rest St. cbn [write_factor app]. rewrite <- W2. apply (proj2 St2 _ _ C). rewrite <- app_assoc. apply W3. cbn [app].
        rewrite <- Wu. apply (proj2 St4 _ _ Cu), St.
      - intros refs X. specialize (G3 _ (quiet_extends _ _ _ Q4 X)). split; cbn [good_factor linked_factor].
        + split; [exact NE|]. eapply all_impl; [|exact G3]. intros [e1 [e2|]]; unfold Gexpr; cbn; tauto.
        + eapply all_impl; [|exact G3]. intros [e1 [e2|]]; unfold Gexpr; cbn; tauto. }
    destruct (weqb (word_of t) (wsym "(")) eqn:W3; [|now apply fail_inv in E].
    apply weqb_eq in W3. apply bind_inv in E as (c & s1 & En & E). apply next_stepped in En as (St1 & _ & P1); [|exact P].
    pose proof (stepped_quiet _ _ St1) as Q1. apply bind_inv in E as (e & s2 & Ee & E).
    destruct (Hexpr _ _ _ P1 (quiet_agrees _ _ _ Ag Q1) Ee) as (Q2 & W4 & G2). pose proof (parsing_run _ _ _ _ P1 Ee) as P2.
    apply bind_inv in E as (t2 & s3 & Et & E). apply expect_inv in Et as (-> & C2 & T2). rewrite sym_w, weqb_eq in T2.
    apply bind_inv in E as (c' & s4 & En & E). apply next_stepped in En as (St4 & _ & P4); [|exact P2].
    pose proof (stepped_quiet _ _ St4) as Q4. apply ret_inv in E as [-> ->].
    split; [eapply quiet_trans; [exact Q1|]; eapply quiet_trans; eauto|]. split.
    - intros rest St. cbn [write_factor app]. rewrite <- W3. apply (proj2 St1 _ _ C). rewrite <- app_assoc. apply W4. cbn [app].
      rewrite <- T2. apply (proj2 St4 _ _ C2), St.
    - intros refs X. exact (G2 _ (quiet_extends _ _ _ Q4 X)). }
  destruct (p_type ReservedWord t) eqn:Tr.
  { rewrite !key_value in E by exact Tr. destruct (weqb (word_of t) (wkey "NIL")) eqn:W1.
    { apply weqb_eq in W1. apply bind_inv in E as (c & s1 & En & E). apply next_stepped in En as (St1 & _ & P1); [|exact P].
      apply ret_inv in E as [-> ->]. split; [now apply stepped_quiet|]. split.
      - intros rest St. cbn [write_factor app]. rewrite <- W1. apply (proj2 St1 _ _ C), St.
      - intros. split; exact I. }
    destruct (weqb (word_of t) (wkey "NOT")) eqn:W2; [|now apply fail_inv in E].
    apply weqb_eq in W2. apply bind_inv in E as (c & s1 & En & E). apply next_stepped in En as (St1 & _ & P1); [|exact P].
    pose proof (stepped_quiet _ _ St1) as Q1. apply bind_inv in E as (f1 & s2 & Ef & E). apply ret_inv in E as [-> ->].
    destruct (Hfactor _ _ _ P1 (quiet_agrees _ _ _ Ag Q1) Ef) as (Q2 & W3 & G2).
    split; [eapply quiet_trans; eauto|]. split.
    - intros rest St. cbn [write_factor app]. rewrite <- W2. apply (proj2 St1 _ _ C), W3, St.
    - intros refs X. exact (G2 refs X). }
  assert (Vt : value t = raw t).
  { apply raw_value. intros X. unfold p_type in Tr. rewrite X in Tr. discriminate. }
  destruct (is_manifest_constant (value t)) eqn:Mc.
  { apply manifest_iff in Mc. rewrite Vt in Mc. unfold parse_manifest_constant in E.
    assert (Wt : word_of t = wident (value t)).
    { assert (NL : ~ (t_type t = NumeralInt \/ t_type t = NumeralReal \/ t_type t = CharacterString)).
      { intros X. apply (literal_not_truth (t_type t) (raw t)); [now apply token_lexeme|exact X|exact Mc]. }
      destruct (fits_after _ _ (token_of_fits _ _ TO)) as (post & _ & _ & _ & [(_ & Ew & _)|(NE & _ & _ & Sh)]).
      { exfalso. rewrite Ew in Mc. destruct Mc; discriminate. }
      assert (t_type t = Identifier) as Tt.
      { unfold p_type in Ty, Tr. destruct (t_type t); try discriminate; try congruence; try tauto;
          destruct Sh as [Sh _]; inversion Sh. }
      unfold word_of. now rewrite Tt. }
    apply bind_inv in E as (c & s1 & En & E). apply next_stepped in En as (St1 & _ & P1); [|exact P].
    apply ret_inv in E as [-> ->]. split; [now apply stepped_quiet|]. split.
    - intros rest St. cbn [write_factor app]. rewrite <- Wt. apply (proj2 St1 _ _ C), St.
    - intros refs _. rewrite Vt. split; [exact Mc|exact I]. }
  rewrite Vt in Mc. apply manifest_false in Mc.
  destruct (p_type CharacterString t) eqn:Ts.
  { unfold p_type in Ts. destruct (t_type t) eqn:Tt; try discriminate.
    apply bind_inv in E as (v & s1 & Ev & E). apply ret_inv in E as [-> ->]. unfold parse_string_factor in Ev. cbn [orb] in Ev.
    apply bind_inv in Ev as (c & s2 & En & Ev). apply next_stepped in En as (St1 & _ & P1); [|exact P]. apply ret_inv in Ev as [-> ->].
    split; [now apply stepped_quiet|]. split.
    - intros rest St. cbn [write_factor app]. replace (CharacterString, value t) with (word_of t) by (unfold word_of; now rewrite Tt, Vt).
      apply (proj2 St1 _ _ C), St.
    - intros refs _. rewrite Vt. split; [|exact I]. cbn [good_factor]. rewrite <- Tt. apply token_lexeme; [exact TO|rewrite Tt; auto]. }
  destruct (p_some [p_type NumeralInt; p_type NumeralReal] t) eqn:Tn.
  { assert (Hl : (t_type t = NumeralInt \/ t_type t = NumeralReal)).
    { unfold p_some, p_type in Tn. cbn [existsb] in Tn. destruct (t_type t); cbn in Tn; try discriminate; auto. }
    assert (Lx : lexeme (t_type t) (raw t)) by (apply token_lexeme; tauto).
    assert (Lx' : lexeme NumeralInt (raw t) \/ lexeme NumeralReal (raw t)) by (destruct Hl as [Hl|Hl]; rewrite Hl in Lx; auto).
    assert (Wt : word_of t = wnumber (value t)).
    { rewrite Vt. unfold word_of. rewrite Vt. destruct (numeral_word _ Lx') as [N1 N2].
      destruct Hl as [Hl|Hl]; rewrite Hl in *; [now rewrite N1|now rewrite N2]. }
    apply bind_inv in E as (v & s1 & Ev & E). apply ret_inv in E as [-> ->]. unfold parse_number_factor in Ev. cbn [orb] in Ev.
    apply bind_inv in Ev as (c & s2 & En & Ev). apply next_stepped in En as (St1 & _ & P1); [|exact P]. apply ret_inv in Ev as [-> ->].
    split; [now apply stepped_quiet|]. split.
    - intros rest St. cbn [write_factor app]. rewrite <- Wt. apply (proj2 St1 _ _ C), St.
    - intros refs _. rewrite Vt. split; [exact Lx'|exact I]. }
  destruct (p_type Identifier t) eqn:Ti; [|now apply fail_inv in E].
  destruct (word_ident _ Ti) as [Wt _].
  apply bind_inv in E as (r & s1 & Er & E). apply get_node_inv in Er as [-> Hr]. rewrite Vt in Hr.
  apply bind_inv in E as (c & s1 & Ec & E).
  assert (Hc : quiet s s1 /\ match c with
    | Some f => exists ti e d x, r = Some (d, NType x) /\ f = FCast ti e /\ ti_unit ti = None /\ i_name (ti_ident ti) = raw t /\
      (forall rest, stands text s1 rest -> stands text s (write_factor f ++ rest)) /\
      (forall refs, extends (h_refs (s_heap s1)) refs -> Gexpr refs e /\ nth_error refs (ti_ref ti) = Some (Some d))
    | None => s_cur s1 = Some t /\ (forall ws, stands text s1 ws -> stands text s ws) /\ parsing text s1 /\
        (match r with Some (_, NType _) => ~ stands text s [word_of t; wsym "("] | _ => True end)
    end).
  { destruct r as [[d x]|]; [|apply ret_inv in Ec as [-> ->]; split; [apply quiet_refl|auto]].
    destruct x; try (apply ret_inv in Ec as [-> ->]; split; [apply quiet_refl|auto]; fail).
    pose proof (parsing_run _ _ _ _ P Ec) as P1. pose proof (cast_inv _ _ _ _ _ P Ag C Ti Ec) as [Q Hc].
    split; [exact Q|]. destruct c as [f1|].
    - destruct Hc as (ti & e & Hc). exists ti, e, d, t0. split; [reflexivity|exact Hc].
    - destruct Hc as (C1 & Tk & Ns). split; [exact C1|]. split; [|auto]. intros ws (u & ws' & Ew & Cu & A).
      exists u, ws'. split; [exact Ew|]. split; [congruence|]. eapply ahead_spot; [exact A|apply P|]. rewrite Tk. apply same_spot_sym, same_spot_clone. }
  destruct Hc as [Q1 Hc]. destruct c as [f1|].
  - apply ret_inv in E as [-> ->]. destruct Hc as (ti & e & d & x & -> & -> & Tu & Nm & Wc & Gc).
    split; [exact Q1|]. split; [exact Wc|]. intros refs X. destruct (Gc _ X) as [[Ge Le] Hn]. pose proof Ag as (PC & EV & EP & ET & EM).
    split; cbn [good_factor linked_factor].
    + rewrite Nm. split; [exact Tu|]. split; [exact Mc|]. split; [|exact Ge]. apply ET. exists d, x. exact Hr.
    + split; [|exact Le]. exists d. split; [|exact Hn]. rewrite Nm, EV. cbn [visible env_at]. destruct Hr as [-> _]. reflexivity.
  - destruct Hc as (C1 & Bk & P1 & Ns).
    destruct (designator_factor_sound _ _ _ P1 (quiet_agrees _ _ _ Ag Q1) E) as (Q2 & W2 & d & args & -> & F1 & A1 & G1).
    split; [eapply quiet_trans; eauto|]. split; [intros rest St; apply Bk, W2, St|].
    intros refs X. destruct (G1 _ X) as [[Gd Ld] Ga]. specialize (F1 _ C1). split; cbn [good_factor linked_factor].
    + split; [exact Gd|]. rewrite <- F1. split; [exact Mc|]. destruct args as [es|]; [|exact I]. destruct Ga as [NE Ga].
      split; [exact NE|]. split; [eapply all_impl; [|exact Ga]; intros ? []; assumption|].
      intros q -> Hq Tn'. cbn [first_name] in F1. rewrite Hq in F1. rewrite <- F1 in Tn'.
      destruct Ag as (PC & EV & EP & ET & EM). apply ET in Tn'. destruct Tn' as (d' & x & Rv).
      assert (exists d'', r = Some (d'', NType x)) as [d'' ->].
      { destruct Rv as (Gc & o & D & En). destruct r as [[d'' y]|]; [|congruence]. destruct Hr as (Gc' & o' & D' & En').
        rewrite Gc in Gc'. injection Gc' as <-. rewrite D in D'. injection D' as <-. exists d'. congruence. }
      apply Ns. assert (Sa : Some es <> None) by discriminate. specialize (A1 Sa). apply Bk in A1.
      cbn [write_desig flat_map app] in A1. unfold write_name in A1. rewrite Hq in A1. cbn [app] in A1.
      rewrite Wt, F1. exact A1.
    + split; [exact Ld|]. destruct args as [es|]; [|exact I]. destruct Ga as [NE Ga]. eapply all_impl; [|exact Ga]. intros ? []; assumption.
Qed.

(** ** Terms and expressions *)
Lemma all_ops {X} (G L : X -> Prop) (ops : list gostring) (l : list (gostring * X)) :
  all (fun r => In (fst r) ops /\ (G (snd r) /\ L (snd r))) l ->
  all (fun r => In (fst r) ops /\ G (snd r)) l /\ all (fun r => L (snd r)) l.
Proof. intros A. split; (eapply all_impl; [|exact A]); cbn; tauto. Qed.

Lemma term_sound : sound (parse_term R) write_term Gterm.
Proof.
  intros s a s' P Ag E. unfold parse_term in E. apply bind_inv in E as (f & s1 & Ef & E).
  destruct (factor_sound _ _ _ P Ag Ef) as (Q1 & W1 & G1). pose proof (parsing_run _ _ _ _ P Ef) as P1.
  apply bind_inv in E as (l & s2 & El & E). apply ret_inv in E as [-> ->].
  apply (op_loop_sound mul_op mul_ops _ _ _ mul_w factor_sound _ _ _ _ _ P1 (quiet_agrees _ _ _ Ag Q1)) in El as (l1 & -> & Q2 & W2 & G2).
  cbn [app]. split; [eapply quiet_trans; eauto|]. split.
  - intros rest St. cbn [write_term]. rewrite <- app_assoc. now apply W1, W2.
  - intros refs X. destruct (G1 _ (quiet_extends _ _ _ Q2 X)) as [Gf Lf]. destruct (all_ops _ _ _ _ (G2 _ X)) as [Gl Ll].
    split; split; assumption.
Qed.

Lemma sexpr_sound : sound (parse_simple_expression R) write_sexpr Gsexpr.
Proof.
  intros s a s' P Ag E. unfold parse_simple_expression in E. apply bind_inv in E as (t & s1 & Et & E). apply cur_inv in Et as [-> C].
  apply bind_inv in E as (u & s1 & Eu & E).
  assert (Hu : quiet s s1 /\ parsing text s1 /\ match u with None => True | Some v => In v signs end /\
    forall rest, stands text s1 rest -> stands text s (match u with None => [] | Some v => [wop v] end ++ rest)).
  { destruct (unary_op t) eqn:O.
    - apply bind_inv in Eu as (c & s2 & En & Eu). apply next_stepped in En as (St & _ & P2); [|exact P]. apply ret_inv in Eu as [-> ->].
      split; [now apply stepped_quiet|]. split; [exact P2|]. destruct (op_word _ signs unary_w t O) as [I Ew]. split; [exact I|].
      intros rest Sr. cbn [app]. rewrite <- Ew. apply (proj2 St _ _ C), Sr.
    - apply ret_inv in Eu as [-> ->]. split; [apply quiet_refl|]. auto. }
  destruct Hu as (Q0 & P0 & Iu & W0). apply bind_inv in E as (f & s2 & Ef & E). pose proof (quiet_agrees _ _ _ Ag Q0) as Ag0.
  destruct (term_sound _ _ _ P0 Ag0 Ef) as (Q1 & W1 & G1). pose proof (parsing_run _ _ _ _ P0 Ef) as P1.
  apply bind_inv in E as (l & s3 & El & E). apply ret_inv in E as [-> ->].
  apply (op_loop_sound add_op add_ops _ _ _ add_w term_sound _ _ _ _ _ P1 (quiet_agrees _ _ _ Ag0 Q1)) in El as (l1 & -> & Q2 & W2 & G2).
  cbn [app]. split; [eapply quiet_trans; [exact Q0|]; eapply quiet_trans; eauto|]. split.
  - intros rest St. cbn [write_sexpr]. rewrite <- !app_assoc. now apply W0, W1, W2.
  - intros refs X. destruct (G1 _ (quiet_extends _ _ _ Q2 X)) as [Gf Lf]. destruct (all_ops _ _ _ _ (G2 _ X)) as [Gl Ll].
    split; cbn [good_sexpr linked_sexpr]; auto.
Qed.

Lemma expression_sound : sound (parse_expression R) write_expr Gexpr.
Proof.
  intros s a s' P Ag E. unfold parse_expression in E. apply bind_inv in E as (f & s1 & Ef & E).
  destruct (sexpr_sound _ _ _ P Ag Ef) as (Q1 & W1 & G1). pose proof (parsing_run _ _ _ _ P Ef) as P1.
  apply bind_inv in E as (l & s2 & El & E). apply ret_inv in E as [-> ->].
  apply (op_loop_sound rel_op rel_ops _ _ _ rel_w sexpr_sound _ _ _ _ _ P1 (quiet_agrees _ _ _ Ag Q1)) in El as (l1 & -> & Q2 & W2 & G2).
  cbn [app]. split; [eapply quiet_trans; eauto|]. split.
  - intros rest St. cbn [write_expr]. rewrite <- app_assoc. now apply W1, W2.
  - intros refs X. destruct (G1 _ (quiet_extends _ _ _ Q2 X)) as [Gf Lf]. destruct (all_ops _ _ _ _ (G2 _ X)) as [Gl Ll].
    split; split; assumption.
Qed.
End Rec.

Lemma sound_at m : sound (parse_expression (recs_at m)) write_expr Gexpr /\ sound (parse_factor (recs_at m)) write_factor Gfactor.
Proof.
  induction m as [|m [IHe IHf]].
  - assert (He : sound (r_expr (recs_at 0)) write_expr Gexpr) by (intros s a s' _ _ E; discriminate).
    assert (Hf : sound (r_factor (recs_at 0)) write_factor Gfactor) by (intros s a s' _ _ E; discriminate).
    split; [now apply expression_sound|now apply factor_sound].
  - assert (He : sound (r_expr (recs_at (S m))) write_expr Gexpr) by exact IHe.
    assert (Hf : sound (r_factor (recs_at (S m))) write_factor Gfactor) by exact IHf.
    split; [now apply expression_sound|now apply factor_sound].
Qed.
End WithUnicode.
