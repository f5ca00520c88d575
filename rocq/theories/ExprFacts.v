(** The parser reads expressions in source form. *)
From Coq Require Import String List NArith Bool Arith Lia.
From Verif Require Import Runes UnicodeFacts Token Tokenizer LexSpec LexShape LexFacts LexMain
  Ast Heap MapFacts MapMain Prog ParseSpec Parser RunFacts ExprSpec WpFacts.
Import ListNotations.
Local Open Scope list_scope.

Section WithUnicode.
Context {U : Unicode} {UOK : UnicodeOk U}.
Context (text : list rune) (en : env).

Notation words := (list (ttype * gostring)).

(** [p] reads [ws] when none of [l] follows, with a result in [Post]. *)
Definition accepts {A} (p : prog A) (ws l : words) (Post : A -> Prop) : Prop :=
  forall s rest, agrees en s -> stands text s (ws ++ rest) -> stops l rest ->
  wp p s (fun a s' => Post a /\ stands text s' rest /\ quiet s s').

(** What must not follow. *)
Definition factor_on : words := map wsym ["("; "."; "["; "^"]%string.
Definition term_on : words := map wop mul_ops ++ factor_on.
Definition sexpr_on : words := map wop add_ops ++ term_on.
Definition expr_on : words := map wop rel_ops ++ sexpr_on.
Lemma expr_on_goes_on : incl expr_on goes_on.
Proof.
  intros w I. apply win_iff. apply win_iff in I. revert I.
  unfold expr_on, sexpr_on, term_on, goes_on, factor_on. rewrite !map_app, !existsb_app.
  destruct (existsb _ (map wop rel_ops)), (existsb _ (map wop add_ops)), (existsb _ (map wop mul_ops)); cbn; auto.
Qed.
Lemma stops_ops l v ops rest : forallb (fun v => stopsb l [wop v]) ops = true -> In v ops -> stops l (wop v :: rest).
Proof.
  intros F I. rewrite forallb_forall in F. specialize (F _ I). apply stops_by in F. exact F.
Qed.
Ltac stop := apply stops_by; vm_compute; reflexivity.

Lemma all_forall {A} (P : A -> Prop) l : all P l <-> Forall P l.
Proof.
  induction l as [|a l IH]; cbn; [now split|]. rewrite IH. split; [intros [? ?]; now constructor|].
  intros F; inversion F; auto.
Qed.
Lemma app_nonempty {A} (l l' : list A) : l' <> [] -> l ++ l' <> [].
Proof. destruct l; [auto|discriminate]. Qed.

(** ** Operators *)
Section Ops.
Context {X : Type} (op : predicator) (ops : list gostring) (p : prog X) (W : X -> words) (B : X -> X)
  (inner : words).
Definition op_step (l : list (gostring * X)) : prog (list (gostring * X) + list (gostring * X)) :=
  Bind cur (fun t =>
  if op t then Bind Next (fun _ => Bind p (fun x => Ret (inl (l ++ [(value t, x)])))) else Ret (inr l)).
Context (Hop : forall t, op t = existsb (weqb (word_of t)) (map wop ops))
        (Hin : forallb (fun v => stopsb inner [wop v]) ops = true).

Lemma op_loop l : forall acc fuel s rest, length l < fuel ->
  Forall (fun r => In (fst r) ops /\ W (snd r) <> [] /\ accepts p (W (snd r)) inner (fun x => B x = B (snd r))) l ->
  agrees en s -> stands text s (flat_map (fun r => wop (fst r) :: W (snd r)) l ++ rest) ->
  stops (map wop ops ++ inner) rest ->
  wp (loop fuel op_step acc) s (fun l' s' => (exists l1, l' = acc ++ l1 /\
     map (fun r => (fst r, B (snd r))) l1 = map (fun r => (fst r, B (snd r))) l) /\ stands text s' rest /\ quiet s s').
Proof.
  induction l as [|[v x] l IH]; intros acc fuel s rest Lf F Ag St Sp; (destruct fuel as [|fuel]; [cbn in Lf; lia|]);
    cbn [loop]; apply wp_bind.
  - cbn [flat_map app] in St. destruct (stops_cons _ _ Sp) as (T & ws & ->).
    destruct (stands_cur _ _ _ _ St) as (t & C & Wt & _).
    apply wp_bind. eapply wp_cur; [exact C|]. rewrite Hop, Wt.
    replace (existsb (weqb T) (map wop ops)) with false.
    2:{ symmetry. apply win_not. cbn in Sp. intros I. apply Sp. apply in_or_app. auto. }
    apply wp_ret, wp_ret. split; [exists []; rewrite app_nil_r; auto|]. split; [exact St|apply quiet_refl].
  - inversion F as [|? ? (Iv & NE & Ac) F']; subst. cbn [fst snd] in *. cbn [flat_map app fst snd] in St.
    rewrite <- app_assoc in St. destruct (stands_cur _ _ _ _ St) as (t & C & Wt & _).
    apply wp_bind. eapply wp_cur; [exact C|]. rewrite Hop, Wt.
    replace (existsb (weqb (wop v)) (map wop ops)) with true.
    2:{ symmetry. apply win_iff. now apply in_map. }
    apply wp_bind. eapply wp_next; [exact St| |].
    { destruct (W x); [congruence|discriminate]. }
    intros t1 s1 C1 _ St1 SB1. apply quiet_place in SB1.
    assert (Sp1 : stops inner (flat_map (fun r => wop (fst r) :: W (snd r)) l ++ rest)).
    { destruct l as [|[v2 x2] l2]; cbn [flat_map app fst].
      - eapply stops_incl; [|exact Sp]. intros w I. apply in_or_app. auto.
      - eapply stops_ops; [exact Hin|]. inversion F' as [|? ? (I2 & _) _]; subst. exact I2. }
    apply wp_bind. eapply wp_conseq; [apply (Ac s1); [eapply quiet_agrees; eauto|exact St1|exact Sp1]|].
    intros x' s2 (Bx & St2 & Q2). apply wp_ret.
    assert (Vt : value t = v) by (rewrite value_w, Wt; reflexivity). rewrite Vt.
    eapply wp_conseq.
    { apply (IH (acc ++ [(v, x')]) fuel s2 rest); [cbn in Lf; lia|exact F'| |exact St2|exact Sp].
      eapply quiet_agrees; [|exact Q2]. eapply quiet_agrees; eauto. }
    intros l' s3 ((l1 & -> & M) & St3 & Q3). split.
    { exists ((v, x') :: l1). rewrite <- app_assoc. split; [reflexivity|]. cbn. now rewrite Bx, M. }
    split; [exact St3|]. eapply quiet_trans; [exact SB1|]. eapply quiet_trans; eauto.
Qed.
End Ops.

(** ** Lists with commas *)
Lemma commas_cons p ps : ps <> [] -> commas (p :: ps) = p ++ wsym "," :: commas ps.
Proof. destruct ps; [congruence|reflexivity]. Qed.

Section Commas.
Context {X : Type} (p : prog X) (W : X -> words) (B : X -> X) (inner : words) (close : string).
Definition list_step (terminator : predicator) (l : list X) : prog (list X + list X) :=
  Bind p (fun e => Bind (is terminator) (fun b => if b : bool then Ret (inr (l ++ [e])) else
  Bind (expect (sym ",")) (fun _ => Bind Next (fun _ => Ret (inl (l ++ [e])))))).
Context (Hclose : stopsb inner [wsym close] = true) (Hcomma : stopsb inner [wsym ","] = true)
        (Hdiff : weqb (wsym ",") (wsym close) = false).

Lemma commas_nonempty l : l <> [] -> Forall (fun x => W x <> []) l -> commas (map W l) <> [].
Proof.
  destruct l as [|x [|y l]]; intros NE F; [congruence| |].
  - inversion F; subst. exact H1.
  - cbn [map]. rewrite commas_cons by discriminate. apply app_nonempty. discriminate.
Qed.

Lemma comma_loop l : forall acc fuel s rest, l <> [] -> length l <= fuel ->
  Forall (fun x => W x <> [] /\ accepts p (W x) inner (fun x' => B x' = B x)) l ->
  agrees en s -> stands text s (commas (map W l) ++ wsym close :: rest) ->
  wp (loop fuel (list_step (sym close)) acc) s (fun l' s' => (exists l1, l' = acc ++ l1 /\ map B l1 = map B l) /\
     stands text s' (wsym close :: rest) /\ quiet s s').
Proof.
  induction l as [|x l IH]; intros acc fuel s rest NE Lf F Ag St; [congruence|].
  destruct fuel as [|fuel]; [cbn in Lf; lia|]. inversion F as [|? ? (NEx & Ac) F']; subst.
  cbn [loop]. apply wp_bind. apply wp_bind. destruct l as [|y l].
  - cbn [map commas] in St. eapply wp_conseq.
    { apply (Ac s); [exact Ag|exact St|]. apply stops_by. exact Hclose. }
    intros x' s1 (Bx & St1 & Q1). destruct (stands_cur _ _ _ _ St1) as (t & C & Wt & _).
    apply wp_bind. eapply wp_is; [exact C|]. rewrite sym_w, Wt.
    replace (weqb (wsym close) (wsym close)) with true by (symmetry; now apply weqb_eq).
    apply wp_ret, wp_ret. split; [exists [x']; cbn; now rewrite Bx|]. auto.
  - cbn [map] in St. rewrite commas_cons in St by discriminate. rewrite <- app_assoc in St. cbn [app] in St.
    eapply wp_conseq.
    { apply (Ac s); [exact Ag|exact St|]. apply stops_by. exact Hcomma. }
    intros x' s1 (Bx & St1 & Q1). destruct (stands_cur _ _ _ _ St1) as (t & C & Wt & _).
    apply wp_bind. eapply wp_is; [exact C|]. rewrite sym_w, Wt, Hdiff.
    apply wp_bind. eapply wp_expect; [exact C| |].
    { rewrite sym_w, Wt. now apply weqb_eq. }
    apply wp_bind. eapply wp_next; [exact St1|apply app_nonempty; discriminate|]. intros t1 s2 C1 _ St2 SB2.
    apply quiet_place in SB2. apply wp_ret. eapply wp_conseq.
    { apply (IH (acc ++ [x']) fuel s2 rest); [discriminate|cbn in *; lia|exact F'| |exact St2].
      eapply quiet_agrees; [|exact SB2]. eapply quiet_agrees; eauto. }
    intros l' s3 ((l1 & -> & M) & St3 & Q3). split.
    { exists (x' :: l1). rewrite <- app_assoc. split; [reflexivity|]. cbn [map]. rewrite Bx. f_equal. exact M. }
    split; [exact St3|]. eapply quiet_trans; [exact Q1|]. eapply quiet_trans; eauto.
Qed.

Lemma until_loop l : forall acc fuel s rest, l <> [] -> length l <= fuel ->
  Forall (fun x => W x <> [] /\ accepts p (W x) inner (fun x' => B x' = B x)) l ->
  agrees en s -> stands text s (commas (map W l) ++ wsym close :: rest) ->
  wp (until fuel (sym close) (Some (sym ",")) (append_with p) acc) s
     (fun l' s' => (exists l1, l' = acc ++ l1 /\ map B l1 = map B l) /\
     stands text s' (wsym close :: rest) /\ quiet s s').
Proof.
  induction l as [|x l IH]; intros acc fuel s rest NE Lf F Ag St; [congruence|].
  destruct fuel as [|fuel]; [cbn in Lf; lia|]. inversion F as [|? ? (NEx & Ac) F']; subst.
  unfold until. cbn [loop]. apply wp_bind. unfold until_step at 1. apply wp_bind.
  unfold append_with at 1. apply wp_bind. destruct l as [|y l].
  - cbn [map commas] in St. eapply wp_conseq.
    { apply (Ac s); [exact Ag|exact St|]. apply stops_by. exact Hclose. }
    intros x' s1 (Bx & St1 & Q1). destruct (stands_cur _ _ _ _ St1) as (t & C & Wt & _).
    apply wp_ret. apply wp_bind. eapply wp_cur_opt; [exact C|]. rewrite sym_w, Wt.
    replace (weqb (wsym close) (wsym close)) with true by (symmetry; now apply weqb_eq).
    apply wp_ret, wp_ret. split; [exists [x']; cbn; now rewrite Bx|]. auto.
  - cbn [map] in St. rewrite commas_cons in St by discriminate. rewrite <- app_assoc in St. cbn [app] in St.
    eapply wp_conseq.
    { apply (Ac s); [exact Ag|exact St|]. apply stops_by. exact Hcomma. }
    intros x' s1 (Bx & St1 & Q1). destruct (stands_cur _ _ _ _ St1) as (t & C & Wt & _).
    apply wp_ret. apply wp_bind. eapply wp_cur_opt; [exact C|]. rewrite sym_w, Wt, Hdiff.
    apply wp_bind. cbn [validate]. rewrite sym_w, Wt.
    replace (weqb (wsym ",") (wsym ",")) with true by (symmetry; now apply weqb_eq). apply wp_ret.
    apply wp_bind. eapply wp_next; [exact St1|apply app_nonempty; discriminate|]. intros t1 s2 C1 _ St2 SB2.
    apply quiet_place in SB2. apply wp_ret. eapply wp_conseq.
    { apply (IH (acc ++ [x']) fuel s2 rest); [discriminate|cbn in *; lia|exact F'| |exact St2].
      eapply quiet_agrees; [|exact SB2]. eapply quiet_agrees; eauto. }
    intros l' s3 ((l1 & -> & M) & St3 & Q3). split.
    { exists (x' :: l1). rewrite <- app_assoc. split; [reflexivity|]. cbn [map]. rewrite Bx. f_equal. exact M. }
    split; [exact St3|]. eapply quiet_trans; [exact Q1|]. eapply quiet_trans; eauto.
Qed.
End Commas.

(** ** Names *)
Lemma manifest_iff v : is_manifest_constant v = true <-> truth_value v.
Proof.
  unfold is_manifest_constant, truth_value, str_in. cbn [map existsb]. rewrite !orb_true_iff, !runes_equal_eq.
  intuition congruence.
Qed.
Lemma manifest_false v : is_manifest_constant v = false <-> ~ truth_value v.
Proof. rewrite <- manifest_iff. destruct (is_manifest_constant v); split; congruence. Qed.

Lemma lexeme_head ty w : lexeme ty w -> ty = NumeralInt \/ ty = NumeralReal \/ ty = CharacterString ->
  exists r w', w = r :: w' /\ (r = 39 \/ r = 45 \/ Digit r)%N.
Proof.
  intros L T. destruct L; try (destruct T as [T|[T|T]]; discriminate).
  - destruct H as [->| ->]; [|exists 45%N; eexists; split; [reflexivity|auto]].
    destruct ds as [|r ds]; [congruence|]. inversion H1; subst. exists r, ds. auto.
  - destruct H as [->| ->]; [|exists 45%N; eexists; split; [reflexivity|auto]].
    destruct ds as [|r ds]; [congruence|]. inversion H1; subst. exists r. eexists. split; [reflexivity|auto].
  - exists 39%N. eexists. split; [reflexivity|auto].
Qed.
Lemma literal_not_truth ty v : lexeme ty v -> ty = NumeralInt \/ ty = NumeralReal \/ ty = CharacterString -> ~ truth_value v.
Proof.
  intros L T Tr. destruct (lexeme_head _ _ L T) as (r & w & -> & Hr). unfold truth_value, to_upper in Tr. cbn [map] in Tr.
  assert (u_upper r = r).
  { rewrite upper_ascii by (unfold Digit in Hr; lia). unfold between. destruct (97 <=? r)%N eqn:E; cbn [andb]; auto.
    apply N.leb_le in E. unfold Digit in Hr. lia. }
  destruct Tr as [Tr|Tr]; injection Tr as Tr _; unfold Digit in Hr; lia.
Qed.
Lemma numeral_word v : lexeme NumeralInt v \/ lexeme NumeralReal v ->
  (lexeme NumeralInt v -> wnumber v = (NumeralInt, v)) /\ (lexeme NumeralReal v -> wnumber v = (NumeralReal, v)).
Proof.
  assert (ND : forall l, Forall Digit l -> existsb (N.eqb 46) l = false).
  { induction 1 as [|r l Hr F IH]; [reflexivity|]. cbn [existsb]. rewrite IH, orb_false_r. apply N.eqb_neq. unfold Digit in Hr. lia. }
  intros _. unfold wnumber. split; intros L; inversion L as [| |s ds Sg NE F|s ds fs Sg NE F F2| | |]; subst; rewrite !existsb_app.
  - rewrite (ND _ F). destruct Sg as [->| ->]; reflexivity.
  - cbn [existsb]. rewrite N.eqb_refl. cbn [orb]. now rewrite !orb_true_r.
Qed.

(** A name that is no namespace. *)
Lemma plain_get s n : agrees en s -> plain_name en n \/ type_name en n ->
  exists r, run (get_node n) s = OOk r s /\ run (get n) s = OOk (option_map fst r) s /\
    match r with Some (_, NUses _) | Some (_, NUnit _) | Some (_, NProgram _) => False | _ => True end /\
    (match r with Some (_, NType _) => True | _ => False end <-> type_name en n).
Proof.
  intros (PC & EV & EP & ET & EM) H. rewrite run_get_node, run_get. specialize (EP n). specialize (ET n).
  cbn [plain_name type_name env_at] in *. rewrite EP, ET in H. setoid_rewrite ET. clear EP ET EV EM.
  destruct (ctx_get (s_heap s) (s_ctx s) n) as [|d|] eqn:G.
  - exists None. repeat split; try contradiction. intros (d & t & G' & _). congruence.
  - assert (exists x o, deref (s_heap s) d = Some o /\ d_node o = x /\ ~ is_namespace x) as (x & o & D & <- & NN).
    { destruct H as [[H|(d' & x & (G' & o & D & E) & NN & _)]|(d' & t & G' & o & D & E)]; [congruence| |].
      - exists x, o. replace d with d' by congruence. auto.
      - exists (NType t), o. replace d with d' by congruence. auto. }
    rewrite D. exists (Some (d, d_node o)). split; [reflexivity|]. split; [reflexivity|]. split.
    { destruct (d_node o); auto; now apply NN. }
    split.
    + destruct (d_node o) eqn:E; try contradiction. intros _. exists d, t. unfold resolves. rewrite G. eauto.
    + intros (d' & t & G' & o' & D' & E). replace d' with d in D' by congruence. replace o' with o in E by congruence.
      now rewrite E.
  - exfalso. destruct H as [[H|(d' & x & (G' & _) & _)]|(d' & t & G' & _)]; congruence.
Qed.
Lemma run_is_namespace t s r s' : run (get_node (value t)) s = OOk r s' ->
  run (is_namespace_identifier t) s = OOk (match r with Some (_, NUnit _) | Some (_, NProgram _) => true | _ => false end) s'.
Proof. intros E. unfold is_namespace_identifier. rewrite run_bind, E. reflexivity. Qed.
Lemma run_is_unit t s r s' : run (get_node (value t)) s = OOk r s' ->
  run (is_unit_identifier t) s = OOk (match r with Some (_, NUses _) => true | _ => false end) s'.
Proof. intros E. unfold is_unit_identifier. rewrite run_bind, E. reflexivity. Qed.
Lemma accepts_name q : good_name en q ->
  accepts parse_qual_id (write_name q) [] (fun q' => bare_qual q' = bare_qual q).
Proof.
  intros G s rest Ag St Sp. unfold parse_qual_id, write_name, good_name in *.
  destruct q as [[ns|] i]; cbn [q_ns q_ident] in *.
  - destruct G as (d & d' & M). cbn [app] in St.
    destruct (stands_cur _ _ _ _ St) as (t & C & Wt & _). destruct (wident_inv _ _ Wt) as [Tt Rt].
    assert (Vt : value t = i_name (ir_ident ns)) by (rewrite value_w, Wt; reflexivity).
    apply wp_bind. eapply wp_expect; [exact C|unfold p_type; now rewrite Tt|].
    pose proof Ag as (PC & EV & EP & ET & EM). apply EM in M. destruct M as (n & mp & (Gc & o & D & En) & NM & Gm).
    assert (Gn : run (get_node (value t)) s = OOk (Some (d, n)) s) by (now rewrite Vt, run_get_node, Gc, D, En).
    apply wp_bind. eapply wp_run; [apply (run_is_namespace _ _ _ _ Gn)|].
    apply wp_bind. eapply (wp_run _ s true s).
    { destruct n; try contradiction; cbn [namespace_map] in NM; try reflexivity. rewrite (run_is_unit _ _ _ _ Gn). reflexivity. }
    apply wp_bind. eapply wp_expect_next; [exact St| |].
    { intros u Wu. rewrite sym_w, Wu. now apply weqb_eq. }
    intros u1 s1 C1 W1 St1 SB1. apply wp_bind. eapply wp_expect_next; [exact St1| |].
    { intros u Wu. destruct (wident_inv _ _ Wu) as [Tu _]. unfold p_type. now rewrite Tu. }
    intros u2 s2 C2 W2 St2 SB2. pose proof (same_but_place_trans _ _ _ SB1 SB2) as (Ec & Ep & Eh).
    destruct (wident_inv _ _ W2) as [T2 R2].
    assert (V2 : value u2 = i_name (ir_ident i)) by (rewrite value_w, W2; reflexivity).
    apply wp_bind. eapply (wp_run _ s2 (Some (d, n)) s2).
    { rewrite run_get_node, <- Ec, <- Eh, Vt, Gc, D, En. reflexivity. }
    apply wp_bind. eapply (wp_run _ s2 (Some d') s2).
    { assert (Gd : dget (s_heap s2) mp (value u2) = LFound d') by (now rewrite <- Eh, V2).
      destruct n; try contradiction; cbn [namespace_map] in NM; rewrite Eh in NM.
      - destruct NM as (it & u & uo & N1 & N2 & N3 & N4). rewrite run_bind. unfold uses_item_unit. cbn [run].
        rewrite N1, N2, with_same_heap. unfold unit_get. cbn [run]. rewrite N3, N4, Gd. now rewrite with_same_heap.
      - destruct NM as (uo & N3 & N4). unfold unit_get. cbn [run]. rewrite N3, N4, Gd. now rewrite with_same_heap.
      - destruct NM as (uo & N3 & N4). unfold program_get. cbn [run]. rewrite N3, N4, Gd. now rewrite with_same_heap. }
    apply wp_bind. eapply wp_next; [exact St2|eapply stops_nonempty; eauto|]. intros u3 s3 C3 _ St3 SB3.
    apply wp_ret. split.
    { unfold bare_qual, bare_ref, bare_ident, new_ident. cbn. now rewrite Rt, R2. }
    split; [exact St3|]. apply quiet_place. eapply same_but_place_trans; [exact SB1|]. eapply same_but_place_trans; eauto.
  - cbn [app] in St.
    destruct (stands_cur _ _ _ _ St) as (t & C & Wt & _). destruct (wident_inv _ _ Wt) as [Tt Rt].
    assert (Vt : value t = i_name (ir_ident i)) by (rewrite value_w, Wt; reflexivity).
    apply wp_bind. eapply wp_expect; [exact C|unfold p_type; now rewrite Tt|].
    destruct (plain_get s _ Ag G) as (r & Gn & _ & NN & _). rewrite <- Vt in Gn.
    apply wp_bind. eapply wp_run; [apply (run_is_namespace _ _ _ _ Gn)|].
    apply wp_bind. eapply (wp_run _ s false s).
    { destruct r as [[d []]|]; try contradiction; rewrite (run_is_unit _ _ _ _ Gn); reflexivity. }
    apply wp_bind. eapply wp_next; [exact St|eapply stops_nonempty; eauto|]. intros u1 s1 C1 _ St1 SB1.
    apply quiet_place in SB1. pose proof (quiet_agrees _ _ _ Ag SB1) as Ag1.
    destruct (plain_get s1 _ Ag1 G) as (r1 & _ & Gg & _). rewrite <- Rt in Gg.
    apply wp_bind. unfold new_ident_ref. apply wp_bind. eapply wp_run; [exact Gg|]. apply wp_ret, wp_ret.
    split; [|auto]. unfold bare_qual, bare_ref, bare_ident, new_ident. cbn. now rewrite Rt.
Qed.

(** ** Lengths *)
Lemma write_name_nonempty q : write_name q <> [].
Proof. unfold write_name. destruct (q_ns q); discriminate. Qed.
Lemma write_desig_nonempty d : write_desig d <> [].
Proof.
  destruct d as [q items]. cbn [write_desig]. pose proof (write_name_nonempty q). destruct (write_name q); [congruence|discriminate].
Qed.
Lemma write_factor_nonempty f : write_factor f <> [].
Proof.
  destruct f; cbn [write_factor]; try discriminate.
  pose proof (write_desig_nonempty d). destruct (write_desig d); [congruence|discriminate].
Qed.
Lemma write_term_nonempty t : write_term t <> [].
Proof.
  destruct t as [f l]. cbn [write_term]. pose proof (write_factor_nonempty f). destruct (write_factor f); [congruence|discriminate].
Qed.
Lemma write_sexpr_nonempty t : write_sexpr t <> [].
Proof.
  destruct t as [u f l]. cbn [write_sexpr]. destruct u; [discriminate|]. cbn [app].
  pose proof (write_term_nonempty f). destruct (write_term f); [congruence|discriminate].
Qed.
Lemma write_expr_nonempty t : write_expr t <> [].
Proof.
  destruct t as [f l]. cbn [write_expr]. pose proof (write_sexpr_nonempty f). destruct (write_sexpr f); [congruence|discriminate].
Qed.
Lemma commas_length {X} (W : X -> words) x l : In x l -> length (W x) <= length (commas (map W l)).
Proof.
  induction l as [|y l IH]; intros I; [contradiction|]. cbn [map]. destruct l as [|z l].
  - destruct I as [->|[]]. reflexivity.
  - cbn [map]. rewrite commas_cons by discriminate. rewrite app_length. cbn [length].
    destruct I as [->|I]; [lia|]. specialize (IH I). cbn [map] in IH. lia.
Qed.
Lemma commas_count {X} (W : X -> words) l : Forall (fun x => W x <> []) l -> length l <= length (commas (map W l)).
Proof.
  induction l as [|y l IH]; intros F; [cbn; lia|]. inversion F as [|? ? F1 F2]; subst. cbn [map]. destruct l as [|z l].
  - cbn. destruct (W y); [congruence|cbn; lia].
  - cbn [map]. rewrite commas_cons by discriminate. rewrite app_length. cbn [length].
    specialize (IH F2). cbn [map length] in IH. lia.
Qed.
Lemma flat_map_length_in {X} (W : X -> words) x l : In x l -> length (W x) <= length (flat_map W l).
Proof.
  induction l as [|y l IH]; intros I; [contradiction|]. cbn. rewrite app_length. destruct I as [->|I]; [lia|].
  specialize (IH I). lia.
Qed.
Lemma flat_map_count {X} (W : X -> words) l : Forall (fun x => W x <> []) l -> length l <= length (flat_map W l).
Proof.
  induction l as [|y l IH]; intros F; [cbn; lia|]. inversion F as [|? ? F1 F2]; subst. cbn. rewrite app_length.
  specialize (IH F2). destruct (W y); [congruence|cbn; lia].
Qed.

Lemma sym_value t x : p_type SpecialSymbol t = true -> eqs (value t) x = weqb (word_of t) (wsym x).
Proof. unfold p_type, weqb, word_of, eqs. cbn [fst snd wsym]. intros ->. reflexivity. Qed.
Lemma key_value t x : p_type ReservedWord t = true -> eqs (value t) x = weqb (word_of t) (wkey x).
Proof. unfold p_type, weqb, word_of, eqs. cbn [fst snd wkey]. intros ->. reflexivity. Qed.

(** ** Factors *)
Lemma ops_count {X} (W : X -> words) (l : list (gostring * X)) :
  length l <= length (flat_map (fun r => wop (fst r) :: W (snd r)) l).
Proof. apply flat_map_count. apply Forall_forall. discriminate. Qed.
Lemma ops_length {X} (W : X -> words) r (l : list (gostring * X)) : In r l ->
  length (W (snd r)) < length (flat_map (fun r => wop (fst r) :: W (snd r)) l).
Proof. intros I. pose proof (flat_map_length_in (fun r => wop (fst r) :: W (snd r)) r l I) as H. cbn [length] in H. lia. Qed.

Section Rec.
Context (R : recs) (n : nat).
Context (Hexpr : forall e, length (write_expr e) < n -> good_expr en e ->
           accepts (r_expr R) (write_expr e) expr_on (fun e' => bare_expr e' = bare_expr e))
        (Hfactor : forall f, length (write_factor f) < n -> good_factor en f ->
           accepts (r_factor R) (write_factor f) factor_on (fun f' => bare_factor f' = bare_factor f))
        (Hfuel : n <= r_fuel R).

Lemma accepts_exprs close l :
  stopsb expr_on [wsym close] = true -> weqb (wsym ",") (wsym close) = false ->
  length (commas (map write_expr l)) < n -> l <> [] -> all (good_expr en) l ->
  forall s rest, agrees en s -> stands text s (commas (map write_expr l) ++ wsym close :: rest) ->
  wp (parse_expr_list R (sym close)) s (fun l' s' => map bare_expr l' = map bare_expr l /\
    stands text s' (wsym close :: rest) /\ quiet s s').
Proof.
  intros Hc Hd Ln NE G s rest Ag St. unfold parse_expr_list.
  assert (Ne : Forall (fun x => write_expr x <> []) l).
  { apply Forall_forall. intros x _. apply write_expr_nonempty. }
  eapply wp_conseq.
  { apply (comma_loop (r_expr R) write_expr bare_expr expr_on close Hc eq_refl Hd l [] (r_fuel R) s rest NE).
    - pose proof (commas_count write_expr l Ne). lia.
    - apply all_forall in G. rewrite Forall_forall in *. intros x I. split; [auto|]. apply Hexpr; [|auto].
      pose proof (commas_length write_expr x l I). lia.
    - exact Ag.
    - exact St. }
  cbn. intros l' s' ((l1 & -> & M) & St' & Q). auto.
Qed.

Lemma accepts_items items : forall acc fuel s rest, length items < fuel ->
  length (flat_map write_item items) <= n ->
  all (good_item en) items -> agrees en s -> stands text s (flat_map write_item items ++ rest) ->
  stops (map wsym ["."; "["; "^"]%string) rest ->
  wp (loop fuel (designator_step R) acc) s (fun l' s' => (exists l1, l' = acc ++ l1 /\
     map bare_item l1 = map bare_item items) /\ stands text s' rest /\ quiet s s').
Proof.
  induction items as [|i items IH]; intros acc fuel s rest Lf Ln G Ag St Sp; (destruct fuel as [|fuel]; [cbn in Lf; lia|]);
    cbn [loop]; apply wp_bind; unfold designator_step at 1.
  - cbn [flat_map app] in St. destruct (stops_cons _ _ Sp) as (T & ws & ->).
    destruct (stands_cur _ _ _ _ St) as (t & C & Wt & _). apply wp_bind. eapply wp_cur_opt; [exact C|].
    destruct (p_type SpecialSymbol t) eqn:Ty; cbn [negb].
    + rewrite !sym_value, Wt by exact Ty. cbn [stops map In] in Sp.
      replace (weqb T (wsym ".")) with false by (symmetry; apply weqb_neq; intuition congruence).
      replace (weqb T (wsym "[")) with false by (symmetry; apply weqb_neq; intuition congruence).
      replace (weqb T (wsym "^")) with false by (symmetry; apply weqb_neq; intuition congruence).
      apply wp_bind, wp_ret, wp_ret, wp_ret. split; [exists []; rewrite app_nil_r; auto|]. split; [exact St|apply quiet_refl].
    + apply wp_ret, wp_ret. split; [exists []; rewrite app_nil_r; auto|]. split; [exact St|apply quiet_refl].
  - cbn [flat_map] in *. rewrite <- app_assoc in St. rewrite app_length in Ln. cbn [all fold_right] in G. destruct G as [Gi G].
    assert (NE : flat_map write_item items ++ rest <> []) by (apply app_nonempty; eapply stops_nonempty; eauto).
    assert (Hit : wp (designator_step R acc) s (fun r s' => exists i', r = inl (acc ++ [i']) /\
              bare_item i' = bare_item i /\ stands text s' (flat_map write_item items ++ rest) /\ quiet s s')).
    { unfold designator_step. destruct i as [nm|es|]; cbn [write_item app] in St.
      - destruct (stands_cur _ _ _ _ St) as (t & C & Wt & _). apply wp_bind. eapply wp_cur_opt; [exact C|].
        assert (Ty : p_type SpecialSymbol t = true) by (now rewrite type_w, Wt).
        rewrite Ty. cbn [negb]. rewrite !sym_value, Wt by exact Ty.
        change (weqb (wsym ".") (wsym ".")) with true. cbv iota.
        apply wp_bind, wp_bind. eapply wp_expect_next; [exact St| |].
        { intros u Wu. now rewrite type_w, Wu. }
        intros t1 s1 C1 W1 St1 SB1. apply wp_ret. apply wp_bind. eapply wp_next; [exact St1|exact NE|].
        intros t2 s2 C2 _ St2 SB2. apply wp_ret. exists (DIdent (new_ident t1)). split; [reflexivity|].
        apply wident_inv in W1 as [_ R1]. split; [unfold new_ident, bare_item, bare_ident; cbn; now rewrite R1|].
        split; [exact St2|]. apply quiet_place. eapply same_but_place_trans; eauto.
      - destruct (stands_cur _ _ _ _ St) as (t & C & Wt & _). apply wp_bind. eapply wp_cur_opt; [exact C|].
        assert (Ty : p_type SpecialSymbol t = true) by (now rewrite type_w, Wt).
        rewrite Ty. cbn [negb]. rewrite !sym_value, Wt by exact Ty.
        change (weqb (wsym "[") (wsym ".")) with false. change (weqb (wsym "[") (wsym "[")) with true. cbv iota.
        rewrite <- app_assoc in St. cbn [app] in St.
        apply wp_bind, wp_bind. eapply wp_next; [exact St|apply app_nonempty; discriminate|].
        intros t1 s1 C1 _ St1 SB1. apply quiet_place in SB1. destruct Gi as [NEs Gs]. apply wp_bind. eapply wp_conseq.
        { apply accepts_exprs; [reflexivity|reflexivity| |exact NEs|exact Gs| |exact St1].
          - cbn [write_item length] in Ln. rewrite app_length in Ln. cbn in Ln. lia.
          - eapply quiet_agrees; eauto. }
        intros l' s2 (M & St2 & Q2). apply wp_ret. apply wp_bind. eapply wp_next; [exact St2|exact NE|].
        intros t2 s3 C2 _ St3 SB3. apply wp_ret. exists (DIndex l'). split; [reflexivity|].
        split; [unfold bare_item; fold bare_expr; now rewrite M|]. split; [exact St3|].
        eapply quiet_trans; [exact SB1|]. eapply quiet_trans; [exact Q2|]. now apply quiet_place.
      - destruct (stands_cur _ _ _ _ St) as (t & C & Wt & _). apply wp_bind. eapply wp_cur_opt; [exact C|].
        assert (Ty : p_type SpecialSymbol t = true) by (now rewrite type_w, Wt).
        rewrite Ty. cbn [negb]. rewrite !sym_value, Wt by exact Ty.
        change (weqb (wsym "^") (wsym ".")) with false. change (weqb (wsym "^") (wsym "[")) with false.
        change (weqb (wsym "^") (wsym "^")) with true. cbv iota.
        apply wp_bind, wp_ret. apply wp_bind. eapply wp_next; [exact St|exact NE|].
        intros t2 s2 C2 _ St2 SB2. apply wp_ret. exists DDeref. split; [reflexivity|]. split; [reflexivity|].
        split; [exact St2|]. now apply quiet_place. }
    unfold designator_step in Hit. eapply wp_conseq; [exact Hit|]. intros r s1 (i' & -> & Bi & St1 & Q1).
    eapply wp_conseq.
    { apply (IH (acc ++ [i']) fuel s1 rest); [cbn in Lf; lia|lia|exact G| |exact St1|exact Sp]. eapply quiet_agrees; eauto. }
    intros l' s2 ((l1 & -> & M) & St2 & Q2). split.
    { exists (i' :: l1). rewrite <- app_assoc. split; [reflexivity|]. cbn [map]. now rewrite Bi, M. }
    split; [exact St2|]. eapply quiet_trans; eauto.
Qed.

Lemma write_item_nonempty i : write_item i <> [].
Proof. destruct i; discriminate. Qed.

Lemma name_is_identifier q : exists nm ws, write_name q = wident nm :: ws /\
  match q_ns q with None => nm = i_name (ir_ident (q_ident q)) /\ ws = [] | Some ns => nm = i_name (ir_ident ns) end.
Proof. unfold write_name. destruct (q_ns q) as [ns|]; eauto. Qed.

Lemma accepts_designator d : length (write_desig d) <= n -> good_desig en d ->
  accepts (parse_designator R) (write_desig d) (map wsym ["."; "["; "^"]%string) (fun d' => bare_desig d' = bare_desig d).
Proof.
  destruct d as [q items]. cbn [write_desig good_desig]. intros Ln [Gq Gi] s rest Ag St Sp. rewrite app_length in Ln.
  rewrite <- app_assoc in St. unfold parse_designator.
  destruct (name_is_identifier q) as (nm & ws & Eq & _). pose proof St as St'. rewrite Eq in St'. cbn [app] in St'.
  destruct (stands_cur _ _ _ _ St') as (t & C & Wt & _).
  apply wp_bind. eapply wp_expect; [exact C|now rewrite type_w, Wt|].
  apply wp_bind. eapply wp_conseq.
  { apply (accepts_name q Gq s (flat_map write_item items ++ rest) Ag St).
    assert (NE : flat_map write_item items ++ rest <> []) by (apply app_nonempty; eapply stops_nonempty; eauto).
    destruct (flat_map write_item items ++ rest); [congruence|]. cbn. auto. }
  intros q' s1 (Bq & St1 & Q1). apply wp_bind. eapply wp_conseq.
  { apply (accepts_items items [] (r_fuel R) s1 rest); [| |exact Gi| |exact St1|exact Sp].
    - assert (length items <= length (flat_map write_item items)).
      { apply flat_map_count. apply Forall_forall. intros x _. apply write_item_nonempty. }
      rewrite Eq in Ln. cbn [length] in Ln. lia.
    - lia.
    - eapply quiet_agrees; eauto. }
  cbn [app]. intros l' s2 ((l1 & -> & M) & St2 & Q2). apply wp_ret. split.
  { cbn [bare_desig]. now rewrite Bq, M. }
  split; [exact St2|]. eapply quiet_trans; eauto.
Qed.

Lemma accepts_designator_factor d args : length (write_factor (FDesignator d args)) <= n ->
  good_factor en (FDesignator d args) ->
  accepts (parse_designator_factor R) (write_factor (FDesignator d args)) factor_on
    (fun f' => bare_factor f' = bare_factor (FDesignator d args)).
Proof.
  intros Ln (Gd & _ & Ga) s rest Ag St Sp. cbn [write_factor] in *. rewrite app_length in Ln. rewrite <- app_assoc in St.
  unfold parse_designator_factor. destruct args as [es|].
  - destruct Ga as (NE & Ge & _). cbn [app] in St. apply wp_bind. eapply wp_conseq.
    { apply (accepts_designator d); [lia|exact Gd|exact Ag|exact St|stop]. }
    intros d' s1 (Bd & St1 & Q1). destruct (stands_cur _ _ _ _ St1) as (t & C & Wt & _).
    apply wp_bind. eapply wp_is; [exact C|]. rewrite sym_w, Wt. change (weqb (wsym "(") (wsym "(")) with true. cbv iota.
    rewrite <- app_assoc in St1. cbn [app] in St1.
    apply wp_bind. eapply wp_next; [exact St1|apply app_nonempty; discriminate|]. intros t1 s2 C1 _ St2 SB2.
    apply quiet_place in SB2. pose proof (quiet_trans _ _ _ Q1 SB2) as Q02.
    apply wp_bind. eapply wp_conseq.
    { apply accepts_exprs; [reflexivity|reflexivity| |exact NE|exact Ge| |exact St2].
      - cbn [length] in Ln. rewrite app_length in Ln. cbn in Ln. lia.
      - eapply quiet_agrees; eauto. }
    intros l' s3 (M & St3 & Q3). apply wp_bind. eapply wp_next; [exact St3|eapply stops_nonempty; eauto|].
    intros t2 s4 C2 _ St4 SB4. apply wp_ret. split.
    { cbn [bare_factor option_map]. now rewrite Bd, M. }
    split; [exact St4|]. eapply quiet_trans; [exact Q02|]. eapply quiet_trans; [exact Q3|]. now apply quiet_place.
  - cbn [app] in St. apply wp_bind. eapply wp_conseq.
    { apply (accepts_designator d); [lia|exact Gd|exact Ag|exact St|].
      eapply stops_incl; [|exact Sp]. intros w I. unfold factor_on. cbn [map] in *. cbn [In] in *. tauto. }
    intros d' s1 (Bd & St1 & Q1). destruct (stops_cons _ _ Sp) as (T & ws & ->).
    destruct (stands_cur _ _ _ _ St1) as (t & C & Wt & _).
    apply wp_bind. eapply wp_is; [exact C|]. rewrite sym_w, Wt.
    replace (weqb T (wsym "(")) with false by (symmetry; apply weqb_neq; cbn in Sp; intuition congruence).
    apply wp_ret. split; [cbn [bare_factor option_map]; now rewrite Bd|]. auto.
Qed.

(** A type name without parenthesis: as if nothing had been tried. *)
Lemma no_cast s t d w ws : agrees en s -> s_cur s = Some t -> stands text s (word_of t :: w :: ws) -> w <> wsym "(" ->
  wp (parse_cast R t d) s (fun r s' => r = None /\ stands text s' (word_of t :: w :: ws) /\ quiet s s').
Proof.
  intros Ag C St NE. destruct Ag as [PC _]. destruct (parser_context_clone _ PC) as (o & Eo & K).
  unfold parse_cast. eapply wp_attempt; [exact C|exact K|]. apply wp_bind. apply wp_new_type_id.
  apply wp_bind. eapply wp_next; [do 2 apply stands_heap; exact St|discriminate|].
  intros t1 s1 C1 Hd St1 SB1. cbn [hd_error] in Hd. injection Hd as W1. apply wp_bind. eapply wp_is; [exact C1|].
  rewrite sym_w, W1. replace (weqb w (wsym "(")) with false by (symmetry; now apply weqb_neq).
  apply wp_ret. split; [reflexivity|].
  split; [rewrite <- C; now apply stands_back|]. rewrite <- C. apply (quiet_back s s1 o Eo).
  eapply quiet_trans; [|apply quiet_place; exact SB1]. apply quiet_refs.
Qed.

Lemma do_cast s t d ti e rest : agrees en s -> s_cur s = Some t -> word_of t = wident (i_name (ti_ident ti)) ->
  ti_unit ti = None ->
  length (write_expr e) < n -> good_expr en e ->
  stands text s (write_factor (FCast ti e) ++ rest) -> rest <> [] ->
  wp (parse_cast R t d) s (fun r s' => (exists f, r = Some f /\ bare_factor f = bare_factor (FCast ti e)) /\
     stands text s' rest /\ quiet s s').
Proof.
  intros Ag C Wt Tu Ln Ge St NE. pose proof Ag as [PC _]. destruct (parser_context_clone _ PC) as (o & Eo & K).
  unfold parse_cast. eapply wp_attempt; [exact C|exact K|]. apply wp_bind. apply wp_new_type_id.
  cbn [write_factor app] in St. rewrite <- app_assoc in St. cbn [app] in St.
  apply wp_bind. eapply wp_next; [do 2 apply stands_heap; exact St|discriminate|].
  intros t1 s1 C1 Hd St1 SB1. assert (W1 : word_of t1 = wsym "(") by (cbn [hd_error] in Hd; congruence). apply wp_bind. eapply wp_is; [exact C1|].
  rewrite sym_w, W1. change (weqb (wsym "(") (wsym "(")) with true. cbv iota.
  assert (Q1 : quiet s s1).
  { eapply quiet_trans; [apply (quiet_clone s o Eo)|]. eapply quiet_trans; [|apply quiet_place; exact SB1]. apply quiet_refs. }
  apply wp_bind. eapply wp_next; [exact St1|apply app_nonempty; discriminate|]. intros t2 s2 C2 _ St2 SB2.
  apply quiet_place in SB2. pose proof (quiet_trans _ _ _ Q1 SB2) as Q2.
  apply wp_bind. eapply wp_conseq.
  { apply (Hexpr e Ln Ge s2 _ (quiet_agrees _ _ _ Ag Q2) St2). stop. }
  intros e' s3 (Be & St3 & Q3). destruct (stands_cur _ _ _ _ St3) as (t3 & C3 & W3 & _).
  apply wp_bind. eapply wp_expect; [exact C3|rewrite sym_w, W3; reflexivity|].
  apply wp_bind. eapply wp_next; [exact St3|exact NE|]. intros t4 s4 C4 _ St4 SB4. apply wp_ret.
  split.
  { eexists. split; [reflexivity|]. cbn [bare_factor]. rewrite Be. unfold bare_typeid, bare_ident. cbn [ti_unit ti_ident i_name].
    apply wident_inv in Wt as [_ Rt]. rewrite Tu. cbn. now rewrite Rt. }
  split; [exact St4|]. eapply quiet_trans; [exact Q2|]. eapply quiet_trans; [exact Q3|]. now apply quiet_place.
Qed.


Lemma name_word d args : exists nm ws, write_factor (FDesignator d args) = wident nm :: ws.
Proof.
  cbn [write_factor]. destruct d as [q items]. cbn [write_desig]. destruct (name_is_identifier q) as (nm & ws & -> & _).
  cbn [app]. eauto.
Qed.

Lemma accepts_factor f : length (write_factor f) <= n -> good_factor en f ->
  accepts (parse_factor R) (write_factor f) factor_on (fun f' => bare_factor f' = bare_factor f).
Proof.
  intros Ln G s rest Ag St Sp. unfold parse_factor. pose proof (stops_nonempty _ _ Sp) as NE.
  destruct f as [d args|d|v|v|v| |e|f|es|ti e].
  - (* designators *)
    destruct (name_word d args) as (nm & ws & Ew). pose proof St as St0. rewrite Ew in St0. cbn [app] in St0.
    destruct (stands_cur _ _ _ _ St0) as (t & C & Wt & _). apply wp_bind. eapply wp_cur; [exact C|].
    rewrite !type_w, Wt. cbn [fst wident ttype_eqb]. rewrite (value_w t), Wt. cbn [snd wident].
    assert (NT : ~ truth_value nm /\ exists r, run (get_node nm) s = OOk r s /\
       match r with Some (_, NType _) => exists w ws', ws ++ rest = w :: ws' /\ w <> wsym "(" | _ => True end).
    { cbn [good_factor] in G. destruct d as [q items], G as ([Gq Gi] & NT & Ga). cbn [first_name] in NT. cbn [write_factor write_desig] in Ew.
      destruct (name_is_identifier q) as (nm' & ws' & Eq & Hq). rewrite Eq in Ew. cbn [app] in Ew. injection Ew as -> Ew.
      unfold good_name in Gq. destruct (q_ns q) as [ns|] eqn:Ens.
      - subst nm. destruct Gq as (d & d' & M). split; [exact NT|].
        destruct Ag as (PC & _ & _ & _ & EM). apply EM in M. destruct M as (x & mp & (Gc & o & D & En) & NM & _).
        exists (Some (d, x)). rewrite run_get_node, Gc, D, En. split; [reflexivity|]. destruct x; auto. contradiction.
      - destruct Hq as [-> ->]. split; [exact NT|].
        destruct (plain_get s _ Ag Gq) as (r & Gn & _ & _ & TN). exists r. split; [exact Gn|].
        destruct r as [[d x]|]; auto. destruct x; auto. cbn [app] in Ew. subst ws.
        destruct items as [|it items]; cbn [flat_map app].
        + destruct args as [es|]; cbn [app].
          * exfalso. destruct Ga as (_ & _ & Ga). apply (Ga q eq_refl Ens). apply TN. exact I.
          * destruct (stops_cons _ _ Sp) as (T & ws' & ->). exists T, ws'. split; [reflexivity|].
            cbn in Sp. intuition congruence.
        + destruct it; cbn [write_item app]; eexists _, _; (split; [reflexivity|]); discriminate. }
    destruct NT as (NT & r & Gn & Hr). rewrite (proj2 (manifest_false nm) NT).
    unfold p_some, p_type. replace (t_type t) with Identifier by (now apply wident_inv in Wt as [-> _]). cbn [ttype_eqb].
    apply wp_bind. eapply wp_run; [exact Gn|]. apply wp_bind.
    assert (Hc : wp (match r with Some (d, NType _) => parse_cast R t d | _ => Ret None end) s
              (fun r s' => r = None /\ stands text s' (write_factor (FDesignator d args) ++ rest) /\ quiet s s')).
    { destruct r as [[d0 x]|]; [|apply wp_ret; auto using quiet_refl].
      destruct x; try (apply wp_ret; auto using quiet_refl).
      destruct Hr as (w & ws' & Er & Nw). rewrite Ew. cbn [app]. rewrite Er, <- Wt. rewrite Er, <- Wt in St0.
      now apply no_cast. }
    eapply wp_conseq; [exact Hc|]. intros c s1 (-> & St1 & Q1). cbv iota.
    eapply wp_conseq; [apply (accepts_designator_factor d args Ln G s1 rest (quiet_agrees _ _ _ Ag Q1) St1 Sp)|].
    intros f' s2 (Bf & St2 & Q2). split; [exact Bf|]. split; [exact St2|]. eapply quiet_trans; eauto.
  - (* @ *)
    cbn [write_factor app] in *. destruct (stands_cur _ _ _ _ St) as (t & C & Wt & _). apply wp_bind. eapply wp_cur; [exact C|].
    assert (Ty : p_type SpecialSymbol t = true) by (now rewrite type_w, Wt).
    rewrite Ty, !sym_value, Wt by exact Ty. change (weqb (wsym "@") (wsym "@")) with true. cbv iota.
    apply wp_bind. eapply wp_next; [exact St|now apply app_nonempty|]. intros t1 s1 C1 _ St1 SB1. apply quiet_place in SB1.
    apply wp_bind. eapply wp_conseq.
    { apply (accepts_designator d); [cbn in Ln; lia|exact G|eapply quiet_agrees; eauto|exact St1|].
      eapply stops_incl; [|exact Sp]. intros w I. unfold factor_on. cbn [map In] in *. tauto. }
    intros d' s2 (Bd & St2 & Q2). apply wp_ret. split; [cbn; now rewrite Bd|]. split; [exact St2|]. eapply quiet_trans; eauto.
  - (* numbers *)
    cbn [write_factor app good_factor] in *. destruct (stands_cur _ _ _ _ St) as (t & C & Wt & _). apply wp_bind. eapply wp_cur; [exact C|].
    assert (NT : ~ truth_value v) by (destruct G as [G|G]; eapply literal_not_truth; eauto).
    assert (Ty : exists ty, wnumber v = (ty, v) /\ (ty = NumeralInt \/ ty = NumeralReal)).
    { destruct (numeral_word v G) as [N1 N2]. destruct G as [G|G]; eauto. }
    destruct Ty as (ty & Ey & Hy). rewrite Ey in Wt. unfold p_some. rewrite !type_w, Wt, (value_w t), Wt. cbn [fst snd].
    rewrite (proj2 (manifest_false v) NT).
    destruct Hy as [-> | ->]; cbn [ttype_eqb]; (apply wp_bind; unfold parse_number_factor; cbn [orb]; apply wp_bind;
      (eapply wp_next; [exact St|exact NE|]); intros t1 s1 C1 _ St1 SB1; apply wp_ret, wp_ret;
      rewrite (value_w t), Wt; split; [reflexivity|]; split; [exact St1|now apply quiet_place]).
  - (* strings *)
    cbn [write_factor app good_factor] in *. destruct (stands_cur _ _ _ _ St) as (t & C & Wt & _). apply wp_bind. eapply wp_cur; [exact C|].
    assert (NT : ~ truth_value v) by (eapply literal_not_truth; eauto).
    rewrite !type_w, Wt, (value_w t), Wt. cbn [fst snd ttype_eqb]. rewrite (proj2 (manifest_false v) NT).
    apply wp_bind. unfold parse_string_factor. cbn [orb]. apply wp_bind. eapply wp_next; [exact St|exact NE|].
    intros t1 s1 C1 _ St1 SB1. apply wp_ret, wp_ret. rewrite (value_w t), Wt. split; [reflexivity|].
    split; [exact St1|now apply quiet_place].
  - (* true, false *)
    cbn [write_factor app good_factor] in *. destruct (stands_cur _ _ _ _ St) as (t & C & Wt & _). apply wp_bind. eapply wp_cur; [exact C|].
    rewrite !type_w, Wt, (value_w t), Wt. cbn [fst snd wident ttype_eqb]. rewrite (proj2 (manifest_iff v) G).
    unfold parse_manifest_constant. apply wp_bind. eapply wp_next; [exact St|exact NE|].
    intros t1 s1 C1 _ St1 SB1. apply wp_ret. rewrite (value_w t), Wt. split; [reflexivity|].
    split; [exact St1|now apply quiet_place].
  - (* nil *)
    cbn [write_factor app good_factor] in *. destruct (stands_cur _ _ _ _ St) as (t & C & Wt & _). apply wp_bind. eapply wp_cur; [exact C|].
    assert (Ty : p_type ReservedWord t = true) by (now rewrite type_w, Wt). rewrite Ty.
    rewrite type_w, !key_value, Wt by exact Ty. cbn [fst wkey ttype_eqb]. change (weqb (wkey "NIL") (wkey "NIL")) with true. cbv iota.
    apply wp_bind. eapply wp_next; [exact St|exact NE|].
    intros t1 s1 C1 _ St1 SB1. apply wp_ret. split; [reflexivity|].
    split; [exact St1|now apply quiet_place].
  - (* parentheses *)
    cbn [write_factor app good_factor length] in *. destruct (stands_cur _ _ _ _ St) as (t & C & Wt & _). apply wp_bind. eapply wp_cur; [exact C|].
    assert (Ty : p_type SpecialSymbol t = true) by (now rewrite type_w, Wt).
    rewrite Ty, !sym_value, Wt by exact Ty. change (weqb (wsym "(") (wsym "@")) with false.
    change (weqb (wsym "(") (wsym "[")) with false. change (weqb (wsym "(") (wsym "(")) with true. cbv iota.
    rewrite <- app_assoc in St. cbn [app] in St. rewrite app_length in Ln.
    apply wp_bind. eapply wp_next; [exact St|apply app_nonempty; discriminate|]. intros t1 s1 C1 _ St1 SB1. apply quiet_place in SB1.
    apply wp_bind. eapply wp_conseq.
    { apply (Hexpr e); [lia|exact G|eapply quiet_agrees; eauto|exact St1|stop]. }
    intros e' s2 (Be & St2 & Q2). destruct (stands_cur _ _ _ _ St2) as (t2 & C2 & W2 & _).
    apply wp_bind. eapply wp_expect; [exact C2|rewrite sym_w, W2; reflexivity|].
    apply wp_bind. eapply wp_next; [exact St2|exact NE|]. intros t3 s3 C3 _ St3 SB3. apply wp_ret.
    split; [cbn [bare_factor]; now rewrite Be|]. split; [exact St3|].
    eapply quiet_trans; [exact SB1|]. eapply quiet_trans; [exact Q2|]. now apply quiet_place.
  - (* not *)
    cbn [write_factor app good_factor length] in *. destruct (stands_cur _ _ _ _ St) as (t & C & Wt & _). apply wp_bind. eapply wp_cur; [exact C|].
    assert (Ty : p_type ReservedWord t = true) by (now rewrite type_w, Wt). rewrite Ty.
    rewrite type_w, !key_value, Wt by exact Ty. cbn [fst wkey ttype_eqb]. change (weqb (wkey "NOT") (wkey "NIL")) with false.
    change (weqb (wkey "NOT") (wkey "NOT")) with true. cbv iota.
    apply wp_bind. eapply wp_next; [exact St|now apply app_nonempty|]. intros t1 s1 C1 _ St1 SB1. apply quiet_place in SB1.
    apply wp_bind. eapply wp_conseq.
    { apply (Hfactor f); [lia|exact G|eapply quiet_agrees; eauto|exact St1|exact Sp]. }
    intros f' s2 (Bf & St2 & Q2). apply wp_ret. split; [cbn [bare_factor]; now rewrite Bf|]. split; [exact St2|].
    eapply quiet_trans; eauto.
  - (* sets *)
    cbn [write_factor app good_factor length] in *. destruct (stands_cur _ _ _ _ St) as (t & C & Wt & _). apply wp_bind. eapply wp_cur; [exact C|].
    assert (Ty : p_type SpecialSymbol t = true) by (now rewrite type_w, Wt).
    rewrite Ty, !sym_value, Wt by exact Ty. change (weqb (wsym "[") (wsym "@")) with false.
    change (weqb (wsym "[") (wsym "[")) with true. cbv iota.
    rewrite <- app_assoc in St. cbn [app] in St. rewrite app_length in Ln. destruct G as [NEs G].
    set (W := fun r : expr * option expr => write_expr (fst r) ++
               match snd r with None => [] | Some e2 => wsym ".." :: write_expr e2 end) in *.
    apply wp_bind. unfold parse_set_constructor. apply wp_bind. eapply wp_expect; [exact C|rewrite sym_w, Wt; reflexivity|].
    apply wp_bind. eapply wp_next; [exact St|apply app_nonempty; discriminate|]. intros t1 s1 C1 _ St1 SB1. apply quiet_place in SB1.
    assert (Ln' : length (commas (map W es)) < n) by (cbn [length] in Ln; lia).
    assert (Ne : Forall (fun x => W x <> []) es).
    { apply Forall_forall. intros x _. unfold W. pose proof (write_expr_nonempty (fst x)).
      destruct (write_expr (fst x)); [congruence|discriminate]. }
    apply wp_bind. eapply wp_conseq.
    { unfold until_list. apply (until_loop (parse_set_element R) W (fun r => (bare_expr (fst r), option_map bare_expr (snd r)))
          (expr_on ++ [wsym ".."]) "]" eq_refl eq_refl eq_refl es [] (r_fuel R) s1 rest NEs).
      - pose proof (commas_count W es Ne). cbn [length] in Ln. lia.
      - apply all_forall in G. rewrite Forall_forall in *. intros [e1 e2] I. split; [auto|].
        pose proof (Nat.le_lt_trans _ _ _ (commas_length W _ es I) Ln') as Lx. destruct (G _ I) as [G1 G2]. cbn [fst snd] in *. unfold W in Lx |- *. cbn [fst snd] in *.
        intros s2 rest2 Ag2 St2 Sp2. unfold parse_set_element. apply stops_app in Sp2 as [Sp2 Sp3].
        destruct e2 as [e2|].
        + rewrite app_length in Lx. cbn [length] in Lx. rewrite <- app_assoc in St2. cbn [app] in St2.
          apply wp_bind. eapply wp_conseq; [apply (Hexpr e1); [lia|exact G1|exact Ag2|exact St2|stop]|].
          intros e1' s3 (B1 & St3 & Q3). destruct (stands_cur _ _ _ _ St3) as (t3 & C3 & W3 & _).
          apply wp_bind. eapply wp_is; [exact C3|]. rewrite symtext_w, W3. change (weqb (wsym "..") (wsym "..")) with true. cbv iota.
          apply wp_bind. eapply wp_next; [exact St3|apply app_nonempty; eapply stops_nonempty; eauto|].
          intros t4 s4 C4 _ St4 SB4. apply quiet_place in SB4. pose proof (quiet_trans _ _ _ Q3 SB4) as Q4.
          apply wp_bind. eapply wp_conseq; [apply (Hexpr e2); [lia|exact G2|eapply quiet_agrees; eauto|exact St4|exact Sp2]|].
          intros e2' s5 (B2 & St5 & Q5). apply wp_ret. split; [cbn; now rewrite B1, B2|]. split; [exact St5|]. eapply quiet_trans; eauto.
        + rewrite app_nil_r in *.
          apply wp_bind. eapply wp_conseq; [apply (Hexpr e1); [lia|exact G1|exact Ag2|exact St2|exact Sp2]|].
          intros e1' s3 (B1 & St3 & Q3). destruct (stops_cons _ _ Sp3) as (T & ws & ->). destruct (stands_cur _ _ _ _ St3) as (t3 & C3 & W3 & _).
          apply wp_bind. eapply wp_is; [exact C3|]. rewrite symtext_w, W3.
          replace (weqb T (wsym "..")) with false by (symmetry; apply weqb_neq; cbn in Sp3; intuition congruence).
          apply wp_ret. split; [cbn; now rewrite B1|]. auto.
      - eapply quiet_agrees; eauto.
      - exact St1. }
    cbn [app]. intros l' s2 ((l1 & -> & M) & St2 & Q2). apply wp_ret.
    apply wp_bind. eapply wp_next; [exact St2|exact NE|]. intros t3 s3 C3 _ St3 SB3. apply wp_ret.
    split; [cbn [bare_factor]; now rewrite M|]. split; [exact St3|].
    eapply quiet_trans; [exact SB1|]. eapply quiet_trans; [exact Q2|]. now apply quiet_place.
  - (* casts *)
    cbn [good_factor] in G. destruct G as (Tu & NT & TN & Ge). pose proof St as St0. cbn [write_factor app] in St0.
    destruct (stands_cur _ _ _ _ St0) as (t & C & Wt & _). apply wp_bind. eapply wp_cur; [exact C|].
    rewrite !type_w, Wt. cbn [fst wident ttype_eqb]. rewrite (value_w t), Wt. cbn [snd wident].
    rewrite (proj2 (manifest_false _) NT).
    unfold p_some, p_type. replace (t_type t) with Identifier by (now apply wident_inv in Wt as [-> _]). cbn [ttype_eqb].
    destruct (plain_get s _ Ag (or_intror TN)) as (r & Gn & _ & _ & TN').
    apply wp_bind. eapply wp_run; [exact Gn|]. apply wp_bind.
    apply TN' in TN. destruct r as [[d x]|]; [|contradiction]. destruct x; try contradiction.
    eapply wp_conseq.
    { apply (do_cast s t d ti e rest Ag C Wt Tu); [|exact Ge|exact St|exact NE].
      cbn [write_factor length] in Ln. rewrite app_length in Ln. cbn in Ln. lia. }
    intros c s1 ((f & -> & Bf) & St1 & Q1). apply wp_ret. auto.
Qed.

(** ** Terms and expressions *)
Lemma accepts_term t : length (write_term t) <= n -> good_term en t ->
  accepts (parse_term R) (write_term t) term_on (fun t' => bare_term t' = bare_term t).
Proof.
  destruct t as [f l]. cbn [write_term good_term]. intros Ln [Gf Gl] s rest Ag St Sp. rewrite app_length in Ln.
  rewrite <- app_assoc in St. unfold parse_term. apply all_forall in Gl.
  pose proof (write_factor_nonempty f) as NEf. pose proof (ops_count write_factor l) as Lc.
  apply wp_bind. eapply wp_conseq.
  { apply (accepts_factor f); [lia|exact Gf|exact Ag|exact St|]. destruct l as [|r l].
    - eapply stops_incl; [|exact Sp]. intros w I. apply in_or_app. auto.
    - inversion Gl as [|? ? [I _] _]; subst. cbn [flat_map app]. eapply stops_ops; [|exact I]. vm_compute. reflexivity. }
  intros f' s1 (Bf & St1 & Q1). apply wp_bind. eapply wp_conseq.
  { apply (op_loop mul_op mul_ops (parse_factor R) write_factor bare_factor factor_on mul_w eq_refl l [] (r_fuel R) s1 rest);
      [|  |eapply quiet_agrees; eauto|exact St1|exact Sp].
    - destruct (write_factor f); [congruence|]. cbn [length] in Ln. lia.
    - rewrite Forall_forall in *. intros r I. pose proof (ops_length write_factor r l I). destruct (Gl r I) as [G1 G2].
      split; [exact G1|]. split; [apply write_factor_nonempty|]. apply accepts_factor; [lia|exact G2]. }
  cbn [app]. intros l' s2 ((l1 & -> & M) & St2 & Q2). apply wp_ret. split; [cbn [bare_term]; now rewrite Bf, M|].
  split; [exact St2|]. eapply quiet_trans; eauto.
Qed.

Lemma accepts_sexpr t : length (write_sexpr t) <= n -> good_sexpr en t ->
  accepts (parse_simple_expression R) (write_sexpr t) sexpr_on (fun t' => bare_sexpr t' = bare_sexpr t).
Proof.
  destruct t as [u f l]. cbn [write_sexpr good_sexpr]. intros Ln (Gu & Gf & Gl) s rest Ag St Sp. rewrite !app_length in Ln.
  rewrite <- !app_assoc in St. unfold parse_simple_expression. apply all_forall in Gl.
  pose proof (write_term_nonempty f) as NEf. pose proof (ops_count write_term l) as Lc.
  assert (Hu : wp (Bind cur (fun t => if unary_op t then Bind Next (fun _ => Ret (Some (value t))) else Ret None)) s
            (fun u' s' => u' = u /\ stands text s' (write_term f ++ flat_map (fun r => wop (fst r) :: write_term (snd r)) l ++ rest) /\ quiet s s')).
  { destruct u as [v|]; cbn [app] in St.
    - destruct (stands_cur _ _ _ _ St) as (t & C & Wt & _). apply wp_bind. eapply wp_cur; [exact C|].
      rewrite unary_w, Wt. replace (existsb _ _) with true by (symmetry; apply win_iff; now apply in_map).
      apply wp_bind. eapply wp_next; [exact St|destruct (write_term f); [congruence|discriminate]|].
      intros t1 s1 C1 _ St1 SB1. apply wp_ret. rewrite (value_w t), Wt. split; [reflexivity|]. split; [exact St1|now apply quiet_place].
    - assert (Hh : exists w ws, write_term f = w :: ws /\ ~ In w (map wop signs)).
      { destruct f as [f muls]. cbn [write_term].
        assert (Hf : exists w ws, write_factor f = w :: ws /\ ~ In w (map wop signs)).
        { destruct f as [d args|d|v|v|v| |e|f|es|ti e]; try (eexists _, _; split; [reflexivity|apply win_not; reflexivity]).
          - destruct (name_word d args) as (nm & ws & ->). eexists _, _. split; [reflexivity|]. apply win_not. reflexivity.
          - cbn [write_factor]. eexists _, _. split; [reflexivity|]. apply win_not. unfold wnumber. destruct (existsb _ v); reflexivity. }
        destruct Hf as (w & ws & -> & Hw). cbn [app]. eauto. }
      destruct Hh as (w & ws & Ew & Nw). pose proof St as St0. rewrite Ew in St0. cbn [app] in St0.
      destruct (stands_cur _ _ _ _ St0) as (t & C & Wt & _). apply wp_bind. eapply wp_cur; [exact C|].
      rewrite unary_w, Wt. rewrite (proj2 (win_not _ _) Nw). apply wp_ret. split; [reflexivity|]. split; [exact St|apply quiet_refl]. }
  apply wp_elim in Hu. destruct Hu as (u' & s1 & Ru & -> & St1 & Q1). rewrite run_bind in Ru. cbn [cur] in Ru.
  destruct (run cur s) as [t0 s0| | | |] eqn:Rc; try discriminate. apply wp_bind. eapply wp_run; [exact Rc|].
  apply wp_bind. eapply wp_run; [exact Ru|].
  apply wp_bind. eapply wp_conseq.
  { apply (accepts_term f); [lia|exact Gf|eapply quiet_agrees; eauto|exact St1|]. destruct l as [|r l].
    - eapply stops_incl; [|exact Sp]. intros w I. apply in_or_app. auto.
    - inversion Gl as [|? ? [I _] _]; subst. cbn [flat_map app]. eapply stops_ops; [|exact I]. vm_compute. reflexivity. }
  intros f' s2 (Bf & St2 & Q2). pose proof (quiet_trans _ _ _ Q1 Q2) as Q12. apply wp_bind. eapply wp_conseq.
  { apply (op_loop add_op add_ops (parse_term R) write_term bare_term term_on add_w eq_refl l [] (r_fuel R) s2 rest);
      [|  |eapply quiet_agrees; eauto|exact St2|exact Sp].
    - destruct (write_term f); [congruence|]. cbn [length] in Ln. lia.
    - rewrite Forall_forall in *. intros r I. pose proof (ops_length write_term r l I). destruct (Gl r I) as [G1 G2].
      split; [exact G1|]. split; [apply write_term_nonempty|]. apply accepts_term; [lia|exact G2]. }
  cbn [app]. intros l' s3 ((l1 & -> & M) & St3 & Q3). apply wp_ret. split; [cbn [bare_sexpr]; now rewrite Bf, M|].
  split; [exact St3|]. eapply quiet_trans; eauto.
Qed.

Lemma accepts_expression e : length (write_expr e) <= n -> good_expr en e ->
  accepts (parse_expression R) (write_expr e) expr_on (fun e' => bare_expr e' = bare_expr e).
Proof.
  destruct e as [f l]. cbn [write_expr good_expr]. intros Ln [Gf Gl] s rest Ag St Sp. rewrite app_length in Ln.
  rewrite <- app_assoc in St. unfold parse_expression. apply all_forall in Gl.
  pose proof (write_sexpr_nonempty f) as NEf. pose proof (ops_count write_sexpr l) as Lc.
  apply wp_bind. eapply wp_conseq.
  { apply (accepts_sexpr f); [lia|exact Gf|exact Ag|exact St|]. destruct l as [|r l].
    - eapply stops_incl; [|exact Sp]. intros w I. apply in_or_app. auto.
    - inversion Gl as [|? ? [I _] _]; subst. cbn [flat_map app]. eapply stops_ops; [|exact I]. vm_compute. reflexivity. }
  intros f' s1 (Bf & St1 & Q1). apply wp_bind. eapply wp_conseq.
  { apply (op_loop rel_op rel_ops (parse_simple_expression R) write_sexpr bare_sexpr sexpr_on rel_w eq_refl l [] (r_fuel R) s1 rest);
      [|  |eapply quiet_agrees; eauto|exact St1|exact Sp].
    - destruct (write_sexpr f); [congruence|]. cbn [length] in Ln. lia.
    - rewrite Forall_forall in *. intros r I. pose proof (ops_length write_sexpr r l I). destruct (Gl r I) as [G1 G2].
      split; [exact G1|]. split; [apply write_sexpr_nonempty|]. apply accepts_sexpr; [lia|exact G2]. }
  cbn [app]. intros l' s2 ((l1 & -> & M) & St2 & Q2). apply wp_ret. split; [cbn [bare_expr]; now rewrite Bf, M|].
  split; [exact St2|]. eapply quiet_trans; eauto.
Qed.
End Rec.

(** ** All sizes *)
Lemma accepts_at m :
  (forall e, length (write_expr e) <= m -> good_expr en e ->
     accepts (parse_expression (recs_at m)) (write_expr e) expr_on (fun e' => bare_expr e' = bare_expr e)) /\
  (forall f, length (write_factor f) <= m -> good_factor en f ->
     accepts (parse_factor (recs_at m)) (write_factor f) factor_on (fun f' => bare_factor f' = bare_factor f)).
Proof.
  induction m as [|m [IHe IHf]].
  - split; intros x Lx; exfalso; [pose proof (write_expr_nonempty x) as NE; destruct (write_expr x)
      |pose proof (write_factor_nonempty x) as NE; destruct (write_factor x)]; try congruence; cbn in Lx; lia.
  - assert (He : forall e, length (write_expr e) < S m -> good_expr en e ->
      accepts (r_expr (recs_at (S m))) (write_expr e) expr_on (fun e' => bare_expr e' = bare_expr e)).
    { intros e L G. apply (IHe e); [lia|exact G]. }
    assert (Hf : forall f, length (write_factor f) < S m -> good_factor en f ->
      accepts (r_factor (recs_at (S m))) (write_factor f) factor_on (fun f' => bare_factor f' = bare_factor f)).
    { intros f L G. apply (IHf f); [lia|exact G]. }
    assert (Hl : S m <= r_fuel (recs_at (S m))) by (cbn; lia).
    split.
    + intros e. now apply accepts_expression.
    + intros f. now apply accepts_factor.
Qed.
End WithUnicode.
