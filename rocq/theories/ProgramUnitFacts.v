(** The passes over the units of a program, all units. *)
From Coq Require Import String List Arith NArith Bool Lia Permutation.
From Verif Require Import ListUtil Runes UnicodeFacts Token Tokenizer LexSpec LexShape LexFacts LexMain Ext ExtSpec ExtMain Ast Heap Classes MapSpec MapFacts MapMain Prog Parser ParseSpec RunFacts
  ExprSpec WpFacts ExprFacts StmtSpec GrowFacts StmtFacts EvolveFacts EvolveParse Units UnitSpec SortMain UsesMain TermUnitSpec DeclSpec ScopeFacts DeclFacts TypeFacts SectionFacts DeclMain TermUnit TermProgram UnitTextSpec UnitTextFacts UnitBodyFacts UnitTextMain ProgramTextSpec ProgramTextFacts ProgramLinkFacts ProgramPassFacts.
Import ListNotations.
Local Open Scope list_scope.
Local Open Scope prog_scope.

Section WithUnicode.
Context {U : Unicode} {UOK : UnicodeOk U}.
Notation words := (list (ttype * gostring)).

Section Program.
Context (files : gostring -> option (list rune)) (sep : rune) (m pc : nat) (all : list unit_source).
Notation R := (recs_at m).

(** ** The contexts of the units *)
Lemma listed_there h us l : clause_listed h (Some us) (Some l) -> Forall2 (fun a i => exists o, nth_error (h_uses h) a = Some o /\ i_name (u_ident o) = fst i /\ u_path o = snd i) us l.
Proof. exact (fun x => x). Qed.
Definition fresh_context (h : heap) (cp : nat * gostring) (mp : nat) : Prop :=
  nth_error (h_ctxs h) (fst cp) = Some (mkCtx (KUnit pc) (Some (snd cp)) (DChained DEmbedded mp)) /\ nth_error (h_maps h) mp = Some [].
Lemma fresh_frame t cs us h h' cp mp : frame t cs us h h' -> ~ t mp -> ~ cs (fst cp) -> fresh_context h cp mp -> fresh_context h' cp mp.
Proof.
  intros F Nt Nc [A B]. split; [eapply fr_ctxs; eauto|]. destruct (fr_maps _ _ _ _ _ F _ _ B) as (m' & E & S & _). now rewrite <- (S Nt).
Qed.
Lemma contexts_new us l : forall h, clause_listed h (Some us) (Some l) ->
  exists cps ms h', unit_contexts sep pc us h = (cps, h') /\ map snd cps = map snd (items_with_file sep l) /\
    Forall2 (fresh_context h') cps ms /\ frame nobody_at nobody_at nobody_at h h' /\ h_uses h' = h_uses h /\ h_units h' = h_units h /\
    NoDup (map fst cps) /\ NoDup ms /\ Forall (fun cp => length (h_ctxs h) <= fst cp) cps /\ Forall (fun mp => length (h_maps h) <= mp) ms.
Proof.
  revert l. induction us as [|a us IH]; intros l h Li; inversion Li as [|? i ? l' (o & Eo & Ni & Pi) Li']; subst; cbn [unit_contexts].
  - exists [], [], h. split; [reflexivity|]. split; [reflexivity|]. split; [constructor|]. split; [apply frame_refl|]. repeat split; constructor.
  - rewrite Eo.
    assert (EP : item_file sep i = match effective_path sep o with [] => [] | p => [p] end).
    { unfold item_file, effective_path, unquoted_path. rewrite Pi. destruct (snd i) as [q|]; [|reflexivity]. now rewrite trim_without. }
    unfold items_with_file. cbn [flat_map]. rewrite EP, map_app. fold (items_with_file sep l'). destruct (runes_eqb_spec (effective_path sep o) []) as [E0|N0].
    + rewrite E0. cbn [map app]. now apply IH.
    + set (path := effective_path sep o) in *. unfold new_unit_context, new_chained, new_map.
      set (h1 := with_ctxs _ _). set (c := length (h_ctxs (with_maps _ h))). cbn [h_ctxs with_maps] in c.
      assert (F1 : frame nobody_at nobody_at nobody_at h h1).
      { constructor; unfold h1; cbn [h_uses h_units h_progs h_decls h_maps h_ctxs with_ctxs with_maps]; auto.
        - eauto 10.
        - eauto.
        - exists []. now rewrite app_nil_r.
        - intros b mb E. exists mb. rewrite nth_error_app1 by (eapply nth_lt; eauto). split; [exact E|]. split; [auto|apply keeps_refl].
        - rewrite app_length. lia.
        - intros c' o' E _. rewrite nth_error_app1 by (eapply nth_lt; eauto). exact E.
        - rewrite app_length. lia.
        - intros c' o' p E K. exists o'. rewrite nth_error_app1 by (eapply nth_lt; eauto). auto. }
      destruct (IH l' h1) as (cps & ms & h2 & E & Es & Fr & F2 & Eu & En & N1 & N2 & L1 & L2); [exact Li'|].
      exists ((c, path) :: cps), (length (h_maps h) :: ms), h2. rewrite E. split; [reflexivity|]. split; [|split; [|split; [|split; [|split; [|split; [|split; [|split]]]]]]].
      * cbn [map snd]. rewrite Es. destruct path; [congruence|reflexivity].
      * constructor; [|exact Fr]. eapply fresh_frame; [exact F2|intros []|intros []|]. split; cbn [fst snd]; unfold h1; cbn [h_maps h_ctxs with_ctxs with_maps]; apply nth_app_new.
      * eapply frame_trans; [exact F1|exact F2|intros ? ? []|intros ? ? []|intros ? ? []].
      * exact Eu.
      * exact En.
      * cbn [map fst]. constructor; [|exact N1]. intros J. apply in_map_iff in J as (cp & Ec & J). rewrite Forall_forall in L1. apply L1 in J. unfold h1 in J. cbn in J. rewrite app_length in J. cbn in J. unfold c in Ec. lia.
      * constructor; [|exact N2]. intros J. rewrite Forall_forall in L2. apply L2 in J. unfold h1 in J. cbn in J. rewrite app_length in J. cbn in J. lia.
      * constructor; [unfold c; cbn; lia|]. eapply Forall_impl; [|exact L1]. intros cp J. unfold h1 in J. cbn in J. rewrite app_length in J. lia.
      * constructor; [lia|]. eapply Forall_impl; [|exact L2]. intros cp J. unfold h1 in J. cbn in J. rewrite app_length in J. lia.
Qed.

(** ** The beginnings *)
Record entry := mkEntry { e_p : uparser; e_g : unit_text; e_m : nat }.
Definition e_source (e : entry) : style * unit_source := (g_style (e_g e), g_unit (e_g e)).
Definition e_unit (e : entry) : nat := up_unit (e_p e).
Definition e_uc (e : entry) : nat := up_uc (e_p e).
Definition waits (h : heap) (e : entry) : Prop := waiting pc h (e_p e) (e_g e) (e_m e) /\ fine all m (e_g e).
Definition file_of (path : gostring) (x : style * unit_source) : Prop :=
  exists text, files path = Some text /\ text_of m (write_unit (fst x) (snd x)) text.
Lemma pass_1 cps : forall ms xs h l q x, Forall2 (fresh_context h) cps ms -> NoDup (map fst cps) -> NoDup ms ->
  Forall2 file_of (map snd cps) xs -> Forall (fun y => good_unit_among all (fst y) (snd y)) xs ->
  nth_error (h_ctxs h) pc = Some (mkCtx (KProgram l) q x) ->
  exists es h', each_of (load_unit R files pc) cps h = ROk (map e_p es) h' /\ Forall (waits h') es /\
    map e_m es = ms /\ map e_uc es = map fst cps /\ map e_source es = xs /\ map (fun e => g_path (e_g e)) es = map snd cps /\
    map e_unit es = seq (length (h_units h)) (length cps) /\
    frame (fun a => In a ms) (eq pc) nobody_at h h' /\ nth_error (h_ctxs h') pc = Some (mkCtx (KProgram (l ++ map e_unit es)) q x) /\
    length (h_ctxs h') = length (h_ctxs h) /\ exists lu, h_uses h' = h_uses h ++ lu /\ unitless lu.
Proof.
  induction cps as [|[uc path] cps IH]; intros ms xs h l q x Fr N1 N2 Fi Gd Ep; inversion Fr as [|? mp ? ms' [Fc Fm] Fr']; subst.
  - inversion Fi; subst. exists [], h. cbn [each_of map seq length]. split; [reflexivity|]. split; [constructor|]. split; [reflexivity|]. split; [reflexivity|]. split; [reflexivity|].
    split; [reflexivity|]. split; [reflexivity|]. split; [apply frame_refl|]. split; [rewrite app_nil_r; exact Ep|]. split; [reflexivity|]. exists []. rewrite app_nil_r. split; [reflexivity|constructor].
  - inversion Fi as [|? [st u] ? xs' (text & Ef & (ls & rest & W & E & L)) Fi']; subst. cbn [map fst] in N1. apply NoDup_cons_iff in N1 as [Nc N1]. apply NoDup_cons_iff in N2 as [Nm N2].
    apply Forall_cons_iff in Gd as [Gu Gd]. cbn [fst snd] in *.
    destruct (load_pass all m pc files h st u text ls rest uc path mp l q x Ef W E L Gu Ep Fc Fm) as (p & h1 & g & R1 & Eu & En & Wt & Fg & E1 & E2 & E3 & F1 & Ep1 & Ln & Lc & lu & Es & Nu).
    assert (Npc : pc <> uc) by (intros ->; congruence).
    assert (Fr1 : Forall2 (fresh_context h1) cps ms').
    { clear -Fr' F1 Nc Nm Ep. revert Nc Nm. induction Fr' as [|cp mp' cps ms' [A B] Fr' IHF]; intros Nc Nm; constructor.
      - eapply fresh_frame; [exact F1|intros ->; apply Nm; now left| |split; [exact A|exact B]]. intros Y. rewrite <- Y in A. congruence.
      - apply IHF; intros J; [apply Nc|apply Nm]; now right. }
    destruct (IH ms' xs' h1 _ q x Fr1 N1 N2 Fi' Gd Ep1) as (es & h2 & R2 & W2 & H1 & H2 & H3 & H4 & H5 & F2 & Ep2 & Lc2 & lu2 & Es2 & Nu2).
    exists (mkEntry p g mp :: es), h2. cbn [each_of map e_p e_m]. change (e_unit (mkEntry p g mp)) with (up_unit p). change (e_uc (mkEntry p g mp)) with (up_uc p). change (e_source (mkEntry p g mp)) with (g_style g, g_unit g). cbn [e_g]. rewrite R1. cbn [rbind]. rewrite R2. cbn [rbind].
    split; [reflexivity|]. split; [|split; [|split; [|split; [|split; [|split; [|split; [|split; [|split]]]]]]]].
    + constructor; [|exact W2]. split; [|exact Fg]. cbn [e_p e_g e_m]. eapply waiting_frame; [exact F2|intros ? ? []|auto|exact Nm|congruence|intros []|exact Wt].
    + now rewrite H1.
    + now rewrite Eu, H2.
    + now rewrite E1, E2, H3.
    + now rewrite E3, H4.
    + cbn [length seq]. rewrite En, H5. now rewrite Ln.
    + eapply frame_trans; [eapply frame_weak; [exact F1| |auto|auto]|exact F2| |auto|auto].
      * intros a _ <-. now left.
      * intros a _ J. now right.
    + rewrite Ep2. now rewrite <- app_assoc.
    + congruence.
    + exists (lu ++ lu2). rewrite Es2, Es, app_assoc. split; [reflexivity|]. now apply Forall_app.
Qed.

(** ** The order *)
Lemma map_inj {A B} (f : A -> B) l a b : NoDup (map f l) -> In a l -> In b l -> f a = f b -> a = b.
Proof.
  induction l as [|c l IH]; intros N Ja Jb E; [destruct Ja|]. cbn [map] in N. apply NoDup_cons_iff in N as [Nc N]. destruct Ja as [->|Ja], Jb as [->|Jb]; auto.
  - destruct Nc. rewrite E. now apply in_map.
  - destruct Nc. rewrite <- E. now apply in_map.
Qed.
Lemma waits_name h e : waits h e -> up_name h (e_p e) = us_name (g_unit (e_g e)).
Proof. intros [[_ _ (i & us & E & N & _) _] _]. unfold up_name, unit_name. now rewrite E. Qed.
Lemma waits_uses h e : waits h e -> up_uses h (e_p e) = clause_names (us_uses (g_unit (e_g e))).
Proof.
  intros [[_ _ (i & us & E & N & Li & _) _] _]. unfold up_uses, unit_intf_uses. rewrite E. cbn [un_intf is_uses]. destruct us as [us|], (us_uses (g_unit (e_g e))) as [l|]; cbn in Li; try contradiction; [|reflexivity].
  cbn [or_nil clause_names]. clear E. induction Li as [|a j us l (o & Eo & No & _) Li IH]; [reflexivity|]. cbn [map]. rewrite <- IH. unfold uses_name at 1. rewrite Eo. now rewrite No.
Qed.
Lemma sorted_entries order topo h es : iterates order -> toposort_ok topo -> Forall (waits h) es -> map snd (map e_source es) = all ->
  distinct_names (map us_name all) -> ~ circular us_name (fun u => clause_names (us_uses u)) all ->
  exists es', sort_units (up_name h) (up_uses h) order topo (map e_p es) = Some (map e_p es') /\ Permutation es' es /\
    forall pre e post, es' = pre ++ e :: post -> forall e' n, In e' es -> In n (clause_names (us_uses (g_unit (e_g e)))) ->
      same_name n (us_name (g_unit (e_g e'))) -> In e' pre.
Proof.
  intros It To W Ea Dn NC. rewrite Forall_forall in W.
  assert (Ea' : all = map (fun e => g_unit (e_g e)) es) by (rewrite <- Ea, map_map; reflexivity).
  assert (Nn : map (up_name h) (map e_p es) = map us_name all).
  { rewrite Ea', !map_map. apply map_ext_in. intros e J. now apply waits_name, W. }
  assert (Nd : NoDup (map e_p es)).
  { apply (NoDup_map_inv (fun p => to_lower (up_name h p))). unfold distinct_names in Dn. rewrite <- Nn, map_map in Dn. exact Dn. }
  assert (Ct : forall p p', Relation_Operators.clos_trans _ (uses_among (up_name h) (up_uses h) (map e_p es)) p p' -> In p (map e_p es) /\ In p' (map e_p es) /\
    forall e e', In e es -> In e' es -> e_p e = p -> e_p e' = p' -> Relation_Operators.clos_trans _ (uses_among us_name (fun u => clause_names (us_uses u)) all) (g_unit (e_g e)) (g_unit (e_g e'))).
  { intros p p' C. induction C as [p p' (J1 & J2 & n & Jn & Sn)|p p2 p' _ (A1 & A2 & A3) _ (B1 & B2 & B3)].
    - split; [exact J1|]. split; [exact J2|]. intros e e' J J' <- <-. apply Relation_Operators.t_step. split; [rewrite Ea'; exact (in_map (fun e => g_unit (e_g e)) _ _ J)|].
      split; [rewrite Ea'; exact (in_map (fun e => g_unit (e_g e)) _ _ J')|]. exists n. rewrite waits_uses in Jn by auto. rewrite waits_name in Sn by auto. auto.
    - split; [exact A1|]. split; [exact B2|]. intros e e' J J' E E'. apply in_map_iff in A2 as (e2 & E2 & J2). eapply Relation_Operators.t_trans; [apply (A3 e e2); auto|apply (B3 e2 e'); auto]. }
  destruct (units_are_sorted uparser (up_name h) (up_uses h) order topo (map e_p es) It To) as [X _].
  { rewrite Nn. exact Dn. }
  { apply Forall_forall. intros p J. apply in_map_iff in J as (e & <- & J). rewrite waits_uses by auto. destruct (W e J) as [_ ((_ & (_ & D & _) & _) & _)]. exact D. }
  destruct X as (r & Er & Pr & Br).
  { intros (p & C). apply NC. destruct (Ct p p C) as (J & _ & H). apply in_map_iff in J as (e & E & J). exists (g_unit (e_g e)). apply H; auto. }
  destruct (Permutation_map_inv e_p es Pr) as (es' & -> & Pe). exists es'. split; [exact Er|]. split; [symmetry; exact Pe|].
  intros pre e post Es e' n J' Jn Sn.
  assert (J : In e es) by (eapply Permutation_in; [symmetry; exact Pe|]; rewrite Es; apply in_or_app; right; now left).
  assert (B : before (map e_p es') (e_p e') (e_p e)).
  { apply Br; [now apply in_map|now apply in_map|]. exists n. rewrite waits_uses, waits_name by auto. auto. }
  assert (Nd' : NoDup (map e_p es')) by (eapply Permutation_NoDup; [symmetry; exact Pr|exact Nd]).
  rewrite Es, map_app in B, Nd'. cbn [map] in B, Nd'. apply SortMain.before_prefix in B; [|exact Nd']. apply in_map_iff in B as (e2 & E2 & J2).
  assert (e2 = e') as <-; [|exact J2]. apply (map_inj e_p es); auto. eapply Permutation_in; [symmetry; exact Pe|]. rewrite Es. apply in_or_app. now left.
Qed.

(** ** What stays with the program *)
Section Main.
Context (at_ : list nat) (s0 : pst) (q : option gostring) (m0 : nat) (text : list rune) (sc : scope) (ws : words) (us0 : list nat) (l0 : uses_source) (pa : nat) (po : progobj).
Record main (h : heap) : Prop := mkMain {
  mn_at : s_ctx s0 = pc;
  mn_ctx : nth_error (h_ctxs h) pc = Some (mkCtx (KProgram at_) q (DChained DEmbedded m0));
  mn_scope : in_scope text sc (with_heap h s0) ws;
  mn_items : clause_listed h (Some us0) (Some l0);
  mn_prog : nth_error (h_progs h) pa = Some po;
  mn_called : called at_ all h;
  mn_there : at_there at_ h;
  mn_fits : fits at_ h }.
Lemma main_frame t cs us h h' : frame t cs us h h' -> units_keep us h h' -> (forall v, us v \/ ~ us v) -> ~ t m0 -> ~ cs pc -> fits at_ h' -> main h -> main h'.
Proof.
  intros F Uk Dec Nt Nc Ft [A1 A2 A3 A4 A5 A6 A7 A8]. constructor; auto.
  - eapply fr_ctxs; eauto.
  - change (with_heap h' s0) with (with_heap h' (with_heap h s0)).
    eapply (in_scope_frame text t cs us _ (with_heap h s0)); [exact A3|cbn; rewrite A1; exact A2|cbn; rewrite A1; eapply fr_ctxs; eauto|reflexivity|discriminate|exact F|intros a [<-|[]]; exact Nt|exact Uk|exact Dec].
  - eapply listed_frame; eauto.
  - rewrite (fr_progs _ _ _ _ _ F). exact A5.
  - eapply called_frame; eauto.
  - eapply at_frame; eauto.
Qed.
Lemma main_parent h : main h -> parent_here at_ pc h.
Proof. intros M. eexists _, _. apply M. Qed.
Lemma eq_dec_or (a : nat) : forall v, a = v \/ ~ a = v.
Proof. intros v. destruct (Nat.eq_dec a v); auto. Qed.

(** ** The interface sections *)
Record half := mkHalf { d_p : uparser; d_g : unit_text; d_map : dmap; d_a : nat; d_t : nat }.
Definition halfs (h : heap) (d : half) : Prop := halfway at_ all pc h (d_p d) (d_g d) (d_map d) (d_a d) /\ fine all m (d_g d) /\ target (d_map d) = Some (d_t d).
Definition d_unit (d : half) : nat := up_unit (d_p d).
Definition d_uc (d : half) : nat := up_uc (d_p d).
Definition dkey (d : half) : nat * unit_text := (d_unit d, d_g d).
Definition ekey (e : entry) : nat * unit_text := (e_unit e, e_g e).
(** [x] can go on without harm to [y]. *)
Definition apart (x y : half) : Prop :=
  ~ In (d_t x) (reads (d_map y)) /\ up_ctx (d_p y) <> up_ctx (d_p x) /\ up_ctx (d_p y) <> d_uc x /\ d_unit y <> d_unit x.
Fixpoint in_pairs {A} (P : A -> A -> Prop) (l : list A) : Prop :=
  match l with [] => True | a :: l' => Forall (P a) l' /\ in_pairs P l' end.
Lemma in_pairs_snoc {A} (P : A -> A -> Prop) l a : in_pairs P l -> Forall (fun x => P x a) l -> in_pairs P (l ++ [a]).
Proof.
  induction l as [|b l IH]; cbn [in_pairs app]; [auto|]. intros [F N] H. apply Forall_cons_iff in H as [Hb H]. split; [|auto]. apply Forall_app. auto.
Qed.
Lemma half_bounds h d : halfs h d -> (forall b, In b (reads (d_map d)) -> b < length (h_maps h)) /\ d_t d < length (h_maps h) /\ d_a d < length (h_maps h) /\
  up_ctx (d_p d) < length (h_ctxs h) /\ d_unit d < length (h_units h).
Proof.
  intros [[_ Ec (i & us & l & Eu & _ & _ & _ & An) Sc] [_ T]].
  assert (B : forall b, In b (reads (d_map d)) -> b < length (h_maps h)) by (intros b J; eapply (scope_reads (g_text (d_g d)) _ (up_pst (d_p d) h)); [exact Sc|exact Ec|exact J]).
  split; [exact B|]. split; [apply B, target_reads, T|]. split; [|split; [eapply nth_lt; eauto|eapply nth_lt; exact Eu]].
  destruct An as (_ & _ & An). specialize (An []). cbn in An. unfold impl_get in An. destruct (nth_error (h_maps h) (d_a d)) eqn:E; [eapply nth_lt; eauto|congruence].
Qed.
Record inv2 (n0 c0 : nat) (h : heap) (done : list half) (todo : list entry) : Prop := mkInv2 {
  i2_main : main h;
  i2_done : Forall (halfs h) done;
  i2_far : Forall (fun d => n0 <= d_t d /\ (up_ctx (d_p d) = d_uc d \/ c0 <= up_ctx (d_p d)) /\ d_uc d < c0) done;
  i2_todo : Forall (waits h) todo;
  i2_near : Forall (fun e => e_m e < n0 /\ e_uc e < c0) todo;
  i2_apart : in_pairs apart done;
  i2_crossed : forall x y, In x done -> In y done -> d_t x <> d_a y;
  i2_ucs : NoDup (map d_uc done ++ map e_uc todo);
  i2_units : NoDup (map d_unit done ++ map e_unit todo);
  i2_len : n0 <= length (h_maps h) /\ c0 <= length (h_ctxs h);
  i2_below : m0 < n0 }.
Lemma half_ready h d : halfs h d -> ready (fun x => x = DImpl (d_a d)) h (d_unit d) (g_unit (d_g d)).
Proof.
  intros [[_ _ (i & us & l & Eu & _ & _ & Eb & An) _] _]. eexists. split; [exact Eu|]. split; [eapply answers_gives; eauto|reflexivity].
Qed.
Lemma pass_2 n0 c0 todo : forall done h, inv2 n0 c0 h done todo ->
  (forall pre e post, todo = pre ++ e :: post -> forall v u n, In (v, u) (combine at_ all) -> In n (clause_names (us_uses (g_unit (e_g e)))) -> same_name n (us_name u) ->
     exists k, In k (map dkey done ++ map ekey pre) /\ fst k = v /\ g_unit (snd k) = u) ->
  exists ds h', each_of (intf_of R) (map e_p todo) h = ROk (map d_p ds) h' /\ inv2 n0 c0 h' (done ++ ds) [] /\
    map dkey (done ++ ds) = map dkey done ++ map ekey todo.
Proof.
  induction todo as [|e todo IH]; intros done h I Or.
  - exists [], h. cbn [each_of map]. rewrite !app_nil_r. auto.
  - destruct I as [Mn Dn Fa Td Ne Ap Cr Nu Nn [Ln Lc] Be]. apply Forall_cons_iff in Td as [[We Fe] Td]. apply Forall_cons_iff in Ne as [[Lm Lu] Ne].
    set (Q := fun x => exists d, In d done /\ x = DImpl (d_a d)).
    assert (Rd : all_ready at_ all Q h (us_uses (g_unit (e_g e)))).
    { intros v u n J Jn Sn. destruct (Or [] e todo eq_refl v u n J Jn Sn) as (k & Jk & <- & <-). cbn [map] in Jk. rewrite app_nil_r in Jk.
      apply in_map_iff in Jk as (d & <- & Jd). rewrite Forall_forall in Dn. destruct (half_ready h d (Dn d Jd)) as (o & Eo & G & Eq). exists o. split; [exact Eo|]. split; [exact G|]. exists d. auto. }
    destruct (intf_pass at_ all m pc Q h (e_p e) (e_g e) (e_m e) We Fe (main_parent h Mn) (mn_called _ Mn) (mn_there _ Mn) (mn_fits _ Mn) Rd)
      as (p' & h1 & M & a & t & R1 & Euc & Eun & Ect & Hw & F1 & Uk & Ft1 & La & Tt & Lt & Nta & Rds).
    set (d := mkHalf p' (e_g e) M a t).
    assert (Npc : e_uc e <> pc).
    { intros E. pose proof (mn_ctx _ Mn) as X. pose proof (wt_obj _ _ _ _ _ We) as Y. fold (e_uc e) in Y. rewrite E in Y. congruence. }
    assert (Hd : halfs h1 d) by (split; [exact Hw|]; split; [exact Fe|exact Tt]).
    assert (Mn1 : main h1) by (eapply main_frame; [exact F1|exact Uk|apply eq_dec_or|intros []|exact Npc|exact Ft1|exact Mn]).
    rewrite Forall_forall in Fa, Dn.
    assert (Nu1 : forall x, In x done -> d_uc x <> e_uc e).
    { intros x J E. cbn [map] in Nu. apply NoDup_remove_2 in Nu. apply Nu, in_or_app. left. rewrite <- E. now apply in_map. }
    assert (Nn1 : forall x, In x done -> d_unit x <> e_unit e).
    { intros x J E. cbn [map] in Nn. apply NoDup_remove_2 in Nn. apply Nn, in_or_app. left. rewrite <- E. now apply in_map. }
    assert (Dn1 : Forall (halfs h1) done).
    { apply Forall_forall. intros x J. destruct (Dn x J) as (Hx & Fx & Tx). split; [|auto]. destruct (Fa x J) as (_ & Cx & _). fold (e_uc e) in F1.
      eapply halfway_frame; [exact F1|exact Uk|apply eq_dec_or|apply Mn|exact Ft1|intros ? ? []|intros []| |intros E; apply (Nn1 x J); symmetry; exact E|exact Hx].
      intros E. destruct Cx as [Cx|Cx]; [apply (Nu1 x J); congruence|lia]. }
    assert (Td1 : Forall (waits h1) todo).
    { apply Forall_forall. intros y J. rewrite Forall_forall in Td. destruct (Td y J) as [Wy Fy]. split; [|exact Fy].
      eapply waiting_frame; [exact F1|exact Uk|apply eq_dec_or|intros []| | |exact Wy].
      - intros E. cbn [map] in Nu. apply NoDup_remove_2 in Nu. apply Nu, in_or_app. right. replace (e_uc e) with (e_uc y) by (symmetry; exact E). now apply in_map.
      - intros E. cbn [map] in Nn. apply NoDup_remove_2 in Nn. apply Nn, in_or_app. right. replace (e_unit e) with (e_unit y) by (symmetry; exact E). now apply in_map. }
    assert (I1 : inv2 n0 c0 h1 (done ++ [d]) todo).
    { constructor; auto.
      - apply Forall_app. split; [exact Dn1|]. constructor; [exact Hd|constructor].
      - apply Forall_app. split; [apply Forall_forall; exact Fa|]. constructor; [|constructor]. cbn [d_t d_p d]. unfold d_uc. cbn [d_p d]. rewrite Euc. split; [lia|]. split; [|exact Lu].
        destruct Ect as [Ect|Ect]; [left; exact Ect|right; lia].
      - apply in_pairs_snoc; [exact Ap|]. apply Forall_forall. intros x J. destruct (half_bounds h x (Dn x J)) as (B1 & B2 & B3 & B4 & B5). destruct (Fa x J) as (Cx1 & Cx2 & Cx3).
        unfold apart. cbn [d_t d_p d_map d]. split; [|split; [|split]].
        + intros Jr. apply Rds in Jr as [Jr|[Jr|(y & (z & Jz & ->) & [Jr|[]])]]; [lia|lia|]. symmetry in Jr. now apply (Cr x z J Jz).
        + destruct Ect as [Ect|Ect]; [|lia]. rewrite Ect. fold (e_uc e). intros E. destruct Cx2 as [Cx2|Cx2]; [apply (Nu1 x J); congruence|lia].
        + destruct Ect as [Ect|Ect]; [|lia]. rewrite Ect. fold (e_uc e). intros E. now apply (Nu1 x J).
        + unfold d_unit at 1. cbn [d_p d]. rewrite Eun. intros E. now apply (Nn1 x J).
      - intros x y Jx Jy. apply in_app_or in Jx as [Jx|[<-|[]]]; apply in_app_or in Jy as [Jy|[<-|[]]]; [now apply Cr| | |exact Nta]; cbn [d_t d_a d].
        + destruct (half_bounds h x (Dn x Jx)) as (_ & B2 & _). lia.
        + destruct (half_bounds h y (Dn y Jy)) as (_ & _ & B3 & _). lia.
      - rewrite map_app, <- app_assoc. cbn [map app]. unfold d_uc at 2. cbn [d_p d]. rewrite Euc. exact Nu.
      - rewrite map_app, <- app_assoc. cbn [map app]. unfold d_unit at 2. cbn [d_p d]. rewrite Eun. exact Nn.
      - pose proof (fr_maplen _ _ _ _ _ F1). pose proof (fr_ctxlen _ _ _ _ _ F1). lia. }
    assert (Ek : dkey d = ekey e) by (unfold dkey, ekey, d_unit, e_unit; cbn [d_p d_g d]; now rewrite Eun).
    destruct (IH (done ++ [d]) h1 I1) as (ds & h2 & R2 & I2 & K2).
    { intros pre e2 post Es v u n J Jn Sn. destruct (Or (e :: pre) e2 post (f_equal (cons e) Es) v u n J Jn Sn) as (k & Jk & Hk). exists k. split; [|exact Hk].
      rewrite map_app, <- app_assoc. cbn [map app]. rewrite Ek. exact Jk. }
    exists (d :: ds), h2. cbn [each_of map d_p]. rewrite R1. cbn [rbind]. rewrite R2. cbn [rbind]. split; [reflexivity|]. rewrite <- app_assoc in I2, K2. cbn [app] in I2, K2. split; [exact I2|].
    rewrite K2, map_app, <- app_assoc. cbn [map app]. now rewrite Ek.
Qed.

(** ** The implementation sections *)
Record inv3 (h : heap) (fin pend : list half) : Prop := mkInv3 {
  i3_main : main h;
  i3_fin : Forall (fun d => finished at_ h (d_unit d) (d_g d) (d_a d)) fin;
  i3_pend : Forall (halfs h) pend;
  i3_far : Forall (fun d => d_t d <> m0) pend;
  i3_apart : in_pairs apart pend;
  i3_crossed : forall x y, In x (fin ++ pend) -> In y (fin ++ pend) -> d_t x <> d_a y;
  i3_units : NoDup (map d_unit (fin ++ pend));
  i3_all : forall v u, In (v, u) (combine at_ all) -> exists d, In d (fin ++ pend) /\ d_unit d = v /\ g_unit (d_g d) = u }.
Lemma pass_3 pend : forall fin h, inv3 h fin pend ->
  exists ps h', each_of (impl_of R) (map d_p pend) h = ROk ps h' /\ inv3 h' (fin ++ pend) [].
Proof.
  induction pend as [|d pend IH]; intros fin h I.
  - exists [], h. rewrite app_nil_r. auto.
  - destruct I as [Mn Fi Pe Fa Ap Cr Nn Al]. apply Forall_cons_iff in Pe as [(Hd & Fd & Td) Pe]. apply Forall_cons_iff in Fa as [Nm Fa]. destruct Ap as [Apd Ap].
    assert (Jd : In d (fin ++ d :: pend)) by (apply in_or_app; right; now left).
    assert (Nd : forall y, In y fin \/ In y pend -> d_unit d <> d_unit y).
    { intros y J E. rewrite map_app in Nn. cbn [map] in Nn. apply NoDup_remove_2 in Nn. apply Nn. rewrite <- map_app, E. apply in_map, in_or_app. exact J. }
    assert (Rd : all_ready at_ all (fun x => exists b, x = DImpl b /\ b <> d_t d) h (us_impl_uses (g_unit (d_g d)))).
    { intros v u n J _ _. destruct (Al v u J) as (y & Jy & <- & <-). pose proof (Cr d y Jd Jy) as Nt. rewrite Forall_forall in Fi, Pe.
      assert (X : ready (fun x => x = DImpl (d_a y)) h (d_unit y) (g_unit (d_g y))).
      { apply in_app_or in Jy as [Jy|[<-|Jy]]; [|apply half_ready; split; auto|apply half_ready; auto].
        destruct (Fi y Jy) as (o & l & Eo & Em & _ & _ & Eb & An). exists o. split; [exact Eo|]. rewrite Em. split; [eapply answers_gives; eauto|reflexivity]. }
      destruct X as (o & Eo & G & E). exists o. split; [exact Eo|]. split; [exact G|]. exists (d_a y). auto. }
    assert (Nta : d_t d <> d_a d) by (apply Cr; exact Jd).
    destruct (impl_pass at_ all m pc h (d_p d) (d_g d) (d_map d) (d_a d) (d_t d) Hd Fd (main_parent h Mn) (mn_called _ Mn) (mn_there _ Mn) (mn_fits _ Mn) Td Nta Rd)
      as (p' & h1 & R1 & Fn & F1 & Uk & Ft1).
    assert (Npc : ~ (pc = up_ctx (d_p d) \/ pc = up_uc (d_p d))).
    { pose proof (mn_ctx _ Mn) as X. destruct Hd as [(ou & Y & K) Z _ _]. intros [E|E]; [rewrite <- E in Z; congruence|]. rewrite <- E, X in Y. injection Y as <-. discriminate K. }
    assert (Mn1 : main h1) by (eapply main_frame; [exact F1|exact Uk|apply eq_dec_or|exact Nm|exact Npc|exact Ft1|exact Mn]).
    destruct (IH (fin ++ [d]) h1) as (ps & h2 & R2 & I2).
    { constructor; rewrite <- ?app_assoc; cbn [app]; auto.
      - apply Forall_app. split; [|constructor; [exact Fn|constructor]]. apply Forall_forall. intros y J. rewrite Forall_forall in Fi.
        eapply finished_frame; [exact F1|apply Mn|exact Ft1|apply Cr; [exact Jd|apply in_or_app; now left]|apply Nd; now left|now apply Fi].
      - apply Forall_forall. intros y J. rewrite Forall_forall in Pe, Apd. destruct (Pe y J) as (Hy & Fy & Ty). destruct (Apd y J) as (A1 & A2 & A3 & A4). split; [|auto].
        eapply halfway_frame; [exact F1|exact Uk|apply eq_dec_or|apply Mn|exact Ft1| |apply Cr; [exact Jd|apply in_or_app; right; now right]| |apply Nd; now right|exact Hy].
        + intros b Jb E. apply A1. now rewrite E.
        + intros [E|E]; [now apply A2|now apply A3]. }
    exists (p' :: ps), h2. cbn [each_of map]. rewrite R1. cbn [rbind]. rewrite R2. cbn [rbind]. split; [reflexivity|]. rewrite <- app_assoc in I2. exact I2.
Qed.
End Main.
End Program.
End WithUnicode.
