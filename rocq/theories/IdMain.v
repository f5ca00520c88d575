(** The identifiers of trees are pieces of the text, in order: programs with units, and the
    theorems. *)
From Coq Require Import String List NArith Bool Arith Lia Permutation.
From Verif Require Import ListUtil Runes Token Tokenizer CursorFacts LexSpec LexShape LexFacts LexMain Ast Ext ExtSpec ExtMain Heap Classes MapFacts Prog Parser CaseSpec Units ParseSpec RunFacts UnitSpec SortMain ProgramLinkFacts RefUnits IdSpec IdFacts IdParse IdUnits.
Import ListNotations.
Local Open Scope list_scope.

Section WithUnicode.
Context {U : Unicode} {UOK : UnicodeOk U}.

(** ** The end of the text *)

Lemma order_more text l : forall lo hi hi', in_order text lo l hi -> hi <= hi' -> in_order text lo l hi'.
Proof.
  induction l as [|m l IH]; intros lo hi hi'; cbn [in_order]; [lia|]. intros (mid & A & B) L. exists mid. split; [exact A|]. eapply IH; eauto.
Qed.
Lemma token_inside text t : token_of text t -> stop_of t <= length text.
Proof. intros T. destruct (token_stands _ _ T) as (p & q & _ & _ & _ & L & _). lia. Qed.
Lemma place_inside text s : parsing text s -> place s <= length text.
Proof.
  intros [[H _] C]. unfold place. destruct (s_cur s) as [t|].
  - destruct (C t eq_refl) as (T & _). pose proof (token_order _ _ T). apply token_inside in T. lia.
  - destruct (held_wf _ _ H) as [W T]. unfold cwf, c_len in W. now rewrite T in W.
Qed.
Lemma behind_inside text s G P : parsing text s -> behind text 0 s G P -> in_order text 0 G (length text).
Proof.
  intros H (m & A & B). eapply order_more; [exact A|]. destruct B as [B|(t & C & L & _)].
  - pose proof (place_inside _ _ H). lia.
  - destruct H as [_ H]. destruct (H t C) as (T & _). apply token_inside in T. lia.
Qed.
Lemma after_inside text s G : after text s G -> in_order text 0 G (length text).
Proof. intros [H B]. eapply behind_inside; eauto. Qed.

Lemma start_after text c h : after text (mkPst (new_tokenizer text false false) None c [] h) [].
Proof. split; [apply parser_starts_well|]. exists 0. split; [cbn; lia|left; lia]. Qed.

(** ** Units in files *)

Section Files.
Context (R : recs) (RS : recs_spelled R) (files : gostring -> option (list rune)).

Definition fitted (h : heap) (o : unitobj) : Prop := exists text,
  files (un_path o) = Some text /\ unit_listed h o /\ in_order text 0 (unit_i h o) (length text).
Definition all_fit (h : heap) : Prop := forall u o, nth_error (h_units h) u = Some o -> fitted h o.
Lemma fitted_kept h h' o o' : uses_kept h h' -> tree_same o o' -> fitted h o -> fitted h' o'.
Proof.
  intros K S (text & F & L & A). exists text. split; [now destruct S as (-> & _)|]. split; [eapply unit_listed_kept; eauto|].
  now rewrite (unit_i_kept _ _ _ _ K S L).
Qed.
Lemma all_fit_frame u h h' : frame u h h' -> all_fit h -> (forall k o, u = Some k -> nth_error (h_units h') k = Some o -> fitted h' o) -> all_fit h'.
Proof.
  intros F A T k o' N. assert (D : u = Some k \/ Some k <> u) by (destruct u as [j|]; [destruct (Nat.eq_dec j k); [left|right]; congruence|right; discriminate]).
  destruct D as [->|D]; [eauto|]. destruct (nth_error (h_units h) k) as [o|] eqn:E.
  - destruct (fr_units _ _ _ F k D o E) as (o1 & N1 & S). rewrite N1 in N. injection N as ->. eapply fitted_kept; [exact (fr_uses _ _ _ F)|exact S|eauto].
  - rewrite (fr_back _ _ _ F k D E) in N. discriminate.
Qed.
Lemma all_fit_none h h' : frame None h h' -> all_fit h -> all_fit h'.
Proof. intros F A. eapply all_fit_frame; [exact F|exact A|]. discriminate. Qed.

(** A unit whose parser waits *)
Definition waits (Q : gostring -> unitobj -> Prop) (h : heap) (p : uparser) : Prop := exists text path o,
  files path = Some text /\ nth_error (h_units h) (up_unit p) = Some o /\ unit_listed h o /\ Q path o /\
  after text (up_pst p h) (unit_i h o).
(** What stays but for the units [us] *)
Definition many (us : list nat) (h h' : heap) : Prop :=
  uses_kept h h' /\ prog_kept h h' /\ forall k, ~ In k us -> unit_kept k h h'.
Lemma many_refl h : many [] h h.
Proof. destruct (frame_refl None h) as [A B _ D]. split; [exact A|]. split; [exact D|]. intros k _. apply B. discriminate. Qed.
Lemma frame_many u h h' : frame (Some u) h h' -> many [u] h h'.
Proof. intros [A B _ D]. split; [exact A|]. split; [exact D|]. intros k N. apply B. intros [= ->]. apply N. now left. Qed.
Lemma frame_none_many h h' : frame None h h' -> many [] h h'.
Proof. intros [A B _ D]. split; [exact A|]. split; [exact D|]. intros k N. apply B. discriminate. Qed.
Lemma many_trans us us' h1 h2 h3 : many us h1 h2 -> many us' h2 h3 -> many (us ++ us') h1 h3.
Proof.
  intros (A1 & A2 & A3) (B1 & B2 & B3). split; [|split].
  - intros a o E. destruct (A1 a o E) as (o1 & E1 & I1 & J1). destruct (B1 a o1 E1) as (o2 & E2 & I2 & J2). exists o2. split; [exact E2|split; congruence].
  - intros a o E. destruct (A2 a o E) as (o1 & E1 & I1 & J1). destruct (B2 a o1 E1) as (o2 & E2 & I2 & J2). exists o2. split; [exact E2|split; congruence].
  - intros k N o E. rewrite in_app_iff in N. destruct (A3 k (fun X => N (or_introl X)) o E) as (o1 & E1 & I1).
    destruct (B3 k (fun X => N (or_intror X)) o1 E1) as (o2 & E2 & I2). exists o2. split; [exact E2|]. eapply tree_same_trans; eauto.
Qed.
Lemma waits_many (Q : gostring -> unitobj -> Prop) us h h' p : (forall path, of_tree (Q path)) -> many us h h' -> ~ In (up_unit p) us -> waits Q h p -> waits Q h' p.
Proof.
  intros T (K & _ & M) N (text & path & o & F & E & L & q & A). destruct (M _ N o E) as (o' & E' & S). exists text, path, o'.
  split; [exact F|]. split; [exact E'|]. split; [eapply unit_listed_kept; eauto|]. split; [eapply T; eauto|].
  rewrite (unit_i_kept _ _ _ _ K S L). exact A.
Qed.
Lemma waits_held (Q : gostring -> unitobj -> Prop) h p : waits Q h p -> exists text path, files path = Some text /\ held text h (up_unit p) (Q path) [] (up_pst p h).
Proof.
  intros (text & path & o & F & E & L & q & A). exists text, path. split; [exact F|]. split; [apply frame_refl|]. exists o.
  rewrite app_nil_r. auto.
Qed.
Lemma held_waits (Q : gostring -> unitobj -> Prop) text path h0 u uc s : files path = Some text -> held text h0 u (Q path) [] s -> waits Q (s_heap s) (up_of s uc u).
Proof.
  intros F (_ & o & E & L & q & A). rewrite app_nil_r in A. exists text, path, o. repeat (split; [assumption|]). exact A.
Qed.
Lemma waits_fitted (Q : gostring -> unitobj -> Prop) h p o : (forall path o, Q path o -> path_is path o) -> waits Q h p -> nth_error (h_units h) (up_unit p) = Some o -> fitted h o.
Proof.
  intros I (text & path & o' & F & E & L & q & A) E'. rewrite E in E'. injection E' as <-. exists text. rewrite (I _ _ q).
  split; [exact F|]. split; [exact L|]. eapply after_inside, A.
Qed.

(** Steps for one unit after another *)
Definition step (f : uparser -> heap -> result uparser) (Q Q' : gostring -> unitobj -> Prop) : Prop :=
  forall p h p' h', f p h = ROk p' h' -> waits Q h p -> up_unit p' = up_unit p /\ frame (Some (up_unit p)) h h' /\ waits Q' h' p'.
Lemma pass f (Q Q' : gostring -> unitobj -> Prop) : step f Q Q' -> (forall path, of_tree (Q path)) -> (forall path, of_tree (Q' path)) ->
  (forall path o, Q' path o -> path_is path o) ->
  forall l h l' h', Forall (waits Q h) l -> NoDup (map up_unit l) -> all_fit h -> each_of f l h = ROk l' h' ->
  map up_unit l' = map up_unit l /\ Forall (waits Q' h') l' /\ many (map up_unit l) h h' /\ all_fit h'.
Proof.
  intros St T T' P. induction l as [|p l IH]; intros h l' h' W N A; cbn [each_of].
  - intros [= <- <-]. split; [reflexivity|]. split; [constructor|]. split; [apply many_refl|exact A].
  - inversion W as [|? ? Wp Wl]; subst. cbn [map] in N. apply NoDup_cons_iff in N as [Np Nl].
    destruct (f p h) as [p1 h1| | | |] eqn:E; cbn [rbind]; try discriminate. destruct (St _ _ _ _ E Wp) as (U1 & F1 & W1).
    assert (Wl1 : Forall (waits Q h1) l).
    { rewrite Forall_forall in Wl |- *. intros q J. eapply waits_many; [exact T|apply frame_many, F1| |auto].
      intros [X|[]]. apply Np. rewrite X. now apply in_map. }
    assert (A1 : all_fit h1).
    { eapply all_fit_frame; [exact F1|exact A|]. intros k o [= <-] N1. eapply waits_fitted; [exact P|exact W1|now rewrite U1]. }
    destruct (each_of f l h1) as [l1 h2| | | |] eqn:E2; cbn [rbind]; try discriminate. intros [= <- <-].
    destruct (IH _ _ _ Wl1 Nl A1 E2) as (U2 & W2 & M2 & A2). cbn [map]. split; [congruence|].
    split; [constructor; [|exact W2]; eapply waits_many; [exact T'|exact M2|rewrite U1; exact Np|exact W1]|].
    split; [|exact A2]. exact (many_trans _ _ _ _ _ (frame_many _ _ _ F1) M2).
Qed.
Lemma wq_use {A} (p : prog A) (K : A -> pst -> Prop) s a s' : wq p K s -> run p s = OOk a s' -> K a s'.
Proof. unfold wq. intros W E. now rewrite E in W. Qed.
Lemma step_intf : step (intf_of R) st1 st2.
Proof.
  intros p h p' h' E W. unfold intf_of in E. destruct (waits_held _ _ _ W) as (text & path & F & H).
  pose proof (q_process_intf_body R RS (up_uc p) _ _ _ _ _ H) as X. unfold wq in X.
  destruct (run _ _) as [a s| | | |]; cbn [on_parser rbind snd] in E; try discriminate. injection E as <- <-.
  split; [reflexivity|]. split; [exact (proj1 X)|]. eapply held_waits; eauto.
Qed.
Lemma step_impl : step (impl_of R) st2 path_is.
Proof.
  intros p h p' h' E W. unfold impl_of, process_impl_and_init in E. destruct (waits_held _ _ _ W) as (text & path & F & H).
  set (u := up_unit p) in *. set (uc := up_uc p) in *.
  assert (X : wq (Bind (parse_impl_uses R uc u) (fun l => impl_scope uc u l)) (fun _ s' => held text h u (st3 path) [] s') (up_pst p h)).
  { apply wq_bind. eapply wq_weak; [apply (q_impl_uses R uc _ _ _ _ _ H)|cbv beta]. intros l s1 H1. now apply q_impl_scope. }
  unfold wq in X. destruct (run (Bind (parse_impl_uses R uc u) _) _) as [m s1| | | |]; cbn [on_parser rbind] in E; try discriminate.
  assert (Y : wq (Bind (parse_impl_body R u) (fun _ => parse_unit_end R u)) (fun _ s' => held text h u (path_is path) [] s') s1).
  { apply wq_bind. eapply wq_weak; [apply (q_impl_body R RS _ _ _ _ _ X)|cbv beta]. intros _ s2 H2. now apply q_unit_end. }
  unfold wq in Y. destruct (run (Bind (parse_impl_body R u) _) _) as [y s2| | | |]; cbn [on_parser rbind snd] in E; try discriminate. injection E as <- <-.
  assert (Z : held text h u (path_is path) [] (with_heap (put_unit (s_heap s2) u (with_unit_map m)) s2)).
  { eapply held_heap; [exact Y| |apply tree_path]. apply frame_put_same. now intros. }
  split; [reflexivity|]. split; [exact (proj1 Z)|].
  exact (held_waits path_is text path h u uc (with_heap (put_unit (s_heap s2) u (with_unit_map m)) s2) F Z).
Qed.

(** ** Loading *)

Definition has_path (h : heap) (c : nat) (path : gostring) : Prop := exists o, nth_error (h_ctxs h) c = Some o /\ cx_path o = Some path.
Lemma has_path_ctx h c path : has_path h c path -> ctx_path h c = Some path.
Proof. intros (o & E & P). unfold ctx_path. cbn [ctx_path_fuel]. now rewrite E, P. Qed.
Lemma has_path_add h c path pc u : has_path h c path -> has_path (add_unit h pc u) c path.
Proof.
  intros (o & E & P). unfold add_unit, has_path. destruct (nth_error (h_ctxs h) pc) as [[[us| |] q m]|] eqn:N; eauto.
  cbn. destruct (Nat.eq_dec c pc) as [->|D].
  - erewrite nth_set_hit by exact N. eexists. split; [reflexivity|]. cbn. rewrite N in E. injection E as <-. exact P.
  - rewrite nth_set_miss by exact D. eauto.
Qed.
Lemma frame_add u h c k : frame u h (add_unit h c k).
Proof. unfold add_unit. destruct (nth_error _ c) as [[[us| |] q m]|]; apply frame_same; reflexivity. Qed.
Lemma load_one pc uc path h p h' : load_unit R files pc (uc, path) h = ROk p h' -> has_path h uc path ->
  nth_error (h_units h) (up_unit p) = None /\ frame (Some (up_unit p)) h h' /\ waits st1 h' p /\
  (forall c q, has_path h c q -> has_path h' c q).
Proof.
  unfold load_unit. destruct (files path) as [text|] eqn:F; [|discriminate]. intros E Hp. set (s0 := mkPst _ None uc [] h) in E.
  assert (X : wq (Bind Next (fun _ => parse_ident_and_intf_uses R uc)) (fun u s' => exists q,
    ctx_path h uc = Some q /\ nth_error (h_units h) u = None /\ held text h u (st1 q) [] s') s0).
  { apply wq_bind, (wq_next text []); [apply start_after|]. intros o s1 A1 H1. eapply wq_weak; [apply (q_ident_and_intf_uses R uc _ _ A1)|cbv beta].
    intros u s2. now rewrite H1. }
  assert (Ct : forall u s, run (Bind Next (fun _ => parse_ident_and_intf_uses R uc)) s0 = OOk u s -> h_ctxs (s_heap s) = h_ctxs h).
  { intros u s Eu. assert (S : ProgramLinkFacts.still (Bind Next (fun _ => parse_ident_and_intf_uses R uc))).
    { apply ProgramLinkFacts.still_bind; [apply ProgramLinkFacts.still_next|]. intros _. apply still_beginning. }
    destruct (S _ _ _ Eu) as (_ & C & _). exact C. }
  unfold wq in X. destruct (run _ s0) as [u s| | | |]; cbn [on_parser rbind] in E; try discriminate. injection E as <- <-. cbn [up_unit up_of].
  destruct X as (q & P & N & H). rewrite (has_path_ctx _ _ _ Hp) in P. injection P as <-. split; [exact N|].
  split; [eapply frame_trans; [exact (proj1 H)|apply frame_add]|]. split.
  - pose proof (held_waits st1 text path h u uc s F H) as W. eapply waits_many; [apply tree1|apply frame_none_many, frame_add|intros []|exact W].
  - intros c r (o & Eo & Po). apply has_path_add. exists o. rewrite (Ct _ _ eq_refl). auto.
Qed.
Lemma load_all pc : forall cps h ps h', each_of (load_unit R files pc) cps h = ROk ps h' -> (forall c q, In (c, q) cps -> has_path h c q) -> all_fit h ->
  Forall (waits st1 h') ps /\ NoDup (map up_unit ps) /\ (forall p, In p ps -> nth_error (h_units h) (up_unit p) = None) /\ many [] h h' /\ all_fit h'.
Proof.
  induction cps as [|[c q] cps IH]; intros h ps h'; cbn [each_of].
  - intros [= <- <-] _ A. split; [constructor|]. split; [constructor|]. split; [intros p []|]. split; [apply many_refl|exact A].
  - intros E Hp A. destruct (load_unit R files pc (c, q) h) as [p h1| | | |] eqn:E1; cbn [rbind] in E; try discriminate.
    destruct (load_one _ _ _ _ _ _ E1 (Hp _ _ (or_introl eq_refl))) as (N1 & F1 & W1 & P1).
    destruct (each_of _ cps h1) as [ps1 h2| | | |] eqn:E2; cbn [rbind] in E; try discriminate. injection E as <- <-.
    assert (A1 : all_fit h1).
    { eapply all_fit_frame; [exact F1|exact A|]. intros k o [= <-] No. eapply waits_fitted; [|exact W1|exact No]. now intros ? ? []. }
    destruct (IH _ _ _ E2) as (W2 & D2 & N2 & M2 & A2); [intros; apply P1, Hp; now right|exact A1|].
    assert (M1 : many [] h h1).
    { destruct (frame_many _ _ _ F1) as (X & Y & Z). split; [exact X|]. split; [exact Y|]. intros k _ o No. apply Z; [|exact No].
      intros [<-|[]]. congruence. }
    split; [constructor; [eapply waits_many; [apply tree1|exact M2|intros []|exact W1]|exact W2]|]. split; [|split; [|split; [exact (many_trans _ _ _ _ _ M1 M2)|exact A2]]].
    + cbn [map]. constructor; [|exact D2]. intros J. apply in_map_iff in J as (p2 & U2 & J). apply N2 in J. rewrite U2 in J.
      destruct W1 as (? & ? & o & _ & No & _). congruence.
    + intros p2 [<-|J]; [exact N1|]. apply N2 in J. destruct (nth_error (h_units h) (up_unit p2)) as [o|] eqn:No; [|reflexivity].
      destruct M1 as (_ & _ & Z). destruct (Z _ (fun x => x) o No) as (o' & No' & _). congruence.
Qed.
Lemma contexts sep pc : forall us h cps h', unit_contexts sep pc us h = (cps, h') ->
  frame None h h' /\ (forall c q, has_path h c q -> has_path h' c q) /\ (forall c q, In (c, q) cps -> has_path h' c q).
Proof.
  induction us as [|a us IH]; intros h cps h'; cbn [unit_contexts].
  - intros [= <- <-]. split; [apply frame_refl|]. split; [auto|intros c q []].
  - set (path := match nth_error (h_uses h) a with Some o => _ | None => _ end). destruct (runes_equal path []); [apply IH|].
    unfold new_unit_context, new_chained, new_map. set (h1 := with_ctxs _ _). destruct (unit_contexts sep pc us h1) as [l h2] eqn:E. intros [= <- <-].
    destruct (IH _ _ _ E) as (F & P & Q).
    assert (K : forall c q, has_path h c q -> has_path h1 c q).
    { intros c q (o & No & Po). exists o. split; [|exact Po]. cbn. rewrite nth_error_app1; [exact No|]. apply nth_error_Some. congruence. }
    split; [eapply frame_trans; [|exact F]; now apply frame_same|]. split; [auto|]. intros c q [[= <- <-]|J]; [|auto].
    apply P. eexists. split; [cbn; rewrite nth_error_app2, Nat.sub_diag by lia; reflexivity|reflexivity].
Qed.

(** ** Sorting *)

Lemma unit_of_name_in {A} (nm : A -> gostring) l n x : unit_of_name nm l n = Some x -> In x l /\ to_lower (nm x) = n.
Proof.
  unfold unit_of_name. intros E. apply find_some in E as [J E]. apply in_rev in J. apply runes_equal_eq in E. auto.
Qed.
Lemma picked_nodup {A} (nm : A -> gostring) l : forall names, NoDup names ->
  NoDup (flat_map (fun n => match unit_of_name nm l n with Some u => [u] | None => [] end) names).
Proof.
  induction names as [|n names IH]; intros N; [constructor|]. apply NoDup_cons_iff in N as [Nn N]. cbn [flat_map].
  destruct (unit_of_name nm l n) as [u|] eqn:E; [|now apply IH]. cbn [app]. constructor; [|now apply IH].
  intros J. apply in_flat_map in J as (m & Jm & J). destruct (unit_of_name nm l m) as [v|] eqn:E'; [|destruct J].
  destruct J as [->|[]]. apply unit_of_name_in in E as [_ <-]. apply unit_of_name_in in E' as [_ <-]. contradiction.
Qed.
Lemma nodup_map_on {A B} (f : A -> B) l : NoDup l -> (forall a b, In a l -> In b l -> f a = f b -> a = b) -> NoDup (map f l).
Proof.
  induction l as [|a l IH]; intros N I; cbn [map]; [constructor|]. apply NoDup_cons_iff in N as [Na N]. constructor.
  - intros J. apply in_map_iff in J as (b & E & J). apply Na. rewrite (I a b); auto; [now left|now right].
  - apply IH; [exact N|]. intros; apply I; auto; now right.
Qed.
Lemma map_inj_on {A B} (f : A -> B) l a b : NoDup (map f l) -> In a l -> In b l -> f a = f b -> a = b.
Proof.
  induction l as [|c l IH]; intros N Ja Jb E; [destruct Ja|]. cbn [map] in N. apply NoDup_cons_iff in N as [Nc N].
  destruct Ja as [->|Ja], Jb as [->|Jb]; auto; destruct Nc; [rewrite E|rewrite <- E]; now apply in_map.
Qed.
Lemma sorted_units order topo h ps sorted : iterates order -> lists_once topo -> NoDup (map up_unit ps) ->
  sort_units (up_name h) (up_uses h) order topo ps = Some sorted -> incl sorted ps /\ NoDup (map up_unit sorted).
Proof.
  intros It To N. unfold sort_units. destruct (topo _ _) as [names|] eqn:E; [|discriminate]. intros [= <-].
  assert (Nn : NoDup (ss_slice order (unit_names (up_name h) (up_uses h) ps))).
  { eapply Permutation_NoDup; [apply It|]. unfold unit_names, strs_set, new_string_set. apply add_all_nodup. constructor. }
  specialize (To _ _ _ E Nn). clear E.
  assert (J : incl (flat_map (fun n => match unit_of_name (up_name h) ps n with Some u => [u] | None => [] end) names) ps).
  { intros p J. apply in_flat_map in J as (n & _ & J). destruct (unit_of_name _ _ n) as [v|] eqn:X; [|destruct J]. destruct J as [->|[]].
    now apply unit_of_name_in in X. }
  split; [exact J|]. apply nodup_map_on; [now apply picked_nodup|]. intros a b Ja Jb. apply (map_inj_on _ ps); auto.
Qed.
Lemma name_all uses m : forall us h x h', name_units uses m us h = ROk x h' -> frame None h h'.
Proof.
  induction us as [|u us IH]; intros h x h'; cbn [name_units]; [intros [= _ <-]; apply frame_refl|].
  destruct (find_name _ _ _) as [a|]; [|discriminate]. set (h1 := uses_put_unit h a u). destruct (nth_error (h_uses h1) a) as [o|]; [|discriminate].
  pose proof (map_set_objs h1 m [mkDecl (u_ident o) (NUses a)]) as X. intros E.
  eapply frame_trans; [apply (frame_put_uses None h a u)|]. fold h1.
  destruct (map_set _ _ _) as [h2|h2 i|]; [| |discriminate]; destruct X as (X1 & X2 & X3); (eapply frame_trans; [apply (frame_same None h1 h2); assumption|eapply IH, E]).
Qed.
Lemma load_units_fit sep order topo pc pa us h x h' : iterates order -> lists_once topo -> all_fit h ->
  load_units R files sep order topo pc pa us h = ROk x h' -> all_fit h' /\ uses_kept h h' /\ prog_kept h h'.
Proof.
  intros It To A. unfold load_units. destruct (unit_contexts sep pc us h) as [cps h1] eqn:Ec. destruct (contexts _ _ _ _ _ _ Ec) as (F1 & _ & Hp).
  destruct (each_of (load_unit R files pc) cps h1) as [ps h2| | | |] eqn:El; cbn [rbind]; try discriminate.
  destruct (load_all _ _ _ _ _ El Hp (all_fit_none _ _ F1 A)) as (W2 & D2 & _ & M2 & A2).
  destruct (sort_units _ _ _ _ _) as [sorted|] eqn:Es; [|discriminate]. destruct (sorted_units _ _ _ _ _ It To D2 Es) as [Inc Nd].
  destruct (each_of (intf_of R) sorted h2) as [sorted1 h3| | | |] eqn:E3; cbn [rbind]; try discriminate.
  assert (W : Forall (waits st1 h2) sorted) by (rewrite Forall_forall in W2 |- *; auto).
  destruct (pass _ _ _ step_intf tree1 tree2 (fun path o q => proj1 q) _ _ _ _ W Nd A2 E3) as (U3 & W3 & M3 & A3).
  destruct (each_of (impl_of R) sorted1 h3) as [sorted2 h4| | | |] eqn:E4; cbn [rbind]; try discriminate.
  destruct (pass _ _ _ step_impl tree2 tree_path (fun path o q => q) _ _ _ _ W3 ltac:(rewrite U3; exact Nd) A3 E4) as (_ & _ & M4 & A4).
  pose proof (frame_new_map None h4) as F5. destruct (new_map h4) as [h5 um]. cbn [fst] in F5.
  destruct (name_units us (DImpl um) _ h5) as [y h6| | | |] eqn:E6; cbn [rbind]; try discriminate. apply name_all in E6.
  pose proof (frame_new_map None h6) as F7. destruct (new_map h6) as [h7 local]. cbn [fst] in F7.
  destruct (nth_error (h_ctxs h7) pc) as [co|]; [|discriminate]. destruct (nth_error (h_progs h7) pa) as [po|] eqn:Np; [|discriminate].
  set (h8 := ctx_put_map h7 pc _). pose proof (frame_put_map None h7 pc (DComposite ([DImpl local; DImpl um] ++ maps_reverse (units_maps h7 (map up_unit ps)) ++ [cx_map co]))) as F8. fold h8 in F8.
  assert (P8 : h_progs h8 = h_progs h7) by apply put_map_objs.
  set (h9 := with_progs _ h8).
  assert (F9 : frame None h8 h9).
  { destruct (frame_refl None h8) as [X1 X2 X3 X4]. constructor; [exact X1|exact X2|exact X3|]. intros a o No. cbn. destruct (Nat.eq_dec a pa) as [->|D].
    - rewrite P8 in *. rewrite No in Np. injection Np as <-. erewrite nth_set_hit by exact No. eexists. split; [reflexivity|]. now split.
    - rewrite nth_set_miss by exact D. eauto. }
  pose proof (map_set_objs h9 (DImpl local) [mkDecl (pr_ident po) (NProgram pa)]) as X.
  assert (K : forall h10, h_units h10 = h_units h9 /\ h_uses h10 = h_uses h9 /\ h_progs h10 = h_progs h9 -> all_fit h10 /\ uses_kept h h10 /\ prog_kept h h10).
  { intros h10 (Y1 & Y2 & Y3).
    assert (F : frame None h4 h10).
    { eapply frame_trans; [exact F5|]. eapply frame_trans; [exact E6|]. eapply frame_trans; [exact F7|]. eapply frame_trans; [exact F8|]. eapply frame_trans; [exact F9|]. now apply frame_same. }
    split; [exact (all_fit_none _ _ F A4)|].
    pose proof (many_trans _ _ _ _ _ (many_trans _ _ _ _ _ (frame_none_many _ _ F1) M2) (many_trans _ _ _ _ _ (many_trans _ _ _ _ _ M3 M4) (frame_none_many _ _ F))) as (Z1 & Z2 & _).
    auto. }
  destruct (map_set h9 _ _) as [h10|h10 i|]; [| |discriminate]; intros [= _ <-]; auto.
Qed.

(** ** The program *)

Lemma q_program_head pc text s : after text s [] -> wq (parse_program_head R pc) (fun r s' => exists o,
  nth_error (h_progs (s_heap s')) (fst r) = Some o /\ pr_block o = None /\ listed (s_heap s') (or_nil (snd r)) /\
  frame None (s_heap s) (s_heap s') /\ after text s' (Fresh (pr_ident o) :: uses_i (s_heap s') (snd r))) s.
Proof.
  intros A. unfold parse_program_head. apply wq_bind, (wq_expect text []); [exact A|]. clear A. intros t0 A _.
  apply wq_bind, (wq_expect_next text []); [exact A|]. clear A. intros t s1 A1 C1 H1. apply wq_bind, wq_heap. intros pa h.
  destruct (ctx_path _ pc) as [p|]; [|discriminate]. intros [= <- <-]. set (o := mkProg p (new_ident t) None DNil).
  set (h2 := with_progs _ _). apply wq_bind.
  assert (F2 : frame None (s_heap s) h2).
  { rewrite <- H1. destruct (frame_refl None (s_heap s1)) as [X1 X2 X3 X4]. constructor; [exact X1|exact X2|exact X3|].
    intros a x No. exists x. split; [|now split]. cbn. rewrite nth_error_app1; [exact No|]. apply nth_error_Some. congruence. }
  assert (N2 : nth_error (h_progs h2) (length (h_progs (s_heap s1))) = Some o) by (cbn; rewrite nth_error_app2, Nat.sub_diag by lia; reflexivity).
  (* the semicolon *)
  unfold expect_next. apply wq_bind, (wq_take text [] t); [exact A1|exact C1|]. cbn [app]. intros ot s3 A3 H3. cbn [s_heap with_heap] in H3.
  unfold wq at 1. destruct (run (validate ot _) s3) as [t3 s3'| | | |] eqn:V; auto. apply heap_validate in V as [-> _].
  apply wq_bind, (wq_next text _ _ _ A3). intros o4 s4 A4 H4. apply wq_bind, wq_is. intros b. apply wq_bind.
  eapply wq_weak; [apply (q_uses_if R b _ _ _ A4)|cbv beta]. intros l s5 (A5 & L5 & F5). rewrite H4, H3 in F5. apply wq_ret. cbn [fst snd].
  destruct (fr_progs _ _ _ F5 _ _ N2) as (o' & N5 & I5 & B5). exists o'. split; [exact N5|]. split; [exact B5|]. split; [exact L5|].
  split; [eapply frame_trans; eassumption|]. rewrite I5. exact A5.
Qed.
Lemma q_program_rest pa l text o s : nth_error (h_progs (s_heap s)) pa = Some o -> listed (s_heap s) (or_nil l) ->
  after text s (Fresh (pr_ident o) :: uses_i (s_heap s) l) -> wq (parse_program_rest R pa l) (fun pa' s' => pa' = pa /\
  h_units (s_heap s') = h_units (s_heap s) /\ h_uses (s_heap s') = h_uses (s_heap s) /\
  exists o', nth_error (h_progs (s_heap s')) pa = Some o' /\ after text s' (program_i (s_heap s') o')) s.
Proof.
  intros N L A. unfold parse_program_rest. apply wq_bind. eapply wq_spelled; [apply (i_parse_block R RS)|exact A|].
  intros b s1 A1 (S1 & S2 & S3). apply wq_bind, wq_heap. intros x h. rewrite S3, N. intros [= _ <-].
  apply wq_bind. set (h2 := with_progs _ _). eapply (wq_expect text); [exact A1|]. intros t A2 _. apply wq_ret.
  split; [reflexivity|]. split; [exact S1|]. split; [exact S2|]. eexists. split; [cbn; eapply nth_set_hit, N|].
  unfold program_i. cbn [pr_block pr_ident opt pb_uses pb_block].
  assert (K : uses_kept (s_heap s) h2) by (intros a y Y; exists y; cbn; rewrite S2; auto).
  cbn [s_heap with_heap]. rewrite (uses_i_kept _ _ _ K L). exact A2.
Qed.
Lemma program_fits sep order topo path pa pc h : iterates order -> lists_once topo ->
  parse_program R files sep order topo path = ROk (pa, pc) h ->
  (exists text o, files path = Some text /\ nth_error (h_progs h) pa = Some o /\ in_order text 0 (program_i h o) (length text)) /\ all_fit h.
Proof.
  intros It To. unfold parse_program. destruct (files path) as [text|] eqn:F; [|discriminate].
  assert (H0 : h_units (fst (new_program_context heap0 path)) = []) by reflexivity.
  destruct (new_program_context heap0 path) as [h0 c]. cbn [fst] in H0.
  pose proof (wq_next text [] (fun _ s' => after text s' [] /\ s_heap s' = h0) _ (start_after text c h0) (fun _ s' A E => conj A E)) as X. unfold wq in X.
  destruct (run Next _) as [o0 s| | | |]; try discriminate. destruct X as [A0 E0].
  assert (Fit0 : all_fit (s_heap s)) by (intros k o; rewrite E0, H0; now destruct k).
  unfold parse_program_at. pose proof (q_program_head c _ _ A0) as X. unfold wq in X.
  destruct (run (parse_program_head R c) s) as [[pa1 l] s1| | | |]; cbn [on_parser rbind]; try discriminate. cbn [fst snd] in X.
  destruct X as (o1 & N1 & B1 & L1 & F1 & A1). pose proof (all_fit_none _ _ F1 Fit0) as Fit1.
  destruct (match l with Some us => load_units R files sep order topo c pa1 us (s_heap s1) | None => ROk tt (s_heap s1) end) as [y h2| | | |] eqn:E2; cbn [rbind]; try discriminate.
  assert (Y : all_fit h2 /\ uses_kept (s_heap s1) h2 /\ prog_kept (s_heap s1) h2).
  { destruct l as [us|]; [eapply load_units_fit; eassumption|]. injection E2 as _ <-. destruct (frame_refl None (s_heap s1)). auto. }
  destruct Y as (Fit2 & K2 & P2). destruct (P2 _ _ N1) as (o2 & N2 & I2 & _).
  assert (A2 : after text (with_heap h2 s1) (Fresh (pr_ident o2) :: uses_i (s_heap (with_heap h2 s1)) l)).
  { cbn [s_heap with_heap]. rewrite I2, (uses_i_kept _ _ _ K2 L1). exact A1. }
  pose proof (q_program_rest pa1 l text o2 (with_heap h2 s1) N2 (listed_kept _ _ _ K2 L1) A2) as X. unfold wq in X.
  destruct (run (parse_program_rest R pa1 l) _) as [pa2 s3| | | |]; cbn [on_parser rbind fst snd]; try discriminate. intros [= -> -> <-].
  destruct X as (-> & U3 & V3 & o3 & N3 & A3). cbn [s_heap with_heap] in U3, V3. split.
  - exists text, o3. split; [reflexivity|]. split; [exact N3|]. eapply after_inside, A3.
  - intros k o No. rewrite U3 in No. eapply fitted_kept; [|apply tree_same_refl|exact (Fit2 _ _ No)]. intros a z Z. exists z. rewrite V3. auto.
Qed.
End Files.

(** ** The theorems *)

Lemma text_spelled {A} (p : prog A) F f text c h a s : spelled [] nowhere None F p f -> parse_text p text c h = OOk a s ->
  in_order text 0 (f a) (length text).
Proof.
  intros T E. unfold parse_text in E. set (s0 := mkPst _ None c [] h) in E. cbn [run] in E.
  pose proof (wq_next text [] (fun _ s' => after text s' []) s0 (start_after text c h) (fun _ s' A _ => A)) as X. unfold wq in X. cbn [run] in X.
  destruct (next_token s0) as [o s1| | | |]; try discriminate. destruct X as [P B]. specialize (T text 0 s1 P B I). rewrite E in T. destruct T as [T _].
  eapply behind_inside; [|exact T]. apply (run_parsing p text s1); [exact P|left; eauto].
Qed.
Theorem identifiers_of_expressions_stand_in_the_text :
  forall n text c h e s, parse_text (parse_expression (recs_at n)) text c h = OOk e s -> in_order text 0 (expr_i e) (length text).
Proof. intros n text c h e s. apply text_spelled with (F := never). apply i_parse_expression, recs_at_spelled. Qed.
Theorem identifiers_of_types_stand_in_the_text :
  forall n text c h t s, parse_text (parse_type (recs_at n)) text c h = OOk t s -> in_order text 0 (typ_i t) (length text).
Proof. intros n text c h t s. apply text_spelled with (F := maybe). apply i_parse_type, recs_at_spelled. Qed.
Theorem identifiers_of_statements_stand_in_the_text :
  forall n text c h x s, parse_text (parse_statement (recs_at n)) text c h = OOk x s -> in_order text 0 (stmt_i x) (length text).
Proof. intros n text c h x s. apply text_spelled with (F := never). apply i_parse_statement, recs_at_spelled. Qed.
Theorem identifiers_of_units_stand_in_the_text :
  forall n text c h u s, parse_text (parse_unit (recs_at n) c) text c h = OOk u s ->
  exists o, nth_error (h_units (s_heap s)) u = Some o /\ in_order text 0 (unit_i (s_heap s) o) (length text).
Proof.
  intros n text c h u s E. unfold parse_text in E. set (s0 := mkPst _ None c [] h) in E.
  assert (X : wq (Bind Next (fun _ => parse_unit (recs_at n) c)) (fun u s' => exists path, held text h u (path_is path) [] s') s0).
  { apply wq_bind, (wq_next text []); [apply start_after|]. intros o s1 A1 H1.
    eapply wq_weak; [apply (q_unit (recs_at n) (recs_at_spelled n) c _ _ A1)|cbv beta]. rewrite H1. intros u' s' (path & _ & H). eauto. }
  unfold wq in X. rewrite E in X. destruct X as (path & _ & o & No & _ & _ & A). exists o. split; [exact No|]. rewrite app_nil_r in A. eapply after_inside, A.
Qed.
Theorem identifiers_of_programs_stand_in_their_texts :
  forall n files sep order topo path pa pc h, iterates order -> lists_once topo ->
  parse_program (recs_at n) files sep order topo path = ROk (pa, pc) h ->
  (exists text o, files path = Some text /\ nth_error (h_progs h) pa = Some o /\ in_order text 0 (program_i h o) (length text)) /\
  (forall u o, nth_error (h_units h) u = Some o ->
     exists text, files (un_path o) = Some text /\ in_order text 0 (unit_i h o) (length text)).
Proof.
  intros n files sep order topo path pa pc h It To E. destruct (program_fits _ (recs_at_spelled n) _ _ _ _ _ _ _ _ It To E) as [X Y].
  split; [exact X|]. intros u o No. destruct (Y u o No) as (text & F & _ & A). eauto.
Qed.
End WithUnicode.

Theorem identifiers_in_order_are_pieces_of_the_text :
  forall text lo l hi, in_order text lo l hi -> forall i, In i (idents_of l) ->
  exists a b, lo <= b <= hi /\ stands_at text i a b.
Proof.
  intros text. assert (P : forall m lo hi, mark_order text m lo hi -> forall i, In i (idents_in m) -> exists a b, lo <= b <= hi /\ stands_at text i a b).
  { fix IH 1. intros [i|i|l1 l2] lo hi.
    - clear IH. cbn [mark_order idents_in]. intros (a & L & S) j [<-|[]]. exists a, hi. split; [|exact S]. pose proof S as (p & q & _ & _ & _ & X & _). lia.
    - clear IH. cbn [mark_order idents_in]. intros (a & L & S) j [<-|[]]. exists a, hi. split; [lia|exact S].
    - change (mark_order text (Either l1 l2) lo hi) with (exists mid, chain text l1 lo mid /\ chain text l2 mid hi \/ chain text l2 lo mid /\ chain text l1 mid hi).
      assert (Q1 : forall lo hi, chain text l1 lo hi -> lo <= hi /\ forall i, In i (flat_map idents_in l1) -> exists a b, lo <= b <= hi /\ stands_at text i a b).
      { clear lo hi. induction l1 as [|m l1 IHl]; intros lo hi; cbn [chain flat_map].
        - clear IH. intros L. split; [exact L|intros i []].
        - intros (mid & X & Y). specialize (IH m lo mid X). pose proof (mark_le text _ _ _ X) as Lm. destruct (IHl _ _ Y) as [L Z]. split; [clear IH; lia|].
          intros i J. apply in_app_iff in J as [J|J]; [destruct (IH i J) as (a & b & Lb & S)|destruct (Z i J) as (a & b & Lb & S)]; clear IH; exists a, b; (split; [lia|exact S]). }
      assert (Q2 : forall lo hi, chain text l2 lo hi -> lo <= hi /\ forall i, In i (flat_map idents_in l2) -> exists a b, lo <= b <= hi /\ stands_at text i a b).
      { clear lo hi Q1. induction l2 as [|m l2 IHl]; intros lo hi; cbn [chain flat_map].
        - clear IH. intros L. split; [exact L|intros i []].
        - intros (mid & X & Y). specialize (IH m lo mid X). pose proof (mark_le text _ _ _ X) as Lm. destruct (IHl _ _ Y) as [L Z]. split; [clear IH; lia|].
          intros i J. apply in_app_iff in J as [J|J]; [destruct (IH i J) as (a & b & Lb & S)|destruct (Z i J) as (a & b & Lb & S)]; clear IH; exists a, b; (split; [lia|exact S]). }
      clear IH. cbn [idents_in]. intros (mid & [[X Y]|[X Y]]) i J; apply in_app_iff in J;
        [destruct (Q1 _ _ X) as [La Za], (Q2 _ _ Y) as [Lb Zb]; destruct J as [J|J]; [apply Za in J|apply Zb in J]
        |destruct (Q2 _ _ X) as [La Za], (Q1 _ _ Y) as [Lb Zb]; destruct J as [J|J]; [apply Zb in J|apply Za in J]];
        destruct J as (a & b & Lx & S); exists a, b; (split; [lia|exact S]). }
  intros lo l. revert lo. induction l as [|m l IH]; intros lo hi; cbn [in_order]; [intros _ i []|]. intros (mid & X & Y) i J.
  pose proof (mark_le text _ _ _ X). pose proof (order_le text _ _ _ Y). unfold idents_of in J. cbn [flat_map] in J. apply in_app_iff in J as [J|J].
  - destruct (P _ _ _ X i J) as (a & b & L & S). exists a, b. split; [lia|exact S].
  - destruct (IH _ _ Y i J) as (a & b & L & S). exists a, b. split; [lia|exact S].
Qed.
Theorem some_toposort_lists_once : lists_once some_toposort.
Proof.
  intros nodes edges l E N. unfold some_toposort in E. revert l E. generalize (length nodes) as fuel. intros fuel. revert nodes N.
  assert (G : forall nodes, NoDup nodes -> forall l, pick_free fuel nodes edges = Some l -> NoDup l /\ incl l nodes).
  { induction fuel as [|fuel IH]; intros nodes N l.
    - destruct nodes; cbn; [intros [= <-]; split; [constructor|intros x []]|discriminate].
    - destruct nodes as [|n0 nodes0]; [cbn; intros [= <-]; split; [constructor|intros x []]|]. cbn [pick_free].
      destruct (find _ _) as [n|] eqn:F; [|discriminate]. apply find_some in F as [J _].
      specialize (IH (remove_str n (n0 :: nodes0)) (NoDup_filter _ N)). destruct (pick_free fuel _ edges) as [l'|]; [|discriminate]. cbn. intros [= <-].
      destruct (IH l' eq_refl) as [N' I']. split.
      + constructor; [|exact N']. intros X. apply I', remove_in in X. tauto.
      + intros x [<-|X]; [exact J|]. apply I', remove_in in X. tauto. }
  intros nodes N l E. now apply (G nodes N l E).
Qed.
Theorem identifiers_in_order_do_not_overlap :
  forall text lo l1 i l2 j l3 hi, in_order text lo (l1 ++ Fresh i :: l2 ++ Fresh j :: l3) hi ->
  exists a b c d, stands_at text i a b /\ stands_at text j c d /\ b <= c.
Proof.
  intros text lo l1 i l2 j l3 hi A. apply order_app in A as (m1 & _ & A). cbn [in_order] in A. destruct A as (b & (a & _ & S1) & A).
  apply order_app in A as (m2 & A & B). apply order_le in A. cbn [in_order] in B. destruct B as (d & (c & L & S2) & _).
  exists a, b, c, d. split; [exact S1|]. split; [exact S2|]. lia.
Qed.
