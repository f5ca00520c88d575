(** The identifiers of units and programs stand in their texts: the methods of Units.v, in
    their order. *)
From Coq Require Import String List NArith Bool Arith Lia Permutation.
From Verif Require Import ListUtil Runes Token Tokenizer LexShape Ast Ext ExtMain Heap Classes MapFacts Prog Parser Units ParseSpec RunFacts UnitSpec SortMain ProgramLinkFacts RefUnits IdSpec IdFacts IdParse.
Import ListNotations.
Local Open Scope list_scope.

Section WithUnicode.
Context {U : Unicode} {UOK : UnicodeOk U}.

(** ** What stays in the heap *)

Definition uses_kept (h h' : heap) : Prop := forall a o, nth_error (h_uses h) a = Some o ->
  exists o', nth_error (h_uses h') a = Some o' /\ u_ident o' = u_ident o /\ u_path o' = u_path o.
(** All of a unit but its declarations *)
Definition tree_same (o o' : unitobj) : Prop :=
  un_path o' = un_path o /\ un_ident o' = un_ident o /\ un_port o' = un_port o /\ un_intf o' = un_intf o /\ un_impl o' = un_impl o /\ un_init o' = un_init o.
Definition unit_kept (u : nat) (h h' : heap) : Prop := forall o, nth_error (h_units h) u = Some o ->
  exists o', nth_error (h_units h') u = Some o' /\ tree_same o o'.
Definition prog_kept (h h' : heap) : Prop := forall a o, nth_error (h_progs h) a = Some o ->
  exists o', nth_error (h_progs h') a = Some o' /\ pr_ident o' = pr_ident o /\ pr_block o' = pr_block o.
(** Nothing changes but perhaps the unit [u] *)
Record frame (u : option nat) (h h' : heap) : Prop := mkFrame {
  fr_uses : uses_kept h h';
  fr_units : forall k, Some k <> u -> unit_kept k h h';
  fr_back : forall k, Some k <> u -> nth_error (h_units h) k = None -> nth_error (h_units h') k = None;
  fr_progs : prog_kept h h' }.
Lemma tree_same_refl o : tree_same o o.
Proof. now repeat split. Qed.
Lemma tree_same_trans a b c : tree_same a b -> tree_same b c -> tree_same a c.
Proof. unfold tree_same. intuition congruence. Qed.
Lemma frame_trans u h1 h2 h3 : frame u h1 h2 -> frame u h2 h3 -> frame u h1 h3.
Proof.
  intros [A1 A2 A3 A4] [B1 B2 B3 B4]. constructor.
  - intros a o E. destruct (A1 a o E) as (o1 & E1 & I1 & J1). destruct (B1 a o1 E1) as (o2 & E2 & I2 & J2). exists o2. split; [exact E2|split; congruence].
  - intros k N o E. destruct (A2 k N o E) as (o1 & E1 & I1). destruct (B2 k N o1 E1) as (o2 & E2 & I2). exists o2. split; [exact E2|].
    eapply tree_same_trans; eauto.
  - intros k N E. auto.
  - intros a o E. destruct (A4 a o E) as (o1 & E1 & I1 & J1). destruct (B4 a o1 E1) as (o2 & E2 & I2 & J2). exists o2. split; [exact E2|split; congruence].
Qed.
Lemma frame_more u h h' : frame None h h' -> frame u h h'.
Proof. intros [A B C D]. constructor; auto; intros; [apply B|apply C]; auto; discriminate. Qed.
Lemma frame_same u h h' : h_units h' = h_units h -> h_uses h' = h_uses h -> h_progs h' = h_progs h -> frame u h h'.
Proof.
  intros A B C. constructor.
  - intros a o E. exists o. rewrite B. auto.
  - intros k _ o E. exists o. rewrite A. auto using tree_same_refl.
  - intros k _. now rewrite A.
  - intros a o E. exists o. rewrite C. auto.
Qed.
Lemma frame_refl u h : frame u h h.
Proof. now apply frame_same. Qed.
Lemma frame_objs u s s' : same_objs s s' -> frame u (s_heap s) (s_heap s').
Proof. intros (A & B & C). now apply frame_same. Qed.
Lemma frame_put u h g : frame (Some u) h (put_unit h u g).
Proof.
  unfold put_unit. destruct (nth_error (h_units h) u) as [o|] eqn:E; [|apply frame_refl]. constructor.
  - intros a x X. exists x. auto.
  - intros k N x X. exists x. cbn. rewrite nth_set_miss by congruence. auto using tree_same_refl.
  - intros k N X. cbn. now rewrite nth_set_miss by congruence.
  - intros a x X. exists x. auto.
Qed.
Lemma put_unit_hit h u g o : nth_error (h_units h) u = Some o -> nth_error (h_units (put_unit h u g)) u = Some (g o).
Proof. intros E. unfold put_unit. rewrite E. cbn. eapply nth_set_hit, E. Qed.
Lemma frame_put_same u h g : (forall o, tree_same o (g o)) -> frame None h (put_unit h u g).
Proof.
  intros G. destruct (frame_put u h g) as [A B C D]. constructor; auto.
  - intros k _. destruct (Nat.eq_dec k u) as [->|N]; [|apply B; congruence]. intros o E. exists (g o). split; [now apply put_unit_hit|apply G].
  - intros k _. destruct (Nat.eq_dec k u) as [->|N]; [|apply C; congruence]. intros E. unfold put_unit. now rewrite E.
Qed.
Lemma frame_new_uses u h o : frame u h (with_uses (h_uses h ++ [o]) h).
Proof.
  constructor.
  - intros a x X. exists x. split; [|now split]. cbn. rewrite nth_error_app1; [exact X|]. apply nth_error_Some. congruence.
  - intros k _ x X. exists x. auto using tree_same_refl.
  - auto.
  - intros a x X. exists x. auto.
Qed.
Lemma frame_put_uses u h a k : frame u h (uses_put_unit h a k).
Proof.
  unfold uses_put_unit. destruct (nth_error (h_uses h) a) as [o|] eqn:E; [|apply frame_refl]. constructor.
  - intros b x X. cbn. destruct (Nat.eq_dec b a) as [->|N].
    + erewrite nth_set_hit by exact E. eexists. split; [reflexivity|]. cbn. split; congruence.
    + rewrite nth_set_miss by exact N. eauto.
  - intros j _ x X. exists x. auto using tree_same_refl.
  - auto.
  - intros b x X. exists x. auto.
Qed.
Lemma frame_assign u units us : forall h, frame u h (assign_units_loop h units us).
Proof.
  induction us as [|a us IH]; intros h; cbn [assign_units_loop]; [apply frame_refl|].
  destruct (find_name _ _ _); [|apply IH]. eapply frame_trans; [apply frame_put_uses|apply IH].
Qed.
Lemma frame_put_map u h c m : frame u h (ctx_put_map h c m).
Proof. destruct (put_map_objs h c m) as (A & B & C). now apply frame_same. Qed.
Lemma frame_set_all u m : forall l h h', set_all h m l = Some h' -> frame u h h'.
Proof.
  induction l as [|ds l IH]; intros h h'; cbn [set_all]; [intros [= <-]; apply frame_refl|].
  pose proof (map_set_objs h m ds) as X. destruct (map_set h m ds) as [h1|h1 i|]; [| |discriminate]; destruct X as (A & B & C);
    intros E; (eapply frame_trans; [apply frame_same; eassumption|now apply IH]).
Qed.

Definition listed (h : heap) (l : list nat) : Prop := forall a, In a l -> nth_error (h_uses h) a <> None.
Lemma listed_kept h h' l : uses_kept h h' -> listed h l -> listed h' l.
Proof.
  intros K L a J. specialize (L a J). destruct (nth_error (h_uses h) a) as [o|] eqn:E; [|congruence].
  destruct (K a o E) as (o' & -> & _). discriminate.
Qed.
Lemma use_kept h h' a : uses_kept h h' -> nth_error (h_uses h) a <> None -> use_i h' a = use_i h a.
Proof.
  intros K N. unfold use_i. destruct (nth_error (h_uses h) a) as [o|] eqn:E; [|congruence]. destruct (K a o E) as (o' & -> & I' & _). cbn [opt]. congruence.
Qed.
Lemma flat_use_kept h h' l : uses_kept h h' -> listed h l -> flat_map (use_i h') l = flat_map (use_i h) l.
Proof.
  intros K. induction l as [|a l IH]; intros L; [reflexivity|]. cbn [flat_map]. rewrite (use_kept h h' a K), IH; auto.
  - intros b J. apply L. now right.
  - apply L. now left.
Qed.
Lemma uses_i_kept h h' l : uses_kept h h' -> listed h (or_nil l) -> uses_i h' l = uses_i h l.
Proof. intros K L. destruct l as [l|]; [|reflexivity]. cbn. now apply flat_use_kept. Qed.
Definition unit_listed (h : heap) (o : unitobj) : Prop :=
  (forall s, un_intf o = Some s -> listed h (or_nil (is_uses s))) /\ (forall s, un_impl o = Some s -> listed h (or_nil (im_uses s))).
Lemma unit_listed_kept h h' o o' : uses_kept h h' -> tree_same o o' -> unit_listed h o -> unit_listed h' o'.
Proof.
  intros K (_ & _ & _ & A & B & _) [L1 L2]. split; intros s E; eapply listed_kept; eauto; [apply L1|apply L2]; congruence.
Qed.
Lemma unit_i_kept h h' o o' : uses_kept h h' -> tree_same o o' -> unit_listed h o -> unit_i h' o' = unit_i h o.
Proof.
  intros K (_ & A & _ & B & C & D) [L1 L2]. unfold unit_i. rewrite A, B, C, D. f_equal.
  assert (X : opt (intf_i h') (un_intf o) = opt (intf_i h) (un_intf o)).
  { destruct (un_intf o) as [s|]; [|reflexivity]. cbn [opt]. unfold intf_i. now rewrite (uses_i_kept h h' _ K (L1 s eq_refl)). }
  assert (Y : opt (impl_i h') (un_impl o) = opt (impl_i h) (un_impl o)).
  { destruct (un_impl o) as [s|]; [|reflexivity]. cbn [opt]. unfold impl_i. now rewrite (uses_i_kept h h' _ K (L2 s eq_refl)). }
  now rewrite X, Y.
Qed.

(** ** Running *)

(** If [p] returns, then with [K]. *)
Definition wq {A} (p : prog A) (K : A -> pst -> Prop) (s : pst) : Prop :=
  match run p s with OOk a s' => K a s' | _ => True end.
Lemma wq_bind {A B} (p : prog A) (k : A -> prog B) (K : B -> pst -> Prop) s : wq p (fun a s1 => wq (k a) K s1) s -> wq (Bind p k) K s.
Proof. unfold wq. cbn [run]. destruct (run p s); auto. Qed.
Lemma wq_ret {A} (a : A) (K : A -> pst -> Prop) s : K a s -> wq (Ret a) K s.
Proof. exact (fun H => H). Qed.
Lemma wq_heap {A} (f : nat -> heap -> hres A) (K : A -> pst -> Prop) s :
  (forall a h, f (s_ctx s) (s_heap s) = HOk a h -> K a (with_heap h s)) -> wq (OnHeap f) K s.
Proof. intros H. unfold wq. cbn [run]. destruct (f (s_ctx s) (s_heap s)) as [a h| | |] eqn:E; auto. Qed.
Lemma wq_weak {A} (p : prog A) (K K' : A -> pst -> Prop) s : wq p K s -> (forall a s', K a s' -> K' a s') -> wq p K' s.
Proof. unfold wq. destruct (run p s); auto. Qed.

(** The parser is behind [G] *)
Definition after (text : list rune) (s : pst) (G : list mark) : Prop := parsing text s /\ behind text 0 s G nowhere.
Lemma after_heap text s G h : after text s G -> after text (with_heap h s) G.
Proof. exact (fun H => H). Qed.
Lemma after_sub text s G G' : after text s G -> subseq G' G -> after text s G'.
Proof. intros [A B] S. split; [exact A|]. eapply behind_sub; eauto. Qed.
Lemma wq_spelled {A} text G (p : prog A) f (K : A -> pst -> Prop) s : spelled [] nowhere None never p f -> after text s G ->
  (forall a s', after text s' (G ++ f a) -> same_objs s s' -> K a s') -> wq p K s.
Proof.
  intros T [H (m & M & C)] Q. unfold wq. assert (X : behind text m s [] nowhere) by (exists m; split; [cbn; lia|exact C]).
  specialize (T text m s H X I). destruct (run p s) as [a s1| | | |] eqn:E; auto. destruct T as [(m1 & M1 & C1) S1]. apply Q; [|exact S1].
  split; [apply (run_parsing p text s); [exact H|left; eauto]|]. exists m1. split; [|exact C1]. apply order_app. eauto.
Qed.
Lemma i_next : spelled [] nowhere None never Next none.
Proof.
  intros text lo s H B O. destruct (run Next s) as [a s1| | | |] eqn:E; auto. destruct (next_behind _ _ _ _ _ _ _ H B E) as (X & Y & _). split; assumption.
Qed.
Lemma i_tok (p : prog token) : (forall k : token -> prog token, spelled [] nowhere None never (Bind p (fun t => Ret t)) (none (A := token))) -> spelled [] nowhere None never p none.
Proof. intros H text lo s P B O. specialize (H (fun t => Ret t) text lo s P B O). cbn [run] in H. destruct (run p s); auto. Qed.
Lemma i_expect q : spelled [] nowhere None never (expect q) none.
Proof. apply i_tok. intros _. apply sp_expect. intros t _. apply sp_ret; [constructor|intros []]. Qed.
Lemma i_expect_next q : spelled [] nowhere None never (expect_next q) none.
Proof. apply i_tok. intros _. apply sp_expect_next; [exact I|]. intros t _. apply sp_ret; [constructor|intros []]. Qed.
Lemma i_nexttok : spelled [] nowhere None never next none.
Proof. apply i_tok. intros _. apply sp_nexttok; [exact I|]. intros t. apply sp_ret; [constructor|intros []]. Qed.

(** Steps over tokens: they leave the heap alone *)
Lemma app_none {A} (G : list mark) (a : A) : G ++ none a = G.
Proof. apply app_nil_r. Qed.
Lemma heap_next a s s' : run Next s = OOk a s' -> s_heap s' = s_heap s.
Proof. cbn [run]. unfold next_token. destruct (get_next (s_tok s)); try discriminate; now intros [= _ <-]. Qed.
Lemma heap_validate t q a s s' : run (validate t q) s = OOk a s' -> s' = s /\ t = Some a.
Proof. destruct t as [t|]; cbn [validate]; [|discriminate]. destruct (q t); cbn [run]; [now intros [= <- <-]|]. destruct (ctx_path _ _); discriminate. Qed.
Lemma wq_with {A} (p : prog A) (K1 K2 : A -> pst -> Prop) s : wq p K1 s -> (forall a s', run p s = OOk a s' -> K1 a s' -> K2 a s') -> wq p K2 s.
Proof. unfold wq. destruct (run p s); auto. Qed.
Lemma wq_tokens {A} text G (p : prog A) s : spelled [] nowhere None never p none -> after text s G -> wq p (fun _ s' => after text s' G) s.
Proof. intros T A0. eapply wq_spelled; [exact T|exact A0|]. intros a s'. rewrite app_none. auto. Qed.
Lemma wq_next text G (K : option token -> pst -> Prop) s : after text s G ->
  (forall a s', after text s' G -> s_heap s' = s_heap s -> K a s') -> wq Next K s.
Proof. intros A Q. eapply wq_with; [apply wq_tokens; [apply i_next|exact A]|]. intros a s' E X. apply Q; [exact X|]. eapply heap_next, E. Qed.
Lemma wq_expect text G q (K : token -> pst -> Prop) s : after text s G ->
  (forall t, after text s G -> s_cur s = Some t -> K t s) -> wq (expect q) K s.
Proof.
  intros A Q. unfold wq, expect. cbn [run]. destruct (s_cur s) as [t|] eqn:C; [|exact I]. cbn [validate].
  destruct (q t); cbn [run]; [now apply Q|]. now destruct (ctx_path _ _).
Qed.
Lemma wq_nexttok text G (K : token -> pst -> Prop) s : after text s G ->
  (forall t s', after text s' G -> s_heap s' = s_heap s -> K t s') -> wq next K s.
Proof.
  intros A Q. unfold next. apply wq_bind, (wq_next text G); [exact A|]. intros [t|] s' A' H; [apply wq_ret; auto|exact I].
Qed.
Lemma wq_expect_next text G q (K : token -> pst -> Prop) s : after text s G ->
  (forall t s', after text s' G -> s_cur s' = Some t -> s_heap s' = s_heap s -> K t s') -> wq (expect_next q) K s.
Proof.
  intros A Q. unfold expect_next. apply wq_bind. eapply wq_with; [apply wq_tokens; [apply i_next|exact A]|]. intros o s' E X.
  assert (C : s_cur s' = o) by (destruct A as [P B]; now destruct (next_behind _ _ _ _ _ _ _ P B E) as (_ & _ & C & _)).
  apply heap_next in E. unfold wq. destruct (run (validate o q) s') as [t s1| | | |] eqn:V; auto.
  apply heap_validate in V as [-> ->]. now apply Q.
Qed.
Lemma wq_is q (K : bool -> pst -> Prop) s : (forall b, K b s) -> wq (is q) K s.
Proof. intros Q. unfold wq, is, cur. cbn [run]. destruct (s_cur s) as [t|]; cbn [run]; auto. Qed.
(** The current token is taken as an identifier *)
Lemma wq_take text G t (K : option token -> pst -> Prop) s : after text s G -> s_cur s = Some t ->
  (forall a s', after text s' (G ++ [Fresh (new_ident t)]) -> s_heap s' = s_heap s -> K a s') -> wq Next K s.
Proof.
  intros [H B0] C Q. unfold wq. destruct (run Next s) as [a s1| | | |] eqn:E; auto.
  apply Q; [|eapply heap_next, E].
  split; [apply (run_parsing Next text s); [exact H|left; eauto]|]. exact (next_grown text 0 s G nowhere (Some t) a s1 H B0 C (fun x => x) E).
Qed.
Lemma wq_taketok text G t (K : token -> pst -> Prop) s : after text s G -> s_cur s = Some t ->
  (forall a s', after text s' (G ++ [Fresh (new_ident t)]) -> s_heap s' = s_heap s -> K a s') -> wq next K s.
Proof.
  intros A C Q. unfold next. apply wq_bind, (wq_take text G t); [exact A|exact C|]. intros [a|] s' A' H; [apply wq_ret; auto|exact I].
Qed.
Lemma wq_loop {S A} (J : S -> pst -> Prop) (body : S -> prog (S + A)) (K : A -> pst -> Prop) :
  (forall x s, J x s -> wq (body x) (fun r s' => match r with inl y => J y s' | inr a => K a s' end) s) ->
  forall n x s, J x s -> wq (loop n body x) K s.
Proof.
  intros Bd. induction n as [|n IH]; intros x s Jx; cbn [loop]; [exact I|]. apply wq_bind. eapply wq_weak; [apply Bd, Jx|cbv beta].
  intros [y|a] s' Q; [now apply IH|now apply wq_ret].
Qed.

(** ** Uses clauses *)

Lemma use_new h o : use_i (with_uses (h_uses h ++ [o]) h) (length (h_uses h)) = [Fresh (u_ident o)].
Proof. unfold use_i. cbn. rewrite nth_error_app2, Nat.sub_diag by lia. reflexivity. Qed.
Lemma q_uses_item text G s : after text s G -> wq parse_uses_item (fun a s' =>
  after text s' (G ++ use_i (s_heap s') a) /\ nth_error (h_uses (s_heap s')) a <> None /\ frame None (s_heap s) (s_heap s')) s.
Proof.
  intros A. unfold parse_uses_item. apply wq_bind, (wq_expect text G); [exact A|]. clear A. intros t A C.
  apply wq_bind, (wq_taketok text G t); [exact A|exact C|]. clear A C. intros t2 s1 A1 H1. apply wq_bind.
  assert (E : forall path s2, after text s2 (G ++ [Fresh (new_ident t)]) -> s_heap s2 = s_heap s ->
    wq (new_uses (mkUses (new_ident t) path None)) (fun a s' =>
      after text s' (G ++ use_i (s_heap s') a) /\ nth_error (h_uses (s_heap s')) a <> None /\ frame None (s_heap s) (s_heap s')) s2).
  { intros path s2 A2 H2. apply wq_heap. intros a h [= <- <-]. cbn [s_heap with_heap]. rewrite use_new. split; [exact A2|]. split.
    - cbn. rewrite nth_error_app2, Nat.sub_diag by lia. discriminate.
    - rewrite <- H2. apply frame_new_uses. }
  destruct (kw "IN" t2).
  - apply wq_bind, (wq_nexttok text _ _ _ A1). intros t3 s2 A2 H2. apply wq_bind. unfold parse_string_factor.
    destruct (_ || _); [|unfold wq; cbn [run]; now destruct (ctx_path _ _)].
    apply wq_bind, (wq_next text _ _ _ A2). intros o s3 A3 H3. apply wq_ret, wq_ret, E; [exact A3|congruence].
  - apply wq_ret, E; [exact A1|exact H1].
Qed.
Lemma frame_uses_of u h h' : frame u h h' -> uses_kept h h'.
Proof. now intros []. Qed.
Lemma listed_app h l1 l2 : listed h l1 -> listed h l2 -> listed h (l1 ++ l2).
Proof. intros A B a J. apply in_app_iff in J as [J|J]; auto. Qed.
Lemma q_uses_list n te sep text G s : after text s G -> wq (until_list n te (Some sep) parse_uses_item) (fun l s' =>
  after text s' (G ++ flat_map (use_i (s_heap s')) l) /\ listed (s_heap s') l /\ frame None (s_heap s) (s_heap s')) s.
Proof.
  intros A. unfold until_list, until.
  apply (wq_loop (fun l s' => after text s' (G ++ flat_map (use_i (s_heap s')) l) /\ listed (s_heap s') l /\ frame None (s_heap s) (s_heap s'))).
  2:{ cbn [flat_map]. rewrite app_nil_r. split; [exact A|]. split; [intros a []|apply frame_refl]. }
  clear A. intros l s1 (A & L & F). unfold until_step, append_with. apply wq_bind, wq_bind.
  eapply wq_weak; [apply (q_uses_item _ _ _ A)|cbv beta]. intros a s2 (A2 & N2 & F2). apply wq_ret.
  assert (J : after text s2 (G ++ flat_map (use_i (s_heap s2)) (l ++ [a])) /\ listed (s_heap s2) (l ++ [a]) /\ frame None (s_heap s) (s_heap s2)).
  { rewrite flat_map_app. cbn [flat_map]. rewrite app_nil_r, app_assoc.
    rewrite (flat_use_kept _ _ l (frame_uses_of _ _ _ F2) L). split; [exact A2|]. split; [|eapply frame_trans; eassumption].
    apply listed_app; [eapply listed_kept; [exact (frame_uses_of _ _ _ F2)|exact L]|]. intros b [<-|[]]. exact N2. }
  apply wq_bind. unfold wq at 1. cbn [run]. destruct (s_cur s2) as [t|] eqn:C; [|exact I]. destruct (te t); [apply wq_ret, J|].
  apply wq_bind. cbn [validate]. destruct (sep t); [|unfold wq; cbn [run]; now destruct (ctx_path _ _)]. apply wq_ret.
  apply wq_bind. destruct J as (J1 & J2 & J3). apply (wq_next text _ _ _ J1). intros o s3 A3 H3. apply wq_ret. rewrite H3. auto.
Qed.
Lemma q_set_uses text G : forall l s, after text s G ->
  wq (set_uses l) (fun _ s' => after text s' G /\ frame None (s_heap s) (s_heap s')) s.
Proof.
  induction l as [|a l IH]; intros s A; cbn [set_uses]; [apply wq_ret; split; [exact A|apply frame_refl]|].
  apply wq_bind, wq_heap. intros x h. destruct (nth_error _ a) as [o|]; [|discriminate].
  pose proof (ctx_set_objs (s_heap s) (s_ctx s) [mkDecl (u_ident o) (NUses a)]) as X.
  destruct (ctx_set _ _ _) as [h'|h' i|]; try discriminate. intros [= _ <-]. destruct X as (X1 & X2 & X3).
  eapply wq_weak; [apply (IH (with_heap h' s)); exact A|cbv beta]. intros _ s' [A' F']. split; [exact A'|].
  eapply frame_trans; [apply (frame_same _ _ h'); assumption|exact F'].
Qed.
Section Level.
Context (R : recs) (RS : recs_spelled R).
Lemma q_uses_next text G s : after text s G -> wq (parse_uses_next R) (fun l s' =>
  after text s' (G ++ flat_map (use_i (s_heap s')) l) /\ listed (s_heap s') l /\ frame None (s_heap s) (s_heap s')) s.
Proof.
  intros A. unfold parse_uses_next, parse_uses_clause. apply wq_bind, wq_bind, (wq_expect text G); [exact A|]. clear A. intros t A _.
  apply wq_bind, (wq_next text G); [exact A|]. clear A. intros o s1 A1 H1. apply wq_bind.
  eapply wq_weak; [apply (q_uses_list _ _ _ _ _ _ A1)|cbv beta]. intros l s2 (A2 & L2 & F2). apply wq_bind.
  eapply wq_weak; [apply (q_set_uses _ _ _ _ A2)|cbv beta]. intros _ s3 (A3 & F3). apply wq_ret, wq_bind, (wq_next text _ _ _ A3).
  intros o' s4 A4 H4. apply wq_ret. rewrite H4. rewrite (flat_use_kept _ _ l (frame_uses_of _ _ _ F3) L2). split; [exact A4|].
  split; [eapply listed_kept; [exact (frame_uses_of _ _ _ F3)|exact L2]|]. rewrite <- H1. eapply frame_trans; eassumption.
Qed.
(** With or without *)
Lemma q_uses_if (b : bool) text G s : after text s G ->
  wq (if b then Bind (parse_uses_next R) (fun l => Ret (Some l)) else Ret None) (fun l s' =>
  after text s' (G ++ uses_i (s_heap s') l) /\ listed (s_heap s') (or_nil l) /\ frame None (s_heap s) (s_heap s')) s.
Proof.
  intros A. destruct b.
  - apply wq_bind. eapply wq_weak; [apply (q_uses_next _ _ _ A)|cbv beta]. intros l s1 X. now apply wq_ret.
  - apply wq_ret. cbn. rewrite app_nil_r. split; [exact A|]. split; [intros a []|apply frame_refl].
Qed.

(** ** A unit that is being parsed *)

(** The parser is behind the tree of the unit [u] and then [E]; the other objects are those of
    [h0]. *)
Definition held (text : list rune) (h0 : heap) (u : nat) (Q : unitobj -> Prop) (E : list mark) (s : pst) : Prop :=
  frame (Some u) h0 (s_heap s) /\
  exists o, nth_error (h_units (s_heap s)) u = Some o /\ unit_listed (s_heap s) o /\ Q o /\ after text s (unit_i (s_heap s) o ++ E).
(** What only depends on the tree *)
Definition of_tree (Q : unitobj -> Prop) : Prop := forall o o', tree_same o o' -> Q o -> Q o'.
Lemma held_objs text h0 u Q E E' s s' : held text h0 u Q E s -> frame None (s_heap s) (s_heap s') -> of_tree Q ->
  (forall G, after text s (G ++ E) -> after text s' (G ++ E')) -> held text h0 u Q E' s'.
Proof.
  intros (F & o & N & L & q & A) F' T C. destruct (fr_units _ _ _ F' u ltac:(discriminate) o N) as (o' & N' & S).
  split; [eapply frame_trans; [exact F|now apply frame_more]|]. exists o'. split; [exact N'|].
  split; [eapply unit_listed_kept; [exact (frame_uses_of _ _ _ F')|exact S|exact L]|]. split; [eapply T; eauto|].
  rewrite (unit_i_kept _ _ _ _ (frame_uses_of _ _ _ F') S L). auto.
Qed.
Lemma held_heap text h0 u Q E s h : held text h0 u Q E s -> frame None (s_heap s) h -> of_tree Q -> held text h0 u Q E (with_heap h s).
Proof. intros H F T. eapply held_objs; [exact H|exact F|exact T|auto]. Qed.
Lemma held_put text h0 u (Q Q' : unitobj -> Prop) E E' s g : held text h0 u Q E s ->
  (forall o, unit_listed (s_heap s) o -> Q o ->
     subseq (unit_i (s_heap s) (g o) ++ E') (unit_i (s_heap s) o ++ E) /\ unit_listed (s_heap s) (g o) /\ Q' (g o)) ->
  held text h0 u Q' E' (with_heap (put_unit (s_heap s) u g) s).
Proof.
  intros (F & o & N & L & q & A) T. cbn [held s_heap with_heap]. split; [eapply frame_trans; [exact F|apply frame_put]|].
  exists (g o). destruct (T o L q) as (S & T1 & T2). cbn [s_heap with_heap]. split; [now apply put_unit_hit|].
  assert (Us : h_uses (put_unit (s_heap s) u g) = h_uses (s_heap s)) by (unfold put_unit; now destruct (nth_error _ _)).
  assert (K : uses_kept (s_heap s) (put_unit (s_heap s) u g)) by (intros a x X; exists x; rewrite Us; auto).
  split; [eapply unit_listed_kept; [exact K|apply tree_same_refl|exact T1]|]. split; [exact T2|].
  rewrite (unit_i_kept _ _ (g o) (g o) K (tree_same_refl _) T1). apply after_heap. eapply after_sub; [exact A|exact S].
Qed.
Lemma held_spelled {A} text h0 u Q E (p : prog A) f s : spelled [] nowhere None never p f -> held text h0 u Q E s -> of_tree Q ->
  wq p (fun a s' => held text h0 u Q (E ++ f a) s') s.
Proof.
  intros T (F & o & N & L & q & X) O. eapply wq_spelled; [exact T|exact X|]. intros a s' A' S.
  destruct S as (S1 & S2 & S3). assert (F' : frame None (s_heap s) (s_heap s')) by (apply frame_same; assumption).
  split; [eapply frame_trans; [exact F|now apply frame_more]|]. exists o. rewrite S1. split; [exact N|].
  split; [eapply unit_listed_kept; [exact (frame_uses_of _ _ _ F')|apply tree_same_refl|exact L]|]. split; [exact q|].
  rewrite (unit_i_kept _ _ _ _ (frame_uses_of _ _ _ F') (tree_same_refl _) L), app_assoc. exact A'.
Qed.
Lemma held_tokens {A} text h0 u Q E (p : prog A) s : spelled [] nowhere None never p none -> held text h0 u Q E s -> of_tree Q ->
  wq p (fun _ s' => held text h0 u Q E s') s.
Proof. intros T H O. eapply wq_weak; [apply (held_spelled _ _ _ _ _ _ _ _ T H O)|cbv beta]. intros a s' X. cbv beta in X. unfold none in X. now rewrite app_nil_r in X. Qed.
Lemma held_uses (b : bool) text h0 u Q s : held text h0 u Q [] s -> of_tree Q ->
  wq (if b then Bind (parse_uses_next R) (fun l => Ret (Some l)) else Ret None) (fun l s' =>
    held text h0 u Q (uses_i (s_heap s') l) s' /\ listed (s_heap s') (or_nil l)) s.
Proof.
  intros (F & o & N & L & q & A) O. rewrite app_nil_r in A. eapply wq_weak; [apply (q_uses_if b _ _ _ A)|cbv beta]. intros l s' (A' & L' & F').
  split; [|exact L']. destruct (fr_units _ _ _ F' u ltac:(discriminate) o N) as (o' & N' & S).
  split; [eapply frame_trans; [exact F|now apply frame_more]|]. exists o'. split; [exact N'|].
  split; [eapply unit_listed_kept; [exact (frame_uses_of _ _ _ F')|exact S|exact L]|]. split; [eapply O; eauto|].
  rewrite (unit_i_kept _ _ _ _ (frame_uses_of _ _ _ F') S L). exact A'.
Qed.

Definition path_is (path : gostring) (o : unitobj) : Prop := un_path o = path.
(** Named only; up to the uses clause of the interface section; up to the interface section;
    up to the uses clause of the implementation section; up to its declarations; up to its
    exports *)
Definition st0 path o := path_is path o /\ un_intf o = None /\ un_impl o = None /\ un_init o = None.
Definition st1 path o := path_is path o /\ (exists l, un_intf o = Some (mkIntf l None)) /\ un_impl o = None /\ un_init o = None.
Definition st2 path o := path_is path o /\ un_impl o = None /\ un_init o = None.
Definition st3 path o := path_is path o /\ (exists l, un_impl o = Some (mkImpl l None None)) /\ un_init o = None.
Definition st4 path o := path_is path o /\ (exists l ds, un_impl o = Some (mkImpl l ds None)) /\ un_init o = None.
Definition st5 path o := path_is path o /\ un_init o = None.
Ltac by_tree := intros ? ? (E1 & E2 & _ & E3 & E4 & E5); unfold path_is; rewrite ?E1, ?E3, ?E4, ?E5; exact (fun x => x).
Lemma tree0 path : of_tree (st0 path). Proof. unfold st0. by_tree. Qed.
Lemma tree1 path : of_tree (st1 path). Proof. unfold st1. by_tree. Qed.
Lemma tree2 path : of_tree (st2 path). Proof. unfold st2. by_tree. Qed.
Lemma tree3 path : of_tree (st3 path). Proof. unfold st3. by_tree. Qed.
Lemma tree4 path : of_tree (st4 path). Proof. unfold st4. by_tree. Qed.
Lemma tree5 path : of_tree (st5 path). Proof. unfold st5. by_tree. Qed.
Lemma tree_path path : of_tree (path_is path). Proof. by_tree. Qed.
Lemma held_weak text h0 u (Q Q' : unitobj -> Prop) E s : (forall o, Q o -> Q' o) -> held text h0 u Q E s -> held text h0 u Q' E s.
Proof. intros I (F & o & N & L & q & A). split; [exact F|]. exists o. auto. Qed.
Lemma held_same text h0 u Q E s s' : held text h0 u Q E s -> s_heap s' = s_heap s -> of_tree Q ->
  (forall G, after text s G -> after text s' G) -> held text h0 u Q E s'.
Proof. intros H S O C. eapply held_objs; [exact H|rewrite S; apply frame_refl|exact O|auto]. Qed.

(** ** The methods *)

Lemma q_unit_ident uc text s : after text s [] -> wq (parse_unit_ident uc) (fun u s' => exists path,
  ctx_path (s_heap s) uc = Some path /\ nth_error (h_units (s_heap s)) u = None /\ held text (s_heap s) u (st0 path) [] s') s.
Proof.
  intros A. unfold parse_unit_ident. apply wq_bind, (wq_expect text []); [exact A|]. clear A. intros t0 A _.
  apply wq_bind, (wq_expect_next text []); [exact A|]. clear A. intros t s1 A1 C1 H1. apply wq_bind, wq_heap. intros path h E.
  rewrite H1 in E. destruct (ctx_path (s_heap s) uc) as [p|] eqn:Ep; [|discriminate]. injection E as <- <-.
  apply wq_bind, wq_heap. intros u h. cbn [s_heap with_heap]. intros [= <- <-]. set (o := mkUnit p (new_ident t) None None None None DNil).
  cbn [s_ctx with_heap]. apply wq_bind.
  set (h2 := with_units (h_units (s_heap s) ++ [o]) (s_heap s)). set (u := length (h_units (s_heap s))).
  eapply (wq_taketok text [] t); [exact A1|exact C1|]. cbn [app]. intros t1 s3 A3 H3. cbn [s_heap with_heap] in H3.
  assert (Hd : held text (s_heap s) u (st0 p) [] s3).
  { split; [|exists o]; rewrite H3; fold h2.
    - constructor.
      + intros a x X. exists x. auto.
      + intros k Nk x X. exists x. split; [|apply tree_same_refl]. cbn. rewrite nth_error_app1; [exact X|]. apply nth_error_Some. congruence.
      + intros k Nk X. cbn. apply nth_error_None in X. apply nth_error_None. rewrite app_length. cbn [length].
        assert (k <> u) by congruence. unfold u in *. lia.
      + intros a x X. exists x. auto.
    - split; [cbn; rewrite nth_error_app2, Nat.sub_diag by lia; reflexivity|]. split; [split; intros ?; discriminate|].
      split; [repeat split|]. exact A3. }
  assert (Nu : nth_error (h_units (s_heap s)) u = None) by (apply nth_error_None; unfold u; lia).
  clear A3 H3. fold u. apply wq_bind.
  assert (W : wq (if p_portability t1 then Bind (change_unit u (with_port (Some (value t1)))) (fun _ => next) else Ret t1)
    (fun _ s' => held text (s_heap s) u (st0 p) [] s') s3).
  { destruct (p_portability t1); [|now apply wq_ret]. apply wq_bind, wq_heap. intros x h [= _ <-].
    apply held_tokens; [apply i_nexttok| |apply tree0]. eapply held_put; [exact Hd|].
    intros y Ly q. split; [apply subseq_refl|]. split; [exact Ly|exact q]. }
  eapply wq_weak; [exact W|cbv beta]. intros t2 s4 H4. apply wq_bind.
  assert (W2 : wq (if sym ";" t2 then Bind Next (fun _ => Ret tt) else Ret tt) (fun _ s' => held text (s_heap s) u (st0 p) [] s') s4).
  { destruct (sym ";" t2); [|now apply wq_ret]. apply wq_bind. eapply wq_weak; [apply (held_tokens _ _ _ _ _ _ _ i_next H4 (tree0 p))|cbv beta].
    intros _ s' X. now apply wq_ret. }
  eapply wq_weak; [exact W2|cbv beta]. intros _ s5 H5. apply wq_ret. eauto.
Qed.
Lemma q_unit_intf_uses text h0 u path s : held text h0 u (st0 path) [] s ->
  wq (parse_unit_intf_uses R u) (fun _ s' => held text h0 u (st1 path) [] s') s.
Proof.
  intros H. unfold parse_unit_intf_uses. apply wq_bind. eapply wq_weak; [apply (held_tokens _ _ _ _ _ _ _ (i_expect _) H (tree0 _))|cbv beta].
  clear s H. intros _ s H. apply wq_bind. eapply wq_weak; [apply (held_tokens _ _ _ _ _ _ _ i_nexttok H (tree0 _))|cbv beta].
  clear s H. intros t s H. apply wq_bind. eapply wq_weak; [apply (held_uses _ _ _ _ _ _ H (tree0 _))|cbv beta].
  clear s H. intros l s [H L]. apply wq_heap. intros x h [= _ <-]. eapply held_put; [exact H|].
  intros o [Lo _] (q1 & q2 & q3 & q4). split; [|split].
  - unfold unit_i, intf_i. cbn. rewrite q2, q3, q4. cbn. rewrite !app_nil_r. apply subseq_refl.
  - split; intros i; cbn; [intros [= <-]; exact L|rewrite q3; discriminate].
  - split; [exact q1|]. split; [cbn; eauto|now cbn].
Qed.
Lemma q_ident_and_intf_uses uc text s : after text s [] -> wq (parse_ident_and_intf_uses R uc) (fun u s' => exists path,
  ctx_path (s_heap s) uc = Some path /\ nth_error (h_units (s_heap s)) u = None /\ held text (s_heap s) u (st1 path) [] s') s.
Proof.
  intros A. unfold parse_ident_and_intf_uses. apply wq_bind. eapply wq_weak; [apply (q_unit_ident uc _ _ A)|cbv beta].
  intros u s1 (path & E & N & H). apply wq_bind. eapply wq_weak; [apply (q_unit_intf_uses _ _ _ _ _ H)|cbv beta]. intros _ s2 H2. apply wq_ret. eauto.
Qed.
Lemma i_intf_decls_step l : spelled (flat_map intfdecl_i l) nowhere None never (intf_decls_step R l)
  (fun r => match r with inl y => flat_map intfdecl_i y | inr y => flat_map intfdecl_i y end).
Proof.
  unfold intf_decls_step. apply sp_cur. intros t.
  assert (K : forall (A : Type) (p : prog A) f (g : A -> intfdecl), spelled [] nowhere None never p f -> (forall a, intfdecl_i (g a) = f a) ->
    spelled (flat_map intfdecl_i l) nowhere (Some t) never (Bind p (fun a => Ret (inl (l ++ [g a]))))
      (fun r : list intfdecl + list intfdecl => match r with inl y => flat_map intfdecl_i y | inr y => flat_map intfdecl_i y end)).
  { intros A p f g T E. apply sp_ot. eapply sp_bind; [exact T|]. intros a. apply sp_ret; [|intros ? []].
    rewrite flat_map_app. cbn [flat_map]. rewrite app_nil_r, E. apply subseq_refl. }
  assert (Z : spelled (flat_map intfdecl_i l) nowhere (Some t) never (Ret (inr l))
      (fun r : list intfdecl + list intfdecl => match r with inl y => flat_map intfdecl_i y | inr y => flat_map intfdecl_i y end)).
  { apply sp_ret; [apply subseq_refl|intros []]. }
  destruct (p_type EOF t); [exact Z|]. destruct (negb _); [apply sp_failat|]. cbv zeta.
  repeat (match goal with |- spelled _ _ _ _ (if ?b then _ else _) _ => destruct b end);
    first [exact Z
          |eapply K; [first [apply i_parse_type_section; exact RS|apply i_parse_var_section; exact RS|apply i_parse_threadvar_section; exact RS
                            |apply i_parse_const_section; exact RS|apply i_parse_exported_heading; exact RS]|]; now try intros [x|]].
Qed.
Lemma i_intf_decls n : spelled [] nowhere None never (loop n (intf_decls_step R) []) (flat_map intfdecl_i).
Proof. eapply sp_loop_never; [exact i_intf_decls_step|reflexivity]. Qed.
Lemma opt_nonempty {A} (f : A -> list mark) l : opt (flat_map f) (nonempty l) = flat_map f l.
Proof. now destruct l. Qed.
Lemma frame_new_map u h : frame u h (fst (new_map h)).
Proof. now apply frame_same. Qed.
Lemma q_intf_body text h0 u path s : held text h0 u (st1 path) [] s ->
  wq (parse_unit_intf_body R u) (fun _ s' => held text h0 u (st2 path) [] s') s.
Proof.
  intros H. unfold parse_unit_intf_body. apply wq_bind.
  eapply wq_weak; [apply (held_spelled _ _ _ _ _ _ (flat_map intfdecl_i) _ (i_intf_decls _) H (tree1 _))|cbv beta].
  cbn [app]. clear s H. intros l s H. apply wq_heap. intros x h E.
  set (h1 := put_unit (s_heap s) u _) in E.
  assert (H1 : held text h0 u (st2 path) [] (with_heap h1 s)).
  { eapply held_put; [exact H|]. intros o [Lo _] (q1 & (us & q2) & q3 & q4). split; [|split].
    - unfold unit_i, intf_i. cbn. rewrite q2, q3, q4. cbn. rewrite opt_nonempty, !app_nil_r. apply subseq_refl.
    - split; intros i; cbn; [rewrite q2; intros [= <-]; apply (Lo _ q2)|rewrite q3; discriminate].
    - repeat split; auto. }
  pose proof (frame_new_map None h1) as F2. destruct (new_map h1) as [h2 a]. cbn [fst] in F2.
  destruct (set_all h2 _ _) as [h3|] eqn:S; [|discriminate]. injection E as _ <-. apply (frame_set_all None) in S.
  eapply (held_heap _ _ _ _ _ (with_heap h1 s)); [exact H1| |apply tree2]. eapply frame_trans; [exact F2|]. eapply frame_trans; [exact S|].
  apply frame_put_same. now intros.
Qed.
Lemma frame_assign_units u h c us h' : assign_units h c us = Some h' -> frame u h h'.
Proof. unfold assign_units. destruct (parent_units h c); [|discriminate]. intros [= <-]. apply frame_assign. Qed.
Lemma frame_import u h c us h' : import_unit_decls h c us = Some h' -> frame u h h'.
Proof.
  unfold import_unit_decls. destruct (assign_units h c us) as [h1|] eqn:E; [|discriminate]. apply (frame_assign_units u) in E.
  pose proof (frame_new_map u h1) as F. destruct (new_map h1) as [h2 a]. cbn [fst] in F. destruct (nth_error _ c); [|discriminate].
  intros [= <-]. eapply frame_trans; [exact E|]. eapply frame_trans; [exact F|apply frame_put_map].
Qed.
Lemma q_process_intf_body uc text h0 u path s : held text h0 u (st1 path) [] s ->
  wq (process_intf_body R uc u) (fun _ s' => held text h0 u (st2 path) [] s') s.
Proof.
  intros H. unfold process_intf_body. apply wq_bind, wq_heap. intros x h.
  destruct (unit_intf_uses _ _) as [us|]; [|discriminate]. destruct (nth_error _ u) as [o|]; [|discriminate].
  destruct (import_unit_decls _ _ _) as [h1|] eqn:E; [|discriminate]. apply (frame_import None) in E.
  pose proof (ctx_set_objs h1 uc [mkDecl (un_ident o) (NUnit u)]) as X. destruct (ctx_set _ _ _) as [h2|h2 i|]; try discriminate.
  destruct X as (X1 & X2 & X3). intros [= _ <-]. apply q_intf_body. eapply held_heap; [exact H| |apply tree1].
  eapply frame_trans; [exact E|]. now apply frame_same.
Qed.
Lemma frame_stack u h c h' m : ctx_stack h c = Some (h', m) -> frame u h h'.
Proof.
  unfold ctx_stack. destruct (nth_error _ c) as [o|]; [|discriminate]. unfold new_chained, new_map. intros [= <- _].
  eapply frame_trans; [apply frame_new_map|apply frame_put_map].
Qed.
Lemma q_impl_uses uc text h0 u path s : held text h0 u (st2 path) [] s ->
  wq (parse_impl_uses R uc u) (fun _ s' => held text h0 u (st3 path) [] s') s.
Proof.
  intros H. unfold parse_impl_uses. apply wq_bind. eapply wq_weak; [apply (held_tokens _ _ _ _ _ _ _ (i_expect _) H (tree2 _))|cbv beta].
  clear s H. intros _ s H. apply wq_bind. eapply wq_weak; [apply (held_tokens _ _ _ _ _ _ _ i_next H (tree2 _))|cbv beta].
  clear s H. intros _ s H. apply wq_bind, wq_heap. intros x h. destruct (ctx_stack _ _) as [[h1 m]|] eqn:E; [|discriminate]. intros [= _ <-].
  apply (frame_stack None) in E. apply wq_bind, wq_is. intros b. apply wq_bind.
  eapply wq_weak; [apply (held_uses b text h0 u (st2 path)); [|apply tree2]; eapply held_heap; [exact H|exact E|apply tree2]|cbv beta].
  clear s H E. intros l s [H L]. apply wq_bind, wq_heap. intros y h' [= _ <-]. apply wq_ret.
  eapply held_put; [exact H|]. intros o [Lo _] (q1 & q3 & q4). split; [|split].
  - unfold unit_i, impl_i. cbn. rewrite q3, q4. cbn. rewrite !app_nil_r. apply subseq_refl.
  - split; intros i; cbn; [apply Lo|intros [= <-]; exact L].
  - split; [exact q1|]. split; [cbn; eauto|now cbn].
Qed.
Lemma q_impl_scope uc text h0 u path us s : held text h0 u (st3 path) [] s ->
  wq (impl_scope uc u us) (fun _ s' => held text h0 u (st3 path) [] s') s.
Proof.
  intros H. unfold impl_scope. apply wq_heap. intros x h. destruct (assign_units _ _ _) as [h1|] eqn:E; [|discriminate].
  apply (frame_assign_units None) in E. destruct (nth_error (h_ctxs h1) uc) as [co|]; [|discriminate]. destruct (nth_error (h_units h1) u) as [uo|]; [|discriminate].
  pose proof (frame_new_map None h1) as F. destruct (new_map h1) as [h2 a]. cbn [fst] in F. intros [= _ <-].
  eapply held_heap; [exact H| |apply tree3]. eapply frame_trans; [exact E|]. eapply frame_trans; [exact F|].
  eapply frame_trans; [|apply frame_put_map]. apply frame_put_same. now intros.
Qed.
Lemma q_impl_body text h0 u path s : held text h0 u (st3 path) [] s ->
  wq (parse_impl_body R u) (fun _ s' => held text h0 u (st5 path) [] s') s.
Proof.
  intros H. unfold parse_impl_body. apply wq_bind.
  eapply wq_weak; [apply (held_spelled _ _ _ _ _ _ _ _ (i_parse_decl_sections R RS) H (tree3 _))|cbv beta]. cbn [app]. clear s H. intros ds s H.
  apply wq_bind, wq_heap. intros x h [= _ <-].
  assert (H1 : held text h0 u (st4 path) [] (with_heap (put_unit (s_heap s) u (fun o => with_impl (option_map (fun s => mkImpl (im_uses s) ds (im_exports s)) (un_impl o)) o)) s)).
  { eapply held_put; [exact H|]. intros o [Lo Li] (q1 & (l & q3) & q4). split; [|split].
    - unfold unit_i, impl_i. cbn. rewrite q3, q4. cbn. rewrite !app_nil_r, <- ?app_assoc. apply subseq_refl.
    - split; intros i; cbn; [apply Lo|rewrite q3; intros [= <-]; apply (Li _ q3)].
    - split; [exact q1|]. split; [cbn; rewrite q3; cbn; eauto|exact q4]. }
  clear H. apply wq_bind.
  eapply wq_weak; [apply (held_spelled _ _ _ _ _ _ _ _ (i_parse_exports_stmts R RS) H1 (tree4 _))|cbv beta]. cbn [app]. clear s H1. intros ex s H.
  apply wq_bind, wq_heap. intros y h [= _ <-].
  assert (H1 : held text h0 u (st5 path) [] (with_heap (put_unit (s_heap s) u (fun o => with_impl (option_map (fun s => mkImpl (im_uses s) (im_decls s) ex) (un_impl o)) o)) s)).
  { eapply held_put; [exact H|]. intros o [Lo Li] (q1 & (l & d & q3) & q4). split; [|split].
    - unfold unit_i, impl_i. cbn. rewrite q3, q4. cbn. rewrite !app_nil_r, <- ?app_assoc. apply subseq_refl.
    - split; intros i; cbn; [apply Lo|rewrite q3; intros [= <-]; apply (Li _ q3)].
    - repeat split; auto. }
  clear H. apply wq_bind, wq_is. intros [|]; [|now apply wq_ret].
  apply wq_bind. eapply wq_weak; [apply (held_tokens _ _ _ _ _ _ _ i_next H1 (tree5 _))|cbv beta]. intros _ s' X. now apply wq_ret.
Qed.
Lemma i_init_section : spelled [] nowhere None never (parse_init_section R) init_i.
Proof.
  unfold parse_init_section. apply sp_expect. intros t _. apply sp_ot, sp_skip; [exact I|].
  eapply sp_bind; [apply (i_parse_stmt_list R RS)|]. intros l1. cbn [grown app]. apply sp_is. intros t1. apply sp_ot.
  eapply sp_bind with (F := never) (f := opt (flat_map stmt_i)).
  - destruct (kw _ t1); [|apply sp_ret; [constructor|intros ? []]]. apply sp_skip; [exact I|].
    eapply sp_bind; [apply (i_parse_stmt_list R RS)|]. intros l. apply sp_ret; [|intros ? []]. rewrite opt_nonempty. apply subseq_refl.
  - intros l2. apply sp_ret; [|intros ? []]. unfold init_i. cbn [in_init in_final]. rewrite opt_nonempty. apply subseq_refl.
Qed.
Lemma q_unit_end text h0 u path s : held text h0 u (st5 path) [] s ->
  wq (parse_unit_end R u) (fun _ s' => held text h0 u (path_is path) [] s') s.
Proof.
  intros H. unfold parse_unit_end. apply wq_bind, wq_is. intros b. apply wq_bind.
  assert (W : wq (if b then Bind (parse_init_section R) (fun i => change_unit u (with_init (Some i))) else Ret tt)
    (fun _ s' => held text h0 u (path_is path) [] s') s).
  { destruct b; [|apply wq_ret; eapply held_weak; [|exact H]; now intros o []].
    apply wq_bind. eapply wq_weak; [apply (held_spelled _ _ _ _ _ _ _ _ i_init_section H (tree5 _))|cbv beta]. cbn [app]. intros i s1 H1.
    apply wq_heap. intros x h [= _ <-]. eapply held_put; [exact H1|]. intros o [Lo Li] (q1 & q4). split; [|split].
    - unfold unit_i. cbn. rewrite q4. cbn. rewrite !app_nil_r. rewrite <- !app_assoc. apply subseq_refl.
    - split; intros j; cbn; [apply Lo|apply Li].
    - exact q1. }
  eapply wq_weak; [exact W|cbv beta]. clear s H W. intros _ s H. apply wq_bind.
  eapply wq_weak; [apply (held_tokens _ _ _ _ _ _ _ (i_expect _) H (tree_path _))|cbv beta]. clear s H. intros _ s H. apply wq_bind.
  eapply wq_weak; [apply (held_tokens _ _ _ _ _ _ _ (i_expect_next _) H (tree_path _))|cbv beta]. intros _ s' X. now apply wq_ret.
Qed.
Lemma q_unit uc text s : after text s [] -> wq (parse_unit R uc) (fun u s' => exists path,
  ctx_path (s_heap s) uc = Some path /\ held text (s_heap s) u (path_is path) [] s') s.
Proof.
  intros A. unfold parse_unit. apply wq_bind. eapply wq_weak; [apply (q_ident_and_intf_uses uc _ _ A)|cbv beta].
  intros u s1 (path & E & N & H). apply wq_bind. eapply wq_weak; [apply (q_intf_body _ _ _ _ _ H)|cbv beta].
  clear s1 H. intros _ s1 H. apply wq_bind. eapply wq_weak; [apply (q_impl_uses uc _ _ _ _ _ H)|cbv beta].
  clear s1 H. intros _ s1 H. apply wq_bind. eapply wq_weak; [apply (q_impl_body _ _ _ _ _ H)|cbv beta].
  clear s1 H. intros _ s1 H. apply wq_bind. eapply wq_weak; [apply (q_unit_end _ _ _ _ _ H)|cbv beta].
  clear s1 H. intros _ s1 H. apply wq_ret. eauto.
Qed.

End Level.
End WithUnicode.
