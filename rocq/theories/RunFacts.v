(** Facts about [run]: the parser stays in its text, errors are placed, lists. *)
From Coq Require Import String List NArith Bool Arith Lia.
From Verif Require Import Runes UnicodeFacts Token Tokenizer CursorFacts TokenizerFacts LexSpec LexShape LexFacts LexMain
  Ast Heap Prog ParseSpec Parser.
Import ListNotations.
Local Open Scope list_scope.

Section WithUnicode.
Context {U : Unicode} {UOK : UnicodeOk U}.

(** ** Places *)
Lemma same_spot_refl k : same_spot k k.
Proof. unfold same_spot. auto. Qed.
Lemma same_spot_sym k1 k2 : same_spot k1 k2 -> same_spot k2 k1.
Proof. unfold same_spot. intuition. Qed.
Lemma same_spot_trans k1 k2 k3 : same_spot k1 k2 -> same_spot k2 k3 -> same_spot k1 k3.
Proof. unfold same_spot. intuition congruence. Qed.
Lemma same_spot_clone k : same_spot k (tokenizer_clone k).
Proof. unfold same_spot, tokenizer_clone, cursor_clone. cbn. auto. Qed.
Lemma alike_refl t : alike t t.
Proof. unfold alike. auto. Qed.
Lemma alike_trans a b c : alike a b -> alike b c -> alike a c.
Proof. unfold alike. intuition congruence. Qed.
Lemma alike_opt_refl o : alike_opt o o.
Proof. destruct o; cbn; auto using alike_refl. Qed.
Lemma alike_opt_trans a b c : alike_opt a b -> alike_opt b c -> alike_opt a c.
Proof. destruct a, b, c; cbn; try contradiction; eauto using alike_trans. Qed.
Lemma alike_clone t : alike t (token_clone t).
Proof. unfold alike. auto. Qed.
Lemma same_token_alike t u : same_token t u -> alike t u.
Proof.
  intros (T & X & S1 & S2). repeat split; auto. unfold raw, start_of, stop_of in *.
  now rewrite X, S1, S2.
Qed.

Lemma later_trans k c k1 c1 : later k c k1 c1 -> forall k2 c2, later k1 c1 k2 c2 -> later k c k2 c2.
Proof.
  induction 1 as [k c|k c t k0 k1 c1 G L IH|k c k0 k1 c1 G L IH]; intros k2 c2 L2; auto.
  - eapply later_tok; eauto.
  - eapply later_nil; eauto.
Qed.

Lemma held_sim text k1 k2 : held text k1 -> same_spot k1 k2 -> cwf (tk_cur k2).
Proof.
  intros H (T & I & _). destruct (held_wf _ _ H) as [W _]. unfold cwf, c_len in *. now rewrite <- T, <- I.
Qed.

Lemma later_sim k c k' c' : later k c k' c' -> forall k2 c2, same_spot k k2 -> alike_opt c c2 ->
  cwf (tk_cur k) ->
  exists k2' c2', later k2 c2 k2' c2' /\ same_spot k' k2' /\ alike_opt c' c2'.
Proof.
  induction 1 as [k c|k c t k0 k1 c1 G L IH|k c k0 k1 c1 G L IH]; intros k2 c2 SS A W.
  - exists k2, c2. repeat split; [constructor|apply SS..|exact A].
  - pose proof (get_next_sim k k2 SS W) as M. rewrite G in M.
    destruct (get_next k2) as [t2 k2'|?|] eqn:G2; try contradiction. destruct M as [ST S'].
    destruct (get_next_tok _ _ _ W G) as (? & R' & _).
    destruct (IH k2' (Some t2) S' (same_token_alike _ _ ST) (run_wf _ _ _ R' W)) as (k3 & c3 & L3 & S3 & A3).
    exists k3, c3. split; [|auto]. eapply later_tok; eauto.
  - pose proof (get_next_sim k k2 SS W) as M. rewrite G in M.
    destruct (get_next k2) as [|k2'|] eqn:G2; try contradiction.
    assert (W0 : cwf (tk_cur k0)).
    { destruct (get_next_run k W) as (sk & c' & R & _ & M2).
      destruct (process c') as [|t3 c3|] eqn:P; [|destruct M2; congruence|congruence].
      rewrite M2 in G. injection G as <-. cbn. eauto using run_wf. }
    destruct (IH k2' None M I W0) as (k3 & c3 & L3 & S3 & A3).
    exists k3, c3. split; [|auto]. eapply later_nil; eauto.
Qed.

Lemma later_held text k c k' c' : later k c k' c' -> held text k -> held text k'.
Proof.
  induction 1 as [k c|k c t k0 k1 c1 G L IH|k c k0 k1 c1 G L IH]; intros H; auto.
  - apply IH. eapply held_tok; eauto.
  - apply IH. eapply held_nil; eauto.
Qed.

Lemma get_next_nil_index text k k' : held text k -> get_next k = GNil k' ->
  c_index (tk_cur k) <= c_index (tk_cur k').
Proof.
  intros H G. destruct (held_wf _ _ H) as [W _].
  destruct (get_next_run k W) as (sk & c' & R & _ & M).
  destruct (process c') as [|t3 c3|] eqn:P; [|destruct M; congruence|congruence].
  rewrite M in G. injection G as <-. cbn. apply run_moved in R; [|exact W].
  apply moved_index in R; [|exact W]. lia.
Qed.

Definition spot_of (c : option token) (k : tokenizer) : nat :=
  match c with Some t => start_of t | None => c_index (tk_cur k) end.
Definition passed (c : option token) (k : tokenizer) : Prop :=
  forall t, c = Some t -> stop_of t <= c_index (tk_cur k).

Lemma token_order text t : token_of text t -> start_of t <= stop_of t.
Proof. intros H. destruct (token_of_fits _ _ H) as (_ & pre & post & _ & _ & S & _). lia. Qed.

Lemma later_place text k c k' c' : later k c k' c' -> held text k ->
  (forall t, c = Some t -> token_of text t) -> passed c k ->
  (forall t, c' = Some t -> token_of text t) /\ passed c' k' /\
  spot_of c k <= spot_of c' k' /\ c_index (tk_cur k) <= c_index (tk_cur k').
Proof.
  induction 1 as [k c|k c t k0 k1 c1 G L IH|k c k0 k1 c1 G L IH]; intros H T P; auto.
  - destruct (getnext_advances text k t k0 H G) as (A & B & C & D).
    assert (T1 : token_of text t) by (exists k, k0; auto).
    assert (LE : spot_of c k <= start_of t /\ c_index (tk_cur k) <= c_index (tk_cur k0)).
    { pose proof (token_order _ _ T1). split; [|lia].
      destruct c as [u|]; cbn; [|exact A]. specialize (P u eq_refl).
      pose proof (token_order _ _ (T u eq_refl)). lia. }
    destruct IH as (I1 & I2 & I3 & I4).
    + eapply held_tok; eauto.
    + intros u [= <-]. exact T1.
    + intros u [= <-]. lia.
    + cbn in I3. repeat split; auto; lia.
  - pose proof (get_next_nil_index _ _ _ H G) as LE.
    destruct IH as (I1 & I2 & I3 & I4); [eapply held_nil; eauto|discriminate|intros u E; discriminate|].
    cbn in I3. repeat split; auto; [|lia].
    destruct c as [u|]; cbn in *; [|lia]. specialize (P u eq_refl).
    pose proof (token_order _ _ (T u eq_refl)). lia.
Qed.

(** ** Where a parser ends up *)
Definition ends_in {A} (o : outcome A) (s' : pst) : Prop :=
  (exists a, o = OOk a s') \/ (exists e, o = OErr e s').

Definition follows (text : list rune) (s s' : pst) : Prop :=
  held text (s_tok s') /\
  exists k c, later (s_tok s) (s_cur s) k c /\ same_spot k (s_tok s') /\ alike_opt c (s_cur s').

Lemma follows_refl text s : held text (s_tok s) -> follows text s s.
Proof.
  intros H. split; [exact H|]. exists (s_tok s), (s_cur s). repeat split; [constructor|apply alike_opt_refl].
Qed.
Lemma follows_trans text s1 s2 s3 : held text (s_tok s1) -> follows text s1 s2 -> follows text s2 s3 -> follows text s1 s3.
Proof.
  intros H0 (H1 & k1 & c1 & L1 & S1 & A1) (H2 & k2 & c2 & L2 & S2 & A2). split; [exact H2|].
  destruct (later_sim _ _ _ _ L2 k1 c1) as (k3 & c3 & L3 & S3 & A3).
  - now apply same_spot_sym.
  - destruct c1, (s_cur s2); cbn in *; try contradiction; auto. unfold alike in *. intuition congruence.
  - now destruct (held_wf _ _ H1).
  - exists k3, c3. repeat split.
    + eapply later_trans; eauto.
    + apply (same_spot_trans _ _ _ (same_spot_sym _ _ S3) S2).
    + apply (same_spot_trans _ _ _ (same_spot_sym _ _ S3) S2).
    + apply (same_spot_trans _ _ _ (same_spot_sym _ _ S3) S2).
    + apply (same_spot_trans _ _ _ (same_spot_sym _ _ S3) S2).
    + destruct c3, c2, (s_cur s3); cbn in *; try contradiction; auto. unfold alike in *. intuition congruence.
Qed.
Lemma follows_same text s s1 s2 : s_tok s1 = s_tok s2 -> s_cur s1 = s_cur s2 ->
  follows text s s1 -> follows text s s2.
Proof. intros E1 E2 (H & F). unfold follows. now rewrite <- E1, <- E2. Qed.
Lemma follows_from text s1 s2 s : s_tok s1 = s_tok s2 -> s_cur s1 = s_cur s2 ->
  follows text s1 s -> follows text s2 s.
Proof. intros E1 E2 (H & F). unfold follows. now rewrite <- E1, <- E2. Qed.

Lemma run_follows {A} (p : prog A) : forall text s s', held text (s_tok s) ->
  ends_in (run p s) s' -> follows text s s'.
Proof.
  induction p as [A a|A B p IHp k IHk| | |A f|A t|A e|A|A|B p IHp|A p IHp|A p IHp|A p IHp|cell name|];
    intros text s s' H E; cbn [run] in E.
  - destruct E as [[a0 E]|[e E]]; [|discriminate]. injection E as _ <-. now apply follows_refl.
  - destruct (run p s) as [a s1|e s1| | |] eqn:R;
      try (destruct E as [[? E]|[? E]]; discriminate).
    + assert (F1 : follows text s s1) by (apply IHp; [exact H|]; left; eauto).
      eapply follows_trans; [exact H|exact F1|]. apply (IHk a); [apply F1|exact E].
    + destruct E as [[? E]|[? E]]; [discriminate|]. injection E as _ <-.
      apply IHp; [exact H|]. right; eauto.
  - unfold next_token in E. destruct (get_next (s_tok s)) as [t k|k|] eqn:G;
      destruct E as [[? E]|[? E]]; try discriminate; injection E as _ <-.
    + split; [cbn; eapply held_tok; eauto|]. exists k, (Some t). cbn.
      repeat split; try apply alike_refl. eapply later_tok; [exact G|constructor].
    + split; [cbn; eapply held_nil; eauto|]. exists k, None. cbn.
      repeat split. eapply later_nil; [exact G|constructor].
  - destruct E as [[? E]|[? E]]; [|discriminate]. injection E as _ <-. now apply follows_refl.
  - destruct (f (s_ctx s) (s_heap s)); destruct E as [[? E]|[? E]]; try discriminate; injection E as _ <-;
      (eapply follows_same; [| |now apply follows_refl]; reflexivity).
  - destruct (ctx_path _ _); destruct E as [[? E]|[? E]]; try discriminate. injection E as _ <-. now apply follows_refl.
  - destruct E as [[? E]|[? E]]; [discriminate|]. injection E as _ <-. now apply follows_refl.
  - destruct E as [[? E]|[? E]]; discriminate.
  - destruct E as [[? E]|[? E]]; discriminate.
  - destruct (s_cur s) as [t|] eqn:C; [|destruct E as [[? E]|[? E]]; discriminate].
    destruct (ctx_clone _ _) as [[h c]|]; [|destruct E as [[? E]|[? E]]; discriminate].
    destruct (run p (with_heap h s)) as [[b|] s1|e s1| | |] eqn:R;
      try (destruct E as [[? E]|[? E]]; discriminate).
    + apply (follows_from text (with_heap h s) s); [reflexivity..|]. apply IHp; [exact H|].
      rewrite R. exact E.
    + destruct E as [[? E]|[? E]]; [|discriminate]. injection E as _ <-. split.
      * cbn. now apply held_clone.
      * exists (s_tok s), (s_cur s). cbn. rewrite C. repeat split. constructor.
    + apply (follows_from text (with_heap h s) s); [reflexivity..|]. apply IHp; [exact H|].
      rewrite R. exact E.
  - destruct (ctx_stack _ _) as [[h b]|]; [|destruct E as [[? E]|[? E]]; discriminate].
    destruct (run p (with_heap h s)) as [a s1|e s1| | |] eqn:R;
      destruct E as [[? E]|[? E]]; try discriminate; injection E as _ <-;
      (eapply follows_same; [| |apply (follows_from text (with_heap h s) s); [reflexivity..|]; apply (IHp text (with_heap h s) s1 H)];
        [reflexivity..|rewrite R; unfold ends_in; eauto]).
  - destruct (s_cur s) eqn:C; [|destruct E as [[? E]|[? E]]; discriminate].
    destruct (run p s) as [a s1|e s1| | |] eqn:R;
      try (destruct E as [[? E]|[? E]]; discriminate);
      destruct (s_cur s1) eqn:C1; destruct E as [[? E]|[? E]]; try discriminate; injection E as _ <-;
      (apply IHp; [exact H|rewrite R; unfold ends_in; eauto]).
  - destruct (run p (with_post [] s)) as [a s1|e s1| | |] eqn:R;
      destruct E as [[? E]|[? E]]; try discriminate; injection E as _ <-;
      (eapply follows_same; [| |apply (follows_from text (with_post [] s) s); [reflexivity..|]; apply (IHp text (with_post [] s) s1 H)];
        [reflexivity..|rewrite R; unfold ends_in; eauto]).
  - destruct E as [[? E]|[? E]]; [|discriminate]. injection E as _ <-.
    eapply follows_same; [| |now apply follows_refl]; reflexivity.
  - destruct (run_post _ _ _); destruct E as [[? E]|[? E]]; try discriminate. injection E as _ <-.
    eapply follows_same; [| |now apply follows_refl]; reflexivity.
Qed.

(* C36 *)
Theorem parser_reads_on :
  forall (A : Type) (p : prog A) text s s',
    parsing text s -> (exists a, run p s = OOk a s') \/ (exists e, run p s = OErr e s') ->
    exists k c, later (s_tok s) (s_cur s) k c /\ same_spot k (s_tok s') /\ alike_opt c (s_cur s').
Proof. intros A p text s s' [[H _] _] E. now destruct (run_follows p text s s' H E). Qed.

Lemma token_clone_eq t : token_clone t = t.
Proof. now destruct t. Qed.

Lemma get_next_nil_flags k k' : cwf (tk_cur k) -> get_next k = GNil k' ->
  tk_space k' = tk_space k /\ tk_comment k' = tk_comment k.
Proof.
  intros W G. destruct (get_next_run k W) as (ts & c' & _ & _ & M).
  destruct (process c') as [|t2 c2|]; [|destruct M; congruence|congruence].
  rewrite M in G. injection G as <-. auto.
Qed.

Lemma run_parsing {A} (p : prog A) : forall text s s', parsing text s ->
  ends_in (run p s) s' -> parsing text s'.
Proof.
  induction p as [A a|A B p IHp k IHk| | |A f|A t|A e|A|A|B p IHp|A p IHp|A p IHp|A p IHp|cell name|];
    intros text s s' H E; cbn [run] in E.
  - destruct E as [[a0 E]|[e E]]; [|discriminate]. now injection E as _ <-.
  - destruct (run p s) as [a s1|e s1| | |] eqn:R;
      try (destruct E as [[? E]|[? E]]; discriminate).
    + apply (IHk a text s1); [|exact E]. apply (IHp text s); [exact H|]. rewrite R. left; eauto.
    + destruct E as [[? E]|[? E]]; [discriminate|]. injection E as _ <-.
      apply (IHp text s); [exact H|]. rewrite R. right; eauto.
  - destruct H as [H _]. unfold next_token in E. destruct (get_next (s_tok s)) as [t k|k|] eqn:G;
      destruct E as [[? E]|[? E]]; try discriminate; injection E as _ <-.
    + destruct H as (H & Fs & Fc). destruct (get_next_tok _ _ _ (proj1 (held_wf _ _ H)) G) as (_ & _ & _ & Kp & Ks & Kc).
      split; [cbn; split; [eapply held_tok; eauto|split; congruence]|]. cbn. intros t' [= <-].
      split; [exists (s_tok s), k; auto|]. destruct (getnext_advances text _ _ _ H G) as (_ & -> & _).
      split; [lia|]. rewrite Fs, Fc in Kp. unfold keep in Kp.
      split; intros Ty; rewrite Ty in Kp; discriminate.
    + destruct H as (H & Fs & Fc). destruct (get_next_nil_flags _ _ (proj1 (held_wf _ _ H)) G) as [Ks Kc].
      split; [cbn; split; [eapply held_nil; eauto|split; congruence]|]. discriminate.
  - destruct E as [[? E]|[? E]]; [|discriminate]. now injection E as _ <-.
  - destruct (f (s_ctx s) (s_heap s)); destruct E as [[? E]|[? E]]; try discriminate; injection E as _ <-; exact H.
  - destruct (ctx_path _ _); destruct E as [[? E]|[? E]]; try discriminate. now injection E as _ <-.
  - destruct E as [[? E]|[? E]]; [discriminate|]. now injection E as _ <-.
  - destruct E as [[? E]|[? E]]; discriminate.
  - destruct E as [[? E]|[? E]]; discriminate.
  - destruct (s_cur s) as [t|] eqn:C; [|destruct E as [[? E]|[? E]]; discriminate].
    destruct (ctx_clone _ _) as [[h c]|]; [|destruct E as [[? E]|[? E]]; discriminate].
    destruct (run p (with_heap h s)) as [[b|] s1|e s1| | |] eqn:R;
      try (destruct E as [[? E]|[? E]]; discriminate).
    + apply (IHp text (with_heap h s)); [exact H|]. rewrite R. exact E.
    + destruct E as [[? E]|[? E]]; [|discriminate]. injection E as _ <-. destruct H as [H P]. split.
      * cbn. destruct H as (H & Fs & Fc). split; [now apply held_clone|auto].
      * cbn. rewrite token_clone_eq. intros t' [= <-]. now apply P.
    + apply (IHp text (with_heap h s)); [exact H|]. rewrite R. exact E.
  - destruct (ctx_stack _ _) as [[h b]|]; [|destruct E as [[? E]|[? E]]; discriminate].
    destruct (run p (with_heap h s)) as [a s1|e s1| | |] eqn:R;
      destruct E as [[? E]|[? E]]; try discriminate; injection E as _ <-;
      (apply (IHp text (with_heap h s) s1); [exact H|rewrite R; unfold ends_in; eauto]).
  - destruct (s_cur s) eqn:C; [|destruct E as [[? E]|[? E]]; discriminate].
    destruct (run p s) as [a s1|e s1| | |] eqn:R;
      try (destruct E as [[? E]|[? E]]; discriminate);
      destruct (s_cur s1) eqn:C1; destruct E as [[? E]|[? E]]; try discriminate; injection E as _ <-;
      (apply (IHp text s); [exact H|rewrite R; unfold ends_in; eauto]).
  - destruct (run p (with_post [] s)) as [a s1|e s1| | |] eqn:R;
      destruct E as [[? E]|[? E]]; try discriminate; injection E as _ <-;
      (apply (IHp text (with_post [] s) s1); [exact H|rewrite R; unfold ends_in; eauto]).
  - destruct E as [[? E]|[? E]]; [|discriminate]. injection E as _ <-. exact H.
  - destruct (run_post _ _ _); destruct E as [[? E]|[? E]]; try discriminate. injection E as _ <-. exact H.
Qed.

Lemma follows_place text s s' : parsing text s -> follows text s s' ->
  place s <= place s' /\ c_index (tk_cur (s_tok s)) <= c_index (tk_cur (s_tok s')).
Proof.
  intros [[H _] P] (H' & k & c & L & SS & AL).
  destruct (later_place text _ _ _ _ L H) as (T1 & P1 & LE & LI).
  - intros t E. now apply P.
  - intros t E. now apply P.
  - destruct SS as (_ & SI & _). split; [|now rewrite <- SI].
    unfold place. change (spot_of (s_cur s) (s_tok s) <= spot_of (s_cur s') (s_tok s')).
    destruct c as [t|], (s_cur s') as [t'|]; cbn in *; try contradiction.
    + destruct AL as (_ & _ & <- & _). exact LE.
    + now rewrite <- SI.
Qed.

(* C36 *)
Theorem parser_moves_forward :
  forall (A : Type) (p : prog A) text s s',
    parsing text s -> (exists a, run p s = OOk a s') \/ (exists e, run p s = OErr e s') ->
    parsing text s' /\ place s <= place s' /\
    c_index (tk_cur (s_tok s)) <= c_index (tk_cur (s_tok s')).
Proof.
  intros A p text s s' H E. split; [now apply (run_parsing p text s)|].
  apply (follows_place text); [exact H|]. apply (run_follows p); [apply H|exact E].
Qed.

Theorem parser_starts_well :
  forall text c post h, parsing text (mkPst (new_tokenizer text false false) None c post h).
Proof. intros. split; [split; [constructor|auto]|discriminate]. Qed.

(* C33 *)
Lemma get_next_alike k1 k2 : same_spot k1 k2 -> cwf (tk_cur k1) ->
  match get_next k1, get_next k2 with
  | GTok t k1', GTok u k2' => alike t u /\ same_spot k1' k2'
  | GNil k1', GNil k2' => same_spot k1' k2'
  | GHang, GHang => True
  | _, _ => False
  end.
Proof.
  intros S W. pose proof (get_next_sim k1 k2 S W) as M.
  destruct (get_next k1), (get_next k2); auto. destruct M. auto using same_token_alike.
Qed.

Lemma reads_held text k ts k' : reads k ts k' -> held text k -> held text k'.
Proof. induction 1 as [|k t k1 ts k2 G R IH]; intros Hh; eauto using held_tok. Qed.

Theorem rollback_restores_the_stream :
  forall (B : Type) (p : prog (option B)) text s s',
    parsing text s -> run (Attempt p) s = OOk None s' ->
    s_cur s' = s_cur s /\
    forall ts k, reads (s_tok s) ts k ->
      exists ts' k', reads (s_tok s') ts' k' /\ Forall2 alike ts ts' /\
        (get_next k = GHang <-> get_next k' = GHang) /\
        ((exists k1, get_next k = GNil k1) <-> (exists k1, get_next k' = GNil k1)).
Proof.
  intros B p text s s' [[H _] _] E. cbn [run] in E.
  destruct (s_cur s) as [t|]; [|discriminate]. destruct (ctx_clone _ _) as [[h c]|]; [|discriminate].
  destruct (run p (with_heap h s)) as [[b|] s1|e s1| | |]; try discriminate.
  injection E as <-. cbn [s_cur s_tok]. rewrite token_clone_eq. split; [reflexivity|].
  intros ts k R. destruct (held_wf _ _ H) as [W _].
  destruct (reads_sim _ _ _ R (tokenizer_clone (s_tok s)) (same_spot_clone _) W) as (ts' & k' & R' & F & SP).
  exists ts', k'. split; [exact R'|]. split.
  { clear - F. induction F; constructor; auto using same_token_alike. }
  assert (W' : cwf (tk_cur k)) by (destruct (held_wf _ _ (reads_held _ _ _ _ R H)); assumption).
  pose proof (get_next_alike k k' SP W') as M.
  destruct (get_next k), (get_next k'); try contradiction;
    split; split; try congruence; try (intros [? ?]; congruence); eauto.
Qed.

(* C37 *)
Theorem rejected_token_is_cited :
  forall (pred : predicator) s t path,
    pred t = false -> ctx_path (s_heap s) (s_ctx s) = Some path ->
    (s_cur s = Some t ->
     run (expect pred) s = OErr (EAt path (p_line (t_start t)) (p_col (t_start t))) s /\
     run (expect_or_fail pred) s = OErr (EAt path (p_line (t_start t)) (p_col (t_start t))) s) /\
    (forall s', next_token s = OOk (Some t) s' ->
     run (expect_next pred) s = OErr (EAt path (p_line (t_start t)) (p_col (t_start t))) s').
Proof.
  intros pred s t path P C. split.
  - intros E. unfold expect, expect_or_fail, cur. cbn [run validate]. rewrite E. cbn [run validate].
    rewrite P. cbn [run]. now rewrite C.
  - intros s' N. unfold expect_next. cbn [run]. rewrite N. cbn [validate]. rewrite P. cbn [run].
    unfold next_token in N. destruct (get_next (s_tok s)); try discriminate. injection N as _ <-.
    cbn [s_heap s_ctx]. now rewrite C.
Qed.

Theorem accepted_token_is_returned :
  forall (pred : predicator) s t,
    pred t = true ->
    (s_cur s = Some t ->
     run (expect pred) s = OOk t s /\ run (expect_or_fail pred) s = OOk t s) /\
    (forall s', next_token s = OOk (Some t) s' -> run (expect_next pred) s = OOk t s').
Proof.
  intros pred s t P. split.
  - intros E. unfold expect, expect_or_fail, cur. cbn [run validate]. rewrite E. cbn [run validate].
    rewrite P. cbn [run]. auto.
  - intros s' N. unfold expect_next. cbn [run]. rewrite N. cbn [validate]. now rewrite P.
Qed.

Theorem missing_token_is_an_error :
  forall (pred : predicator) s,
    (s_cur s = None -> run (expect pred) s = OErr ENil s) /\
    (forall s', next_token s = OOk None s' -> run (expect_next pred) s = OErr ENil s').
Proof.
  intros pred s. split.
  - intros E. unfold expect. cbn [run]. now rewrite E.
  - intros s' N. unfold expect_next. cbn [run]. now rewrite N.
Qed.

(* C30 *)
Lemma run_bind {A B} (p : prog A) (k : A -> prog B) s :
  run (Bind p k) s = match run p s with
                     | OOk a s' => run (k a) s'
                     | OErr e s' => OErr e s'
                     | OPanic => OPanic
                     | OHang => OHang
                     | OStuck => OStuck
                     end.
Proof. reflexivity. Qed.

Section Until.
Context {S : Type} (terminator : predicator) (separator : option predicator) (fn : S -> prog (option S)).
Notation step := (until_step terminator separator fn).
Notation LR := (list_read terminator separator fn).
Notation LX := (list_rejected terminator separator fn).

Lemma until_unfold f v s : run (until (Datatypes.S f) terminator separator fn v) s =
  match run (step v) s with
  | OOk (inl v') s' => run (until f terminator separator fn v') s'
  | OOk (inr v') s' => OOk v' s'
  | OErr e s' => OErr e s'
  | OPanic => OPanic
  | OHang => OHang
  | OStuck => OStuck
  end.
Proof. unfold until. cbn [loop]. rewrite run_bind. now destruct (run (step v) s) as [[?|?] ?|? ?| | |]. Qed.

Lemma step_ok v s r s' : run (step v) s = OOk r s' <->
  (run (fn v) s = OOk None s' /\ r = inr v) \/
  (exists v1 s1 t, run (fn v) s = OOk (Some v1) s1 /\ s_cur s1 = Some t /\
     ((terminator t = true /\ r = inr v1 /\ s' = s1) \/
      (terminator t = false /\ separator = None /\ r = inl v1 /\ s' = s1) \/
      (exists sep c, terminator t = false /\ separator = Some sep /\ sep t = true /\
         next_token s1 = OOk c s' /\ r = inl v1))).
Proof.
  unfold until_step. rewrite run_bind. split.
  - destruct (run (fn v) s) as [[v1|] s1|e s1| | |]; try discriminate.
    + rewrite run_bind. cbn [run]. destruct (s_cur s1) as [t|] eqn:C; [|discriminate].
      intros H. right. exists v1, s1, t. split; [reflexivity|]. split; [exact C|].
      destruct (terminator t); [injection H as <- <-; auto 10|].
      destruct separator as [sep|]; [|injection H as <- <-; auto 10].
      right; right. exists sep. cbn [validate] in H. rewrite run_bind in H.
      destruct (sep t) eqn:St; cbn [run] in H; [|destruct (ctx_path _ _); discriminate].
      destruct (next_token s1) as [c s2|? ?| | |] eqn:N; try discriminate.
      injection H as <- <-. exists c. auto 10.
    + cbn [run]. intros [= <- <-]. auto.
  - intros [[-> ->]|(v1 & s1 & t & -> & C & H)]; [reflexivity|].
    rewrite run_bind. cbn [run]. rewrite C.
    destruct H as [(-> & -> & ->)|[(-> & -> & -> & ->)|(sep & c & -> & -> & St & N & ->)]]; try reflexivity.
    cbn [validate]. rewrite run_bind, St. cbn [run]. now rewrite N.
Qed.

Lemma step_err v s e s' : run (step v) s = OErr e s' <->
  run (fn v) s = OErr e s' \/
  (exists v1, run (fn v) s = OOk (Some v1) s' /\
     ((s_cur s' = None /\ e = ENil) \/
      (exists t sep path, s_cur s' = Some t /\ terminator t = false /\ separator = Some sep /\ sep t = false /\
         ctx_path (s_heap s') (s_ctx s') = Some path /\
         e = EAt path (p_line (t_start t)) (p_col (t_start t))))).
Proof.
  unfold until_step. rewrite run_bind. split.
  - destruct (run (fn v) s) as [[v1|] s1|e1 s1| | |]; try discriminate; [|intros [= <- <-]; auto].
    + rewrite run_bind. cbn [run]. destruct (s_cur s1) as [t|] eqn:C.
      * destruct (terminator t) eqn:Te; [discriminate|].
        destruct separator as [sep|]; [|discriminate]. cbn [validate]. rewrite run_bind.
        destruct (sep t) eqn:St; cbn [run].
        { unfold next_token. destruct (get_next _); discriminate. }
        destruct (ctx_path _ _) as [path|] eqn:P; [|discriminate]. intros [= <- <-].
        right. exists v1. split; [reflexivity|]. right. exists t, sep, path. auto 10.
      * cbn [run]. intros [= <- <-]. right. exists v1. auto.
  - intros [->|(v1 & -> & H)]; [reflexivity|]. rewrite run_bind. cbn [run].
    destruct H as [[-> ->]|(t & sep & path & -> & -> & -> & St & P & ->)]; [reflexivity|].
    cbn [validate]. rewrite run_bind, St. cbn [run]. now rewrite P.
Qed.

Lemma until_reads_1 v s v' s' : LR v s v' s' -> exists f, run (until f terminator separator fn v) s = OOk v' s'.
Proof.
  induction 1 as [v s s' R|v s v' s' t R C T|v s v1 s1 t sep c s2 v' s' R C T Se St N L [f IH]|
                  v s v1 s1 t v' s' R C T Se L [f IH]].
  - exists 1. rewrite until_unfold. rewrite (proj2 (step_ok v s (inr v) s')); auto.
  - exists 1. rewrite until_unfold. rewrite (proj2 (step_ok v s (inr v') s')); [reflexivity|]. right. eauto 12.
  - exists (Datatypes.S f). rewrite until_unfold. rewrite (proj2 (step_ok v s (inl v1) s2)); [exact IH|]. right.
    exists v1, s1, t. split; [exact R|]. split; [exact C|]. right; right. eauto 10.
  - exists (Datatypes.S f). rewrite until_unfold. rewrite (proj2 (step_ok v s (inl v1) s1)); [exact IH|]. right. eauto 12.
Qed.

Lemma until_reads_2 f : forall v s v' s', run (until f terminator separator fn v) s = OOk v' s' -> LR v s v' s'.
Proof.
  induction f as [|f IH]; intros v s v' s'; [discriminate|]. rewrite until_unfold.
  destruct (run (step v) s) as [r s1|e s1| | |] eqn:E; try discriminate.
  apply step_ok in E as [(R & ->)|(v1 & s2 & t & R & C & D)].
  - intros [= <- <-]. now apply lr_quit.
  - destruct D as [(T & -> & ->)|[(T & Se & -> & ->)|(sep & c & T & Se & St & N & ->)]].
    + intros [= <- <-]. eapply lr_last; eauto.
    + intros H. eapply lr_adjacent; eauto.
    + intros H. eapply lr_separated; eauto.
Qed.

Theorem until_reads_the_list_aux v s v' s' :
  (exists f, run (until f terminator separator fn v) s = OOk v' s') <-> LR v s v' s'.
Proof. split; [intros [f H]; eauto using until_reads_2|apply until_reads_1]. Qed.

Lemma until_rejects_1 v s e s' : LX v s e s' -> exists f, run (until f terminator separator fn v) s = OErr e s'.
Proof.
  induction 1 as [v s e s' R|v s v' s' R C|v s v' s' t sep path R C T Se St P|
                  v s v1 s1 t sep c s2 e s' R C T Se St N L [f IH]|v s v1 s1 t e s' R C T Se L [f IH]].
  - exists 1. rewrite until_unfold. rewrite (proj2 (step_err v s e s')); auto.
  - exists 1. rewrite until_unfold. rewrite (proj2 (step_err v s ENil s')); [reflexivity|]. right. eauto 12.
  - exists 1. rewrite until_unfold. erewrite (proj2 (step_err v s _ s')); [reflexivity|]. right.
    exists v'. split; [exact R|]. right. exists t, sep, path. auto 10.
  - exists (Datatypes.S f). rewrite until_unfold. rewrite (proj2 (step_ok v s (inl v1) s2)); [exact IH|]. right.
    exists v1, s1, t. split; [exact R|]. split; [exact C|]. right; right. eauto 10.
  - exists (Datatypes.S f). rewrite until_unfold. rewrite (proj2 (step_ok v s (inl v1) s1)); [exact IH|]. right. eauto 12.
Qed.
Lemma until_rejects_2 f : forall v s e s', run (until f terminator separator fn v) s = OErr e s' -> LX v s e s'.
Proof.
  induction f as [|f IH]; intros v s e s'; [discriminate|]. rewrite until_unfold.
  destruct (run (step v) s) as [r s1|e1 s1| | |] eqn:E; try discriminate.
  - apply step_ok in E as [(R & ->)|(v1 & s2 & t & R & C & D)]; [discriminate|].
    destruct D as [(T & -> & ->)|[(T & Se & -> & ->)|(sep & c & T & Se & St & N & ->)]].
    + discriminate.
    + intros H. eapply lx_adjacent; eauto.
    + intros H. eapply lx_separated; eauto.
  - intros [= <- <-]. apply step_err in E as [R|(v1 & R & [(C & ->)|(t & sep & path & C & T & Se & St & P & ->)])].
    + now apply lx_element.
    + eapply lx_nil; eauto.
    + eapply lx_neither; eauto.
Qed.

Lemma until_mono f f' v s : f <= f' -> run (until f terminator separator fn v) s <> OStuck ->
  run (until f' terminator separator fn v) s = run (until f terminator separator fn v) s.
Proof.
  revert f' v s. induction f as [|f IH]; intros f' v s L; [now intros []|].
  destruct f' as [|f']; [lia|]. rewrite !until_unfold.
  destruct (run (step v) s) as [[v1|v1] s1|e1 s1| | |]; auto. intros N. apply IH; [lia|exact N].
Qed.
End Until.

Theorem until_reads_the_list :
  forall (S : Type) terminator separator (fn : S -> prog (option S)) v s v' s',
    (exists fuel, run (until fuel terminator separator fn v) s = OOk v' s') <->
    list_read terminator separator fn v s v' s'.
Proof. intros. apply until_reads_the_list_aux. Qed.

Theorem until_fails_iff :
  forall (S : Type) terminator separator (fn : S -> prog (option S)) v s e s',
    (exists fuel, run (until fuel terminator separator fn v) s = OErr e s') <->
    list_rejected terminator separator fn v s e s'.
Proof. intros. split; [intros [f H]; eauto using until_rejects_2|apply until_rejects_1]. Qed.

(** The fuel only bounds the number of rounds. *)
Theorem until_fuel_is_a_bound :
  forall (S : Type) terminator separator (fn : S -> prog (option S)) v s fuel fuel',
    fuel <= fuel' -> run (until fuel terminator separator fn v) s <> OStuck ->
    run (until fuel' terminator separator fn v) s = run (until fuel terminator separator fn v) s.
Proof. intros. now apply until_mono. Qed.

(** ** Standing on words *)
Lemma word_lexeme t : word_of t = word (lexeme_of t).
Proof. unfold word_of, word, lexeme_of, value. now destruct (t_type t). Qed.
Lemma alike_word t u : alike t u -> word_of t = word_of u.
Proof. intros (T & R & _). rewrite !word_lexeme. unfold lexeme_of. now rewrite T, R. Qed.

Lemma ahead_next text k l ls : ahead text k (l :: ls) ->
  exists t k', get_next k = GTok t k' /\ word_of t = l /\ ahead text k' ls.
Proof.
  intros (H & ts & k' & R & M). inversion R as [|? t k1 ts' ? G R']; subst; [discriminate|].
  cbn in M. injection M as M1 M2. exists t, k1. split; [exact G|]. split; [exact M1|].
  split; [eapply held_tok; eauto|]. eauto.
Qed.

Lemma stands_next text s l1 l2 ls : stands text s (l1 :: l2 :: ls) ->
  exists t s', next_token s = OOk (Some t) s' /\ word_of t = l2 /\ s_cur s' = Some t /\
    stands text s' (l2 :: ls) /\ same_but_place s s'.
Proof.
  intros (t0 & ls' & [= E1 E2] & C & A). subst. apply ahead_next in A as (t & k' & G & L & A).
  exists t, (mkPst k' (Some t) (s_ctx s) (s_post s) (s_heap s)). unfold next_token. rewrite G.
  split; [reflexivity|]. split; [exact L|]. split; [reflexivity|]. split; [|repeat split].
  exists t, ls. rewrite L. auto.
Qed.

Lemma stands_cur text s l ls : stands text s (l :: ls) ->
  exists t, s_cur s = Some t /\ word_of t = l /\ ahead text (s_tok s) ls.
Proof. intros (t & ls' & [= -> ->] & C & A). eauto. Qed.

Lemma ahead_spot text k k' ls : ahead text k ls -> held text k' -> same_spot k k' -> ahead text k' ls.
Proof.
  intros (H & ts & k1 & R & M) H' SP. split; [exact H'|]. destruct (held_wf _ _ H) as [W _].
  destruct (reads_sim _ _ _ R k' SP W) as (ts' & k1' & R' & F & _). exists ts', k1'. split; [exact R'|].
  rewrite <- M. clear - F. induction F as [|t u ts us ST F IH]; cbn; [reflexivity|]. rewrite IH. f_equal.
  symmetry. now apply alike_word, same_token_alike.
Qed.

Lemma eof_word text e : token_of text e -> t_type e = EOF -> word_of e = weof.
Proof.
  intros TO T. destruct (token_of_fits _ _ TO) as (_ & ? & ? & _ & _ & _ & [(_ & Ra & _)|(NE & _)]); [|contradiction].
  unfold word_of, weof, value. now rewrite T, Ra.
Qed.

Lemma reads_token_of text k ts k' : reads k ts k' -> held text k -> Forall (token_of text) ts.
Proof.
  induction 1 as [|k t k1 ts k2 G R IH]; intros Hh; constructor.
  - exists k, k1. auto.
  - apply IH. eapply held_tok; eauto.
Qed.

Lemma stands_start text ls c post h : written ls text ->
  exists s, next_token (mkPst (new_tokenizer text false false) None c post h) = OOk (s_cur s) s /\
    stands text s (map word ls ++ [weof]) /\ s_ctx s = c /\ s_post s = post /\ s_heap s = h.
Proof.
  intros W. destruct (lexical_round_trip ls text W) as (ts & e & k & R & M & T & _).
  assert (Le : word_of e = weof).
  { pose proof (reads_token_of text _ _ _ R (held_new _ _ _)) as F. apply Forall_app in F as [_ F].
    inversion F; subst. now apply (eof_word text). }
  assert (A : ahead text (new_tokenizer text false false) (map word ls ++ [weof])).
  { split; [constructor|]. exists (ts ++ [e]), k. split; [exact R|]. rewrite map_app, <- M, map_map. cbn.
    rewrite Le. f_equal. apply map_ext. apply word_lexeme. }
  destruct (map word ls ++ [weof]) as [|l ls'] eqn:E; [now destruct (map word ls)|].
  apply ahead_next in A as (t & k' & G & L & A).
  exists (mkPst k' (Some t) c post h). unfold next_token. cbn [s_tok]. rewrite G. cbn.
  repeat split. exists t, ls'. rewrite L. auto.
Qed.

Lemma same_but_place_refl s : same_but_place s s.
Proof. repeat split. Qed.
Lemma same_but_place_trans s1 s2 s3 : same_but_place s1 s2 -> same_but_place s2 s3 -> same_but_place s1 s3.
Proof. unfold same_but_place. intuition congruence. Qed.

(** ** Lists of identifiers *)
Lemma sym_word x t : sym x t = true <-> word_of t = wsym x.
Proof.
  unfold word_of, wsym, sym, p_symbol, value. split.
  - destruct (t_type t); cbn; try discriminate. intros E. now rewrite (proj1 (runes_equal_eq _ _) E).
  - intros E. destruct (t_type t); try discriminate. injection E as E. cbn. now apply runes_equal_eq.
Qed.
Lemma word_comma t : word_of t = wsym "," -> sym "," t = true.
Proof. apply sym_word. Qed.
Lemma wident_inv t n : word_of t = wident n -> t_type t = Identifier /\ raw t = n.
Proof. unfold word_of, wident, value. destruct (t_type t); intros [=]; auto. Qed.

Lemma parse_ident_ok text s n l ls : stands text s (wident n :: l :: ls) ->
  exists i s', run parse_ident s = OOk i s' /\ i_name i = n /\ stands text s' (l :: ls) /\ same_but_place s s'.
Proof.
  intros St. destruct (stands_next _ _ _ _ _ St) as (t & s' & N & L & C' & St' & SB).
  destruct (stands_cur _ _ _ _ St) as (t0 & C & L0 & _).
  exists (new_ident t0), s'. unfold parse_ident, expect. rewrite !run_bind. cbn [run]. rewrite C. cbn [validate].
  apply wident_inv in L0 as [T0 R0]. unfold p_type. rewrite T0. cbn [ttype_eqb run].
  rewrite N. repeat split; auto; apply SB || apply St'.
Qed.

Lemma comma_list_cons n names : names <> [] -> comma_list (n :: names) = wident n :: wsym "," :: comma_list names.
Proof. destruct names; [congruence|reflexivity]. Qed.

Lemma ident_list_loop text (terminator : predicator) T ls :
  (forall t, word_of t = T -> terminator t = true) ->
  (forall t, word_of t = wsym "," -> terminator t = false) ->
  forall names fuel acc s, names <> [] -> length names <= fuel ->
  stands text s (comma_list names ++ T :: ls) ->
  exists ids s', run (until fuel terminator (Some (sym ",")) (append_with parse_ident) acc) s = OOk (acc ++ ids) s' /\
    map i_name ids = names /\ stands text s' (T :: ls) /\ same_but_place s s'.
Proof.
  intros HT HC names. induction names as [|n names IH]; intros fuel acc s NE Lf St; [congruence|].
  destruct fuel as [|fuel]; [cbn in Lf; lia|]. rewrite until_unfold. unfold until_step. unfold append_with at 1.
  rewrite !run_bind. destruct names as [|n2 names].
  - cbn [comma_list app] in St. destruct (parse_ident_ok _ _ _ _ _ St) as (i & s1 & R & Ni & St1 & SB).
    rewrite R. cbn [run]. destruct (stands_cur _ _ _ _ St1) as (t & C & L & _). rewrite C, (HT _ L).
    cbn [run]. exists [i], s1. rewrite <- Ni. auto.
  - rewrite comma_list_cons in St by discriminate. cbn [app] in St.
    destruct (parse_ident_ok _ _ _ _ _ St) as (i & s1 & R & Ni & St1 & SB).
    rewrite R. cbn [run]. destruct (stands_cur _ _ _ _ St1) as (t & C & L & _). rewrite C, (HC _ L).
    cbn [validate]. rewrite (word_comma _ L). cbn [run].
    assert (Hd : exists l2 ls2, comma_list (n2 :: names) ++ T :: ls = l2 :: ls2).
    { destruct names; cbn; eauto. }
    destruct Hd as (l2 & ls2 & Hd). rewrite Hd in St1.
    destruct (stands_next _ _ _ _ _ St1) as (t2 & s2 & N & _ & _ & St2 & SB2). rewrite <- Hd in St2.
    rewrite N. cbn [run].
    destruct (IH fuel (acc ++ [i]) s2) as (ids & s' & R' & M & St' & SB'); [discriminate|cbn in *; lia|exact St2|].
    exists (i :: ids), s'. rewrite R', <- app_assoc. cbn [app map]. rewrite M, Ni.
    split; [reflexivity|]. split; [reflexivity|]. split; [exact St'|].
    eapply same_but_place_trans; [exact SB|]. eapply same_but_place_trans; eauto.
Qed.

Theorem ident_list_is_read :
  forall text s names (terminator : predicator) T ls fuel,
    names <> [] -> length names <= fuel ->
    (forall t, word_of t = T -> terminator t = true) ->
    (forall t, word_of t = wsym "," -> terminator t = false) ->
    stands text s (comma_list names ++ T :: ls) ->
    exists ids s', run (parse_ident_list_by fuel terminator) s = OOk ids s' /\
      map i_name ids = names /\ stands text s' (T :: ls) /\ same_but_place s s'.
Proof.
  intros text s names terminator T ls fuel NE Lf HT HC St.
  destruct (ident_list_loop text terminator T ls HT HC names fuel [] s NE Lf St) as (ids & s' & R & M & St' & SB).
  exists ids, s'. unfold parse_ident_list_by, until_list. rewrite run_bind, R. unfold expect. rewrite !run_bind.
  cbn [run app]. destruct (stands_cur _ _ _ _ St') as (t & C & L & _). rewrite C. cbn [validate].
  rewrite (HT _ L). cbn [run]. auto.
Qed.

Lemma parse_ident_inv s i s' : run parse_ident s = OOk i s' ->
  exists t c, s_cur s = Some t /\ word_of t = wident (i_name i) /\ next_token s = OOk c s'.
Proof.
  unfold parse_ident, expect. rewrite !run_bind. cbn [run].
  destruct (s_cur s) as [t|]; cbn [validate run]; [|discriminate].
  destruct (p_type Identifier t) eqn:P; cbn [run]; [|destruct (ctx_path _ _); discriminate].
  destruct (next_token s) as [c s1|? ?| | |] eqn:N; try discriminate. intros [= <- <-].
  exists t, c. split; [reflexivity|]. split; [|reflexivity].
  unfold p_type in P. unfold word_of, wident, new_ident, value. cbn. destruct (t_type t); try discriminate. reflexivity.
Qed.

Lemma next_inv text s c s' t : held text (s_tok s) -> next_token s = OOk c s' -> s_cur s' = Some t ->
  get_next (s_tok s) = GTok t (s_tok s') /\ held text (s_tok s') /\ same_but_place s s'.
Proof.
  unfold next_token. destruct (get_next (s_tok s)) as [t1 k1|k1|] eqn:G; try discriminate;
    intros Hh [= <- <-]; cbn; [|discriminate]. intros [= <-].
  split; [reflexivity|]. split; [eapply held_tok; eauto|repeat split].
Qed.

Lemma stands_cons text s t s' ls : held text (s_tok s) -> s_cur s = Some t ->
  get_next (s_tok s) = GTok (match s_cur s' with Some u => u | None => t end) (s_tok s') ->
  stands text s' ls -> stands text s (word_of t :: ls).
Proof.
  intros Hh C G (u & ls' & -> & C' & (H' & ts & k & R & M)). rewrite C' in G.
  exists t, (word_of u :: ls'). split; [reflexivity|]. split; [exact C|].
  split; [exact Hh|]. exists (u :: ts), k. split; [econstructor; eauto|]. cbn. now rewrite M.
Qed.

Lemma ident_list_inv text (terminator : predicator) fuel : forall acc s ids s', held text (s_tok s) ->
  run (until fuel terminator (Some (sym ",")) (append_with parse_ident) acc) s = OOk ids s' ->
  exists new T, ids = acc ++ new /\ new <> [] /\ s_cur s' = Some T /\ terminator T = true /\
    stands text s (comma_list (map i_name new) ++ [word_of T]) /\ same_but_place s s'.
Proof.
  induction fuel as [|fuel IH]; intros acc s ids s' Hh; [discriminate|]. rewrite until_unfold.
  destruct (run (until_step _ _ _ acc) s) as [r s1|? ?| | |] eqn:E; try discriminate.
  apply step_ok in E as [(R & ->)|(v1 & s2 & t & R & C & D)].
  { unfold append_with in R. rewrite run_bind in R. destruct (run parse_ident s) as [? ?|? ?| | |]; discriminate. }
  unfold append_with in R. rewrite run_bind in R.
  destruct (run parse_ident s) as [i s3|? ?| | |] eqn:P; try discriminate. injection R as <- <-.
  destruct (parse_ident_inv _ _ _ P) as (t0 & c & C0 & L0 & N0).
  destruct (next_inv _ _ _ _ _ Hh N0 C) as (G & H3 & SB).
  assert (K : forall ls, stands text s3 ls -> stands text s (word_of t0 :: ls)).
  { intros ls Q. eapply stands_cons; eauto. now rewrite C. }
  destruct D as [(T & -> & ->)|[(T & Se & -> & ->)|(sep & c2 & T & Se & St & N & ->)]]; [|discriminate|].
  - intros [= <- <-]. exists [i], t. repeat split; auto; try (apply SB); [discriminate|].
    cbn. rewrite <- L0. apply K. exists t, []. split; [reflexivity|]. split; [exact C|].
    split; [exact H3|]. exists [], (s_tok s3). split; [constructor|reflexivity].
  - injection Se as <-. intros Rn.
    assert (Hh1 : held text (s_tok s1)).
    { unfold next_token in N. destruct (get_next (s_tok s3)) as [? ?|?|] eqn:G3; try discriminate;
        injection N as _ <-; cbn; [eapply held_tok|eapply held_nil]; eauto. }
    destruct (IH _ _ _ _ Hh1 Rn) as (new & T' & -> & NE & CT & HT & St' & SB').
    exists (i :: new), T'. rewrite <- app_assoc. split; [reflexivity|]. split; [discriminate|].
    split; [exact CT|]. split; [exact HT|].
    assert (C1 : exists u, s_cur s1 = Some u) by (destruct St' as (u & ? & _ & ? & _); eauto).
    destruct C1 as (u & C1). destruct (next_inv _ _ _ _ _ H3 N C1) as (G1 & _ & SB1).
    split.
    + cbn [map]. rewrite comma_list_cons by (destruct new; cbn; congruence). cbn [app]. rewrite <- L0. apply K.
      apply sym_word in St. rewrite <- St. eapply stands_cons; eauto. now rewrite C1.
    + eapply same_but_place_trans; [exact SB|]. eapply same_but_place_trans; eauto.
Qed.

Theorem ident_list_is_what_was_read :
  forall text s (terminator : predicator) fuel ids s',
    parsing text s -> run (parse_ident_list_by fuel terminator) s = OOk ids s' ->
    exists T, ids <> [] /\ s_cur s' = Some T /\ terminator T = true /\
      stands text s (comma_list (map i_name ids) ++ [word_of T]) /\ same_but_place s s'.
Proof.
  intros text s terminator fuel ids s' [[Hh _] _]. unfold parse_ident_list_by, until_list. rewrite run_bind.
  destruct (run (until _ _ _ _ _) s) as [l s1|? ?| | |] eqn:E; try discriminate.
  destruct (ident_list_inv text _ _ _ _ _ _ Hh E) as (new & T & -> & NE & C & HT & St & SB).
  unfold expect. rewrite !run_bind. cbn [run]. rewrite C. cbn [validate]. rewrite HT. cbn [run app].
  intros [= <- <-]. eauto 10.
Qed.

End WithUnicode.
