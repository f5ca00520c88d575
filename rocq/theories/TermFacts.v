(** Running a method forward: which states it passes through, how far it gets, how it can
    fail.  One rule for each way of building a [prog]. *)
From Coq Require Import String List NArith Bool Arith Lia.
From Verif Require Import ListUtil Runes UnicodeFacts Token Tokenizer CursorFacts TokenizerFacts LexSpec LexShape LexFacts LexMain
  Ast Ext Heap Classes MapSpec MapFacts Prog Parser ParseSpec RunFacts WpFacts TermSpec TermHeap.
Import ListNotations.
Local Open Scope list_scope.

Section WithUnicode.
Context {U : Unicode} {UOK : UnicodeOk U} {unmapped : Unmapped}.
Local Notation node_there := (node_there unmapped).
Local Notation declared := (declared unmapped).
Local Notation sound := (sound_but unmapped).
(** The text, its file name, how deep the types declared are; with [lax], what does not end
    is not excluded. *)
Variable text : list rune.
Variable path : gostring.
Variable lax : bool.
Variable D : nat.

(** What is left to read: 0 at the end of the text. *)
Definition tokmu (t : token) : nat :=
  if ttype_eqb (t_type t) EOF then 0 else S (2 * (length text - start_of t)).
Definition mu (s : pst) : nat :=
  match s_cur s with
  | Some t => tokmu t
  | None => S (S (2 * (length text - c_index (tk_cur (s_tok s)))))
  end.
Definition reflen (s : pst) : nat := length (h_refs (s_heap s)).

Definition abreast (s : pst) (t : token) : Prop :=
  exists k t' k', held text k /\ tk_space k = false /\ tk_comment k = false /\
    get_next k = GTok t' k' /\ alike t' t /\ same_spot k' (s_tok s).
(** A parser state, before the first token too. *)
Definition pre (s : pst) : Prop :=
  parsing text s /\ (forall t, s_cur s = Some t -> abreast s t) /\
  sound (s_heap s) /\ ctx_path (s_heap s) (s_ctx s) = Some path /\
  (lax = true \/ (1 <= D /\ shallow D (s_heap s))).
Definition ok (s : pst) : Prop := pre s /\ (s_cur s = None -> unknown_rune text).

(** What a panic may be due to. *)
Definition crashes : Prop := unknown_rune text \/ qualifies text (fun k => exists u, unmapped k u).

Lemma ok_ready s : ok s <-> ready_but unmapped text path s /\ (lax = true \/ (1 <= D /\ shallow D (s_heap s))).
Proof.
  unfold ok, pre, ready_but, abreast. destruct (s_cur s) as [t|]; split.
  - intros [(A & B & C & E & F) _]. specialize (B t eq_refl). tauto.
  - intros [(A & B & C & E) F]. split; [|discriminate]. repeat split; try apply A; try apply C; auto.
    intros u [= <-]. exact B.
  - intros [(A & B & C & E & F) G]. specialize (G eq_refl). tauto.
  - intros [(A & B & C & E) F]. split; [|auto]. repeat split; try apply A; try apply C; auto.
    intros u [=].
Qed.

(** ** The next token *)
Lemma abreast_eof s t : abreast s t -> t_type t = EOF ->
  exists t' k', get_next (s_tok s) = GTok t' k' /\ t_type t' = EOF.
Proof.
  intros (k & t' & k' & H & _ & _ & G & A & SS) E. assert (E' : t_type t' = EOF) by (destruct A; congruence).
  pose proof (eof_absorbing _ _ _ _ H G E' 1) as R. cbn in R. inversion R as [|? ? ? ? ? G' R']; subst.
  assert (Hk : held text k') by (eapply held_tok; eauto). destruct (held_wf _ _ Hk) as [W _].
  pose proof (get_next_alike k' (s_tok s) SS W) as M. rewrite G' in M.
  destruct (get_next (s_tok s)) as [u k2|?|]; try contradiction. destruct M as [(T & _) _].
  exists u, k2. split; [reflexivity|congruence].
Qed.
Lemma tokmu_eof t : tokmu t = 0 <-> t_type t = EOF.
Proof.
  unfold tokmu. destruct (ttype_eqb (t_type t) EOF) eqn:E.
  - apply ttype_eqb_eq in E. tauto.
  - split; [discriminate|]. intros X. rewrite X in E. discriminate.
Qed.
Lemma tokmu_not t : t_type t <> EOF -> tokmu t = S (2 * (length text - start_of t)).
Proof.
  intros N. unfold tokmu. destruct (ttype_eqb (t_type t) EOF) eqn:E; [|reflexivity].
  apply ttype_eqb_eq in E. contradiction.
Qed.
Lemma place_mono {A} (p : prog A) s s' : parsing text s -> ends_in (run p s) s' ->
  parsing text s' /\ place s <= place s'.
Proof.
  intros P E. destruct (parser_moves_forward A p text s s' P E) as (P' & L & _). auto.
Qed.

Lemma next_pre s : pre s ->
  match next_token s with
  | OOk c s' => ok s' /\ s_cur s' = c /\ s_heap s' = s_heap s /\ s_ctx s' = s_ctx s /\
      place s <= place s' /\ mu s' <= mu s /\
      (mu s' < mu s \/ (exists t t', s_cur s = Some t /\ t_type t = EOF /\ c = Some t' /\ t_type t' = EOF) \/
       (s_cur s = None /\ c = None))
  | OHang => open_string text
  | _ => False
  end.
Proof.
  intros (P & AB & SO & CP & SH). pose proof (proj1 P) as (H & F1 & F2).
  pose proof (place_mono Next s) as PM. cbn [run] in PM.
  unfold next_token in *. destruct (get_next (s_tok s)) as [t' k'|k'|] eqn:G.
  - set (s' := mkPst k' (Some t') (s_ctx s) (s_post s) (s_heap s)) in *.
    destruct (PM s' P) as [P' PL]; [left; eauto|].
    assert (M : mu s' < mu s \/ exists t t2, s_cur s = Some t /\ t_type t = EOF /\ Some t' = Some t2 /\ t_type t2 = EOF).
    { destruct (getnext_advances text (s_tok s) t' k' H G) as (A1 & A2 & A3 & A4).
      assert (TO : token_of text t') by (exists (s_tok s), k'; auto). pose proof (token_order _ _ TO) as O.
      change (mu s') with (tokmu t').
      destruct (ttype_eqb (t_type t') EOF) eqn:E'; [apply ttype_eqb_eq in E'|].
      + rewrite (proj2 (tokmu_eof t') E'). unfold mu. destruct (s_cur s) as [t|] eqn:C; [|left; lia].
        destruct (ttype_eqb (t_type t) EOF) eqn:E; [apply ttype_eqb_eq in E; right; eauto 6|].
        left. rewrite tokmu_not; [lia|]. intros X. rewrite X in E. discriminate.
      + assert (N' : t_type t' <> EOF) by (intros X; rewrite X in E'; discriminate). specialize (A4 N').
        rewrite tokmu_not by exact N'. left. unfold mu. destruct (s_cur s) as [t|] eqn:C; [|lia].
        destruct (ttype_eqb (t_type t) EOF) eqn:E; [apply ttype_eqb_eq in E|].
        * exfalso. destruct (abreast_eof s t (AB t eq_refl) E) as (u & k2 & G2 & Eu).
          rewrite G in G2. injection G2 as <- <-. contradiction.
        * assert (N : t_type t <> EOF) by (intros X; rewrite X in E; discriminate).
          rewrite tokmu_not by exact N. destruct (proj2 P t C) as (T1 & T2 & _).
          destruct (AB t eq_refl) as (k0 & t0 & k0' & H0 & _ & _ & G0 & (X1 & _ & X2 & X3) & _).
          destruct (getnext_advances text k0 t0 k0' H0 G0) as (_ & _ & _ & B4).
          rewrite X1, X2, X3 in B4. specialize (B4 N). lia. }
    split; [|repeat split; auto; [|tauto]].
    + split; [|intros X; discriminate]. split; [exact P'|]. split; [|now split].
      intros t [= <-]. exists (s_tok s), t', k'. repeat split; auto.
    + destruct M as [M|(t & t2 & C & E & E2 & E3)]; [lia|]. injection E2 as <-.
      change (mu s') with (tokmu t'). rewrite (proj2 (tokmu_eof t') E3). lia.
  - set (s' := mkPst k' None (s_ctx s) (s_post s) (s_heap s)) in *.
    destruct (PM s' P) as [P' PL]; [left; eauto|].
    pose proof (get_next_nil_index text (s_tok s) k' H G) as I.
    assert (HK : held text k') by (eapply held_nil; eauto).
    destruct (held_wf _ _ HK) as [W' T']. unfold cwf, c_len in W'. rewrite T' in W'.
    assert (M : match s_cur s with Some t => mu s' < mu s | None => mu s' <= mu s end).
    { unfold mu. cbn. destruct (s_cur s) as [t|] eqn:C; [|lia].
      destruct (ttype_eqb (t_type t) EOF) eqn:E; [apply ttype_eqb_eq in E|].
      - exfalso. destruct (abreast_eof s t (AB t eq_refl) E) as (u & k2 & G2 & Eu). congruence.
      - assert (N : t_type t <> EOF) by (intros X; rewrite X in E; discriminate).
        rewrite tokmu_not by exact N. destruct (proj2 P t C) as (T1 & T2 & _).
        destruct (AB t eq_refl) as (k0 & t0 & k0' & H0 & _ & _ & G0 & (X1 & _ & X2 & X3) & _).
        destruct (getnext_advances text k0 t0 k0' H0 G0) as (_ & _ & _ & B4).
        rewrite X1, X2, X3 in B4. specialize (B4 N). lia. }
    split.
    { split; [|intros _; exists (s_tok s), k'; auto]. split; [exact P'|]. split; [intros t [=]|]. now split. }
    repeat split; auto; destruct (s_cur s); auto; lia.
  - exists (s_tok s). auto.
Qed.

(** ** Runs *)
Definition onward (s s' : pst) : Prop :=
  place s <= place s' /\ mu s' <= mu s /\ grew lax (s_heap s) (s_heap s').
Lemma onward_refl s : onward s s.
Proof. split; [apply Nat.le_refl|]. split; [apply Nat.le_refl|apply grew_refl]. Qed.
Lemma onward_trans s1 s2 s3 : onward s1 s2 -> onward s2 s3 -> onward s1 s3.
Proof. intros (A & B & C) (A' & B' & C'). split; [lia|]. split; [lia|]. eapply grew_trans; eauto. Qed.
Lemma onward_reflen s s' : onward s s' -> reflen s <= reflen s'.
Proof. intros (_ & _ & G). apply G. Qed.

Definition fin {A} (from : nat) (p : prog A) (s : pst) (Q : A -> pst -> Prop) : Prop :=
  match run p s with
  | OOk a s' => ok s' /\ onward s s' /\ Q a s'
  | OErr e s' => ok s' /\ onward s s' /\ cited text path from e s'
  | OPanic => crashes
  | OHang => open_string text
  | OStuck => lax = true
  end.

Lemma fin_ret {A} from (a : A) s (Q : A -> pst -> Prop) : ok s -> Q a s -> fin from (Ret a) s Q.
Proof. intros O H. unfold fin. cbn [run]. auto using onward_refl. Qed.
Lemma fin_bind {A B} from (p : prog A) (k : A -> prog B) s Q :
  fin from p s (fun a s' => fin from (k a) s' Q) -> fin from (Bind p k) s Q.
Proof.
  unfold fin. cbn [run]. destruct (run p s) as [a s'|e s'| | |]; auto. intros (O & L & H).
  destruct (run (k a) s') as [b s2|e s2| | |]; auto; destruct H as (O2 & L2 & H2); eauto using onward_trans.
Qed.
Lemma cited_le from from' e s : from' <= from -> cited text path from e s -> cited text path from' e s.
Proof.
  intros L. destruct e; auto. cbn. intros (E & t & T & A & B & C). split; [exact E|]. exists t. repeat split; auto; lia.
Qed.
Lemma fin_conseq {A} from (p : prog A) s (Q0 : A -> pst -> Prop) from' (Q : A -> pst -> Prop) : fin from p s Q0 -> from' <= from ->
  (forall a s', ok s' -> place s <= place s' -> mu s' <= mu s -> reflen s <= reflen s' -> Q0 a s' -> Q a s') ->
  fin from' p s Q.
Proof.
  intros F L H. unfold fin in *. destruct (run p s) as [a s'|e s'| | |]; auto.
  - destruct F as (O & Le & F). split; [exact O|]. split; [exact Le|].
    apply H; auto; try apply Le; now apply onward_reflen.
  - destruct F as (O & Le & F). split; [exact O|]. split; [exact Le|]. eapply cited_le; eauto.
Qed.
(** Where branches meet again *)
Lemma fin_join {A B} from (p : prog A) (k : A -> prog B) s (Q0 : A -> pst -> Prop) (Q : B -> pst -> Prop) :
  fin from p s Q0 ->
  (forall a s', ok s' -> place s <= place s' -> mu s' <= mu s -> reflen s <= reflen s' -> Q0 a s' -> fin from (k a) s' Q) ->
  fin from (Bind p k) s Q.
Proof. intros F H. apply fin_bind. eapply fin_conseq; eauto. Qed.

Lemma fin_Next from s (Q : option token -> pst -> Prop) : ok s ->
  (forall c s', ok s' -> s_cur s' = c -> place s <= place s' -> mu s' <= mu s -> reflen s' = reflen s ->
     (forall t', c = Some t' -> t_type t' <> EOF -> mu s' < mu s) -> Q c s') ->
  fin from Next s Q.
Proof.
  intros [P N] H. pose proof (next_pre s P) as X. unfold fin. cbn [run].
  destruct (next_token s) as [c s'|? ?| | |]; auto; try contradiction.
  destruct X as (O & C & Hh & Hc & PL & M & St).
  split; [exact O|]. split; [split; [exact PL|]; split; [exact M|]; rewrite Hh; apply grew_refl|].
  apply H; auto.
  - unfold reflen. now rewrite Hh.
  - intros t' -> NE. destruct St as [?|[(t & t2 & _ & _ & E & E2)|[_ E]]]; auto; congruence.
Qed.
Lemma fin_Next_strict from s (Q : option token -> pst -> Prop) t : ok s -> s_cur s = Some t -> t_type t <> EOF ->
  (forall c s', ok s' -> s_cur s' = c -> place s <= place s' -> mu s' < mu s -> reflen s' = reflen s -> Q c s') ->
  fin from Next s Q.
Proof.
  intros [P N] Ct NE H. pose proof (next_pre s P) as X. unfold fin. cbn [run].
  destruct (next_token s) as [c s'|? ?| | |]; auto; try contradiction.
  destruct X as (O & C & Hh & Hc & PL & M & St).
  split; [exact O|]. split; [split; [exact PL|]; split; [exact M|]; rewrite Hh; apply grew_refl|].
  apply H; auto.
  - destruct St as [?|[(t1 & t2 & C2 & E & _)|[E _]]]; auto; congruence.
  - unfold reflen. now rewrite Hh.
Qed.
Lemma fin_Cur from s (Q : option token -> pst -> Prop) : ok s -> Q (s_cur s) s -> fin from Cur s Q.
Proof. intros O H. unfold fin. cbn [run]. auto using onward_refl. Qed.
Lemma fin_nil_fail {A} from s (Q : A -> pst -> Prop) : ok s -> s_cur s = None -> fin from (Fail ENil) s Q.
Proof. intros O E. unfold fin. cbn [run]. split; [exact O|]. split; [apply onward_refl|]. now apply O. Qed.
Lemma fin_fail {A} from e s (Q : A -> pst -> Prop) : ok s -> match e with EOther | EDup _ => True | _ => False end ->
  fin from (Fail e) s Q.
Proof. intros O E. unfold fin. cbn [run]. split; [exact O|]. split; [apply onward_refl|]. destruct e; try destruct E; exact I. Qed.
Lemma fin_crash {A} from s (Q : A -> pst -> Prop) : ok s -> s_cur s = None -> fin from Crash s Q.
Proof. intros O E. unfold fin. cbn [run]. left. now apply O. Qed.
Lemma fin_nofuel {A} from s (Q : A -> pst -> Prop) : lax = true -> fin from NoFuel s Q.
Proof. intros E. unfold fin. cbn [run]. exact E. Qed.

Lemma ok_token s t : ok s -> s_cur s = Some t -> token_of text t.
Proof. intros [(P & _) _] C. apply (proj2 P t C). Qed.
Lemma ok_place s t : s_cur s = Some t -> place s = start_of t.
Proof. unfold place. now intros ->. Qed.
Lemma fin_failat {A} from t s (Q : A -> pst -> Prop) s0 : ok s -> ok s0 -> s_cur s0 = Some t ->
  from <= place s0 -> place s0 <= place s -> fin from (FailAt t) s Q.
Proof.
  intros O O0 C A1 A2. unfold fin. cbn [run]. pose proof O as [(_ & _ & SO & CP & _) _]. rewrite CP.
  split; [exact O|]. split; [apply onward_refl|]. cbn. split; [reflexivity|]. exists t.
  split; [eapply ok_token; eauto|]. rewrite (ok_place _ _ C) in *. auto.
Qed.

Lemma fin_cur from s (Q : token -> pst -> Prop) : ok s -> (forall t, s_cur s = Some t -> Q t s) -> fin from cur s Q.
Proof.
  intros O H. unfold cur. apply fin_bind, fin_Cur; [exact O|]. destruct (s_cur s) as [t|] eqn:C.
  - apply fin_ret; auto.
  - now apply fin_crash.
Qed.
Lemma fin_is from pred s (Q : bool -> pst -> Prop) : ok s -> (forall t, s_cur s = Some t -> Q (pred t) s) ->
  fin from (is pred) s Q.
Proof. intros O H. unfold is. apply fin_bind, fin_cur; [exact O|]. intros t C. apply fin_ret; auto. Qed.
Lemma fin_expect from pred s (Q : token -> pst -> Prop) : ok s -> from <= place s ->
  (forall t, s_cur s = Some t -> pred t = true -> Q t s) -> fin from (expect pred) s Q.
Proof.
  intros O L H. unfold expect. apply fin_bind, fin_Cur; [exact O|]. destruct (s_cur s) as [t|] eqn:C; cbn [validate].
  - destruct (pred t) eqn:E; [apply fin_ret; auto|]. eapply fin_failat; eauto.
  - now apply fin_nil_fail.
Qed.
Lemma fin_expect_or_fail from pred s (Q : token -> pst -> Prop) : ok s -> from <= place s ->
  (forall t, s_cur s = Some t -> pred t = true -> Q t s) -> fin from (expect_or_fail pred) s Q.
Proof.
  intros O L H. unfold expect_or_fail. apply fin_bind, fin_cur; [exact O|]. intros t C.
  destruct (pred t) eqn:E; [apply fin_ret; auto|]. eapply fin_failat; eauto.
Qed.
Lemma fin_expect_next from pred s (Q : token -> pst -> Prop) : ok s -> from <= place s ->
  (forall t s', ok s' -> s_cur s' = Some t -> pred t = true -> place s <= place s' -> mu s' <= mu s ->
     reflen s' = reflen s -> (t_type t <> EOF -> mu s' < mu s) -> Q t s') ->
  fin from (expect_next pred) s Q.
Proof.
  intros O L H. unfold expect_next. apply fin_bind, fin_Next; [exact O|]. intros c s' O' C' PL M RL St.
  destruct c as [t|]; cbn [validate].
  - destruct (pred t) eqn:E; [apply fin_ret; [exact O'|]; apply H; auto; exact (St t eq_refl)|]. eapply fin_failat; eauto. lia.
  - now apply fin_nil_fail.
Qed.
Lemma fin_next from s (Q : token -> pst -> Prop) : ok s ->
  (forall t s', ok s' -> s_cur s' = Some t -> place s <= place s' -> mu s' <= mu s ->
     reflen s' = reflen s -> (t_type t <> EOF -> mu s' < mu s) -> Q t s') ->
  fin from next s Q.
Proof.
  intros O H. unfold next. apply fin_bind, fin_Next; [exact O|]. intros c s' O' C' PL M RL St.
  destruct c as [t|]; [apply fin_ret; [exact O'|]; apply H; auto; exact (St t eq_refl)|now apply fin_crash].
Qed.
Lemma fin_next_strict from s (Q : token -> pst -> Prop) t0 : ok s -> s_cur s = Some t0 -> t_type t0 <> EOF ->
  (forall t s', ok s' -> s_cur s' = Some t -> place s <= place s' -> mu s' < mu s ->
     reflen s' = reflen s -> Q t s') ->
  fin from next s Q.
Proof.
  intros O C NE H. unfold next. apply fin_bind. apply (fin_Next_strict from s _ t0); auto. intros c s' O' C' PL M RL.
  destruct c as [t|]; [apply fin_ret; auto|now apply fin_crash].
Qed.

(** ** The heap *)
Lemma with_heap_same s : with_heap (s_heap s) s = s.
Proof. now destruct s. Qed.
Lemma ok_heap s h : ok s -> good_step lax (s_heap s) h -> ok (with_heap h s).
Proof.
  intros [(P & AB & SO & CP & SH) N] [S' G]. split; [|exact N].
  split; [exact P|]. split; [exact AB|]. split; [exact S'|]. split; cbn [with_heap s_heap s_ctx].
  - exact (ctx_path_grew lax _ _ _ _ SO G CP).
  - destruct lax eqn:LX; [now left|right]. destruct SH as [?|[L SH]]; [congruence|].
    split; [exact L|]. now apply (shallow_grew false D (s_heap s)).
Qed.
Lemma onward_heap s h : good_step lax (s_heap s) h -> onward s (with_heap h s).
Proof. intros [_ G]. split; [apply le_n|]. split; [apply le_n|exact G]. Qed.

(** A state that differs in the heap only *)
Definition like (s s' : pst) : Prop :=
  s_cur s' = s_cur s /\ place s' = place s /\ mu s' = mu s /\ reflen s <= reflen s'.
Lemma like_heap s h : good_step lax (s_heap s) h -> like s (with_heap h s).
Proof. intros [_ G]. repeat split. apply G. Qed.

Lemma fin_onheap {A} from (f : nat -> heap -> hres A) s (Q : A -> pst -> Prop) : ok s ->
  match f (s_ctx s) (s_heap s) with
  | HOk a h => good_step lax (s_heap s) h /\ Q a (with_heap h s)
  | HErr e h => good_step lax (s_heap s) h /\ cited text path from e (with_heap h s)
  | HPanic => crashes
  | HStuck => lax = true
  end -> fin from (OnHeap f) s Q.
Proof.
  intros O H. unfold fin. cbn [run]. destruct (f (s_ctx s) (s_heap s)) as [a h|e h| |]; auto.
  - destruct H as [G H]. auto using ok_heap, onward_heap.
  - destruct H as [G H]. auto using ok_heap, onward_heap.
Qed.

Lemma ok_sound s : ok s -> sound (s_heap s).
Proof. intros [(_ & _ & SO & _) _]. exact SO. Qed.
Lemma ok_path s : ok s -> ctx_path (s_heap s) (s_ctx s) = Some path.
Proof. intros [(_ & _ & _ & CP & _) _]. exact CP. Qed.

Lemma fin_get from name s (Q : option dref -> pst -> Prop) : ok s ->
  (forall d, match d with Some d => declared (s_heap s) (to_lower name) d | None => True end -> Q d s) -> fin from (get name) s Q.
Proof.
  intros O H. apply fin_onheap; [exact O|].
  pose proof (ctx_get_there (s_heap s) (s_ctx s) path name (ok_sound s O) (ok_path s O)) as G.
  destruct (ctx_get _ _ name) as [|d|]; [| |destruct G].
  - split; [apply good_refl, ok_sound, O|]. rewrite with_heap_same. now apply H.
  - split; [apply good_refl, ok_sound, O|]. rewrite with_heap_same. now apply H.
Qed.
Lemma fin_get_node from name s (Q : option (dref * dnode) -> pst -> Prop) : ok s ->
  (forall d, match d with Some (d, n) => node_there (s_heap s) (to_lower name) n | None => True end -> Q d s) ->
  fin from (get_node name) s Q.
Proof.
  intros O H. unfold get_node. apply fin_bind, fin_get; [exact O|]. intros [d|] Dd.
  - destruct Dd as (o & E & _ & N). apply fin_bind. unfold node_of. apply fin_onheap; [exact O|]. rewrite E.
    split; [apply good_refl, ok_sound, O|]. rewrite with_heap_same. apply fin_ret; [exact O|]. now apply H.
  - apply fin_ret; [exact O|]. now apply H.
Qed.
Definition declares (s : pst) (d : decl) : Prop :=
  i_loc (d_ident d) <> None /\ node_there (s_heap s) (to_lower (i_name (d_ident d))) (d_node d) /\ (lax = true \/ no_type d).
Lemma fin_set from ds s (Q : unit -> pst -> Prop) : ok s -> Forall (declares s) ds ->
  (forall s', ok s' -> like s s' -> Q tt s') -> fin from (set ds) s Q.
Proof.
  intros O F H. unfold set. apply fin_onheap; [exact O|].
  pose proof (ctx_set_good lax (s_heap s) (s_ctx s) path ds (ok_sound s O) (ok_path s O) F) as G.
  destruct (ctx_set _ _ ds) as [h|h i|]; [| |destruct G].
  - split; [exact G|]. apply H; auto using ok_heap, like_heap.
  - split; [exact G|]. exact I.
Qed.
Lemma fin_new_type_id from u i r s (Q : typeid -> pst -> Prop) : ok s ->
  (forall ti s', ok s' -> like s s' -> ti_ref ti < reflen s' -> Q ti s') -> fin from (new_type_id u i r) s Q.
Proof.
  intros O H. unfold new_type_id. apply fin_onheap; [exact O|].
  pose proof (good_refs lax (s_heap s) r (ok_sound s O)) as G. split; [exact G|].
  apply H; auto using ok_heap, like_heap. unfold reflen. cbn. rewrite app_length. cbn. lia.
Qed.

(** ** Rollback, scopes, tracing, loops *)
Lemma fin_attempt {B} from (p : prog (option B)) s (Q : option B -> pst -> Prop) : ok s ->
  (forall t s1, ok s1 -> s_cur s = Some t -> like s s1 ->
     fin from p s1 (fun r s2 => match r with None => True | Some _ => Q r s2 end)) ->
  (forall s2, ok s2 -> like s s2 -> Q None s2) ->
  fin from (Attempt p) s Q.
Proof.
  intros O H1 H2. unfold fin. cbn [run]. destruct (s_cur s) as [t|] eqn:C; [|left; now apply O].
  destruct (ctx_clone_good lax _ _ _ (ok_sound s O) (ok_path s O)) as (h & c & E & G & CP). rewrite E.
  specialize (H1 t (with_heap h s) (ok_heap s h O G) eq_refl (like_heap s h G)). unfold fin in H1.
  pose proof (onward_heap s h G) as L0.
  destruct (run p (with_heap h s)) as [[a|] s'|e s'| | |] eqn:R; auto.
  - destruct H1 as (O' & L & HQ). split; [exact O'|]. split; [eapply onward_trans; eauto|exact HQ].
  - destruct H1 as (O' & L & _). rewrite token_clone_eq.
    set (s2 := mkPst (tokenizer_clone (s_tok s)) (Some t) c (s_post s') (s_heap s')).
    assert (GG : grew lax (s_heap s) (s_heap s')).
    { eapply grew_trans; [apply G|]. exact (proj2 (proj2 L)). }
    assert (O2 : ok s2).
    { pose proof O as [(P & AB & SO & _ & _) _]. pose proof O' as [(_ & _ & SO' & _ & SH') _].
      split; [|discriminate]. split; [|split; [|split; [exact SO'|split; [|exact SH']]]].
      - destruct P as [(H & F1 & F2) T]. split; [split; [now constructor|auto]|]. cbn. intros u [= <-].
        exact (T t C).
      - intros u [= <-]. destruct (AB t C) as (k & t' & k' & B1 & B2 & B3 & B4 & B5 & B6).
        exists k, t', k'. repeat split; auto; try apply B5; try apply B6.
      - cbn. apply (ctx_path_grew lax h (s_heap s') c path); [apply G|exact (proj2 (proj2 L))|exact CP]. }
    assert (LK : like s s2).
    { unfold like, place, mu. cbn. rewrite C. repeat split. apply GG. }
    split; [exact O2|]. split; [|now apply H2]. destruct LK as (_ & A1 & A2 & _). split; [lia|]. split; [lia|exact GG].
  - destruct H1 as (O' & L & HQ). split; [exact O'|]. split; [eapply onward_trans; eauto|exact HQ].
Qed.
Lemma fin_scoped {A} from (p : prog A) s (Q : A -> pst -> Prop) : ok s ->
  (forall s1, ok s1 -> like s s1 -> fin from p s1 (fun a s2 => forall s3, ok s3 -> like s2 s3 -> Q a s3)) ->
  fin from (Scoped p) s Q.
Proof.
  intros O H. unfold fin. cbn [run].
  destruct (ctx_stack_good lax _ _ _ (ok_sound s O) (ok_path s O)) as (h & m & E & G & Um). rewrite E.
  specialize (H (with_heap h s) (ok_heap s h O G) (like_heap s h G)). unfold fin in H.
  pose proof (onward_heap s h G) as L0.
  destruct (run p (with_heap h s)) as [a s'|e s'| | |] eqn:R; auto; destruct H as (O' & L & HQ);
    (assert (GP : good_step lax (s_heap s') (ctx_restore (s_heap s') (s_ctx s) m)) by
       (apply put_map_good; [now apply ok_sound|]; apply (usable_grew lax h); [exact (proj2 (proj2 L))|exact Um]));
    (split; [now apply ok_heap|]);
    (split; [eapply onward_trans; [eapply onward_trans; eauto|now apply onward_heap]|]).
  - apply HQ; [now apply ok_heap|now apply like_heap].
  - exact HQ.
Qed.
Lemma fin_traced {A} from (p : prog A) s Q : ok s -> fin from p s Q -> fin from (Traced p) s Q.
Proof.
  intros O H. unfold fin in *. cbn [run]. destruct (s_cur s) as [t|] eqn:C; [|left; now apply O].
  destruct (run p s) as [a s'|e s'| | |]; auto; destruct H as (O' & L & HQ);
    (destruct (s_cur s') eqn:C'; [auto|left; now apply O']).
Qed.
Lemma ok_post l s : ok s -> ok (with_post l s).
Proof. intros [P N]. now split. Qed.
Lemma fin_postscope {A} from (p : prog A) s (Q : A -> pst -> Prop) : ok s ->
  (forall s1, ok s1 -> like s s1 -> fin from p s1 (fun a s2 => forall s3, ok s3 -> like s2 s3 -> Q a s3)) ->
  fin from (PostScope p) s Q.
Proof.
  intros O H. unfold fin. cbn [run]. specialize (H (with_post [] s) (ok_post [] s O)). unfold fin in H.
  assert (L0 : like s (with_post [] s)) by (repeat split; auto).
  specialize (H L0).
  destruct (run p (with_post [] s)) as [a s'|e s'| | |]; try exact H; destruct H as (O' & L & HQ).
  split; [now apply ok_post|]. split; [exact L|]. apply HQ; [now apply ok_post|repeat split; auto].
Qed.
Lemma fin_addpost from c n s (Q : unit -> pst -> Prop) : ok s -> (forall s', ok s' -> like s s' -> Q tt s') ->
  fin from (AddPost c n) s Q.
Proof.
  intros O H. unfold fin. cbn [run]. split; [now apply ok_post|]. split; [exact (onward_refl s)|].
  apply H; [now apply ok_post|repeat split; auto].
Qed.
Lemma fin_runpost from s (Q : unit -> pst -> Prop) : ok s -> lax = true -> (forall s', ok s' -> like s s' -> Q tt s') ->
  fin from RunPost s Q.
Proof.
  intros O LX H. unfold fin. cbn [run].
  destruct (run_post_good lax (s_ctx s) path LX (s_post s) (s_heap s) (ok_sound s O) (ok_path s O)) as (h & E & G).
  rewrite E. split; [now apply ok_heap|]. split; [now apply onward_heap|]. apply H; [now apply ok_heap|now apply like_heap].
Qed.

(** A loop whose rounds read something, with an invariant *)
Lemma fin_loop_inv {S A : Type} from (I : S -> pst -> Prop) (Q : A -> pst -> Prop) (body : S -> prog (S + A)) s0 :
  (forall v s, ok s -> place s0 <= place s -> mu s <= mu s0 -> reflen s0 <= reflen s -> I v s ->
     fin from (body v) s (fun r s' => match r with inl v' => I v' s' /\ (lax = true \/ mu s' < mu s) | inr a => Q a s' end)) ->
  forall fuel v s, ok s -> place s0 <= place s -> mu s <= mu s0 -> reflen s0 <= reflen s -> I v s ->
    lax = true \/ mu s < fuel -> fin from (loop fuel body v) s Q.
Proof.
  intros H. induction fuel as [|fuel IH]; intros v s O A1 A2 A3 Iv Fu; cbn [loop].
  - apply fin_nofuel. destruct Fu; [assumption|lia].
  - eapply fin_join; [now apply H|]. intros [v'|a] s' O' B1 B2 B3 HQ.
    + destruct HQ as [Iv' Lt]. apply IH; try assumption; try lia.
    + now apply fin_ret.
Qed.
Lemma fin_loop {S A : Type} from fuel (body : S -> prog (S + A)) v s (Q : A -> pst -> Prop) :
  ok s -> lax = true \/ mu s < fuel ->
  (forall v s1, ok s1 -> place s <= place s1 -> mu s1 <= mu s -> reflen s <= reflen s1 ->
     fin from (body v) s1 (fun r s' => match r with inl _ => lax = true \/ mu s' < mu s1 | inr _ => True end)) ->
  (forall a s', ok s' -> place s <= place s' -> mu s' <= mu s -> reflen s <= reflen s' -> Q a s') ->
  fin from (loop fuel body v) s Q.
Proof.
  intros O Fu H HQ. eapply fin_conseq with (Q0 := fun _ _ => True); [|apply le_n|auto].
  apply (fin_loop_inv from (fun _ _ => True) (fun _ _ => True) body s); auto.
  intros v1 s1 O1 B1 B2 B3 _. eapply fin_conseq; [now apply H|apply le_n|]. cbn. intros [?|?]; auto.
Qed.

End WithUnicode.
