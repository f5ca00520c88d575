(** The identifiers of trees are pieces of the text, in order: facts about the order, and the
    rules for the operations of Prog.v. *)
From Coq Require Import String List NArith Bool Arith Lia.
From Verif Require Import ListUtil Runes Token Tokenizer LexSpec LexShape LexFacts LexMain Ast Ext Heap Classes Prog Parser ParseSpec RunFacts IdSpec.
Import ListNotations.
Local Open Scope list_scope.

(** ** The order *)

Section Order.
Context (text : list rune).

Definition chain := fix chain (l : list mark) (lo hi : nat) {struct l} : Prop :=
  match l with
  | [] => lo <= hi
  | m :: l' => exists mid, mark_order text m lo mid /\ chain l' mid hi
  end.
Lemma chain_order l : forall lo hi, chain l lo hi <-> in_order text lo l hi.
Proof.
  induction l as [|m l IH]; intros lo hi; cbn [chain in_order]; [tauto|].
  split; intros (mid & A & B); exists mid; (split; [exact A|]); now apply IH.
Qed.
Lemma mark_low : forall m lo hi lo', mark_order text m lo hi -> lo' <= lo -> mark_order text m lo' hi.
Proof.
  fix IH 1. intros [i|i|a b] lo hi lo'.
  - clear IH. cbn [mark_order]. intros (x & X & Y) L. exists x. split; [lia|exact Y].
  - clear IH. cbn [mark_order]. intros (x & X & Y) L. exists x. split; [lia|exact Y].
  - change (mark_order text (Either a b)) with (fun lo hi => exists mid, chain a lo mid /\ chain b mid hi \/ chain b lo mid /\ chain a mid hi).
    cbv beta. intros (x & [[X Y]|[X Y]]) L; exists x; [left|right]; (split; [|exact Y]); clear Y.
    + destruct a as [|m a]; cbn [chain] in *; [clear IH; lia|]. destruct X as (y & X & Y). exists y. split; [|exact Y]. exact (IH m lo y lo' X L).
    + destruct b as [|m b]; cbn [chain] in *; [clear IH; lia|]. destruct X as (y & X & Y). exists y. split; [|exact Y]. exact (IH m lo y lo' X L).
Qed.
Lemma order_low l lo hi lo' : in_order text lo l hi -> lo' <= lo -> in_order text lo' l hi.
Proof.
  destruct l as [|m l]; cbn [in_order]; [lia|]. intros (mid & A & B) L. exists mid. split; [|exact B]. eapply mark_low; eauto.
Qed.
Lemma order_app l1 : forall l2 lo hi, in_order text lo (l1 ++ l2) hi <-> exists mid, in_order text lo l1 mid /\ in_order text mid l2 hi.
Proof.
  induction l1 as [|m l1 IH]; intros l2 lo hi; cbn [app in_order].
  - split.
    + intros A. exists lo. auto.
    + intros (mid & A & B). eapply order_low; eauto.
  - split.
    + intros (m1 & A & B). apply IH in B as (m2 & B & C). exists m2. split; [|exact C]. exists m1. auto.
    + intros (m2 & (m1 & A & B) & C). exists m1. split; [exact A|]. apply IH. exists m2. auto.
Qed.
Lemma either_order l1 l2 lo hi : mark_order text (Either l1 l2) lo hi <->
  in_order text lo (l1 ++ l2) hi \/ in_order text lo (l2 ++ l1) hi.
Proof.
  change (mark_order text (Either l1 l2) lo hi) with (exists mid, chain l1 lo mid /\ chain l2 mid hi \/ chain l2 lo mid /\ chain l1 mid hi).
  rewrite !order_app. split.
  - intros (mid & [[A B]|[A B]]); [left|right]; exists mid; now rewrite <- !chain_order.
  - intros [(mid & A & B)|(mid & A & B)]; exists mid; rewrite !chain_order; auto.
Qed.
Lemma mark_le : forall m lo hi, mark_order text m lo hi -> lo <= hi.
Proof.
  fix IH 1. intros [i|i|a b] lo hi.
  - clear IH. cbn [mark_order]. intros (x & X & p & q & _ & _ & _ & Y & _). lia.
  - clear IH. cbn [mark_order]. intros (x & X & _). lia.
  - change (mark_order text (Either a b)) with (fun lo hi => exists mid, chain a lo mid /\ chain b mid hi \/ chain b lo mid /\ chain a mid hi).
    cbv beta.
    assert (A : forall lo hi, chain a lo hi -> lo <= hi).
    { clear lo hi. induction a as [|m a IHa]; intros lo hi; cbn [chain]; [trivial|]. intros (y & X & Y).
      exact (Nat.le_trans _ _ _ (IH m lo y X) (IHa y hi Y)). }
    assert (B : forall lo hi, chain b lo hi -> lo <= hi).
    { clear lo hi A. induction b as [|m b IHb]; intros lo hi; cbn [chain]; [trivial|]. intros (y & X & Y).
      exact (Nat.le_trans _ _ _ (IH m lo y X) (IHb y hi Y)). }
    clear IH. intros (x & [[X Y]|[X Y]]); eauto using Nat.le_trans.
Qed.
Lemma order_le l : forall lo hi, in_order text lo l hi -> lo <= hi.
Proof.
  induction l as [|m l IH]; intros lo hi; cbn [in_order]; [trivial|]. intros (y & X & Y). apply mark_le in X. apply IH in Y. lia.
Qed.
Lemma order_high l : forall lo hi hi', in_order text lo l hi -> hi <= hi' -> in_order text lo l hi' \/ l <> [].
Proof. intros lo hi hi' A L. destruct l; [left; cbn in *; lia|right; discriminate]. Qed.

(** A list with elements left out *)
Inductive subseq : list mark -> list mark -> Prop :=
| ss_nil l : subseq [] l
| ss_take x l l' : subseq l l' -> subseq (x :: l) (x :: l')
| ss_skip x l l' : subseq l l' -> subseq l (x :: l').
Lemma order_sub l l' : subseq l l' -> forall lo hi, in_order text lo l' hi -> exists hi', hi' <= hi /\ in_order text lo l hi'.
Proof.
  induction 1 as [l|x l l' S IH|x l l' S IH]; intros lo hi.
  - intros A. exists lo. split; [now apply order_le in A|cbn; lia].
  - cbn [in_order]. intros (mid & A & B). apply IH in B as (h & L & B). exists h. split; [exact L|]. eauto.
  - cbn [in_order]. intros (mid & A & B). apply mark_le in A. apply IH in B as (h & L & B). exists h. split; [exact L|]. eapply order_low; eauto.
Qed.
End Order.

Lemma subseq_refl l : subseq l l.
Proof. induction l; constructor; auto. Qed.
Lemma subseq_take l l1 l2 : subseq l1 l2 -> subseq (l ++ l1) (l ++ l2).
Proof. induction l; cbn; auto using ss_take. Qed.
Lemma subseq_skip l l1 l2 : subseq l1 l2 -> subseq l1 (l ++ l2).
Proof. induction l; cbn; auto using ss_skip. Qed.
Lemma subseq_end l1 l2 l : subseq l1 l2 -> subseq l1 (l2 ++ l).
Proof. induction 1; cbn; constructor; auto. Qed.

Section WithUnicode.
Context {U : Unicode} {UOK : UnicodeOk U}.

(** ** Programs *)

(** The objects that only the methods of units and programs change *)
Definition same_objs (s s' : pst) : Prop :=
  h_units (s_heap s') = h_units (s_heap s) /\ h_uses (s_heap s') = h_uses (s_heap s) /\ h_progs (s_heap s') = h_progs (s_heap s).
Lemma same_objs_refl s : same_objs s s.
Proof. now repeat split. Qed.
Lemma same_objs_trans s1 s2 s3 : same_objs s1 s2 -> same_objs s2 s3 -> same_objs s1 s3.
Proof. unfold same_objs. intuition congruence. Qed.

(** The elements [G] stand behind [lo] and in front of the current token; or they end with
    the current token, which satisfies [P]. *)
Definition behind (text : list rune) (lo : nat) (s : pst) (G : list mark) (P : token -> Prop) : Prop :=
  exists m, in_order text lo G m /\ (m <= place s \/ exists t, s_cur s = Some t /\ m <= stop_of t /\ P t).
Definition on (ot : option token) (s : pst) : Prop := match ot with Some t => s_cur s = Some t | None => True end.
(** [p], started behind [G] (and on the token [ot], if that is given), ends behind the elements
    [f a] of its result [a]. *)
Definition spelled (G : list mark) (P : token -> Prop) (ot : option token) {A} (F : A -> token -> Prop)
    (p : prog A) (f : A -> list mark) : Prop :=
  forall text lo s, parsing text s -> behind text lo s G P -> on ot s ->
  match run p s with
  | OOk a s' => behind text lo s' (f a) (F a) /\ same_objs s s'
  | _ => True
  end.
Definition none {A} (_ : A) : list mark := [].
Definition nowhere (_ : token) : Prop := False.
(** An identifier *)
Definition wordy (t : token) : Prop := t_type t = Identifier.
Definition never {A} (_ : A) : token -> Prop := nowhere.
Definition maybe {A} (_ : A) : token -> Prop := wordy.

Lemma behind_weak text lo s G (P Q : token -> Prop) : behind text lo s G P -> (forall t, P t -> Q t) -> behind text lo s G Q.
Proof. intros (m & A & B) I. exists m. split; [exact A|]. destruct B as [B|(t & C & D & E)]; [auto|right; eauto]. Qed.
Lemma behind_sub text lo s G G' P : behind text lo s G P -> subseq G' G -> behind text lo s G' P.
Proof.
  intros (m & A & B) S. destruct (order_sub text _ _ S _ _ A) as (m' & L & A'). exists m'. split; [exact A'|].
  destruct B as [B|(t & C & D & E)]; [left; lia|]. right. exists t. repeat split; auto. lia.
Qed.
Lemma token_stands text t : token_of text t -> stands_at text (new_ident t) (start_of t) (stop_of t).
Proof.
  intros T. pose proof (token_order _ _ T) as L. destruct (token_of_fits _ _ T) as (X & pre & post & E & Lp & St & _).
  exists (t_start t), (t_end t). repeat split; auto.
  - rewrite E, !app_length. lia.
  - cbn [new_ident i_name]. unfold raw, slice. now rewrite X.
Qed.
Lemma behind_token text lo s t G : parsing text s -> s_cur s = Some t -> behind text lo s G nowhere ->
  exists m, in_order text lo (G ++ [Fresh (new_ident t)]) m /\ m = stop_of t.
Proof.
  intros [_ H] C (m & A & [B|(u & _ & _ & [])]). exists (stop_of t). split; [|reflexivity].
  apply order_app. exists m. split; [exact A|]. cbn [in_order mark_order]. exists (stop_of t). split; [|lia].
  exists (start_of t). destruct (H t C) as (T & _). split; [|now apply token_stands].
  unfold place in B. now rewrite C in B.
Qed.

Lemma sp_ret {A} G (P : token -> Prop) ot (F : A -> token -> Prop) (a : A) f : subseq (f a) G ->
  match ot with Some t => P t -> F a t | None => forall t, P t -> F a t end -> spelled G P ot F (Ret a) f.
Proof.
  intros S I text lo s H B O. cbn [run]. split; [|apply same_objs_refl].
  destruct (behind_sub _ _ _ _ _ _ B S) as (m & A0 & B0). exists m. split; [exact A0|].
  destruct B0 as [B0|(t & C & D & E)]; [auto|right]. exists t. repeat split; auto. destruct ot as [u|]; [|auto].
  cbn [on] in O. rewrite O in C. injection C as <-. auto.
Qed.
Lemma sp_ret_at {A} G t (F : A -> token -> Prop) (a : A) f : subseq (f a) (G ++ [Fresh (new_ident t)]) -> F a t ->
  spelled G nowhere (Some t) F (Ret a) f.
Proof.
  intros S I text lo s H B O. cbn [run]. split; [|apply same_objs_refl]. cbn [on] in O.
  destruct (behind_token _ _ _ _ _ H O B) as (m & M & ->). destruct (order_sub text _ _ S _ _ M) as (m' & L & A').
  exists m'. split; [exact A'|]. right. eauto.
Qed.
(** The token is not one of those *)
Lemma sp_dead {A} G (P : token -> Prop) t (F : A -> token -> Prop) p f : (P t -> False) -> spelled G nowhere (Some t) F p f ->
  spelled G P (Some t) F p f.
Proof.
  intros N T text lo s H (m & B & C) O. apply T; auto. exists m. split; [exact B|]. left.
  destruct C as [C|(u & C & D & E)]; [exact C|]. cbn [on] in O. rewrite O in C. injection C as <-. now destruct N.
Qed.
Lemma sp_ot {A} G P t (F : A -> token -> Prop) p f : spelled G P None F p f -> spelled G P (Some t) F p f.
Proof. intros T text lo s H B O. apply T; cbn; auto. Qed.
Lemma sp_weak {A} G (P P' : token -> Prop) ot (F F' : A -> token -> Prop) p f : spelled G P ot F p f ->
  (forall t, P' t -> P t) -> (forall a t, F a t -> F' a t) -> spelled G P' ot F' p f.
Proof.
  intros T I J text lo s H B O. specialize (T text lo s H (behind_weak _ _ _ _ _ _ B I) O).
  destruct (run p s) as [a s'| | | |]; auto. destruct T as [T S]. split; [|exact S]. eapply behind_weak; eauto.
Qed.
Lemma sp_bind {A B} G P ot (F : A -> token -> Prop) (F' : B -> token -> Prop) (p : prog A) (k : A -> prog B) f g :
  spelled [] P ot F p f -> (forall a, spelled (G ++ f a) (F a) None F' (k a) g) -> spelled G P ot F' (Bind p k) g.
Proof.
  intros T K text lo s H (m & M & C) O. specialize (T text m s H). cbn [run].
  assert (X : behind text m s [] P) by (exists m; split; [cbn; lia|exact C]).
  specialize (T X O). destruct (run p s) as [a s1| | | |] eqn:E; auto. destruct T as [(m1 & M1 & C1) S1].
  assert (H1 : parsing text s1) by (apply (run_parsing p text s); [exact H|left; eauto]).
  specialize (K a text lo s1 H1). assert (X1 : behind text lo s1 (G ++ f a) (F a)).
  { exists m1. split; [|exact C1]. apply order_app. eauto. }
  specialize (K X1 I). destruct (run (k a) s1) as [b s2| | | |]; auto. destruct K as [K S2].
  split; [exact K|]. eapply same_objs_trans; eauto.
Qed.
Lemma sp_tail {A} G P ot (F F' : A -> token -> Prop) (p : prog A) f g :
  spelled [] P ot F p f -> (forall a, subseq (g a) (G ++ f a)) -> (forall a t, F a t -> F' a t) -> spelled G P ot F' p g.
Proof.
  intros T S I text lo s H B O.
  assert (X : spelled G P ot F' (Bind p (fun a => Ret a)) g).
  { eapply sp_bind; [exact T|]. intros a. apply sp_ret; auto. }
  specialize (X text lo s H B O). cbn [run] in X. destruct (run p s); auto.
Qed.
Lemma sp_bind_ret {A B} G P ot (F : B -> token -> Prop) (a : A) (k : A -> prog B) g : spelled G P ot F (k a) g -> spelled G P ot F (Bind (Ret a) k) g.
Proof. intros T text lo s H B0 O. exact (T text lo s H B0 O). Qed.
Lemma sp_assoc {A B C} G P ot (F : C -> token -> Prop) (p : prog A) (k : A -> prog B) (k' : B -> prog C) g :
  spelled G P ot F (Bind p (fun a => Bind (k a) k')) g -> spelled G P ot F (Bind (Bind p k) k') g.
Proof. intros T text lo s H B0 O. specialize (T text lo s H B0 O). cbn [run] in *. destruct (run p s); exact T. Qed.
Lemma sp_failat {A} G P ot (F : A -> token -> Prop) t f : spelled G P ot F (FailAt t) f.
Proof. intros text lo s H B O. cbn [run]. now destruct (ctx_path _ _). Qed.
Lemma sp_fail {A} G P ot (F : A -> token -> Prop) e f : spelled G P ot F (Fail e) f.
Proof. intros text lo s H B O. exact I. Qed.
Lemma sp_crash {A} G P ot (F : A -> token -> Prop) f : spelled G P ot F Crash f.
Proof. intros text lo s H B O. exact I. Qed.
Lemma sp_nofuel {A} G P ot (F : A -> token -> Prop) f : spelled G P ot F NoFuel f.
Proof. intros text lo s H B O. exact I. Qed.
Lemma sp_bind_failat {A B} G P ot (F : B -> token -> Prop) t (k : A -> prog B) f : spelled G P ot F (Bind (FailAt t) k) f.
Proof. intros text lo s H B0 O. cbn [run]. now destruct (ctx_path _ _). Qed.
Lemma sp_bind_fail {A B} G P ot (F : B -> token -> Prop) e (k : A -> prog B) f : spelled G P ot F (Bind (Fail e) k) f.
Proof. intros text lo s H B0 O. exact I. Qed.
Lemma sp_bind_crash {A B} G P ot (F : B -> token -> Prop) (k : A -> prog B) f : spelled G P ot F (Bind Crash k) f.
Proof. intros text lo s H B0 O. exact I. Qed.

(** ** Tokens *)

Definition grown (G : list mark) (ot : option token) : list mark :=
  match ot with Some t => G ++ [Fresh (new_ident t)] | None => G end.
Lemma next_behind text lo s G (P : token -> Prop) o s' : parsing text s -> behind text lo s G P -> run Next s = OOk o s' ->
  behind text lo s' G nowhere /\ same_objs s s' /\ s_cur s' = o /\ forall t, s_cur s = Some t -> stop_of t <= place s'.
Proof.
  intros [[H _] HC] (m & M & C) E. cbn [run] in E. unfold next_token in E.
  assert (L : m <= c_index (tk_cur (s_tok s)) /\ forall t, s_cur s = Some t -> stop_of t <= c_index (tk_cur (s_tok s))).
  { split; [|intros t T; now apply HC].
    unfold place in C. destruct (s_cur s) as [u|].
    - destruct (HC u eq_refl) as (T & Lu & _). pose proof (token_order _ _ T). destruct C as [C|(v & [= <-] & C & _)]; lia.
    - destruct C as [C|(v & D & _)]; [exact C|discriminate]. }
  destruct L as [L1 L2].
  destruct (get_next (s_tok s)) as [t k|k|] eqn:Gn; try discriminate; injection E as <- <-; unfold place; cbn [s_cur s_tok].
  - destruct (getnext_advances text _ _ _ H Gn) as (X & _). repeat split.
    + exists m. split; [exact M|]. left. unfold place. cbn [s_cur]. lia.
    + intros u Cu. apply L2 in Cu. lia.
  - pose proof (get_next_nil_index _ _ _ H Gn) as X. repeat split.
    + exists m. split; [exact M|]. left. unfold place. cbn [s_cur s_tok]. lia.
    + intros u Cu. apply L2 in Cu. lia.
Qed.
Lemma next_grown text lo s G (P : token -> Prop) ot o s' : parsing text s -> behind text lo s G P -> on ot s ->
  match ot with Some t => P t -> False | None => True end -> run Next s = OOk o s' ->
  behind text lo s' (grown G ot) nowhere.
Proof.
  intros H B O N E. destruct (next_behind _ _ _ _ _ _ _ H B E) as (X & _ & _ & Y). destruct ot as [t|]; [|exact X].
  cbn [on grown] in *. assert (B' : behind text lo s G nowhere).
  { destruct B as (m & M & C). exists m. split; [exact M|]. destruct C as [C|(u & C & D & F)]; [auto|].
    rewrite O in C. injection C as <-. now destruct N. }
  destruct (behind_token _ _ _ _ _ H O B') as (m & M & ->). exists (stop_of t). split; [exact M|]. left. now apply Y.
Qed.
Lemma sp_next {B} G (P : token -> Prop) ot (F : B -> token -> Prop) (k : option token -> prog B) g :
  match ot with Some t => P t -> False | None => True end ->
  (forall t, spelled (grown G ot) nowhere (Some t) F (k (Some t)) g) ->
  spelled (grown G ot) nowhere None F (k None) g -> spelled G P ot F (Bind Next k) g.
Proof.
  intros N K1 K2 text lo s H B0 O.
  destruct (run Next s) as [o s1| | | |] eqn:E; cbn [run] in E |- *; rewrite E; auto.
  assert (H1 : parsing text s1) by (apply (run_parsing Next text s); [exact H|left; eauto]).
  pose proof (next_grown _ _ _ _ _ _ _ _ H B0 O N E) as X. destruct (next_behind _ _ _ _ _ _ _ H B0 E) as (_ & S & C & _).
  assert (Y : match run (k o) s1 with OOk a s' => behind text lo s' (g a) (F a) /\ same_objs s1 s' | _ => True end).
  { destruct o as [t|]; [apply (K1 t)|apply K2]; auto. exact I. }
  destruct (run (k o) s1); auto. destruct Y as [Y Z]. split; [exact Y|]. eapply same_objs_trans; eauto.
Qed.
(** The same, when the token may be one of those *)
Lemma sp_next_any {B} G P ot (F : B -> token -> Prop) (k : option token -> prog B) g :
  (forall t, spelled G nowhere (Some t) F (k (Some t)) g) ->
  spelled G nowhere None F (k None) g -> spelled G P ot F (Bind Next k) g.
Proof.
  intros K1 K2 text lo s H B0 O. apply (sp_next G P None F k g I K1 K2 text lo s H B0 I).
Qed.
Lemma sp_Cur {B} G P ot (F : B -> token -> Prop) (k : option token -> prog B) g :
  (forall t, ot = Some t \/ ot = None -> spelled G P (Some t) F (k (Some t)) g) -> spelled G P None F (k None) g ->
  spelled G P ot F (Bind Cur k) g.
Proof.
  intros K1 K2 text lo s H B0 O. cbn [run]. destruct (s_cur s) as [t|] eqn:C.
  - apply K1; auto. destruct ot; [left|auto]. cbn [on] in O. congruence.
  - apply K2; cbn; auto.
Qed.
Lemma sp_cur {B} G P (F : B -> token -> Prop) (k : token -> prog B) g :
  (forall t, spelled G P (Some t) F (k t) g) -> spelled G P None F (Bind cur k) g.
Proof. intros K. unfold cur. apply sp_assoc, sp_Cur; [intros t _; apply sp_bind_ret, K|apply sp_bind_crash]. Qed.
Lemma sp_cur_on {B} G P t (F : B -> token -> Prop) (k : token -> prog B) g :
  spelled G P (Some t) F (k t) g -> spelled G P (Some t) F (Bind cur k) g.
Proof. intros K. unfold cur. apply sp_assoc, sp_Cur; [|apply sp_bind_crash]. intros u [[= <-]|E]; [now apply sp_bind_ret|discriminate]. Qed.
Lemma sp_is {B} G P (F : B -> token -> Prop) pred (k : bool -> prog B) g :
  (forall t, spelled G P (Some t) F (k (pred t)) g) -> spelled G P None F (Bind (is pred) k) g.
Proof. intros K. unfold is. apply sp_assoc, sp_cur. intros t. apply sp_bind_ret, K. Qed.
Lemma sp_is_on {B} G P t (F : B -> token -> Prop) pred (k : bool -> prog B) g :
  spelled G P (Some t) F (k (pred t)) g -> spelled G P (Some t) F (Bind (is pred) k) g.
Proof. intros K. unfold is. now apply sp_assoc, sp_cur_on, sp_bind_ret. Qed.
Lemma sp_validate {B} G P t (F : B -> token -> Prop) pred (k : token -> prog B) g :
  (pred t = true -> spelled G P (Some t) F (k t) g) -> spelled G P (Some t) F (Bind (validate (Some t) pred) k) g.
Proof. intros K. cbn [validate]. destruct (pred t); [apply sp_bind_ret; auto|apply sp_bind_failat]. Qed.
Lemma sp_expect {B} G P (F : B -> token -> Prop) pred (k : token -> prog B) g :
  (forall t, pred t = true -> spelled G P (Some t) F (k t) g) -> spelled G P None F (Bind (expect pred) k) g.
Proof. intros K. unfold expect. apply sp_assoc, sp_Cur; [|apply sp_bind_fail]. intros t _. apply sp_validate; auto. Qed.
Lemma sp_expect_on {B} G P t (F : B -> token -> Prop) pred (k : token -> prog B) g :
  (pred t = true -> spelled G P (Some t) F (k t) g) -> spelled G P (Some t) F (Bind (expect pred) k) g.
Proof.
  intros K. unfold expect. apply sp_assoc, sp_Cur; [|apply sp_bind_fail]. intros u [[= <-]|E]; [|discriminate]. apply sp_validate; auto.
Qed.
Lemma sp_expect_or_fail {B} G P (F : B -> token -> Prop) pred (k : token -> prog B) g :
  (forall t, pred t = true -> spelled G P (Some t) F (k t) g) -> spelled G P None F (Bind (expect_or_fail pred) k) g.
Proof.
  intros K. unfold expect_or_fail. apply sp_assoc, sp_cur. intros t. specialize (K t).
  destruct (pred t); [apply sp_bind_ret; auto|apply sp_bind_failat].
Qed.
Lemma sp_expect_or_fail_on {B} G P t (F : B -> token -> Prop) pred (k : token -> prog B) g :
  (pred t = true -> spelled G P (Some t) F (k t) g) -> spelled G P (Some t) F (Bind (expect_or_fail pred) k) g.
Proof.
  intros K. unfold expect_or_fail. apply sp_assoc, sp_cur_on.
  destruct (pred t); [apply sp_bind_ret; auto|apply sp_bind_failat].
Qed.
(** What is known of the token before going on *)
Definition passable (P : token -> Prop) (ot : option token) : Prop :=
  match ot with Some t => P t -> False | None => True end.
Lemma sp_nexttok {B} G P ot (F : B -> token -> Prop) (k : token -> prog B) g : passable P ot ->
  (forall t, spelled (grown G ot) nowhere (Some t) F (k t) g) -> spelled G P ot F (Bind next k) g.
Proof. intros N K. unfold next. apply sp_assoc, sp_next; [exact N|intros t; apply sp_bind_ret, K|apply sp_bind_crash]. Qed.
Lemma sp_expect_next {B} G P ot (F : B -> token -> Prop) pred (k : token -> prog B) g : passable P ot ->
  (forall t, pred t = true -> spelled (grown G ot) nowhere (Some t) F (k t) g) -> spelled G P ot F (Bind (expect_next pred) k) g.
Proof.
  intros N K. unfold expect_next. apply sp_assoc, sp_next; [exact N| |apply sp_bind_fail]. intros t. apply sp_validate; auto.
Qed.
Lemma sp_skip {B} G P ot (F : B -> token -> Prop) (k : prog B) g : passable P ot ->
  spelled (grown G ot) nowhere None F k g -> spelled G P ot F (Bind Next (fun _ => k)) g.
Proof. intros N K. apply sp_next; [exact N| |exact K]. intros t. now apply sp_ot. Qed.
Lemma sp_forget {A} G P t (F : A -> token -> Prop) p f : spelled G P None F p f -> spelled G P (Some t) F p f.
Proof. apply sp_ot. Qed.

(** ** Operations on the heap *)

Definition still {A} (p : prog A) : Prop := forall s a s', run p s = OOk a s' ->
  s_tok s' = s_tok s /\ s_cur s' = s_cur s /\ same_objs s s'.
Lemma still_behind text lo s s' G P : s_tok s' = s_tok s -> s_cur s' = s_cur s -> behind text lo s G P -> behind text lo s' G P.
Proof. intros T C (m & M & D). exists m. split; [exact M|]. unfold place in *. now rewrite T, C. Qed.
Lemma sp_still {A B} G P ot (F : B -> token -> Prop) (p : prog A) (k : A -> prog B) g :
  still p -> (forall a, spelled G P ot F (k a) g) -> spelled G P ot F (Bind p k) g.
Proof.
  intros S K text lo s H B0 O. cbn [run]. destruct (run p s) as [a s1| | | |] eqn:E; auto.
  destruct (S _ _ _ E) as (T & C & M). specialize (K a text lo s1).
  assert (H1 : parsing text s1) by (apply (run_parsing p text s); [exact H|left; eauto]).
  assert (O1 : on ot s1) by (destruct ot; cbn [on] in *; congruence).
  specialize (K H1 (still_behind _ _ _ _ _ _ T C B0) O1). destruct (run (k a) s1); auto. destruct K as [K M2].
  split; [exact K|]. eapply same_objs_trans; eauto.
Qed.
Lemma still_ret {A} (a : A) : still (Ret a).
Proof. intros s b s' [= _ <-]. auto using same_objs_refl. Qed.
Lemma still_bind {A B} (p : prog A) (k : A -> prog B) : still p -> (forall a, still (k a)) -> still (Bind p k).
Proof.
  intros S K s b s' E. cbn [run] in E. destruct (run p s) as [a s1| | | |] eqn:E1; try discriminate.
  destruct (S _ _ _ E1) as (T1 & C1 & M1). destruct (K _ _ _ _ E) as (T2 & C2 & M2).
  split; [congruence|]. split; [congruence|]. eapply same_objs_trans; eauto.
Qed.
Lemma still_fail {A} e : still (A := A) (Fail e).
Proof. intros s b s' E. discriminate. Qed.
Definition calm {A} (f : nat -> heap -> hres A) : Prop := forall c h a h', f c h = HOk a h' ->
  h_units h' = h_units h /\ h_uses h' = h_uses h /\ h_progs h' = h_progs h.
Lemma still_heap {A} (f : nat -> heap -> hres A) : calm f -> still (OnHeap f).
Proof.
  intros K s a s' E. cbn [run] in E. destruct (f (s_ctx s) (s_heap s)) as [b h|e h| |] eqn:X; try discriminate.
  injection E as <- <-. split; [reflexivity|]. split; [reflexivity|]. exact (K _ _ _ _ X).
Qed.
Lemma still_get n : still (get n).
Proof. apply still_heap. intros c h a h'. destruct (ctx_get h c n); try discriminate; intros [= _ <-]; auto. Qed.
Lemma still_node d : still (node_of d).
Proof. apply still_heap. intros c h a h'. destruct (deref h d); try discriminate; intros [= _ <-]; auto. Qed.
Lemma still_get_node n : still (get_node n).
Proof.
  apply still_bind; [apply still_get|]. intros [d|]; [|apply still_ret].
  apply still_bind; [apply still_node|]. intros x. apply still_ret.
Qed.
Lemma impl_set_objs a : forall ds h, match impl_set h a ds with SOk h' | SErr h' _ =>
  h_units h' = h_units h /\ h_uses h' = h_uses h /\ h_progs h' = h_progs h | SPanic => True end.
Proof.
  induction ds as [|[i d] ds IH]; intros h; cbn [impl_set]; [auto|].
  destruct (nth_error (h_maps h) a) as [m|]; [|exact I].
  destruct (mget (regularize (i_name i)) m) as [[old|]|]; [|exact I|].
  - destruct (i_loc i); [|exact I]. destruct (option_map _ _) as [[?|]|]; auto.
  - specialize (IH (with_maps (set_nth a (mput (regularize (i_name i)) (Some d) m) (h_maps h)) h)). exact IH.
Qed.
Lemma dset_objs h ds : forall m, match dset h m ds with SOk h' | SErr h' _ =>
  h_units h' = h_units h /\ h_uses h' = h_uses h /\ h_progs h' = h_progs h | SPanic => True end.
Proof.
  fix IH 1. intros [a|p a|[|m ms]| |]; cbn [dset].
  - apply impl_set_objs.
  - apply impl_set_objs.
  - exact I.
  - apply IH.
  - auto.
  - exact I.
Qed.
Lemma map_set_objs h m ds : match map_set h m ds with SOk h' | SErr h' _ =>
  h_units h' = h_units h /\ h_uses h' = h_uses h /\ h_progs h' = h_progs h | SPanic => True end.
Proof. unfold map_set, alloc_decls. cbv beta iota zeta. apply (dset_objs (with_decls (h_decls h ++ ds) h)). Qed.
Lemma ctx_set_objs h c ds : match ctx_set h c ds with SOk h' | SErr h' _ =>
  h_units h' = h_units h /\ h_uses h' = h_uses h /\ h_progs h' = h_progs h | SPanic => True end.
Proof. unfold ctx_set. destruct (nth_error _ _); [apply map_set_objs|exact I]. Qed.
Lemma doverwrite_objs h n d h' : forall m, doverwrite h m n d = Some h' ->
  h_units h' = h_units h /\ h_uses h' = h_uses h /\ h_progs h' = h_progs h.
Proof.
  assert (O : forall a, impl_overwrite h a n d = Some h' -> h_units h' = h_units h /\ h_uses h' = h_uses h /\ h_progs h' = h_progs h).
  { intros a. unfold impl_overwrite. destruct (nth_error _ _) as [m|]; [|discriminate]. intros [= <-]. auto. }
  fix IH 1. intros [a|p a|[|m ms]| |]; cbn [doverwrite]; try discriminate.
  - apply O.
  - apply O.
  - apply IH.
  - clear IH. intros [= <-]. auto.
Qed.
Lemma ctx_overwrite_objs c h n d h' : ctx_overwrite h c n d = Some h' ->
  h_units h' = h_units h /\ h_uses h' = h_uses h /\ h_progs h' = h_progs h.
Proof. unfold ctx_overwrite. destruct (nth_error _ _); [|discriminate]. apply doverwrite_objs. Qed.
Lemma still_set ds : still (set ds).
Proof.
  apply still_heap. intros c h a h'. pose proof (ctx_set_objs h c ds) as X. destruct (ctx_set h c ds); try discriminate. intros [= _ <-]. exact X.
Qed.
Lemma still_addpost c n : still (AddPost c n).
Proof. intros s a s' [= _ <-]. repeat split. Qed.
Lemma run_post_objs c : forall l h h', run_post c l h = Some h' ->
  h_units h' = h_units h /\ h_uses h' = h_uses h /\ h_progs h' = h_progs h.
Proof.
  induction l as [|[k n] l IH]; intros h h'; cbn [run_post].
  - intros [= <-]. auto.
  - destruct (ctx_get h c n) as [|d|]; [apply IH| |discriminate]. intros R. apply IH in R. exact R.
Qed.
Lemma still_runpost : still RunPost.
Proof.
  intros s a s' E. cbn [run] in E. destruct (run_post _ _ _) as [h|] eqn:X; [|discriminate]. injection E as _ <-.
  split; [reflexivity|]. split; [reflexivity|]. exact (run_post_objs _ _ _ _ X).
Qed.
Lemma still_uses_item_unit a : still (uses_item_unit a).
Proof. apply still_heap. intros c h x h'. destruct (nth_error _ _); try discriminate. intros [= _ <-]. auto. Qed.
Lemma still_unit_get a n : still (unit_get a n).
Proof.
  apply still_heap. intros c h x h'. destruct (nth_error _ _); try discriminate. destruct (dget _ _ _); try discriminate; intros [= _ <-]; auto.
Qed.
Lemma still_program_get a n : still (program_get a n).
Proof.
  apply still_heap. intros c h x h'. destruct (nth_error _ _); try discriminate. destruct (dget _ _ _); try discriminate; intros [= _ <-]; auto.
Qed.
Lemma still_find_member R her mem n : still (find_member_decl R her mem n).
Proof.
  apply still_heap. intros c h x h'. destruct (find_member _ _ _ _ _ _) as [[d|]|]; try discriminate; intros [= _ <-]; auto.
Qed.
Lemma still_unit_identifier t : still (is_unit_identifier t).
Proof. apply still_bind; [apply still_get_node|]. intros; apply still_ret. Qed.
Lemma still_namespace_identifier t : still (is_namespace_identifier t).
Proof. apply still_bind; [apply still_get_node|]. intros; apply still_ret. Qed.
Lemma still_declare_type i ty : still (declare_type i ty).
Proof.
  apply still_bind; [apply still_get_node|]. intros [[d nd]|]; [|apply still_set].
  destruct nd as [t'| | | | | | | | | | | | | | |]; try apply still_fail. destruct t'; try apply still_fail. destruct ty; try apply still_fail.
  apply still_heap. intros c h x h'. cbv zeta.
  match goal with |- context [ctx_overwrite ?a ?b ?e ?f] => destruct (ctx_overwrite a b e f) as [h3|] eqn:E end; [|discriminate]. intros [= _ <-].
  apply ctx_overwrite_objs in E. exact E.
Qed.
Lemma sp_type_id {B} G P ot (F : B -> token -> Prop) u i d (k : typeid -> prog B) g :
  (forall n, spelled G P ot F (k (mkTypeId u i n)) g) -> spelled G P ot F (Bind (new_type_id u i d) k) g.
Proof.
  intros K text lo s H B0 O. cbn [run new_type_id]. specialize (K (length (h_refs (s_heap s))) text lo
    (with_heap (with_refs (h_refs (s_heap s) ++ [d]) (s_heap s)) s) H B0 O).
  destruct (run (k _) _); auto.
Qed.

(** ** Scopes *)

Lemma put_map_objs h c m : h_units (ctx_put_map h c m) = h_units h /\ h_uses (ctx_put_map h c m) = h_uses h /\ h_progs (ctx_put_map h c m) = h_progs h.
Proof. unfold ctx_put_map. now destruct (nth_error _ _). Qed.
Lemma sp_scoped {A} G P ot (F : A -> token -> Prop) (p : prog A) f : spelled G P ot F p f -> spelled G P ot F (Scoped p) f.
Proof.
  intros T text lo s H B O. cbn [run]. destruct (ctx_stack (s_heap s) (s_ctx s)) as [[h b]|] eqn:E; [|exact I].
  specialize (T text lo (with_heap h s) H B O). destruct (run p (with_heap h s)) as [a s1| | | |]; auto. destruct T as [T M].
  split; [exact T|].
  assert (X : h_units h = h_units (s_heap s) /\ h_uses h = h_uses (s_heap s) /\ h_progs h = h_progs (s_heap s)).
  { unfold ctx_stack, new_chained, new_map in E. destruct (nth_error _ _); [|discriminate]. cbn in E. injection E as <- _. apply (put_map_objs (with_maps _ (s_heap s))). }
  destruct M as (M1 & M2 & M3). unfold same_objs. cbn [s_heap with_heap] in *. unfold ctx_restore.
  destruct (put_map_objs (s_heap s1) (s_ctx s) b) as (N1 & N2 & N3). intuition congruence.
Qed.
Lemma sp_traced {A} G P ot (F : A -> token -> Prop) (p : prog A) f : spelled G P ot F p f -> spelled G P ot F (Traced p) f.
Proof.
  intros T text lo s H B O. cbn [run]. specialize (T text lo s H B O). destruct (s_cur s); [|exact I].
  destruct (run p s) as [a s1|e s1| | |]; auto; destruct (s_cur s1); auto.
Qed.
Lemma sp_postscope {A} G P ot (F : A -> token -> Prop) (p : prog A) f : spelled G P ot F p f -> spelled G P ot F (PostScope p) f.
Proof.
  intros T text lo s H B O. cbn [run]. specialize (T text lo (with_post [] s) H B O).
  destruct (run p (with_post [] s)) as [a s1| | | |]; auto.
Qed.
Lemma sp_attempt {B} (P : token -> Prop) ot (F : option B -> token -> Prop) (p : prog (option B)) f : (forall t, P t -> F None t) ->
  spelled [] P ot F p (opt f) -> spelled [] P ot F (Attempt p) (opt f).
Proof.
  intros N T text lo s H B0 O. cbn [run]. destruct (s_cur s) as [t|] eqn:C; [|exact I].
  destruct (ctx_clone (s_heap s) (s_ctx s)) as [[h c]|] eqn:CC; [|exact I].
  assert (X : h_units h = h_units (s_heap s) /\ h_uses h = h_uses (s_heap s) /\ h_progs h = h_progs (s_heap s)).
  { unfold ctx_clone in CC. destruct (nth_error _ _); [|discriminate]. injection CC as <- _. auto. }
  specialize (T text lo (with_heap h s) H B0 O). destruct (run p (with_heap h s)) as [[b|] s1| | | |]; auto; destruct T as [T M].
  - split; [exact T|]. unfold same_objs in *. cbn [s_heap with_heap] in M. intuition congruence.
  - split.
    + cbn [opt]. apply (behind_weak _ _ _ _ P); [|exact N]. rewrite token_clone_eq. destruct B0 as (m & M0 & D).
      exists m. split; [exact M0|]. unfold place in *. cbn [s_cur] in *. now rewrite C in D.
    + unfold same_objs in *. cbn [s_heap with_heap] in *. intuition congruence.
Qed.

(** ** Loops *)

Lemma sp_loop {S A} (f : S -> list mark) (g : A -> list mark) (Q : token -> Prop) (F : A -> token -> Prop) (body : S -> prog (S + A)) :
  (forall x, spelled (f x) Q None (fun r => match r with inl _ => Q | inr a => F a end) (body x)
                     (fun r => match r with inl y => f y | inr a => g a end)) ->
  forall n x, spelled (f x) Q None F (loop n body x) g.
Proof.
  intros Bd. induction n as [|n IH]; intros x; cbn [loop]; [apply sp_nofuel|].
  intros text lo s H B O. cbn [run]. specialize (Bd x text lo s H B O). destruct (run (body x) s) as [r s1| | | |] eqn:E; auto.
  assert (H1 : parsing text s1) by (apply (run_parsing (body x) text s); [exact H|left; eauto]).
  destruct Bd as [B1 M1]. destruct r as [y|a].
  - specialize (IH y text lo s1 H1 B1 I). destruct (run (loop n body y) s1); auto. destruct IH as [IH M2].
    split; [exact IH|]. eapply same_objs_trans; eauto.
  - cbn [run]. auto.
Qed.
Lemma sp_loop0 {S A} (f : S -> list mark) (g : A -> list mark) (Q : token -> Prop) (F : A -> token -> Prop) (body : S -> prog (S + A)) n x :
  (forall x, spelled (f x) Q None (fun r => match r with inl _ => Q | inr a => F a end) (body x)
                     (fun r => match r with inl y => f y | inr a => g a end)) ->
  f x = [] -> spelled [] Q None F (loop n body x) g.
Proof. intros Bd E. rewrite <- E. now apply sp_loop. Qed.
(** Lists with separators, which end the doubt about the last token *)
Lemma sp_until {S} (f : S -> list mark) (Q E : token -> Prop) term sep (fn : S -> prog (option S)) n x :
  (forall t, sep t = true -> E t -> False) ->
  (forall x, spelled (f x) Q None (fun _ => E) (fn x) (fun o => match o with Some y => f y | None => f x end)) ->
  spelled (f x) Q None (fun _ => E) (until n term (Some sep) fn x) f.
Proof.
  intros K Fn. apply sp_loop. clear x. intros x. unfold until_step.
  intros text lo s H B O. cbn [run]. specialize (Fn x text lo s H B O). destruct (run (fn x) s) as [r s1| | | |] eqn:R; auto.
  assert (H1 : parsing text s1) by (apply (run_parsing (fn x) text s); [exact H|left; eauto]).
  destruct Fn as [B1 M1]. destruct r as [y|].
  - cbn [run]. destruct (s_cur s1) as [t|] eqn:C; [|exact I].
    destruct (term t); [cbn [run]; auto|]. cbn [validate]. destruct (sep t) eqn:St.
    + assert (T : spelled (f y) E (Some t) (fun r : S + S => match r with inl _ => Q | inr a => E end)
        (Bind Next (fun _ => Ret (inl y))) (fun r => match r with inl y => f y | inr a => f a end)).
      { apply sp_dead; [now apply K|]. apply sp_skip; [intros []|]. apply sp_ret; [|intros ? []]. apply subseq_end, subseq_refl. }
      specialize (T text lo s1 H1 B1 C). cbn [run] in *. destruct (next_token s1); auto. destruct T as [T M].
      split; [exact T|]. eapply same_objs_trans; eauto.
    + cbn [run]. now destruct (ctx_path _ _).
  - cbn [run]. auto.
Qed.
Lemma sp_until0 {S} (f : S -> list mark) (Q E : token -> Prop) term sep (fn : S -> prog (option S)) n x :
  (forall t, sep t = true -> E t -> False) ->
  (forall x, spelled (f x) Q None (fun _ => E) (fn x) (fun o => match o with Some y => f y | None => f x end)) ->
  f x = [] -> spelled [] Q None (fun _ => E) (until n term (Some sep) fn x) f.
Proof. intros K Fn X. rewrite <- X. now apply sp_until. Qed.
Lemma sp_list {A} (f : A -> list mark) (E : token -> Prop) term sep (p : prog A) n :
  (forall t, sep t = true -> E t -> False) -> spelled [] nowhere None (fun _ => E) p f ->
  spelled [] nowhere None (fun _ => E) (until_list n term (Some sep) p) (flat_map f).
Proof.
  intros K T. apply sp_until0; [exact K| |reflexivity]. intros l. unfold append_with.
  eapply sp_bind; [exact T|]. intros a. apply sp_ret; [|auto]. rewrite flat_map_app. cbn [flat_map]. rewrite app_nil_r. apply subseq_refl.
Qed.
(** Lists without *)
Lemma sp_until_none {S} (f : S -> list mark) (E F : token -> Prop) term (fn : S -> prog (option S)) n x :
  (forall t, term t = true -> E t -> F t) ->
  (forall x, spelled (f x) E None (fun o => match o with Some _ => E | None => F end) (fn x) (fun o => match o with Some y => f y | None => f x end)) ->
  spelled (f x) E None (fun _ => F) (until n term None fn x) f.
Proof.
  intros K Fn. apply sp_loop. clear x. intros x. unfold until_step.
  intros text lo s H B O. cbn [run]. specialize (Fn x text lo s H B O). destruct (run (fn x) s) as [r s1| | | |] eqn:R; auto.
  destruct Fn as [B1 M1]. destruct r as [y|].
  - cbn [run]. destruct (s_cur s1) as [t|] eqn:C; [|exact I].
    destruct (term t) eqn:Tt; cbn [run]; [|auto]. split; [|exact M1]. destruct B1 as (m & M & D). exists m. split; [exact M|].
    destruct D as [D|(u & D1 & D2 & D3)]; [auto|right]. exists u. repeat split; auto. rewrite C in D1. injection D1 as <-. auto.
  - cbn [run]. auto.
Qed.
Lemma sp_until_none0 {S} (f : S -> list mark) (E F : token -> Prop) term (fn : S -> prog (option S)) n x :
  (forall t, term t = true -> E t -> F t) ->
  (forall x, spelled (f x) E None (fun o => match o with Some _ => E | None => F end) (fn x) (fun o => match o with Some y => f y | None => f x end)) ->
  f x = [] -> spelled [] E None (fun _ => F) (until n term None fn x) f.
Proof. intros K Fn X. rewrite <- X. now apply sp_until_none. Qed.

(** A token that may have been read before *)
Lemma sp_next_again {B} G P t (F : B -> token -> Prop) (k : prog B) g : 
  spelled (G ++ [Again (new_ident t)]) nowhere None F k g -> spelled G P (Some t) F (Bind Next (fun _ => k)) g.
Proof.
  intros K text lo s H B0 O.
  destruct (run Next s) as [o s1| | | |] eqn:E; cbn [run] in E |- *; rewrite E; auto.
  assert (H1 : parsing text s1) by (apply (run_parsing Next text s); [exact H|left; eauto]).
  destruct (next_behind _ _ _ _ _ _ _ H B0 E) as (_ & S & C & Y). cbn [on] in O. specialize (Y t O).
  destruct (proj2 H t O) as (T & _). pose proof (token_stands _ _ T) as St.
  assert (X : behind text lo s1 (G ++ [Again (new_ident t)]) nowhere).
  { destruct B0 as (m & M & D). exists (stop_of t). split; [|left; exact Y]. apply order_app. exists m. split; [exact M|].
    cbn [in_order mark_order]. exists (stop_of t). split; [|lia]. exists (start_of t). split; [|exact St].
    pose proof (token_order _ _ T). unfold place in D. rewrite O in D. destruct D as [D|(u & [= <-] & D & _)]; lia. }
  specialize (K text lo s1 H1 X I). destruct (run k s1); auto. destruct K as [K M]. split; [exact K|]. eapply same_objs_trans; eauto.
Qed.
Lemma sp_nexttok_again {B} G P t (F : B -> token -> Prop) pred (k : token -> prog B) g : 
  (forall t', pred t' = true -> spelled (G ++ [Again (new_ident t)]) nowhere (Some t') F (k t') g) -> spelled G P (Some t) F (Bind (expect_next pred) k) g.
Proof.
  intros K text lo s H B0 O.
  assert (X : spelled G P (Some t) F (Bind Next (fun _ => Bind Cur (fun o => Bind (validate o pred) k))) g).
  { apply sp_next_again. apply sp_Cur; [|apply sp_bind_fail]. intros u _. apply sp_validate; auto. }
  specialize (X text lo s H B0 O). unfold expect_next. cbn [run] in *. unfold next_token in *.
  destruct (get_next (s_tok s)); cbn [s_cur] in *; exact X.
Qed.

(** ** Tokens that are no identifiers *)

Lemma kw_not_wordy w t : kw w t = true -> wordy t -> False.
Proof. unfold kw, p_keyword, wordy. intros E W. rewrite W in E. discriminate. Qed.
Lemma sym_not_wordy w t : sym w t = true -> wordy t -> False.
Proof. unfold sym, p_symbol, wordy. intros E W. rewrite W in E. discriminate. Qed.
Lemma type_not_wordy ty t : p_type ty t = true -> ty <> Identifier -> wordy t -> False.
Proof. unfold p_type, wordy. intros E N W. rewrite W in E. destruct ty; try discriminate. now apply N. Qed.

Lemma type_wordy t : p_type Identifier t = true -> wordy t.
Proof. unfold p_type, wordy. now destruct (t_type t). Qed.
Lemma syms_not_wordy a b t : p_some [sym a; sym b] t = true -> wordy t -> False.
Proof.
  cbn [p_some]. intros E W. destruct (sym a t) eqn:A; [eapply sym_not_wordy; eauto|]. destruct (sym b t) eqn:B; [eapply sym_not_wordy; eauto|discriminate].
Qed.
Lemma i_new_fwd : spelled [] nowhere None never (OnHeap (fun _ h => HOk (TFwdClass (length (h_fwds h))) (with_fwds (h_fwds h ++ [None]) h))) typ_i.
Proof. intros text lo s H B O. cbn [run]. split; [exact B|now repeat split]. Qed.
(** Two pieces in one order or the other *)
Lemma sp_either {A} (G D X B : list mark) f (b : A) : f b = D ++ [Either X B] -> subseq (D ++ X ++ B) G \/ subseq (D ++ B ++ X) G ->
  spelled G nowhere None never (Ret b) f.
Proof.
  intros E S text lo s H (m & M & C) _. cbn [run]. split; [|apply same_objs_refl]. rewrite E.
  assert (Z : forall c d, (c, d) = (X, B) \/ (c, d) = (B, X) -> subseq (D ++ c ++ d) G -> behind text lo s (D ++ [Either X B]) (never b)).
  { intros c d W S1. destruct (order_sub text _ _ S1 _ _ M) as (m' & L & A1). exists m'. split.
    - apply order_app in A1 as (y & A1 & A2). apply order_app. exists y. split; [exact A1|].
      cbn [in_order]. exists m'. split; [|lia]. apply either_order. destruct W as [[= -> ->]|[= -> ->]]; auto.
    - destruct C as [C|(t & _ & _ & [])]. left. lia. }
  destruct S as [S|S]; [apply (Z X B)|apply (Z B X)]; auto.
Qed.
(** Tokens that end the properties of a class *)
Definition broken (t : token) : Prop := wordy t /\ property_break t = true.
Lemma broken_kw w t : kw w t = true -> broken t -> False.
Proof. intros K [W _]. eapply kw_not_wordy; eauto. Qed.
Lemma broken_words t : upper_eq t "PRIVATE" = false -> upper_eq t "PROTECTED" = false -> upper_eq t "PUBLIC" = false ->
  upper_eq t "PUBLISHED" = false -> broken t -> False.
Proof.
  intros A B C D [W E]. unfold property_break, visibility_break, p_some in E. cbn [existsb] in E.
  unfold upper_is, p_upper in E. unfold upper_eq, eqs in *. rewrite A, B, C, D in E. cbn [orb] in E.
  destruct (kw "END" t) eqn:K; [eapply kw_not_wordy; eauto|discriminate].
Qed.
Lemma end_not_wordy t : section_end t = true -> wordy t -> False.
Proof. unfold section_end, p_type, wordy. intros E W. rewrite W in E. discriminate. Qed.
Lemma sp_from {A} G P ot (F : A -> token -> Prop) p f : spelled G P ot F p f -> spelled G nowhere ot F p f.
Proof. intros T. eapply sp_weak; [exact T|intros ? []|auto]. Qed.
Lemma sp_Cur_none {B} G P (F : B -> token -> Prop) (k : option token -> prog B) g :
  (forall t, spelled G P (Some t) F (k (Some t)) g) -> spelled G P None F (k None) g ->
  spelled G P None F (Bind Cur k) g.
Proof. intros K1 K2. apply sp_Cur; auto. Qed.
Lemma sp_loop_never {S A} (f : S -> list mark) (g : A -> list mark) (body : S -> prog (S + A)) n x :
  (forall x, spelled (f x) nowhere None never (body x) (fun r => match r with inl y => f y | inr a => g a end)) ->
  f x = [] -> spelled [] nowhere None never (loop n body x) g.
Proof. intros Bd E. apply sp_loop0 with (f := f); [|exact E]. intros y. eapply sp_weak; [apply Bd|auto|intros ? ? []]. Qed.

End WithUnicode.
