(** Rules for what a method of the parser goes over. *)
From Coq Require Import String List NArith Bool Arith Lia.
From Verif Require Import Runes UnicodeFacts Token Tokenizer CursorFacts TokenizerFacts LexSpec LexShape LexFacts LexMain Ast Heap Prog Parser ParseSpec RunFacts WpFacts FormSpec.
Import ListNotations.
Local Open Scope list_scope.

Section WithUnicode.
Context {U : Unicode} {UOK : UnicodeOk U}.

Notation words := (list gostring).

(** ** Going over words *)
Definition got (s0 : pst) (ws : words) (s : pst) : Prop :=
  exists k c, went_over (s_tok s0) (s_cur s0) ws k c /\ same_spot k (s_tok s) /\ alike_opt c (s_cur s).

Lemma alike_sym t u : ParseSpec.alike t u -> ParseSpec.alike u t.
Proof. unfold ParseSpec.alike. intuition congruence. Qed.
Lemma alike_opt_sym a b : alike_opt a b -> alike_opt b a.
Proof. destruct a, b; cbn; auto using alike_sym. Qed.
Lemma left_alike c c' : alike_opt c c' -> left_behind c = left_behind c'.
Proof.
  destruct c as [t|], c' as [u|]; cbn; try contradiction; auto. intros (T & Rw & _). unfold value. now rewrite T, Rw.
Qed.
Lemma went_trans k c ws k1 c1 : went_over k c ws k1 c1 -> forall ws2 k2 c2, went_over k1 c1 ws2 k2 c2 -> went_over k c (ws ++ ws2) k2 c2.
Proof.
  induction 1 as [k c|k c t k0 ws k1 c1 G L IH|k c k0 ws k1 c1 G L IH]; intros ws2 k2 c2 L2; auto; rewrite <- app_assoc.
  - eapply went_token; eauto.
  - eapply went_nil; eauto.
Qed.
Lemma went_sim k c ws k' c' : went_over k c ws k' c' -> forall k2 c2, same_spot k k2 -> alike_opt c c2 ->
  cwf (tk_cur k) ->
  exists k2' c2', went_over k2 c2 ws k2' c2' /\ same_spot k' k2' /\ alike_opt c' c2'.
Proof.
  induction 1 as [k c|k c t k0 ws k1 c1 G L IH|k c k0 ws k1 c1 G L IH]; intros k2 c2 SS A W.
  - exists k2, c2. repeat split; [constructor|apply SS..|exact A].
  - pose proof (get_next_sim k k2 SS W) as M. rewrite G in M.
    destruct (get_next k2) as [t2 k2'|?|] eqn:G2; try contradiction. destruct M as [ST S'].
    destruct (get_next_tok _ _ _ W G) as (? & R' & _).
    destruct (IH k2' (Some t2) S' (same_token_alike _ _ ST) (run_wf _ _ _ R' W)) as (k3 & c3 & L3 & S3 & A3).
    exists k3, c3. split; [|auto]. rewrite (left_alike _ _ A). eapply went_token; eauto.
  - pose proof (get_next_sim k k2 SS W) as M. rewrite G in M.
    destruct (get_next k2) as [|k2'|] eqn:G2; try contradiction.
    assert (W0 : cwf (tk_cur k0)).
    { destruct (get_next_run k W) as (sk & c' & R & _ & M2).
      destruct (process c') as [|t3 c3|] eqn:P; [|destruct M2; congruence|congruence].
      rewrite M2 in G. injection G as <-. cbn. eauto using run_wf. }
    destruct (IH k2' None M I W0) as (k3 & c3 & L3 & S3 & A3).
    exists k3, c3. split; [|auto]. rewrite (left_alike _ _ A). eapply went_nil; eauto.
Qed.
Lemma got_refl s : got s [] s.
Proof. exists (s_tok s), (s_cur s). repeat split; [constructor|apply alike_opt_refl]. Qed.
Lemma got_trans text s1 s2 s3 a b : parsing text s2 -> got s1 a s2 -> got s2 b s3 -> got s1 (a ++ b) s3.
Proof.
  intros P (k1 & c1 & L1 & S1 & A1) (k2 & c2 & L2 & S2 & A2).
  destruct (went_sim _ _ _ _ _ L2 k1 c1) as (k3 & c3 & L3 & S3 & A3).
  - now apply same_spot_sym.
  - now apply alike_opt_sym.
  - destruct P as [[Hh _] _]. now destruct (held_wf _ _ Hh).
  - exists k3, c3. split; [eapply went_trans; eauto|]. split.
    + apply (same_spot_trans _ _ _ (same_spot_sym _ _ S3) S2).
    + eapply alike_opt_trans; [apply alike_opt_sym; exact A3|exact A2].
Qed.
Lemma got_same s0 ws s s' : s_tok s' = s_tok s -> s_cur s' = s_cur s -> got s0 ws s -> got s0 ws s'.
Proof. intros E1 E2. unfold got. now rewrite E1, E2. Qed.
Lemma got_next s o s' : run Next s = OOk o s' -> got s (left_behind (s_cur s)) s' /\ o = s_cur s'.
Proof.
  cbn [run]. unfold next_token. destruct (get_next (s_tok s)) as [t k|k|] eqn:G; try discriminate; intros [= <- <-]; (split; [|reflexivity]);
    eexists _, _; (split; [|split; [apply same_spot_refl|apply alike_opt_refl]]); cbn [s_tok s_cur]; rewrite <- (app_nil_r (left_behind _)).
  - eapply went_token; [exact G|constructor].
  - eapply went_nil; [exact G|constructor].
Qed.

(** ** The judgement *)

(** Behind the words [pre], with the current token [c], the method [p] goes on to words for
    its result and a token that are in [F]. *)
Definition takes {A} (pre : words) (c : option token) (p : prog A) (F : A -> words -> option token -> Prop) : Prop :=
  forall text s0 s a s', parsing text s -> got s0 pre s -> s_cur s = c -> run p s = OOk a s' ->
  exists ws, got s0 ws s' /\ F a ws (s_cur s').

Lemma tk_weak {A} pre c (p : prog A) (F F' : A -> words -> option token -> Prop) :
  takes pre c p F -> (forall a ws c', F a ws c' -> F' a ws c') -> takes pre c p F'.
Proof. intros T W text s0 s a s' P G C E. destruct (T _ _ _ _ _ P G C E) as (ws & G' & H). eauto. Qed.
Lemma tk_bind {A B} pre c (p : prog A) (k : A -> prog B) (F1 : A -> words -> option token -> Prop) (F : B -> words -> option token -> Prop) :
  takes [] c p F1 -> (forall a ws c', F1 a ws c' -> takes (pre ++ ws) c' (k a) F) -> takes pre c (Bind p k) F.
Proof.
  intros T K text s0 s b s' P G C E. cbn [run] in E. destruct (run p s) as [a s1| | | |] eqn:E1; try discriminate.
  destruct (T _ _ _ _ _ P (got_refl s) C E1) as (ws & G1 & H1).
  assert (P1 : parsing text s1) by (apply (run_parsing p text s); [exact P|left; eauto]).
  exact (K _ _ _ H1 _ _ _ _ _ P1 (got_trans _ _ _ _ _ _ P G G1) eq_refl E).
Qed.
Lemma tk_tail {A} pre c (p : prog A) (F1 : A -> words -> option token -> Prop) (F : A -> words -> option token -> Prop) :
  takes [] c p F1 -> (forall a ws c', F1 a ws c' -> F a (pre ++ ws) c') -> takes pre c p F.
Proof.
  intros T K text s0 s b s' P G C E. destruct (T _ _ _ _ _ P (got_refl s) C E) as (ws & G1 & H1).
  exists (pre ++ ws). split; [eapply got_trans; eauto|auto].
Qed.
Lemma tk_ret {A} pre c (a : A) (F : A -> words -> option token -> Prop) : F a pre c -> takes pre c (Ret a) F.
Proof. intros H text s0 s b s' P G C [= <- <-]. exists pre. rewrite C. auto. Qed.
Lemma tk_fail {A} pre c e (F : A -> words -> option token -> Prop) : takes pre c (Fail e) F.
Proof. intros text s0 s b s' P G C E. discriminate. Qed.
Lemma tk_failat {A} pre c t (F : A -> words -> option token -> Prop) : takes pre c (FailAt t) F.
Proof. intros text s0 s b s' P G C E. cbn [run] in E. destruct (ctx_path _ _); discriminate. Qed.
Lemma tk_crash {A} pre c (F : A -> words -> option token -> Prop) : takes pre c Crash F.
Proof. intros text s0 s b s' P G C E. discriminate. Qed.
Lemma tk_nofuel {A} pre c (F : A -> words -> option token -> Prop) : takes pre c NoFuel F.
Proof. intros text s0 s b s' P G C E. discriminate. Qed.
Lemma tk_bind_ret {A B} pre c (a : A) (k : A -> prog B) (F : B -> words -> option token -> Prop) : takes pre c (k a) F -> takes pre c (Bind (Ret a) k) F.
Proof. exact (fun T => T). Qed.
Lemma tk_assoc {A B C} pre c (p : prog A) (f : A -> prog B) (g : B -> prog C) (F : C -> words -> option token -> Prop) :
  takes pre c (Bind p (fun a => Bind (f a) g)) F -> takes pre c (Bind (Bind p f) g) F.
Proof.
  intros T text s0 s b s' P G Cc E. apply (T text s0 s b s' P G Cc). cbn [run] in *. destruct (run p s); try discriminate. exact E.
Qed.
Lemma tk_bind_fail {A B} pre c e (k : A -> prog B) (F : B -> words -> option token -> Prop) : takes pre c (Bind (Fail e) k) F.
Proof. intros text s0 s b s' P G C E. discriminate. Qed.
Lemma tk_bind_failat {A B} pre c t (k : A -> prog B) (F : B -> words -> option token -> Prop) : takes pre c (Bind (FailAt t) k) F.
Proof. intros text s0 s b s' P G C E. cbn [run] in E. destruct (ctx_path _ _); discriminate. Qed.
Lemma tk_bind_crash {A B} pre c (k : A -> prog B) (F : B -> words -> option token -> Prop) : takes pre c (Bind Crash k) F.
Proof. intros text s0 s b s' P G C E. discriminate. Qed.
Lemma tk_Cur {B} pre c (k : option token -> prog B) (F : B -> words -> option token -> Prop) : takes pre c (k c) F -> takes pre c (Bind Cur k) F.
Proof. intros T text s0 s b s' P G C E. cbn [run] in E. rewrite C in E. eapply T; eauto. Qed.
Lemma tk_cur {B} pre c (k : token -> prog B) (F : B -> words -> option token -> Prop) : (forall t, c = Some t -> takes pre c (k t) F) -> takes pre c (Bind cur k) F.
Proof. intros T. unfold cur. apply tk_assoc, tk_Cur. destruct c; [apply tk_bind_ret; auto|apply tk_bind_crash]. Qed.
Lemma tk_is {B} pre c pred (k : bool -> prog B) (F : B -> words -> option token -> Prop) : (forall t, c = Some t -> takes pre c (k (pred t)) F) -> takes pre c (Bind (is pred) k) F.
Proof. intros T. unfold is. apply tk_assoc, tk_cur. intros t E. apply tk_bind_ret; auto. Qed.
Lemma tk_validate {B} pre c pred (k : token -> prog B) (F : B -> words -> option token -> Prop) : (forall t, c = Some t -> pred t = true -> takes pre c (k t) F) ->
  takes pre c (Bind (validate c pred) k) F.
Proof.
  intros T. destruct c as [t|]; cbn [validate]; [|apply tk_bind_fail]. specialize (T t eq_refl).
  destruct (pred t); [apply tk_bind_ret; auto|apply tk_bind_failat].
Qed.
Lemma tk_expect {B} pre c pred (k : token -> prog B) (F : B -> words -> option token -> Prop) : (forall t, c = Some t -> pred t = true -> takes pre c (k t) F) ->
  takes pre c (Bind (expect pred) k) F.
Proof. intros T. unfold expect. apply tk_assoc, tk_Cur, tk_validate, T. Qed.
Lemma tk_expect_or_fail {B} pre c pred (k : token -> prog B) (F : B -> words -> option token -> Prop) : (forall t, c = Some t -> pred t = true -> takes pre c (k t) F) ->
  takes pre c (Bind (expect_or_fail pred) k) F.
Proof.
  intros T. unfold expect_or_fail. apply tk_assoc, tk_cur. intros t E. specialize (T t E).
  destruct (pred t); [apply tk_bind_ret; auto|apply tk_bind_failat].
Qed.
Lemma tk_Next {B} pre c (k : option token -> prog B) (F : B -> words -> option token -> Prop) : (forall o, takes (pre ++ left_behind c) o (k o) F) -> takes pre c (Bind Next k) F.
Proof.
  intros T text s0 s b s' P G C E. rewrite run_bind in E. destruct (run Next s) as [o s1| | | |] eqn:E1; try discriminate.
  destruct (got_next _ _ _ E1) as [G1 ->].
  assert (P1 : parsing text s1) by (apply (run_parsing Next text s); [exact P|left; eauto]).
  rewrite C in G1. exact (T _ _ _ _ _ _ P1 (got_trans _ _ _ _ _ _ P G G1) eq_refl E).
Qed.
Lemma tk_next {B} pre c (k : token -> prog B) (F : B -> words -> option token -> Prop) : (forall t, takes (pre ++ left_behind c) (Some t) (k t) F) -> takes pre c (Bind next k) F.
Proof. intros T. unfold next. apply tk_assoc, tk_Next. intros [t|]; [apply tk_bind_ret, T|apply tk_bind_crash]. Qed.
Lemma tk_expect_next {B} pre c pred (k : token -> prog B) (F : B -> words -> option token -> Prop) :
  (forall t, pred t = true -> takes (pre ++ left_behind c) (Some t) (k t) F) -> takes pre c (Bind (expect_next pred) k) F.
Proof. intros T. unfold expect_next. apply tk_assoc, tk_Next. intros o. apply tk_validate. intros t -> Pt. auto. Qed.

(** Methods that read no tokens *)
Definition idle {A} (p : prog A) : Prop := forall s a s', run p s = OOk a s' -> s_tok s' = s_tok s /\ s_cur s' = s_cur s.
Lemma tk_idle {A B} pre c (p : prog A) (k : A -> prog B) (F : B -> words -> option token -> Prop) :
  idle p -> (forall a, takes pre c (k a) F) -> takes pre c (Bind p k) F.
Proof.
  intros I0 T text s0 s b s' P G C E. cbn [run] in E. destruct (run p s) as [a s1| | | |] eqn:E1; try discriminate.
  destruct (I0 _ _ _ E1) as [E2 E3].
  assert (P1 : parsing text s1) by (apply (run_parsing p text s); [exact P|left; eauto]).
  apply (T a text s0 s1 b s' P1 (got_same _ _ _ _ E2 E3 G)); [congruence|exact E].
Qed.
Lemma idle_heap {A} (f : nat -> heap -> hres A) : idle (OnHeap f).
Proof. intros s a s' E. cbn [run] in E. destruct (f _ _); try discriminate. injection E as _ <-. auto. Qed.
Lemma idle_ret {A} (a : A) : idle (Ret a).
Proof. intros s b s' [= _ <-]. auto. Qed.
Lemma idle_fail {A} e : idle (A := A) (Fail e).
Proof. intros s b s' E. discriminate. Qed.
Lemma idle_bind {A B} (p : prog A) (k : A -> prog B) : idle p -> (forall a, idle (k a)) -> idle (Bind p k).
Proof.
  intros S K s b s' E. cbn [run] in E. destruct (run p s) as [a s1| | | |] eqn:E1; try discriminate.
  destruct (S _ _ _ E1) as (T1 & C1). destruct (K _ _ _ _ E) as (T2 & C2). split; congruence.
Qed.
Lemma idle_get n : idle (get n). Proof. apply idle_heap. Qed.
Lemma idle_node d : idle (node_of d). Proof. apply idle_heap. Qed.
Lemma idle_get_node n : idle (get_node n).
Proof.
  apply idle_bind; [apply idle_get|]. intros [d|]; [|apply idle_ret].
  apply idle_bind; [apply idle_node|]. intros x. apply idle_ret.
Qed.
Lemma idle_set ds : idle (set ds). Proof. apply idle_heap. Qed.
Lemma idle_addpost c n : idle (AddPost c n).
Proof. intros s a s' [= _ <-]. auto. Qed.
Lemma idle_runpost : idle RunPost.
Proof. intros s a s' E. cbn [run] in E. destruct (run_post _ _ _); [|discriminate]. injection E as _ <-. auto. Qed.
Lemma idle_unit_identifier t : idle (is_unit_identifier t).
Proof. apply idle_bind; [apply idle_get_node|]. intros; apply idle_ret. Qed.
Lemma idle_namespace_identifier t : idle (is_namespace_identifier t).
Proof. apply idle_bind; [apply idle_get_node|]. intros; apply idle_ret. Qed.
Lemma idle_declare_type i ty : idle (declare_type i ty).
Proof.
  apply idle_bind; [apply idle_get_node|]. intros [[d nd]|]; [|apply idle_set].
  destruct nd as [t'| | | | | | | | | | | | | | |]; try apply idle_fail. destruct t'; try apply idle_fail. destruct ty; try apply idle_fail.
  apply idle_heap.
Qed.
Lemma tk_type_id {B} pre c u i d (k : typeid -> prog B) (F : B -> words -> option token -> Prop) :
  (forall n, takes pre c (k (mkTypeId u i n)) F) -> takes pre c (Bind (new_type_id u i d) k) F.
Proof.
  intros T text s0 s b s' P G C E. cbn [run new_type_id] in E.
  exact (T (length (h_refs (s_heap s))) text s0 (with_heap (with_refs (h_refs (s_heap s) ++ [d]) (s_heap s)) s) b s' P G C E).
Qed.

(** ** Scopes and attempts *)
Lemma tk_scoped {A} pre c (p : prog A) (F : A -> words -> option token -> Prop) : takes pre c p F -> takes pre c (Scoped p) F.
Proof.
  intros T text s0 s a s' P G C E. cbn [run] in E. destruct (ctx_stack (s_heap s) (s_ctx s)) as [[h b]|]; [|discriminate].
  destruct (run p (with_heap h s)) as [x s1| | | |] eqn:E1; try discriminate. injection E as <- <-.
  destruct (T text s0 (with_heap h s) x s1 P G C E1) as (ws & G1 & H1). exists ws. split; [exact G1|exact H1].
Qed.
Lemma tk_traced {A} pre c (p : prog A) (F : A -> words -> option token -> Prop) : (c <> None -> takes pre c p F) ->
  takes pre c (Traced p) (fun a ws c' => F a ws c' /\ c' <> None).
Proof.
  intros T text s0 s a s' P G C E. cbn [run] in E. destruct (s_cur s) as [t|] eqn:Cs; [|discriminate].
  destruct (run p s) as [x s1| | | |] eqn:E1; try discriminate; destruct (s_cur s1) eqn:C1; try discriminate. injection E as <- <-.
  destruct (T ltac:(congruence) text s0 s x s1 P G ltac:(congruence) E1) as (ws & G1 & H1). exists ws. split; [exact G1|]. split; [exact H1|congruence].
Qed.
Lemma tk_postscope {A} pre c (p : prog A) (F : A -> words -> option token -> Prop) : takes pre c p F -> takes pre c (PostScope p) F.
Proof.
  intros T text s0 s a s' P G C E. cbn [run] in E.
  destruct (run p (with_post [] s)) as [x s1| | | |] eqn:E1; try discriminate. injection E as <- <-.
  destruct (T text s0 (with_post [] s) x s1 P G C E1) as (ws & G1 & H1). exists ws. split; [exact G1|exact H1].
Qed.
(** A token that was restored differs in nothing. *)
Lemma tk_attempt {B} pre c (p : prog (option B)) (F : (option B) -> words -> option token -> Prop) : takes pre c p F ->
  takes pre c (Attempt p) (fun o ws c' => match o with Some b => F (Some b) ws c' | None => ws = pre /\ c' = c end).
Proof.
  intros T text s0 s a s' P G C E. cbn [run] in E. destruct (s_cur s) as [t|] eqn:Cs; [|discriminate].
  destruct (ctx_clone (s_heap s) (s_ctx s)) as [[h x]|]; [|discriminate].
  destruct (run p (with_heap h s)) as [[b|] s1| | | |] eqn:E1; try discriminate; injection E as <- <-.
  - destruct (T text s0 (with_heap h s) (Some b) s1 P G ltac:(cbn [s_cur with_heap]; congruence) E1) as (ws & G1 & H1). eauto.
  - exists pre. split; [|cbn [s_cur]; rewrite token_clone_eq; auto].
    destruct G as (k & c1 & L & S & Al). exists k, c1. split; [exact L|]. split.
    + cbn [s_tok]. eapply same_spot_trans; [exact S|apply same_spot_clone].
    + cbn [s_cur]. rewrite token_clone_eq. now rewrite <- Cs.
Qed.

(** ** Loops *)
Lemma tk_loop {S A} (J : S -> words -> option token -> Prop) (body : S -> prog (S + A)) (F : A -> words -> option token -> Prop) :
  (forall v pre c, J v pre c -> takes pre c (body v) (fun r ws c' => match r with inl v' => J v' ws c' | inr a => F a ws c' end)) ->
  forall n v pre c, J v pre c -> takes pre c (loop n body v) F.
Proof.
  intros Bd. induction n as [|n IH]; intros v pre c Jv; cbn [loop]; [apply tk_nofuel|].
  intros text s0 s b s' P G C E. rewrite run_bind in E. destruct (run (body v) s) as [r s1| | | |] eqn:E1; try discriminate.
  destruct (Bd _ _ _ Jv _ _ _ _ _ P G C E1) as (ws & G1 & H1).
  assert (P1 : parsing text s1) by (apply (run_parsing (body v) text s); [exact P|left; eauto]). destruct r as [v'|a].
  - exact (IH _ _ _ H1 _ _ _ _ _ P1 G1 eq_refl E).
  - injection E as <- <-. eauto.
Qed.

(** ** Pieces of forms *)
Lemma cat_end (L : form) ws : cat L nothing ws -> L ws.
Proof. intros (a & b & -> & La & <-). now rewrite app_nil_r. Qed.
Lemma cat_assoc A B C ws : cat A (cat B C) ws -> cat (cat A B) C ws.
Proof.
  intros (a & bc & -> & Ha & b & c & -> & Hb & Hc). exists (a ++ b), c. split; [apply app_assoc|]. split; [|exact Hc].
  exists a, b. auto.
Qed.
Lemma cat_nothing (B : form) ws : B ws -> cat nothing B ws.
Proof. intros Hb. exists [], ws. split; [reflexivity|]. split; [reflexivity|exact Hb]. Qed.
Lemma cat_app (A B : form) a b : A a -> B b -> cat A B (a ++ b).
Proof. intros. exists a, b. auto. Qed.
Lemma cat_one (A B : form) v b : A [v] -> B b -> cat A B (v :: b).
Proof. intros Ha Hb. exists [v], b. auto. Qed.
Lemma cat_left A A' B ws : cat A B ws -> cat (either A A') B ws.
Proof. intros (a & b & -> & Ha & Hb). exists a, b. split; [reflexivity|]. split; [left; exact Ha|exact Hb]. Qed.
Lemma cat_right A A' B ws : cat A' B ws -> cat (either A A') B ws.
Proof. intros (a & b & -> & Ha & Hb). exists a, b. split; [reflexivity|]. split; [right; exact Ha|exact Hb]. Qed.
Lemma cat_mono (A A' B : form) ws : (forall a, A a -> A' a) -> cat A B ws -> cat A' B ws.
Proof. intros M (a & b & -> & Ha & Hb). exists a, b. auto. Qed.
Lemma row_app (l1 l2 : list form) ws : cat (row l1) (row l2) ws -> row (l1 ++ l2) ws.
Proof.
  revert ws. induction l1 as [|f l1 IH]; intros ws; cbn [row app].
  - intros (a & b & -> & <- & Hb). exact Hb.
  - intros (a & b & -> & (a1 & a2 & -> & H1 & H2) & Hb). exists a1, (a2 ++ b). split; [now rewrite app_assoc|]. split; [exact H1|].
    apply IH. exists a2, b. auto.
Qed.
Lemma between_snoc w l f ws : cat (ended w l) f ws -> between w (l ++ [f]) ws.
Proof.
  revert ws. unfold ended. induction l as [|g l IH]; intros ws; cbn [map row app].
  - intros (a & b & -> & <- & Hb). exact Hb.
  - intros (a & b & -> & (a1 & a2 & -> & (x & y & -> & Hx & Hy) & H2) & Hb).
    assert (E : between w (g :: l ++ [f]) = cat g (cat (word w) (between w (l ++ [f])))) by (destruct l; reflexivity).
    rewrite E, <- !app_assoc. exists x, (y ++ a2 ++ b). split; [reflexivity|]. split; [exact Hx|]. exists y, (a2 ++ b).
    split; [reflexivity|]. split; [exact Hy|]. apply IH. exists a2, b. auto.
Qed.
Lemma ended_snoc w l f ws : cat (ended w l) (cat f (word w)) ws -> ended w (l ++ [f]) ws.
Proof.
  intros H. unfold ended in *. rewrite map_app. apply row_app. eapply cat_mono; [intros a Ha; exact Ha|].
  destruct H as (a & b & -> & Ha & Hb). exists a, b. split; [reflexivity|]. split; [exact Ha|]. cbn [map row]. exists b, []. split; [now rewrite app_nil_r|]. split; [exact Hb|reflexivity].
Qed.

(** ** Lists *)
Definition at_token (P : token -> Prop) (c : option token) : Prop := exists t, c = Some t /\ P t.
Lemma sym_val x t : sym x t = true -> value t = rs x.
Proof. intros E. apply sym_word in E. unfold word_of, wsym in E. now injection E. Qed.
Lemma kw_val x t : kw x t = true -> value t = rs x.
Proof. unfold kw, p_keyword. rewrite andb_true_iff. intros [_ E]. now apply runes_equal_eq in E. Qed.
Lemma eqs_val v x : eqs v x = true -> v = rs x.
Proof. apply runes_equal_eq. Qed.
Lemma ident_val t : p_type Identifier t = true -> value t = raw t.
Proof. intros E. apply raw_value. unfold p_type in E. destruct (t_type t); discriminate. Qed.

Section Until.
Context {X : Type} (f : X -> form).

(** Elements with a separator; the function may stop before an element at a token in [Q]. *)
Lemma tk_until w term (fn : list X -> prog (option (list X))) (Q : option token -> Prop) n c :
  (forall l c, takes [] c (fn l) (fun o ws c' =>
     match o with Some l' => exists a, l' = l ++ [a] /\ f a ws | None => ws = [] /\ Q c' end)) ->
  takes [] c (until n term (Some (sym w)) fn []) (fun l ws c' =>
    (between w (map f l) ws /\ at_token (fun t => term t = true) c') \/ (ended w (map f l) ws /\ Q c')).
Proof.
  intros Fn. unfold until. apply tk_loop with (J := fun l ws _ => ended w (map f l) ws); [|reflexivity].
  intros l pre c0 E. unfold until_step. eapply tk_bind; [apply Fn|]. intros [l'|] ws c' H; cbv beta iota in H.
  - destruct H as (a & -> & Fa). apply tk_Cur. destruct c' as [t|]; [|apply tk_fail].
    destruct (term t) eqn:Tt.
    + apply tk_ret. left. rewrite map_app. split; [apply between_snoc, cat_app; [exact E|exact Fa]|]. exists t. auto.
    + apply tk_validate. intros t' [= <-] St. apply tk_Next. intros o. apply tk_ret. rewrite map_app. cbn [map].
      apply ended_snoc. rewrite <- app_assoc. apply cat_app; [exact E|]. apply cat_app; [exact Fa|]. cbn [left_behind].
      rewrite (sym_val _ _ St). reflexivity.
  - destruct H as [-> Qc]. rewrite app_nil_r. apply tk_ret. right. auto.
Qed.
Lemma tk_until_list w term (p : prog X) n c : (forall c, takes [] c p (fun a ws _ => f a ws)) ->
  takes [] c (until_list n term (Some (sym w)) p) (fun l ws c' => between w (map f l) ws /\ at_token (fun t => term t = true) c').
Proof.
  intros T. eapply tk_weak; [apply (tk_until w term _ (fun _ => False))|].
  - intros l c0. unfold append_with. eapply tk_bind; [apply T|]. intros a ws c' Fa. apply tk_ret. exists a. auto.
  - intros l ws c' [H|[_ []]]. exact H.
Qed.
(** Elements without one *)
Lemma tk_until_none term (fn : list X -> prog (option (list X))) (Q : option token -> Prop) n c :
  (forall l c, takes [] c (fn l) (fun o ws c' =>
     match o with Some l' => exists a, l' = l ++ [a] /\ f a ws | None => ws = [] /\ Q c' end)) ->
  takes [] c (until n term None fn []) (fun l ws c' =>
    row (map f l) ws /\ (at_token (fun t => term t = true) c' \/ Q c')).
Proof.
  intros Fn. unfold until. apply tk_loop with (J := fun l ws _ => row (map f l) ws); [|reflexivity].
  intros l pre c0 E. unfold until_step. eapply tk_bind; [apply Fn|]. intros [l'|] ws c' H; cbv beta iota in H.
  - destruct H as (a & -> & Fa). apply tk_Cur. destruct c' as [t|]; [|apply tk_fail].
    assert (E' : row (map f (l ++ [a])) (pre ++ ws)).
    { rewrite map_app. apply row_app, cat_app; [exact E|]. apply cat_end. cbn [map row]. apply cat_assoc.
      rewrite <- (app_nil_r ws). apply cat_app; [exact Fa|]. apply cat_nothing. reflexivity. }
    destruct (term t) eqn:Tt; apply tk_ret; [|exact E']. split; [exact E'|]. left. exists t. auto.
  - destruct H as [-> Qc]. rewrite app_nil_r. apply tk_ret. auto.
Qed.
End Until.

End WithUnicode.
