(** Map objects that no context writes to stay as they are: what every step of a parser does
    to them. *)
From Coq Require Import String List NArith Bool Arith Lia.
From Verif Require Import ListUtil Runes Token Tokenizer Ast Ext ExtMain Heap Classes MapSpec MapFacts MapMain Prog Parser Units RunFacts.
Import ListNotations.
Local Open Scope list_scope.

Section WithUnicode.
Context {U : Unicode}.

(** ** Changes *)

(** The map object [a] is [M], and no context writes to it. *)
Definition frozen (a : nat) (M : mapobj) (h : heap) : Prop :=
  nth_error (h_maps h) a = Some M /\ forall o, In o (h_ctxs h) -> target (cx_map o) <> Some a.
(** Contexts write to maps that exist. *)
Definition rooted (h : heap) : Prop :=
  forall o a, In o (h_ctxs h) -> target (cx_map o) = Some a -> a < length (h_maps h).
(** The map and the interface section of a unit that has a map *)
Definition shape (h : heap) (u : nat) : option (dmap * option intfsection) :=
  match nth_error (h_units h) u with
  | Some o => match un_map o with DNil => None | m => Some (m, un_intf o) end
  | None => None
  end.
Definition has_intf (h : heap) (u : nat) : Prop :=
  exists o i, nth_error (h_units h) u = Some o /\ un_intf o = Some i.
(** What stays, but perhaps for the units [X] *)
Record settled (X : nat -> Prop) (h h' : heap) : Prop := mkSettled {
  st_maps : forall a M, frozen a M h -> frozen a M h';
  st_rooted : rooted h -> rooted h';
  st_len : length (h_maps h) <= length (h_maps h');
  st_decls : exists l, h_decls h' = h_decls h ++ l;
  st_shape : forall u, ~ X u -> shape h' u = shape h u;
  st_intf : forall u, has_intf h u -> has_intf h' u;
  st_count : length (h_units h) <= length (h_units h') }.

Lemma settled_trans X h1 h2 h3 : settled X h1 h2 -> settled X h2 h3 -> settled X h1 h3.
Proof.
  intros [A1 A2 A3 (l1 & A4) A5 A6 A7] [B1 B2 B3 (l2 & B4) B5 B6 B7]. constructor; auto; try lia.
  - exists (l1 ++ l2). now rewrite B4, A4, app_assoc.
  - intros u N. now rewrite B5, A5.
Qed.
Lemma settled_more (X Y : nat -> Prop) h h' : (forall u, X u -> Y u) -> settled X h h' -> settled Y h h'.
Proof. intros S [A1 A2 A3 A4 A5 A6 A7]. constructor; auto. Qed.
Lemma shape_units h h' u : h_units h' = h_units h -> shape h' u = shape h u.
Proof. unfold shape. now intros ->. Qed.
Lemma intf_units h h' u : h_units h' = h_units h -> has_intf h u -> has_intf h' u.
Proof. unfold has_intf. now intros ->. Qed.

(** The maps below [n], contexts and units stay. *)
Record above (n : nat) (h h' : heap) : Prop := mkAbove {
  ab_maps : forall a, a < n -> nth_error (h_maps h') a = nth_error (h_maps h) a;
  ab_len : length (h_maps h) <= length (h_maps h');
  ab_ctxs : h_ctxs h' = h_ctxs h;
  ab_decls : exists l, h_decls h' = h_decls h ++ l;
  ab_units : h_units h' = h_units h }.
Lemma above_refl n h : above n h h.
Proof. constructor; auto. exists []. now rewrite app_nil_r. Qed.
Lemma above_trans n h1 h2 h3 : above n h1 h2 -> above n h2 h3 -> above n h1 h3.
Proof.
  intros [A1 A2 A3 (l1 & A4) A5] [B1 B2 B3 (l2 & B4) B5]. constructor; try congruence; try lia.
  - intros a L. now rewrite B1, A1.
  - exists (l1 ++ l2). now rewrite B4, A4, app_assoc.
Qed.
Lemma above_settled X h h' : above (length (h_maps h)) h h' -> settled X h h'.
Proof.
  intros [A1 A2 A3 A4 A5]. constructor; auto.
  - intros a M [E C]. split; [|now rewrite A3]. rewrite A1; [exact E|]. apply nth_error_Some. congruence.
  - intros R o a. rewrite A3. intros J T. specialize (R o a J T). lia.
  - intros u _. now apply shape_units.
  - intros u. now apply intf_units.
  - now rewrite A5.
Qed.
Lemma settled_same X h h' : h_maps h' = h_maps h -> h_ctxs h' = h_ctxs h -> h_decls h' = h_decls h -> h_units h' = h_units h -> settled X h h'.
Proof.
  intros A B C D. apply above_settled. constructor; rewrite ?A, ?B, ?C, ?D; auto. exists []. now rewrite app_nil_r.
Qed.
Lemma settled_refl X h : settled X h h.
Proof. now apply settled_same. Qed.
Lemma above_decls n h l : above n h (with_decls (h_decls h ++ l) h).
Proof. constructor; auto. cbn. eauto. Qed.
Lemma settled_decls X h l : settled X h (with_decls (h_decls h ++ l) h).
Proof. apply above_settled, above_decls. Qed.
Lemma above_new n h : n <= length (h_maps h) -> above n h (fst (new_map h)).
Proof.
  intros L. cbn. constructor; auto; cbn; [|rewrite app_length; lia|exists []; now rewrite app_nil_r].
  intros a La. apply nth_error_app1. lia.
Qed.
Lemma above_only n a h h' : n <= a -> only a h h' -> above n h h'.
Proof.
  intros L [A1 A2 A3 A4 A5 A6 A7 A8 A9]. constructor; auto; [|lia|exists []; now rewrite A3, app_nil_r].
  intros b Lb. apply A2. lia.
Qed.
Lemma above_set n a h ds h' : n <= a -> (map_set h (DImpl a) ds = SOk h' \/ exists i, map_set h (DImpl a) ds = SErr h' i) -> above n h h'.
Proof.
  intros L E. unfold map_set, alloc_decls in E. apply dset_target in E. cbn [target] in E.
  eapply above_trans; [apply above_decls|]. eapply above_only; eauto.
Qed.
Lemma above_set_all n a l : n <= a -> forall h h', set_all h (DImpl a) l = Some h' -> above n h h'.
Proof.
  intros L. induction l as [|ds l IH]; intros h h'; cbn [set_all]; [intros [= <-]; apply above_refl|].
  destruct (map_set h (DImpl a) ds) as [h1|h1 i|] eqn:E; [| |discriminate]; intros S;
    (eapply above_trans; [|apply IH, S]); eapply above_set; eauto.
Qed.

(** Writing to the map of a context *)
Lemma settled_only X h h' o a : In o (h_ctxs h) -> target (cx_map o) = Some a -> only a h h' -> settled X h h'.
Proof.
  intros J T [A1 A2 A3 A4 A5 A6 A7 A8 A9]. constructor.
  - intros b M [E C]. split; [|now rewrite A9]. rewrite A2; [exact E|]. intros ->. now apply (C o J).
  - intros R o' b. rewrite A9, A1. apply R.
  - lia.
  - exists []. now rewrite A3, app_nil_r.
  - intros u _. now apply shape_units.
  - intros u. now apply intf_units.
  - now rewrite A7.
Qed.
Lemma settled_set X h c ds h' : (ctx_set h c ds = SOk h' \/ exists i, ctx_set h c ds = SErr h' i) -> settled X h h'.
Proof.
  unfold ctx_set. destruct (nth_error (h_ctxs h) c) as [o|] eqn:Eo; [|intros [E|(i & E)]; discriminate].
  unfold map_set, alloc_decls. intros E. apply dset_target in E.
  eapply settled_trans; [apply settled_decls|]. destruct (target (cx_map o)) as [a|] eqn:T.
  - eapply settled_only; [|exact T|exact E]. eapply nth_error_In, Eo.
  - subst h'. apply settled_refl.
Qed.
Lemma settled_overwrite X h c n d h' : ctx_overwrite h c n d = Some h' -> settled X h h'.
Proof.
  unfold ctx_overwrite. destruct (nth_error (h_ctxs h) c) as [o|] eqn:Eo; [|discriminate]. intros E.
  apply doverwrite_target in E. destruct (target (cx_map o)) as [a|] eqn:T.
  - eapply settled_only; [|exact T|exact E]. eapply nth_error_In, Eo.
  - subst h'. apply settled_refl.
Qed.

(** Contexts *)
Lemma in_set_nth {A} (x y : A) l : forall k, In x (set_nth k y l) -> x = y \/ In x l.
Proof.
  induction l as [|a l IH]; intros [|k]; cbn [set_nth]; intros J; try (destruct J as [J|J]; cbn; auto); auto.
  destruct (IH _ J); auto.
Qed.
(** A context gets a map whose target is that of a context, or new. *)
Lemma settled_ctxs X h h' : h_maps h' = h_maps h -> h_decls h' = h_decls h -> h_units h' = h_units h ->
  (forall o, In o (h_ctxs h') -> In o (h_ctxs h) \/ exists o', In o' (h_ctxs h) /\ cx_map o' = cx_map o) -> settled X h h'.
Proof.
  intros A B C D. constructor.
  - intros a M [E K]. split; [now rewrite A|]. intros o J. destruct (D o J) as [J'|(o' & J' & <-)]; now apply K.
  - intros R o a J T. rewrite A. destruct (D o J) as [J'|(o' & J' & Eo)]; [now apply (R o)|]. rewrite <- Eo in T. now apply (R o').
  - now rewrite A.
  - exists []. now rewrite B, app_nil_r.
  - intros u _. now apply shape_units.
  - intros u. now apply intf_units.
  - now rewrite C.
Qed.
Lemma settled_clone X h c h' c' : ctx_clone h c = Some (h', c') -> settled X h h'.
Proof.
  unfold ctx_clone. destruct (nth_error (h_ctxs h) c) as [o|] eqn:Eo; [|discriminate]. intros [= <- _]. apply settled_ctxs; auto.
  cbn. intros o' J. apply in_app_or in J as [J|[<-|[]]]; [auto|]. right. exists o. split; [eapply nth_error_In, Eo|].
  now destruct (cx_kind o).
Qed.
(** The map of a context becomes one that writes to a new map object. *)
Lemma settled_put_new X h h1 c m : above (length (h_maps h)) h h1 ->
  (forall a, target m = Some a -> length (h_maps h) <= a < length (h_maps h1)) -> settled X h (ctx_put_map h1 c m).
Proof.
  intros A T. pose proof (above_settled X _ _ A) as S. unfold ctx_put_map. destruct (nth_error (h_ctxs h1) c) as [o|] eqn:Eo; [|exact S].
  destruct S as [S1 S2 S3 S4 S5 S6 S7]. constructor; auto.
  - intros a M F. destruct (S1 a M F) as [E K]. split; [exact E|]. cbn. intros o' J. apply in_set_nth in J as [->|J]; [|now apply K].
    cbn. intros X'. apply T in X'. destruct F as [F _]. apply nth_lt in F. lia.
  - intros R o' a. cbn. intros J X'. apply in_set_nth in J as [->|J]; [cbn in X'; apply T in X'; lia|]. now apply (S2 R o').
Qed.
Lemma settled_stack X h c h' m : ctx_stack h c = Some (h', m) -> settled X h h' /\ exists o, nth_error (h_ctxs h) c = Some o /\ m = cx_map o.
Proof.
  unfold ctx_stack. destruct (nth_error (h_ctxs h) c) as [o|] eqn:Eo; [|discriminate]. unfold new_chained. intros [= <- <-]. split; [|eauto].
  apply (settled_put_new X h (fst (new_map h))); [now apply above_new|]. cbn. intros a [= <-]. rewrite app_length. cbn. lia.
Qed.
Lemma settled_back X h h1 h2 c o : In o (h_ctxs h) -> settled X h h1 -> settled X h1 h2 -> settled X h (ctx_put_map h2 c (cx_map o)).
Proof.
  intros J A B. pose proof (settled_trans _ _ _ _ A B) as S. unfold ctx_put_map. destruct (nth_error (h_ctxs h2) c) as [o2|]; [|exact S].
  destruct S as [S1 S2 S3 S4 S5 S6 S7]. constructor; auto.
  - intros a M F. destruct (S1 a M F) as [E K]. split; [exact E|]. cbn. intros o' Jo. apply in_set_nth in Jo as [->|Jo]; [|now apply K].
    cbn. now apply F.
  - intros R o' a. cbn. intros Jo X'. apply in_set_nth in Jo as [->|Jo]; [|now apply (S2 R o')]. cbn in X'. specialize (R o a J X'). lia.
Qed.

(** ** Methods *)
Definition lets {A} (p : prog A) : Prop := forall X s a s', run p s = OOk a s' -> settled X (s_heap s) (s_heap s').

Lemma lets_ret {A} (a : A) : lets (Ret a).
Proof. intros X s b s' [= <- <-]. apply settled_refl. Qed.
Lemma lets_bind {A B} (p : prog A) (k : A -> prog B) : lets p -> (forall a, lets (k a)) -> lets (Bind p k).
Proof.
  intros P K X s b s' E. cbn [run] in E. destruct (run p s) as [a s1| | | |] eqn:R; try discriminate.
  eapply settled_trans; [eapply P, R|eapply K, E].
Qed.
Lemma lets_next : lets Next.
Proof.
  intros X s b s' E. cbn [run] in E. unfold next_token in E.
  destruct (get_next (s_tok s)); try discriminate; injection E as <- <-; apply settled_refl.
Qed.
Lemma lets_Cur : lets Cur.
Proof. intros X s b s' [= <- <-]. apply settled_refl. Qed.
Lemma lets_onheap {A} (f : nat -> heap -> hres A) : (forall X c h a h', f c h = HOk a h' -> settled X h h') -> lets (OnHeap f).
Proof.
  intros H X s a s' E. cbn [run] in E. destruct (f (s_ctx s) (s_heap s)) as [x h'| | |] eqn:F; try discriminate.
  injection E as <- <-. eapply H; eauto.
Qed.
Lemma lets_failat {A} t : lets (@FailAt A t).
Proof. intros X s a s'. cbn [run]. destruct (ctx_path _ _); discriminate. Qed.
Lemma lets_fail {A} e : lets (@Fail A e).
Proof. intros X s a s'. discriminate. Qed.
Lemma lets_crash {A} : lets (@Crash A).
Proof. intros X s a s'. discriminate. Qed.
Lemma lets_nofuel {A} : lets (@NoFuel A).
Proof. intros X s a s'. discriminate. Qed.
Lemma lets_addpost cell n : lets (AddPost cell n).
Proof. intros X s a s' [= <- <-]. apply settled_refl. Qed.
Lemma lets_traced {A} (p : prog A) : lets p -> lets (Traced p).
Proof.
  intros P X s a s' E. cbn [run] in E. destruct (s_cur s); [|discriminate].
  destruct (run p s) as [x s1|? s1| | |] eqn:R; try discriminate; destruct (s_cur s1); try discriminate.
  injection E as <- <-. eapply P; eauto.
Qed.
Lemma lets_postscope {A} (p : prog A) : lets p -> lets (PostScope p).
Proof.
  intros P X s a s' E. cbn [run] in E. destruct (run p (with_post [] s)) as [x s1|? s1| | |] eqn:R; try discriminate.
  injection E as <- <-. exact (P X _ _ _ R).
Qed.
Lemma run_post_settled X c l : forall h h', run_post c l h = Some h' -> settled X h h'.
Proof.
  induction l as [|[cell n] l IH]; intros h h'; cbn [run_post].
  - intros [= <-]. apply settled_refl.
  - destruct (ctx_get h c n); [apply IH| |discriminate]. intros E. eapply settled_trans; [|apply IH, E]. now apply settled_same.
Qed.
Lemma lets_runpost : lets RunPost.
Proof.
  intros X s a s' E. cbn [run] in E. destruct (run_post _ _ _) as [h|] eqn:R; [|discriminate]. injection E as <- <-.
  eapply run_post_settled, R.
Qed.
Lemma lets_attempt {B} (p : prog (option B)) : lets p -> lets (Attempt p).
Proof.
  intros P X s a s' E. cbn [run] in E. destruct (s_cur s) as [t|]; [|discriminate].
  destruct (ctx_clone (s_heap s) (s_ctx s)) as [[h c]|] eqn:C; [|discriminate]. apply (settled_clone X) in C.
  destruct (run p (with_heap h s)) as [[b|] s2| | | |] eqn:R; try discriminate; injection E as <- <-;
    (eapply settled_trans; [exact C|exact (P X _ _ _ R)]).
Qed.
Lemma lets_scoped {A} (p : prog A) : lets p -> lets (Scoped p).
Proof.
  intros P X s a s' E. cbn [run] in E. destruct (ctx_stack (s_heap s) (s_ctx s)) as [[h1 bk]|] eqn:ST; [|discriminate].
  destruct (settled_stack X _ _ _ _ ST) as (S & o & Eo & ->).
  destruct (run p (with_heap h1 s)) as [x s2|? s2| | |] eqn:R; try discriminate. injection E as <- <-. cbn [with_heap s_heap].
  unfold ctx_restore. eapply settled_back; [eapply nth_error_In, Eo|exact S|exact (P X _ _ _ R)].
Qed.

(** ** Combinations *)
Lemma lets_loop {S A} (body : S -> prog (S + A)) : (forall x, lets (body x)) -> forall fuel x, lets (loop fuel body x).
Proof.
  intros B. induction fuel as [|f IH]; intros x; cbn [loop]; [apply lets_nofuel|].
  apply lets_bind; [apply B|]. intros [y|y]; [apply IH|apply lets_ret].
Qed.
Lemma lets_validate t p : lets (validate t p).
Proof. unfold validate. destruct t as [t|]; [|apply lets_fail]. destruct (p t); [apply lets_ret|apply lets_failat]. Qed.
Lemma lets_cur : lets cur.
Proof. apply lets_bind; [apply lets_Cur|]. intros [t|]; [apply lets_ret|apply lets_crash]. Qed.
Lemma lets_is p : lets (is p).
Proof. apply lets_bind; [apply lets_cur|]. intros t. apply lets_ret. Qed.
Lemma lets_nexttok : lets next.
Proof. apply lets_bind; [apply lets_next|]. intros [t|]; [apply lets_ret|apply lets_crash]. Qed.
Lemma lets_expect p : lets (expect p).
Proof. apply lets_bind; [apply lets_Cur|]. intros t. apply lets_validate. Qed.
Lemma lets_expect_next p : lets (expect_next p).
Proof. apply lets_bind; [apply lets_next|]. intros t. apply lets_validate. Qed.
Lemma lets_expect_or_fail p : lets (expect_or_fail p).
Proof. apply lets_bind; [apply lets_cur|]. intros t. destruct (p t); [apply lets_ret|apply lets_failat]. Qed.
Lemma lets_until {S} fuel t sep (fn : S -> prog (option S)) x : (forall x, lets (fn x)) -> lets (until fuel t sep fn x).
Proof.
  intros F. apply lets_loop. intros y. apply lets_bind; [apply F|]. intros [z|]; [|apply lets_ret].
  apply lets_bind; [apply lets_Cur|]. intros [tk|]; [|apply lets_fail]. destruct (t tk); [apply lets_ret|].
  destruct sep; [|apply lets_ret]. apply lets_bind; [apply lets_validate|]. intros _.
  apply lets_bind; [apply lets_next|]. intros _. apply lets_ret.
Qed.
Lemma lets_until_list {A} fuel t sep (p : prog A) : lets p -> lets (until_list fuel t sep p).
Proof.
  intros P. apply lets_until. intros l. apply lets_bind; [exact P|]. intros a. apply lets_ret.
Qed.
Lemma lets_pure {A} (f : nat -> heap -> hres A) : (forall c h a h', f c h = HOk a h' -> h' = h) -> lets (OnHeap f).
Proof. intros H. apply lets_onheap. intros X c h a h' E. apply H in E as ->. apply settled_refl. Qed.
Lemma lets_get n : lets (get n).
Proof. apply lets_pure. intros c h a h'. destruct (ctx_get h c n); congruence. Qed.
Lemma lets_node d : lets (node_of d).
Proof. apply lets_pure. intros c h a h'. destruct (deref h d); congruence. Qed.
Lemma lets_get_node n : lets (get_node n).
Proof.
  apply lets_bind; [apply lets_get|]. intros [d|]; [|apply lets_ret].
  apply lets_bind; [apply lets_node|]. intros x. apply lets_ret.
Qed.
Lemma lets_set ds : lets (set ds).
Proof.
  apply lets_onheap. intros X c h a h'. destruct (ctx_set h c ds) as [h1|h1 i|] eqn:E; try discriminate. intros [= <- <-].
  eapply settled_set. eauto.
Qed.
Lemma lets_new_type_id u i d : lets (new_type_id u i d).
Proof. apply lets_onheap. intros X c h a h' [= <- <-]. now apply settled_same. Qed.

End WithUnicode.
