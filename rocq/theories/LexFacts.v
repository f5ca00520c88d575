(** Facts about executions of the tokenizer. *)
From Coq Require Import List NArith Bool Arith String Lia.
From Verif Require Import ListUtil Runes UnicodeFacts Token Tokenizer CursorFacts LexList
  TokenizerFacts LexSpec LexShape.
Import ListNotations.

#[local] Arguments process : simpl never.
#[local] Arguments get_next : simpl never.

Section Facts.
Context {U : Unicode} {UOK : UnicodeOk U}.

(** One call of a processor that matches. *)
Lemma process_match c t c' :
  cwf c -> process c = Match t c' ->
  (lex1 (rem c) = LEof /\ c' = c /\ t = mkToken EOF (c_text c) (c_pos c) (c_pos c)) \/
  (exists w, lex1 (rem c) = LTok (t_type t) w (rem c') /\ w <> [] /\ moved c w c' /\
     t = mkToken (t_type t) (c_text c) (c_pos c) (c_pos c')).
Proof.
  intros W P. pose proof (process_lex1 c W) as A. unfold process_agrees in A.
  destruct (lex1 (rem c)) as [| | |ty w rest] eqn:L.
  - left. rewrite P in A. injection A as -> ->. auto.
  - congruence.
  - congruence.
  - right. destruct A as (c2 & A & M & R). rewrite P in A. injection A as -> ->.
    exists w. cbn [t_type]. subst rest. repeat split; auto; try apply M.
    now apply lex1_shape in L as (_ & NE & _).
Qed.

Lemma process_wf c t c' : cwf c -> process c = Match t c' -> cwf c'.
Proof.
  intros W P. destruct (process_match _ _ _ W P) as [(_ & -> & _)|(w & _ & _ & M & _)]; [exact W|].
  eapply moved_wf; eauto.
Qed.

Lemma process_text c t c' : cwf c -> process c = Match t c' -> c_text c' = c_text c.
Proof.
  intros W P. destruct (process_match _ _ _ W P) as [(_ & -> & _)|(w & _ & _ & M & _)]; [reflexivity|].
  eapply moved_text; eauto.
Qed.

Lemma lex1_eof l : lex1 l = LEof <-> l = [] \/ exists l', l = 0%N :: l'.
Proof.
  split.
  - destruct l as [|r l]; [now left|]. destruct (N.eqb_spec r 0) as [->|N0]; [eauto|].
    apply N.eqb_neq in N0. unfold lex1. rewrite N0. intros E. exfalso. revert E.
    repeat match goal with
    | |- (if ?b then _ else _) = _ -> _ => destruct b; try discriminate
    | |- context [star_scan ?l] => destruct (star_scan l); try discriminate
    | |- context [string_scan 0 ?l] => destruct (string_scan 0 l) as [[? ?]|]; try discriminate
    | |- context [numeral_scan NumeralInt ?l] => destruct (numeral_scan NumeralInt l) as [[? ?] ?]; try discriminate
    end.
  - intros [->|[l' ->]]; reflexivity.
Qed.

Definition rest_length (c : cursor) : nat := List.length (rem c).

Lemma process_shorter c t c' : cwf c -> process c = Match t c' -> t_type t <> EOF ->
  rest_length c' < rest_length c.
Proof.
  intros W P N. destruct (process_match _ _ _ W P) as [(_ & -> & ->)|(w & _ & NE & [_ M] & _)].
  - now cbn in N.
  - unfold rest_length. rewrite M, app_length. destruct w; [congruence|]. cbn. lia.
Qed.

Lemma keep_flags (k : tokenizer) t (a b : gresult) :
  (if negb (tk_space k) && ttype_eqb (t_type t) Space then a
   else if negb (tk_comment k) && ttype_eqb (t_type t) Comment then a else b) =
  if keep (tk_space k) (tk_comment k) t then b else a.
Proof. unfold keep. destruct (t_type t), (tk_space k), (tk_comment k); reflexivity. Qed.

Lemma keep_not_eof sp cm t : keep sp cm t = false -> t_type t <> EOF.
Proof. unfold keep. intros H E. rewrite E in H. discriminate. Qed.

Lemma fuel_irrelevant : forall f1 f2 k, cwf (tk_cur k) ->
  rest_length (tk_cur k) < f1 -> rest_length (tk_cur k) < f2 ->
  get_next_fuel f1 k = get_next_fuel f2 k.
Proof.
  induction f1 as [|f1 IH]; intros f2 k W L1 L2; [lia|]. destruct f2 as [|f2]; [lia|].
  cbn [get_next_fuel]. destruct (process (tk_cur k)) as [|t c|] eqn:P; [reflexivity| |reflexivity].
  rewrite !keep_flags. destruct (keep _ _ t) eqn:K; [reflexivity|].
  apply keep_not_eof in K. pose proof (process_shorter _ _ _ W P K).
  apply IH; cbn; [eauto using process_wf|lia|lia].
Qed.

Definition with_cur (k : tokenizer) (c : cursor) : tokenizer :=
  mkTkz c (tk_space k) (tk_comment k).

Lemma get_next_unfold k : cwf (tk_cur k) ->
  get_next k =
  match process (tk_cur k) with
  | NoMatch => GNil k
  | Hang => GHang
  | Match t c =>
      if keep (tk_space k) (tk_comment k) t then GTok t (with_cur k c)
      else get_next (with_cur k c)
  end.
Proof.
  intros W. unfold get_next at 1. unfold loop_fuel. cbn [get_next_fuel].
  destruct (process (tk_cur k)) as [|t c|] eqn:P; [reflexivity| |reflexivity].
  rewrite keep_flags. destruct (keep _ _ t) eqn:K; [reflexivity|].
  apply keep_not_eof in K. pose proof (process_shorter _ _ _ W P K) as S.
  pose proof (process_wf _ _ _ W P) as W'.
  unfold get_next. unfold rest_length in S. rewrite !rem_len in S by assumption.
  apply fuel_irrelevant; cbn; [exact W'| |unfold rest_length, loop_fuel; rewrite rem_len by exact W'; lia].
  unfold rest_length. rewrite rem_len by exact W'. lia.
Qed.

(** Executions at the level of single processor calls. *)
Inductive run : cursor -> list token -> cursor -> Prop :=
| run_nil c : run c [] c
| run_cons c t c1 ts c2 : process c = Match t c1 -> run c1 ts c2 -> run c (t :: ts) c2.

Lemma run_app c ts1 c1 ts2 c2 : run c ts1 c1 -> run c1 ts2 c2 -> run c (ts1 ++ ts2) c2.
Proof. induction 1; cbn; intros; [assumption|]. econstructor; eauto. Qed.

Lemma run_app_inv c ts1 ts2 c2 : run c (ts1 ++ ts2) c2 -> exists c1, run c ts1 c1 /\ run c1 ts2 c2.
Proof.
  revert c. induction ts1 as [|t ts1 IH]; cbn; intros c R; [exists c; split; [constructor|exact R]|].
  inversion R as [|? ? c1 ? ? P R']; subst. destruct (IH _ R') as (c3 & R1 & R2).
  exists c3. split; [econstructor; eauto|exact R2].
Qed.

Lemma run_wf c ts c' : run c ts c' -> cwf c -> cwf c'.
Proof. induction 1; eauto using process_wf. Qed.
Lemma run_text c ts c' : run c ts c' -> cwf c -> c_text c' = c_text c.
Proof.
  induction 1 as [|c t c1 ts c2 P R IH]; intros W; [reflexivity|].
  rewrite IH by eauto using process_wf. eapply process_text; eauto.
Qed.

(** [GetNext] in terms of [run]. *)
Lemma get_next_run_n n : forall k, rest_length (tk_cur k) < n -> cwf (tk_cur k) ->
  exists ts c', run (tk_cur k) ts c' /\
    Forall (fun t => keep (tk_space k) (tk_comment k) t = false) ts /\
    match process c' with
    | NoMatch => get_next k = GNil (with_cur k c')
    | Hang => get_next k = GHang
    | Match t c2 => keep (tk_space k) (tk_comment k) t = true /\ get_next k = GTok t (with_cur k c2)
    end.
Proof.
  induction n as [|n IH]; intros k L W; [lia|].
  rewrite get_next_unfold by exact W.
  destruct (process (tk_cur k)) as [|t c|] eqn:P.
  - exists [], (tk_cur k). split; [constructor|]. split; [constructor|]. rewrite P.
    destruct k; reflexivity.
  - destruct (keep _ _ t) eqn:K.
    + exists [], (tk_cur k). split; [constructor|]. split; [constructor|]. rewrite P. auto.
    + pose proof (process_shorter _ _ _ W P (keep_not_eof _ _ _ K)) as S.
      destruct (IH (with_cur k c)) as (ts & c' & R & F & M); [cbn; lia|cbn; eauto using process_wf|].
      exists (t :: ts), c'. split; [econstructor; eauto|]. split; [constructor; auto|].
      cbn in M. destruct (process c'); exact M.
  - exists [], (tk_cur k). split; [constructor|]. split; [constructor|]. rewrite P. reflexivity.
Qed.

Lemma get_next_run k : cwf (tk_cur k) ->
  exists ts c', run (tk_cur k) ts c' /\
    Forall (fun t => keep (tk_space k) (tk_comment k) t = false) ts /\
    match process c' with
    | NoMatch => get_next k = GNil (with_cur k c')
    | Hang => get_next k = GHang
    | Match t c2 => keep (tk_space k) (tk_comment k) t = true /\ get_next k = GTok t (with_cur k c2)
    end.
Proof. apply (get_next_run_n (S (rest_length (tk_cur k)))). lia. Qed.

Lemma get_next_skip k ts c' : cwf (tk_cur k) -> run (tk_cur k) ts c' ->
  Forall (fun t => keep (tk_space k) (tk_comment k) t = false) ts ->
  get_next k = get_next (with_cur k c').
Proof.
  intros W R. remember (tk_cur k) as c eqn:Ec. revert k W Ec.
  induction R as [c|c t c1 ts c2 P R IH]; intros k W Ec F.
  - subst c. destruct k; reflexivity.
  - inversion F as [|? ? K F']; subst. rewrite get_next_unfold by exact W. rewrite P, K.
    rewrite (IH (with_cur k c1)); [reflexivity| |reflexivity|exact F'].
    eauto using process_wf.
Qed.

Lemma get_next_tok k t k' : cwf (tk_cur k) -> get_next k = GTok t k' ->
  exists ts, run (tk_cur k) (ts ++ [t]) (tk_cur k') /\
    Forall (fun t => keep (tk_space k) (tk_comment k) t = false) ts /\
    keep (tk_space k) (tk_comment k) t = true /\
    tk_space k' = tk_space k /\ tk_comment k' = tk_comment k.
Proof.
  intros W G. destruct (get_next_run k W) as (ts & c' & R & F & M).
  destruct (process c') as [|t2 c2|] eqn:P; [congruence| |congruence].
  destruct M as [K M]. rewrite M in G. injection G as <- <-.
  exists ts. cbn. repeat split; auto. eapply run_app; [exact R|].
  econstructor; [exact P|constructor].
Qed.

Lemma held_wf text k : held text k -> cwf (tk_cur k) /\ c_text (tk_cur k) = text.
Proof.
  induction 1 as [sp cm|k t k' H [W T] G|k k' H [W T] G|k H [W T]].
  - split; [apply new_cursor_wf|reflexivity].
  - destruct (get_next_tok _ _ _ W G) as (ts & R & _).
    split; [eauto using run_wf|]. rewrite (run_text _ _ _ R W). exact T.
  - destruct (get_next_run k W) as (ts & c' & R & F & M).
    destruct (process c') as [|t2 c2|] eqn:P; [|destruct M; congruence|congruence].
    rewrite M in G. injection G as <-. cbn.
    split; [eauto using run_wf|]. rewrite (run_text _ _ _ R W). exact T.
  - split; [exact W|exact T].
Qed.

(** A token of a text sits in it, and has the shape of its type. *)
Definition fits (text : list rune) (t : token) : Prop :=
  t_text t = text /\
  exists pre post, text = pre ++ raw t ++ post /\ List.length pre = start_of t /\
    stop_of t = start_of t + List.length (raw t) /\
    ((t_type t = EOF /\ raw t = [] /\ lex1 post = LEof) \/
     (t_type t <> EOF /\ raw t <> [] /\ lex1 (raw t ++ post) = LTok (t_type t) (raw t) post /\
      shape (t_type t) (raw t) post)).

Lemma split_at_index c : cwf c ->
  exists pre, c_text c = pre ++ rem c /\ List.length pre = c_index c.
Proof.
  intros W. exists (firstn (c_index c) (c_text c)). unfold rem. rewrite firstn_skipn.
  split; [reflexivity|]. apply firstn_length_le. exact W.
Qed.

Lemma process_fits c t c' : cwf c -> process c = Match t c' -> fits (c_text c) t.
Proof.
  intros W P. destruct (split_at_index c W) as (pre & T & Lp).
  destruct (process_match _ _ _ W P) as [(L & -> & ->)|(w & L & NE & M & Et)].
  - split; [reflexivity|]. exists pre, (rem c).
    assert (R : raw (mkToken EOF (c_text c) (c_pos c) (c_pos c)) = []).
    { unfold raw, slice. cbn. now rewrite Nat.sub_diag. }
    rewrite R. unfold start_of, stop_of. cbn. fold (c_index c).
    rewrite Nat.add_0_r. auto 10.
  - pose proof (lex1_shape _ _ _ _ L) as (E & _ & Sh).
    assert (R : raw t = w).
    { rewrite Et. now apply moved_raw. }
    assert (TT : t_text t = c_text c) by (rewrite Et; reflexivity).
    assert (S1 : start_of t = c_index c) by (rewrite Et; reflexivity).
    assert (S2 : stop_of t = c_index c') by (rewrite Et; reflexivity).
    split; [exact TT|]. exists pre, (rem c'). rewrite R, S1, S2.
    pose proof (moved_index _ _ _ W M) as MI. rewrite E in L.
    split; [now rewrite <- E|]. split; [exact Lp|]. split; [exact MI|]. right.
    split; [|auto]. intros EO. rewrite EO in Sh. cbn in Sh. destruct Sh as [Lx _]. inversion Lx.
Qed.

Lemma token_of_fits text t : token_of text t -> fits text t.
Proof.
  intros (k & k' & H & G). destruct (held_wf _ _ H) as [W T].
  destruct (get_next_tok _ _ _ W G) as (ts & R & _).
  apply run_app_inv in R as (c1 & R1 & R2). inversion R2 as [|? ? ? ? ? P R3]; subst.
  rewrite <- (run_text _ _ _ R1 W). eapply process_fits; eauto using run_wf.
Qed.

Lemma fits_after text t : fits text t -> exists post,
  rune_after text t = nth_error post 0 /\ rune_after2 text t = nth_error post 1 /\
  text = firstn (start_of t) text ++ raw t ++ post /\
  ((t_type t = EOF /\ raw t = [] /\ lex1 post = LEof) \/
   (t_type t <> EOF /\ raw t <> [] /\ lex1 (raw t ++ post) = LTok (t_type t) (raw t) post /\
    shape (t_type t) (raw t) post)).
Proof.
  intros (_ & pre & post & E & L & S & H). exists post.
  unfold rune_after, rune_after2.
  assert (N : forall i, nth_error text (i + stop_of t) = nth_error post i).
  { intros i. rewrite E, app_assoc, nth_error_app2; rewrite app_length; [f_equal|]; lia. }
  rewrite <- (N 0), <- (N 1). repeat split; auto.
  rewrite <- L. rewrite E at 1. f_equal. rewrite E. now rewrite firstn_app_exact.
Qed.

(** Reading with flags and reading everything. *)
Lemma reads_wf k ts k' : reads k ts k' -> cwf (tk_cur k) -> cwf (tk_cur k').
Proof.
  induction 1 as [|k t k1 ts k2 G R IH]; intros W; [exact W|].
  destruct (get_next_tok _ _ _ W G) as (? & R' & _). eauto using run_wf.
Qed.

Lemma reads_held text k ts k' : reads k ts k' -> held text k -> held text k'.
Proof. induction 1; intros; [assumption|]. eauto using held_tok. Qed.

Lemma reads_flags k ts k' : reads k ts k' -> cwf (tk_cur k) ->
  tk_space k' = tk_space k /\ tk_comment k' = tk_comment k.
Proof.
  induction 1 as [|k t k1 ts k2 G R IH]; intros W; [auto|].
  destruct (get_next_tok _ _ _ W G) as (? & R' & _ & _ & F1 & F2).
  rewrite <- F1, <- F2. apply IH. eauto using run_wf.
Qed.

Lemma filter_none {A} (f : A -> bool) l : Forall (fun x => f x = false) l -> filter f l = [].
Proof. induction 1 as [|x l H F IH]; cbn; [reflexivity|]. now rewrite H. Qed.

Lemma reads_run k ts k' : reads k ts k' -> cwf (tk_cur k) ->
  exists all, run (tk_cur k) all (tk_cur k') /\
    ts = filter (keep (tk_space k) (tk_comment k)) all.
Proof.
  induction 1 as [k|k t k1 ts k2 G R IH]; intros W.
  - exists []. split; [constructor|reflexivity].
  - destruct (get_next_tok _ _ _ W G) as (sk & R1 & F & K & F1 & F2).
    destruct (IH (run_wf _ _ _ R1 W)) as (all & R2 & E).
    exists ((sk ++ [t]) ++ all). split; [eapply run_app; eauto|].
    rewrite !filter_app, (filter_none _ sk F). cbn. rewrite K. cbn. now rewrite E, F1, F2.
Qed.

Lemma run_reads c all c' sp cm : run c all c' -> cwf c ->
  exists k', reads (mkTkz c sp cm) (filter (keep sp cm) all) k' /\
    exists sk, run (tk_cur k') sk c' /\ Forall (fun t => keep sp cm t = false) sk /\
      tk_space k' = sp /\ tk_comment k' = cm.
Proof.
  induction 1 as [c|c t c1 ts c2 P R IH]; intros W.
  - exists (mkTkz c sp cm). split; [constructor|]. exists []. repeat split; constructor.
  - destruct (IH (process_wf _ _ _ W P)) as (k' & R' & sk & Rs & F & F1 & F2). cbn.
    destruct (keep sp cm t) eqn:K.
    + exists k'. split; [|exists sk; auto]. econstructor; [|exact R'].
      rewrite get_next_unfold by exact W. cbn. rewrite P, K. reflexivity.
    + remember (mkTkz c1 sp cm) as k0 eqn:E0. remember (filter (keep sp cm) ts) as fl eqn:Ef.
      destruct R' as [k0|k0 t' k1 ts' k2 G R1]; subst k0.
      * exists (mkTkz c sp cm). split; [constructor|].
        exists (t :: sk). cbn in *. repeat split; auto. econstructor; eauto.
      * exists k2. split; [|exists sk; auto]. econstructor; [|exact R1].
        rewrite get_next_unfold by exact W. cbn. rewrite P, K. exact G.
Qed.

Lemma run_reads_all c all c' : run c all c' -> cwf c ->
  reads (mkTkz c true true) all (mkTkz c' true true).
Proof.
  induction 1 as [c|c t c1 ts c2 P R IH]; intros W; [constructor|].
  econstructor; [|apply IH; eauto using process_wf].
  rewrite get_next_unfold by exact W. cbn. rewrite P.
  unfold keep. destruct (t_type t); reflexivity.
Qed.

Lemma reads_all_run k all k' : reads k all k' -> tk_space k = true -> tk_comment k = true ->
  cwf (tk_cur k) -> run (tk_cur k) all (tk_cur k').
Proof.
  intros R S C W. destruct (reads_run _ _ _ R W) as (all' & R' & E). rewrite S, C in E.
  assert (F : filter (keep true true) all' = all').
  { clear. induction all' as [|t l IH]; cbn; [reflexivity|].
    replace (keep true true t) with true by (unfold keep; destruct (t_type t); reflexivity).
    now rewrite IH. }
  rewrite F in E. now subst.
Qed.

(** Tiling. *)
Lemma process_moved c t c' : cwf c -> process c = Match t c' ->
  moved c (raw t) c' /\ start_of t = c_index c /\ stop_of t = c_index c'.
Proof.
  intros W P. destruct (process_match _ _ _ W P) as [(L & -> & ->)|(w & L & NE & M & Et)].
  - assert (R : raw (mkToken EOF (c_text c) (c_pos c) (c_pos c)) = []).
    { unfold raw, slice. cbn. now rewrite Nat.sub_diag. }
    rewrite R. split; [apply moved_refl|]. split; reflexivity.
  - assert (R : raw t = w) by (rewrite Et; now apply moved_raw).
    rewrite R. split; [exact M|]. rewrite Et. split; reflexivity.
Qed.

Lemma run_moved c ts c' : run c ts c' -> cwf c -> moved c (List.concat (map raw ts)) c'.
Proof.
  induction 1 as [|c t c1 ts c2 P R IH]; intros W; [apply moved_refl|].
  cbn. eapply moved_trans; [|apply IH; eauto using process_wf].
  now apply process_moved.
Qed.

Lemma run_contiguous c ts c' : run c ts c' -> cwf c -> contiguous (c_index c) ts.
Proof.
  induction 1 as [|c t c1 ts c2 P R IH]; intros W; [exact I|].
  destruct (process_moved _ _ _ W P) as (M & S1 & S2). cbn.
  split; [exact S1|]. pose proof (moved_index _ _ _ W M).
  split; [lia|]. rewrite S2. apply IH. eauto using process_wf.
Qed.

Lemma moved_prefix text w c' : moved (new_cursor text) w c' -> w = firstn (c_index c') text.
Proof.
  intros M. pose proof (moved_index _ _ _ (new_cursor_wf text) M) as I. cbn in I.
  destruct M as [_ M]. rewrite new_cursor_rem in M. rewrite I, M. now rewrite firstn_app_exact.
Qed.

(** Any cursor reached without cloning is [steps n] from the start. *)
Lemma reads_steps text sp cm ts k : reads (new_tokenizer text sp cm) ts k ->
  tk_cur k = steps (c_index (tk_cur k)) (new_cursor text) /\ c_index (tk_cur k) <= List.length text.
Proof.
  intros R. destruct (reads_run _ _ _ R (new_cursor_wf text)) as (all & R' & _).
  apply run_moved in R' as M; [|apply new_cursor_wf].
  pose proof (moved_index _ _ _ (new_cursor_wf text) M) as I. cbn in I.
  destruct M as [E M]. split.
  - rewrite I. exact E.
  - rewrite I. apply (f_equal (@List.length _)) in M. rewrite app_length in M. cbn in M. lia.
Qed.

Lemma run_steps text ts c : run (new_cursor text) ts c ->
  c = steps (c_index c) (new_cursor text) /\ c_index c <= List.length text.
Proof.
  intros R'. apply run_moved in R' as M; [|apply new_cursor_wf].
  pose proof (moved_index _ _ _ (new_cursor_wf text) M) as I. cbn in I.
  destruct M as [E M]. split.
  - rewrite I. exact E.
  - rewrite I. apply (f_equal (@List.length _)) in M. rewrite app_length in M. cbn in M. lia.
Qed.

Lemma reads_tokens text sp cm ts k t : reads (new_tokenizer text sp cm) (ts ++ [t]) k ->
  exists c c', t_start t = c_pos c /\ t_end t = c_pos c' /\
    c = steps (c_index c) (new_cursor text) /\ c_index c <= List.length text /\
    c' = steps (c_index c') (new_cursor text) /\ c_index c' <= List.length text.
Proof.
  intros R. destruct (reads_run _ _ _ R (new_cursor_wf text)) as (all & R' & E).
  assert (I : In t all).
  { assert (J : In t (filter (keep (tk_space (new_tokenizer text sp cm))
       (tk_comment (new_tokenizer text sp cm))) all)) by (rewrite <- E; apply in_or_app; right; now left).
    now apply filter_In in J. }
  apply in_split in I as (a & b & ->). apply run_app_inv in R' as (c1 & R1 & R2).
  inversion R2 as [|? ? c2 ? ? P R3]; subst.
  assert (W1 : cwf c1) by (eapply run_wf; [exact R1|apply new_cursor_wf]).
  assert (R12 : run (new_cursor text) (a ++ [t]) c2).
  { eapply run_app; [exact R1|]. econstructor; [exact P|constructor]. }
  exists c1, c2. destruct (run_steps _ _ _ R1), (run_steps _ _ _ R12).
  destruct (process_match _ _ _ W1 P) as [(_ & -> & ->)|(w & _ & _ & _ & ->)]; auto 10.
Qed.

(** Lines and columns. *)
Lemma count_lf_app a b : count_lf (a ++ b) = count_lf a + count_lf b.
Proof. induction a; cbn; [reflexivity|]. rewrite IHa. lia. Qed.

Lemma firstn_snoc {A} (d : A) l n : n < List.length l ->
  firstn (S n) l = firstn n l ++ [nth n l d].
Proof.
  revert l; induction n as [|n IH]; intros [|x l] L; cbn in *; try lia; [reflexivity|].
  f_equal. apply IH. lia.
Qed.

Lemma line_at_S text n : n < List.length text ->
  line_at text (S n) = line_at text n + (if (nth n text 0%N =? 10)%N then 1 else 0).
Proof.
  intros L. unfold line_at. rewrite (firstn_snoc 0%N) by exact L.
  rewrite count_lf_app. cbn. lia.
Qed.
Lemma column_at_S text n : n < List.length text ->
  column_at text (S n) = if (nth n text 0%N =? 10)%N then 1 else S (column_at text n).
Proof.
  intros L. unfold column_at. rewrite (firstn_snoc 0%N) by exact L.
  rewrite rev_app_distr. cbn. destruct (_ =? 10)%N; reflexivity.
Qed.

Lemma nth_rem text n : nth n text 0%N = hd0 (skipn n text).
Proof. unfold hd0. now rewrite hd_skipn. Qed.

Lemma next_pos c : c_index c < c_len c -> c_pos (step c) =
  if c_waslf c then mkPos (S (p_line (c_pos c))) 1 (S (c_index c))
  else mkPos (p_line (c_pos c)) (S (p_col (c_pos c))) (S (c_index c)).
Proof.
  intros L. unfold step, next. apply Nat.ltb_lt in L. unfold c_index in L.
  destruct (c_waslf c); cbn; rewrite L; reflexivity.
Qed.

Lemma steps_waslf text n : S n <= List.length text ->
  c_waslf (steps (S n) (new_cursor text)) = (nth (S n) text 0 =? 10)%N.
Proof.
  intros L. cbn [steps]. rewrite step_waslf by (apply steps_wf, new_cursor_wf).
  change (step (steps n (new_cursor text))) with (steps (S n) (new_cursor text)).
  rewrite steps_rem by apply new_cursor_wf. rewrite new_cursor_rem. now rewrite hd_skipn.
Qed.

Lemma pos_steps text n : hd 0%N text <> 10%N -> n <= List.length text ->
  c_pos (steps n (new_cursor text)) = mkPos (line_at text n) (column_at text n) n.
Proof.
  intros H. induction n as [|n IH]; intros L.
  - reflexivity.
  - cbn [steps]. specialize (IH ltac:(lia)).
    assert (I : c_index (steps n (new_cursor text)) = n) by (unfold c_index; now rewrite IH).
    rewrite next_pos by (rewrite I; unfold c_len; rewrite steps_text; exact L).
    rewrite I, IH. cbn [p_line p_col].
    rewrite line_at_S, column_at_S by lia.
    assert (LF : c_waslf (steps n (new_cursor text)) = (nth n text 0 =? 10)%N).
    { destruct n as [|n].
      - cbn. symmetry. apply N.eqb_neq. destruct text; cbn in *; [discriminate|exact H].
      - apply steps_waslf. lia. }
    rewrite LF. destruct (_ =? 10)%N; f_equal; lia.
Qed.

(** A leading line feed is not counted. *)
Lemma pos_steps_lf text n : hd 0%N text = 10%N -> 1 <= n <= List.length text ->
  c_pos (steps n (new_cursor text)) =
  mkPos (line_at text n - 1)
    (column_at text n + (if count_lf (firstn n text) =? 1 then 1 else 0)) n.
Proof.
  intros H [L0 L]. destruct text as [|r text]; [discriminate|]. cbn in H. subst r.
  induction n as [|n IH]; [lia|]. destruct n as [|n].
  - reflexivity.
  - specialize (IH ltac:(lia) ltac:(lia)).
    set (tx := 10%N :: text) in *.
    change (steps (S (S n)) (new_cursor tx)) with (step (steps (S n) (new_cursor tx))).
    assert (I : c_index (steps (S n) (new_cursor tx)) = S n) by (unfold c_index; now rewrite IH).
    rewrite next_pos by (rewrite I; unfold c_len; rewrite steps_text; cbn in L |- *; lia).
    rewrite I, IH, steps_waslf by lia. cbn [p_line p_col].
    rewrite (line_at_S tx (S n)), (column_at_S tx (S n)) by lia.
    rewrite (firstn_snoc 0%N tx (S n)) by lia. rewrite count_lf_app. cbn [count_lf].
    assert (G : 1 <= count_lf (firstn (S n) tx)) by (subst tx; cbn; lia).
    assert (G2 : line_at tx (S n) = S (count_lf (firstn (S n) tx))) by reflexivity.
    destruct (nth (S n) tx 0 =? 10)%N.
    + replace (count_lf (firstn (S n) tx) + (1 + 0) =? 1) with false
        by (symmetry; apply Nat.eqb_neq; lia). f_equal; lia.
    + replace (count_lf (firstn (S n) tx) + (0 + 0)) with (count_lf (firstn (S n) tx)) by lia.
      f_equal; lia.
Qed.

(** Tokenizers at the same place of the same text. *)
Definition same_place (k1 k2 : tokenizer) : Prop :=
  c_text (tk_cur k1) = c_text (tk_cur k2) /\ c_index (tk_cur k1) = c_index (tk_cur k2) /\
  tk_space k1 = tk_space k2 /\ tk_comment k1 = tk_comment k2.
Definition same_token (t1 t2 : token) : Prop :=
  t_type t1 = t_type t2 /\ t_text t1 = t_text t2 /\ start_of t1 = start_of t2 /\ stop_of t1 = stop_of t2.

Definition csim (c1 c2 : cursor) : Prop := c_text c1 = c_text c2 /\ c_index c1 = c_index c2.

Lemma csim_rem c1 c2 : csim c1 c2 -> rem c1 = rem c2.
Proof. intros [T I]. unfold rem. now rewrite T, I. Qed.
Lemma csim_wf c1 c2 : csim c1 c2 -> cwf c1 -> cwf c2.
Proof. intros [T I] W. unfold cwf, c_len in *. now rewrite <- T, <- I. Qed.

Lemma process_sim c1 c2 : csim c1 c2 -> cwf c1 ->
  match process c1, process c2 with
  | NoMatch, NoMatch => True
  | Hang, Hang => True
  | Match t1 c1', Match t2 c2' => same_token t1 t2 /\ csim c1' c2'
  | _, _ => False
  end.
Proof.
  intros S W. pose proof (csim_wf _ _ S W) as W2.
  pose proof (process_lex1 c1 W) as A1. pose proof (process_lex1 c2 W2) as A2.
  rewrite <- (csim_rem _ _ S) in A2. unfold process_agrees in *. destruct S as [T I].
  destruct (lex1 (rem c1)) as [| | |ty w q].
  - rewrite A1, A2. unfold same_token, csim, start_of, stop_of. cbn.
    unfold c_index in I. auto.
  - now rewrite A1, A2.
  - now rewrite A1, A2.
  - destruct A1 as (c1' & -> & M1 & _). destruct A2 as (c2' & -> & M2 & _).
    pose proof (moved_index _ _ _ W M1) as I1. pose proof (moved_index _ _ _ W2 M2) as I2.
    apply moved_text in M1, M2. unfold same_token, csim, start_of, stop_of. cbn.
    unfold c_index in *. repeat split; congruence.
Qed.

Lemma get_next_sim_n n : forall k1 k2, rest_length (tk_cur k1) < n -> same_place k1 k2 -> cwf (tk_cur k1) ->
  match get_next k1, get_next k2 with
  | GNil k1', GNil k2' => same_place k1' k2'
  | GHang, GHang => True
  | GTok t1 k1', GTok t2 k2' => same_token t1 t2 /\ same_place k1' k2'
  | _, _ => False
  end.
Proof.
  induction n as [|n IH]; intros k1 k2 L S W; [lia|].
  destruct S as (T & I & F1 & F2).
  assert (CS : csim (tk_cur k1) (tk_cur k2)) by (split; assumption).
  pose proof (csim_wf _ _ CS W) as W2. pose proof (process_sim _ _ CS W) as P.
  rewrite !get_next_unfold by assumption.
  destruct (process (tk_cur k1)) as [|t1 c1|] eqn:P1, (process (tk_cur k2)) as [|t2 c2|] eqn:P2;
    try contradiction; auto.
  - unfold same_place. auto.
  - destruct P as [ST [T' I']]. rewrite <- F1, <- F2.
    assert (K : keep (tk_space k1) (tk_comment k1) t2 = keep (tk_space k1) (tk_comment k1) t1).
    { unfold keep. destruct ST as (E & _). now rewrite E. }
    rewrite K. destruct (keep _ _ t1) eqn:K1.
    + split; [exact ST|]. unfold same_place. cbn. auto.
    + apply IH.
      * cbn. pose proof (process_shorter _ _ _ W P1 (keep_not_eof _ _ _ K1)). lia.
      * unfold same_place. cbn. auto.
      * cbn. eauto using process_wf.
Qed.

Lemma get_next_sim k1 k2 : same_place k1 k2 -> cwf (tk_cur k1) ->
  match get_next k1, get_next k2 with
  | GNil k1', GNil k2' => same_place k1' k2'
  | GHang, GHang => True
  | GTok t1 k1', GTok t2 k2' => same_token t1 t2 /\ same_place k1' k2'
  | _, _ => False
  end.
Proof. apply (get_next_sim_n (S (rest_length (tk_cur k1)))). lia. Qed.

Lemma reads_sim k1 ts1 k1' : reads k1 ts1 k1' -> forall k2, same_place k1 k2 -> cwf (tk_cur k1) ->
  exists ts2 k2', reads k2 ts2 k2' /\ Forall2 same_token ts1 ts2 /\ same_place k1' k2'.
Proof.
  induction 1 as [k|k t k1 ts k' G R IH]; intros k2 S W.
  - exists [], k2. repeat split; [constructor|constructor|apply S..].
  - pose proof (get_next_sim k k2 S W) as M. rewrite G in M.
    destruct (get_next k2) as [t2 k2'|?|] eqn:G2; try contradiction. destruct M as [ST S'].
    destruct (get_next_tok _ _ _ W G) as (? & R' & _).
    destruct (IH k2' S' (run_wf _ _ _ R' W)) as (ts2 & k3 & R2 & F & S3).
    exists (t2 :: ts2), k3. repeat split; [econstructor; eauto|constructor; assumption|apply S3..].
Qed.

(** Termination. *)
Lemma process_outcome c : cwf c ->
  match process c with
  | NoMatch => lex1 (rem c) = LNone
  | Hang => lex1 (rem c) = LHang
  | Match _ _ => True
  end.
Proof.
  intros W. pose proof (process_lex1 c W) as A. unfold process_agrees in A.
  destruct (lex1 (rem c)); try (destruct A as (? & A & _)); rewrite A; auto.
Qed.

Lemma lex1_hang l : lex1 l = LHang <-> exists l', l = 39%N :: l' /\ never_closed l'.
Proof.
  split.
  - destruct l as [|r l]; [discriminate|]. unfold lex1.
    destruct (r =? 0)%N; [discriminate|]. destruct (r =? 123)%N; [discriminate|].
    destruct ((r =? 47)%N && _); [discriminate|].
    destruct ((r =? 40)%N && _); [destruct (star_scan l); discriminate|].
    destruct (N.eqb_spec r 39) as [->|].
    + destruct (string_scan 0 l) as [[? ?]|] eqn:S; [discriminate|]. intros _.
      exists l. split; [reflexivity|]. exact (proj1 (string_scan_none l 0%N) S).
    + destruct (is_digit r || _); [destruct (numeral_scan NumeralInt l) as [[? ?] ?]; discriminate|].
      destruct (is_double r _); [discriminate|]. destruct (is_single_symbol r); [discriminate|].
      destruct (is_word_head r); [discriminate|]. destruct (u_space r); discriminate.
  - intros (l' & -> & N). apply string_scan_none in N. unfold lex1. cbn [N.eqb Pos.eqb andb].
    now rewrite N.
Qed.

Lemma lex1_none l : lex1 l = LNone <-> exists r l', l = r :: l' /\
  r <> 0%N /\ ~ Blank r /\ ~ WordRune r /\ r <> 39%N /\ r <> 123%N /\ ~ In [r] one_rune_symbols.
Proof.
  split.
  - destruct l as [|r l]; [discriminate|]. unfold lex1.
    destruct (N.eqb_spec r 0); [discriminate|]. destruct (N.eqb_spec r 123); [discriminate|].
    destruct ((r =? 47)%N && _); [discriminate|].
    destruct ((r =? 40)%N && _); [destruct (star_scan l); discriminate|].
    destruct (N.eqb_spec r 39).
    { destruct (string_scan 0 l) as [[? ?]|]; discriminate. }
    destruct (is_digit r) eqn:D; cbn [orb].
    { destruct (numeral_scan NumeralInt l) as [[? ?] ?]; discriminate. }
    destruct (is_unary_op r && _); [destruct (numeral_scan NumeralInt l) as [[? ?] ?]; discriminate|].
    destruct (is_double r _); [discriminate|].
    destruct (is_single_symbol r) eqn:SS; [discriminate|].
    destruct (is_word_head r) eqn:WH; [discriminate|].
    destruct (u_space r) eqn:SP; [discriminate|]. intros _.
    exists r, l. split; [reflexivity|]. split; [assumption|]. split; [unfold Blank; congruence|].
    split. { apply word_spec'. unfold is_word. now rewrite WH, D. }
    split; [assumption|]. split; [assumption|].
    intros I. assert (is_single_symbol r = true) by (apply single_spec; tauto). congruence.
  - intros (r & l' & -> & N0 & NB & NW & N39 & N123 & NS).
    assert (SS : is_single_symbol r = false).
    { destruct (is_single_symbol r) eqn:E; [|reflexivity]. apply single_spec in E. tauto. }
    apply word_spec' in NW. unfold is_word in NW. apply orb_false_iff in NW as [NH ND].
    assert (SP : u_space r = false) by (unfold Blank in NB; destruct (u_space r); congruence).
    unfold lex1. rewrite SS, NH, ND, SP.
    apply N.eqb_neq in N0, N39, N123. rewrite N0, N39, N123.
    assert (X : forall s, In [s] one_rune_symbols -> (r =? s)%N = false).
    { intros s I. apply N.eqb_neq. intros ->. contradiction. }
    unfold is_unary_op. rewrite (X 47%N), (X 40%N), (X 45%N) by (cbn; tauto). cbn [andb orb].
    assert (DD : is_double r (hd0 l') = false).
    { apply double_spec'. intros I. cbn in I.
      assert (Y : ~ In [r] one_rune_symbols) by exact NS. cbn in Y.
      repeat destruct I as [I|I]; try contradiction; injection I as <- _; tauto. }
    now rewrite DD.
Qed.

(** Skipped tokens and gaps. *)
Definition skippable (t : token) : Prop := t_type t = Space \/ t_type t = Comment.

Lemma keep_ff t : keep false false t = false <-> skippable t.
Proof. unfold keep, skippable. destruct (t_type t); intuition congruence. Qed.

Lemma gap_drop g : gap g -> gap (drop_while u_space g).
Proof.
  assert (NB : forall r, (r < 128)%N -> between 9 13 r || (r =? 32)%N = false -> u_space r = false).
  { intros r L E. now rewrite space_ascii. }
  induction 1 as [|r g B G IH|w g C G IH|w g C G IH].
  - constructor.
  - cbn. unfold Blank in B. now rewrite B.
  - destruct C; cbn; rewrite NB by (reflexivity || lia); apply (gap_comment (_ :: _ ++ _));
      try constructor; assumption.
  - destruct C as (b & -> & N1 & N2). cbn. rewrite NB by (reflexivity || lia).
    apply (gap_line (_ :: _ :: b)); [exists b; auto|assumption].
Qed.

Lemma process_of_lex1 c ty w q : cwf c -> lex1 (rem c) = LTok ty w q ->
  exists t c', process c = Match t c' /\ t_type t = ty /\ raw t = w /\ rem c' = q.
Proof.
  intros W L. pose proof (process_lex1 c W) as A. unfold process_agrees in A. rewrite L in A.
  destruct A as (c' & P & M & R). eexists; eexists. split; [exact P|].
  repeat split; auto. now apply moved_raw.
Qed.

Definition no_blank (q : list rune) : Prop := forall r q', q = r :: q' -> ~ Blank r.

Lemma gap_run_n n : forall g q c, List.length g < n -> gap g -> no_blank q -> cwf c ->
  rem c = g ++ q -> exists ts c', run c ts c' /\ rem c' = q /\ Forall skippable ts.
Proof.
  induction n as [|n IH]; intros g q c L G Q W E; [lia|].
  assert (ST : forall ty w g', gap g' -> w <> [] -> g = w ++ g' -> (ty = Space \/ ty = Comment) ->
     lex1 (rem c) = LTok ty w (g' ++ q) ->
     exists ts c', run c ts c' /\ rem c' = q /\ Forall skippable ts).
  { intros ty w g' G' NE Eg TY LX. destruct (process_of_lex1 c _ _ _ W LX) as (t & c1 & P & Ty & _ & R).
    destruct (IH g' q c1) as (ts & c2 & R2 & E2 & F); auto.
    - subst g. rewrite app_length in L. destruct w; [congruence|]. cbn in L. lia.
    - eauto using process_wf.
    - exists (t :: ts), c2. split; [econstructor; eauto|]. split; [exact E2|].
      constructor; [|exact F]. unfold skippable. now rewrite Ty. }
  inversion G as [|r g' B G'|w g' C G'|w g' C G']; subst g.
  - exists [], c. split; [constructor|]. split; [exact E|constructor].
  - set (g := r :: g') in *.
    apply (ST Space (take_while u_space g) (drop_while u_space g)).
    + now apply gap_drop.
    + subst g. cbn. unfold Blank in B. rewrite B. discriminate.
    + symmetry. apply take_drop_while.
    + now left.
    + rewrite E. rewrite <- (take_drop_while u_space g) at 1. rewrite <- app_assoc.
      apply lex1_blank. split; [subst g; cbn; unfold Blank in B; rewrite B; discriminate|].
      split; [apply take_while_forall|].
      intros x q' Ex. destruct (drop_while u_space g) as [|y d] eqn:D.
      * now apply (Q x q').
      * cbn in Ex. injection Ex as -> _. apply drop_while_head in D. unfold Blank. congruence.
  - apply (ST Comment w g'); auto.
    + destruct C; discriminate.
    + rewrite E, <- app_assoc. now apply lex1_closed.
  - apply (ST Comment w (10%N :: g')); auto.
    + destruct C as (b & -> & _). discriminate.
    + rewrite E, <- app_assoc. apply lex1_line; [exact C|]. right. cbn. eauto.
Qed.

Lemma gap_run g q c : gap g -> no_blank q -> cwf c -> rem c = g ++ q ->
  exists ts c', run c ts c' /\ rem c' = q /\ Forall skippable ts.
Proof. apply (gap_run_n (S (List.length g))). lia. Qed.

Lemma last_gap_run g c : last_gap g -> cwf c -> rem c = g ->
  exists ts c', run c ts c' /\ rem c' = [] /\ Forall skippable ts.
Proof.
  assert (CB : forall w g0, gap g0 -> cwf c -> rem c = g0 ++ w -> w <> [] -> no_blank w ->
     lex1 w = LTok Comment w [] -> exists ts c', run c ts c' /\ rem c' = [] /\ Forall skippable ts).
  { intros w g0 G W E NE NB LX. destruct (gap_run g0 w c) as (ts & c1 & R & E1 & F); auto.
    assert (W1 : cwf c1) by eauto using run_wf.
    destruct (process_of_lex1 c1 Comment w [] W1) as (t & c2 & P & Ty & _ & R2); [now rewrite E1|].
    exists (ts ++ [t]), c2. split; [eapply run_app; [exact R|]; econstructor; [exact P|constructor]|].
    split; [exact R2|]. apply Forall_app. split; [exact F|]. constructor; [|constructor].
    right. exact Ty. }
  assert (NBk : forall r, (r = 123 \/ r = 40 \/ r = 47)%N -> ~ Blank r).
  { intros r H. unfold Blank. rewrite space_ascii by lia.
    destruct H as [->|[->| ->]]; cbn; discriminate. }
  intros [g' G|g' w G C|g' w G C] W E.
  - apply (gap_run g' [] c); auto; [discriminate|]. now rewrite app_nil_r.
  - apply (CB w g'); auto; [destruct C; discriminate| |now apply lex1_cut].
    intros r q' ->. apply NBk. inversion C; auto.
  - apply (CB w g'); auto; [destruct C as (? & -> & _); discriminate| |].
    + intros r q' ->. apply NBk. destruct C as (? & [= -> ->] & _). auto.
    + rewrite <- (app_nil_r w) at 1. apply lex1_line; auto.
Qed.

Lemma lexeme_no_blank ty w q : lexeme ty w -> no_blank (w ++ q).
Proof.
  assert (NBk : forall r, plain r -> (r = 95%N \/ u_letter r = true) -> ~ Blank r).
  { intros r _ H B. assert (HH : is_word_head r = true) by now apply word_head_spec.
    apply word_head_not_space in HH. unfold Blank in B. congruence. }
  assert (NS : forall r, (33 <= r < 128)%N -> ~ Blank r).
  { intros r L B. apply blank_small in B; lia. }
  intros L r q' E.
  inversion L as [x v H F R|x v H F R|s ds S N F|s ds fs S N F F2|b B|v I|v I]; subst w.
  - injection E as <- _. apply NBk; auto using word_head_plain.
  - injection E as <- _. apply NBk; auto using word_head_plain.
  - apply NS. destruct S as [->| ->]; cbn in E; [|injection E as <- _; lia].
    destruct F as [|d ds D F]; [congruence|]. injection E as <- _. unfold Digit in D. lia.
  - apply NS. destruct S as [->| ->]; cbn in E; [|injection E as <- _; lia].
    destruct F as [|d ds D F]; [congruence|]. injection E as <- _. unfold Digit in D. lia.
  - injection E as <- _. apply NS. lia.
  - apply NS. cbn in I. repeat destruct I as [I|I]; try contradiction; subst v; injection E as <- _; lia.
  - apply NS. cbn in I. repeat destruct I as [I|I]; try contradiction; subst v; injection E as <- _; lia.
Qed.

Lemma lexeme_not_skippable t : lexeme (t_type t) (raw t) -> ~ skippable t.
Proof. unfold skippable. intros L. inversion L; intuition congruence. Qed.

(** A text written from lexemes is read back as those lexemes. *)
Lemma written_run ls l : written ls l -> forall k, cwf (tk_cur k) -> rem (tk_cur k) = l ->
  tk_space k = false -> tk_comment k = false ->
  exists ts e k', reads k (ts ++ [e]) k' /\ map lexeme_of ts = ls /\ t_type e = EOF /\
    start_of e = List.length (c_text (tk_cur k)).
Proof.
  induction 1 as [g G|g ty w ls rest G L E H IH]; intros k W R S C.
  - destruct (last_gap_run g (tk_cur k) G W R) as (sk & c1 & R1 & E1 & F).
    pose proof (run_wf _ _ _ R1 W) as W1.
    pose proof (process_lex1 c1 W1) as P. rewrite E1 in P. cbn in P.
    exists [], (mkToken EOF (c_text c1) (c_pos c1) (c_pos c1)), (with_cur k c1).
    split; [|split; [reflexivity|split; [reflexivity|]]].
    + cbn. econstructor; [|constructor].
      rewrite (get_next_skip k sk c1 W R1).
      * rewrite get_next_unfold by exact W1. cbn. rewrite P. reflexivity.
      * rewrite S, C. eapply Forall_impl; [|exact F]. intros; now apply keep_ff.
    + unfold start_of. cbn. rewrite <- (run_text _ _ _ R1 W).
      unfold cwf, c_len, c_index in W1. unfold rem in E1.
      apply (f_equal (@List.length _)) in E1. rewrite skipn_length in E1. cbn in E1.
      unfold c_index in E1. lia.
  - destruct (gap_run g (w ++ rest) (tk_cur k) G) as (sk & c1 & R1 & E1 & F); auto.
    { eapply lexeme_no_blank; eauto. }
    pose proof (run_wf _ _ _ R1 W) as W1.
    destruct (process_of_lex1 c1 ty w rest W1) as (t & c2 & P & Ty & Rw & R2).
    { rewrite E1. now apply lex1_lexeme. }
    pose proof (process_wf _ _ _ W1 P) as W2.
    destruct (IH (with_cur k c2)) as (ts & e & k' & RR & M & Te & Se); auto.
    exists (t :: ts), e, k'. split; [|split; [|split]].
    + cbn. econstructor; [|exact RR].
      rewrite (get_next_skip k sk c1 W R1).
      * rewrite get_next_unfold by exact W1. cbn. rewrite P.
        assert (K : keep (tk_space k) (tk_comment k) t = true).
        { rewrite S, C. destruct (keep false false t) eqn:K; [reflexivity|].
          apply keep_ff in K. exfalso. revert K. apply lexeme_not_skippable. now rewrite Ty, Rw. }
        rewrite K. reflexivity.
      * rewrite S, C. eapply Forall_impl; [|exact F]. intros; now apply keep_ff.
    + cbn. rewrite M. unfold lexeme_of. now rewrite Ty, Rw.
    + exact Te.
    + rewrite Se. cbn. rewrite (process_text _ _ _ W1 P), (run_text _ _ _ R1 W). reflexivity.
Qed.

Lemma rem_incl_text c : incl (rem c) (c_text c).
Proof.
  unfold rem. intros x I. rewrite <- (firstn_skipn (c_index c) (c_text c)).
  apply in_or_app. now right.
Qed.

Definition stopped (l : list rune) : Prop :=
  match lex1 l with LTok Space _ _ | LTok Comment _ _ => False | _ => True end.

Lemma gap_blanks w g : Forall Blank w -> gap g -> gap (w ++ g).
Proof. induction 1; cbn; intros; [assumption|]. constructor; auto. Qed.

Lemma skip_gap c ts c' : run c ts c' -> cwf c -> ~ In 0%N (c_text c) -> Forall skippable ts ->
  stopped (rem c') ->
  exists g, rem c = g ++ rem c' /\ (gap g \/ (rem c' = [] /\ last_gap g)).
Proof.
  induction 1 as [c|c t c1 ts c2 P R IH]; intros W NZ F ST.
  - exists []. split; [reflexivity|]. left. constructor.
  - inversion F as [|? ? SK F']; subst.
    pose proof (process_wf _ _ _ W P) as W1.
    destruct (IH W1) as (g & E & G); auto.
    { now rewrite (process_text _ _ _ W P). }
    destruct (process_match _ _ _ W P) as [(_ & _ & ->)|(w & L & NE & [_ M] & _)].
    { destruct SK; discriminate. }
    exists (w ++ g). split; [now rewrite M, E, app_assoc|].
    apply lex1_shape in L as (_ & _ & Sh).
    destruct SK as [Ty|Ty]; rewrite Ty in Sh; cbn in Sh.
    + destruct Sh as (_ & FB & _). destruct G as [G|[E2 G]]; [left; now apply gap_blanks|right].
      split; [exact E2|]. destruct G as [g G|g v G C|g v G C].
      * constructor. now apply gap_blanks.
      * rewrite app_assoc. constructor; [now apply gap_blanks|exact C].
      * rewrite app_assoc. apply last_gap_line; [now apply gap_blanks|exact C].
    + destruct Sh as [C|[[C Q]|[[C Q]|(w' & Ew & C)]]].
      * destruct G as [G|[E2 G]]; [left; now constructor|right].
        split; [exact E2|]. destruct G as [g G|g v G C'|g v G C'].
        -- constructor. now constructor.
        -- rewrite app_assoc. constructor; [now constructor|exact C'].
        -- rewrite app_assoc. apply last_gap_line; [now constructor|exact C'].
      * destruct Q as [Q|[q' [Q|Q]]].
        -- rewrite Q in E. destruct g; [|discriminate]. cbn in E. right.
           split; [now rewrite <- E|]. rewrite app_nil_r.
           apply (last_gap_line [] w); [constructor|exact C].
        -- (* the rest starts with a line feed, which is blank *)
           assert (exists g', g = 10%N :: g') as [g' ->].
           { destruct g as [|x g]; cbn in E; rewrite Q in E.
             - exfalso. rewrite <- E in ST. unfold stopped in ST.
               assert (B : Blank 10%N) by (unfold Blank; rewrite space_ascii by lia; reflexivity).
               rewrite plain_lex1 in ST by now apply blank_plain.
               rewrite blank_not_word_head in ST by exact B. unfold Blank in B. now rewrite B in ST.
             - injection E as -> _. eauto. }
           destruct G as [G|[E2 G]]; [left; now apply gap_line|right].
           split; [exact E2|]. inversion G as [g G'|g v G' C' Eg|g v G' C' Eg]; subst.
           ++ constructor. now apply gap_line.
           ++ destruct g as [|x g]; cbn in Eg; [subst v; inversion C'|].
              injection Eg as -> <-.
              change (w ++ 10%N :: g ++ v) with (w ++ (10%N :: g) ++ v). rewrite app_assoc.
              constructor; [now apply gap_line|exact C'].
           ++ destruct g as [|x g]; cbn in Eg; [subst v; destruct C' as (? & ? & _); discriminate|].
              injection Eg as -> <-.
              change (w ++ 10%N :: g ++ v) with (w ++ (10%N :: g) ++ v). rewrite app_assoc.
              apply last_gap_line; [now apply gap_line|exact C'].
        -- exfalso. apply NZ. apply (rem_incl_text c). rewrite M, Q.
           apply in_or_app. right. now left.
      * rewrite Q in E. destruct g; [|discriminate]. cbn in E. right.
        split; [now rewrite <- E|]. rewrite app_nil_r.
        apply (last_gap_cut [] w); [constructor|exact C].
      * exfalso. apply NZ. apply (rem_incl_text c). rewrite M, Ew, <- app_assoc.
        apply in_or_app. right. now left.
Qed.

Lemma reads_written ts : forall k e k', reads k (ts ++ [e]) k' -> cwf (tk_cur k) ->
  ~ In 0%N (c_text (tk_cur k)) -> tk_space k = false -> tk_comment k = false ->
  Forall (fun t => t_type t <> EOF) ts -> t_type e = EOF ->
  written (map lexeme_of ts) (rem (tk_cur k)).
Proof.
  induction ts as [|t ts IH]; intros k e k' R W NZ S C F Te.
  - cbn in R. inversion R as [|? ? k1 ? ? G R']; subst.
    destruct (get_next_run k W) as (sk & c' & R1 & Fs & M). rewrite S, C in Fs.
    pose proof (run_wf _ _ _ R1 W) as W1.
    destruct (process c') as [|t2 c2|] eqn:P; [congruence| |congruence].
    destruct M as [_ M]. rewrite M in G. injection G as -> _.
    destruct (process_match _ _ _ W1 P) as [(L & _ & _)|(w & L & _)].
    2:{ rewrite Te in L. apply lex1_shape in L as (_ & _ & Sh). cbn in Sh.
        destruct Sh as [Lx _]. inversion Lx. }
    destruct (skip_gap _ _ _ R1 W NZ) as (g & E & G).
    { eapply Forall_impl; [|exact Fs]. intros; now apply keep_ff. }
    { unfold stopped. now rewrite L. }
    apply lex1_eof in L as [L|[l' L]].
    + rewrite L, app_nil_r in E. cbn. constructor. rewrite E.
      destruct G as [G|[_ G]]; [now constructor|exact G].
    + exfalso. apply NZ. rewrite <- (run_text _ _ _ R1 W). apply rem_incl_text. rewrite L. now left.
  - cbn in R. inversion R as [|? ? k1 ? ? G R']; subst.
    inversion F as [|? ? Tn F']; subst.
    destruct (get_next_run k W) as (sk & c' & R1 & Fs & M). rewrite S, C in Fs.
    pose proof (run_wf _ _ _ R1 W) as W1.
    destruct (process c') as [|t2 c2|] eqn:P; [congruence| |congruence].
    destruct M as [K M]. rewrite M in G. injection G as -> <-.
    pose proof (process_wf _ _ _ W1 P) as W2.
    destruct (process_match _ _ _ W1 P) as [(_ & _ & ->)|(w & L & NE & Mv & Et)].
    { now cbn in Tn. }
    assert (Rw : raw t = w) by (rewrite Et; now apply moved_raw).
    pose proof (lex1_shape _ _ _ _ L) as (El & _ & Sh).
    assert (LE : lexeme (t_type t) w /\ ends (t_type t) w (rem c2)).
    { rewrite S, C in K. destruct (t_type t) eqn:Ty; try exact Sh; exfalso;
        unfold keep in K; rewrite Ty in K; discriminate. }
    destruct (skip_gap _ _ _ R1 W NZ) as (g & E & G).
    { eapply Forall_impl; [|exact Fs]. intros; now apply keep_ff. }
    { unfold stopped. rewrite L. rewrite S, C in K. unfold keep in K. destruct (t_type t); auto; discriminate. }
    rewrite E, El. cbn [map]. unfold lexeme_of at 1. rewrite Rw.
    constructor; try apply LE.
    + destruct G as [G|[En _]]; [exact G|]. rewrite En in El.
      destruct w; [congruence|discriminate].
    + apply (IH (with_cur k c2) e k'); auto. cbn.
      rewrite (process_text _ _ _ W1 P), (run_text _ _ _ R1 W). exact NZ.
Qed.

End Facts.
