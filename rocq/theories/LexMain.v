(** Proofs of the tokenizer properties; PropsLex restates them. *)
From Coq Require Import List NArith Bool Arith String Lia Permutation.
From Verif Require Import ListUtil Runes UnicodeFacts Token Tokenizer CursorFacts LexList
  TokenizerFacts LexSpec LexShape LexFacts.
Import ListNotations.
#[local] Arguments process : simpl never.
#[local] Arguments get_next : simpl never.
Notation concat := List.concat.
Notation length := List.length.

Section Main.
Context {U : Unicode} {UOK : UnicodeOk U}.

Lemma read_n_reads n : forall k ts k', read_n n k = Some (ts, k') -> reads k ts k'.
Proof.
  induction n as [|n IH]; intros k ts k'; cbn.
  - intros [= <- <-]. constructor.
  - destruct (get_next k) as [t k1|?|] eqn:G; try discriminate.
    destruct (read_n n k1) as [[ts2 k2]|] eqn:R; [|discriminate].
    intros [= <- <-]. econstructor; eauto.
Qed.

(* C01 *)
Theorem tokens_tile_text : forall text ts k,
  reads (new_tokenizer text true true) ts k ->
  contiguous 0 ts /\
  (exists rest, text = concat (map raw ts) ++ rest) /\
  Forall (fun t => raw t = slice text (start_of t) (stop_of t)) ts.
Proof.
  intros text ts k R.
  pose proof (new_cursor_wf text) as W.
  pose proof (reads_all_run _ _ _ R eq_refl eq_refl W) as R'. cbn in R'.
  split; [apply (run_contiguous _ _ _ R' W)|]. split.
  - destruct (run_moved _ _ _ R' W) as [_ M]. exists (rem (tk_cur k)). exact M.
  - remember (new_cursor text) as c eqn:Ec.
    assert (T : c_text c = text) by (subst c; reflexivity). clear R Ec.
    induction R' as [|c t c1 ts c2 P R IH]; constructor.
    + pose proof (process_fits _ _ _ W P) as (E & _). rewrite T in E.
      unfold raw. now rewrite E.
    + apply IH; [eauto using process_wf|]. now rewrite (process_text _ _ _ W P).
Qed.

Theorem whole_text_covered : forall text ts e k,
  reads (new_tokenizer text true true) (ts ++ [e]) k ->
  t_type e = EOF -> ~ In 0%N text ->
  concat (map raw (ts ++ [e])) = text.
Proof.
  intros text ts e k R Te NZ.
  pose proof (new_cursor_wf text) as W.
  pose proof (reads_all_run _ _ _ R eq_refl eq_refl W) as R'. cbn in R'.
  pose proof (run_moved _ _ _ R' W) as M.
  apply run_app_inv in R' as (c1 & R1 & R2). inversion R2 as [|? ? c2 ? ? P R3]; subst.
  inversion R3; subst. pose proof (run_wf _ _ _ R1 W) as W1.
  destruct M as [_ M]. rewrite new_cursor_rem in M.
  destruct (process_match _ _ _ W1 P) as [(L & E & _)|(w & L & _)].
  - rewrite E in M. apply lex1_eof in L as [L|[l' L]].
    + rewrite L, app_nil_r in M. symmetry. exact M.
    + exfalso. apply NZ. replace text with (c_text c1) by now rewrite (run_text _ _ _ R1 W).
      apply rem_incl_text. rewrite L. now left.
  - rewrite Te in L. apply lex1_shape in L as (_ & _ & [Lx _]). inversion Lx.
Qed.

(* C02 *)
Theorem token_positions : forall text sp cm ts t k,
  hd 0%N text <> 10%N ->
  reads (new_tokenizer text sp cm) (ts ++ [t]) k ->
  p_line (t_start t) = line_at text (start_of t) /\
  p_col (t_start t) = column_at text (start_of t) /\
  p_line (t_end t) = line_at text (stop_of t) /\
  p_col (t_end t) = column_at text (stop_of t).
Proof.
  intros text sp cm ts t k H R.
  destruct (reads_tokens _ _ _ _ _ _ R) as (c & c' & S & E & C & L & C' & L').
  unfold start_of, stop_of. rewrite S, E.
  pose proof (pos_steps text _ H L) as P. rewrite <- C in P.
  pose proof (pos_steps text _ H L') as P'. rewrite <- C' in P'.
  rewrite P, P'. auto.
Qed.

Theorem token_positions_after_leading_lf : forall text sp cm ts t k,
  hd 0%N text = 10%N ->
  reads (new_tokenizer text sp cm) (ts ++ [t]) k ->
  1 <= start_of t ->
  p_line (t_start t) + 1 = line_at text (start_of t) /\
  p_col (t_start t) = column_at text (start_of t) +
    (if count_lf (firstn (start_of t) text) =? 1 then 1 else 0).
Proof.
  intros text sp cm ts t k H R L1.
  destruct (reads_tokens _ _ _ _ _ _ R) as (c & c' & S & E & C & L & _).
  unfold start_of in *. rewrite S in *. change (p_index (c_pos c)) with (c_index c) in *.
  pose proof (pos_steps_lf text _ H (conj L1 L)) as P. rewrite <- C in P.
  rewrite P. cbn. split; [|reflexivity].
  assert (1 <= count_lf (firstn (c_index c) text)); [|unfold line_at; lia].
  destruct text as [|r text]; [discriminate|]. cbn in H. subst r.
  destruct (c_index c); [lia|]. cbn. lia.
Qed.

(* C03 *)
Theorem getnext_advances : forall text k t k',
  held text k -> get_next k = GTok t k' ->
  c_index (tk_cur k) <= start_of t /\ stop_of t = c_index (tk_cur k') /\
  c_index (tk_cur k') <= length text /\
  (t_type t <> EOF -> start_of t < stop_of t).
Proof.
  intros text k t k' H G. destruct (held_wf _ _ H) as [W T].
  destruct (get_next_tok _ _ _ W G) as (sk & R & _).
  pose proof (run_wf _ _ _ R W) as W'. pose proof (run_text _ _ _ R W) as T'.
  apply run_app_inv in R as (c1 & R1 & R2). inversion R2 as [|? ? c2 ? ? P R3]; subst.
  inversion R3; subst. pose proof (run_wf _ _ _ R1 W) as W1.
  destruct (process_moved _ _ _ W1 P) as (M & S1 & S2).
  pose proof (moved_index _ _ _ W (run_moved _ _ _ R1 W)) as I1.
  pose proof (moved_index _ _ _ W1 M) as I2.
  split; [lia|]. split; [exact S2|]. split.
  - unfold cwf, c_len in W'. now rewrite T' in W'.
  - intros NE. destruct (process_fits _ _ _ W1 P) as (_ & pre & post & _ & _ & S & [(E & _)|(_ & NR & _)]).
    + contradiction.
    + destruct (raw t); [congruence|]. cbn in S. lia.
Qed.

Theorem getnext_nil_iff : forall text k,
  held text k ->
  ((exists k', get_next k = GNil k') <->
   exists skipped k1 r rest,
     reads (mkTkz (tk_cur k) true true) skipped k1 /\
     Forall (fun t => keep (tk_space k) (tk_comment k) t = false) skipped /\
     skipn (c_index (tk_cur k1)) text = r :: rest /\
     r <> 0%N /\ ~ Blank r /\ ~ WordRune r /\ r <> 39%N /\ r <> 123%N /\
     ~ In [r] one_rune_symbols).
Proof.
  intros text k H. destruct (held_wf _ _ H) as [W T]. split.
  - intros (k' & G). destruct (get_next_run k W) as (sk & c' & R & F & M).
    pose proof (run_wf _ _ _ R W) as W'. pose proof (process_outcome c' W') as O.
    destruct (process c') as [|t2 c2|]; [|destruct M; congruence|congruence].
    apply lex1_none in O as (r & l' & E & O).
    exists sk, (mkTkz c' true true), r, l'. split; [now apply run_reads_all|].
    split; [exact F|]. split; [|exact O].
    unfold rem in E. now rewrite (run_text _ _ _ R W), T in E.
  - intros (sk & k1 & r & rest & R & F & E & O).
    apply reads_all_run in R; [|reflexivity|reflexivity|exact W]. cbn in R.
    exists (with_cur k (tk_cur k1)). rewrite (get_next_skip k sk (tk_cur k1) W R F).
    pose proof (run_wf _ _ _ R W) as W'.
    rewrite get_next_unfold by exact W'. cbn.
    assert (L : lex1 (rem (tk_cur k1)) = LNone).
    { apply lex1_none. exists r, rest. split; [|exact O]. unfold rem.
      now rewrite (run_text _ _ _ R W), T. }
    pose proof (process_lex1 (tk_cur k1) W') as A. unfold process_agrees in A.
    rewrite L in A. now rewrite A.
Qed.

Theorem getnext_hangs_iff : forall text k,
  held text k ->
  (get_next k = GHang <->
   exists skipped k1 rest,
     reads (mkTkz (tk_cur k) true true) skipped k1 /\
     Forall (fun t => keep (tk_space k) (tk_comment k) t = false) skipped /\
     skipn (c_index (tk_cur k1)) text = 39%N :: rest /\ never_closed rest).
Proof.
  intros text k H. destruct (held_wf _ _ H) as [W T]. split.
  - intros G. destruct (get_next_run k W) as (sk & c' & R & F & M).
    pose proof (run_wf _ _ _ R W) as W'. pose proof (process_outcome c' W') as O.
    destruct (process c') as [|t2 c2|]; [congruence|destruct M; congruence|].
    apply lex1_hang in O as (l' & E & O).
    exists sk, (mkTkz c' true true), l'. split; [now apply run_reads_all|].
    split; [exact F|]. split; [|exact O].
    unfold rem in E. now rewrite (run_text _ _ _ R W), T in E.
  - intros (sk & k1 & rest & R & F & E & O).
    apply reads_all_run in R; [|reflexivity|reflexivity|exact W]. cbn in R.
    rewrite (get_next_skip k sk (tk_cur k1) W R F).
    pose proof (run_wf _ _ _ R W) as W'.
    rewrite get_next_unfold by exact W'. cbn.
    assert (L : lex1 (rem (tk_cur k1)) = LHang).
    { apply lex1_hang. exists rest. split; [|exact O]. unfold rem.
      now rewrite (run_text _ _ _ R W), T. }
    pose proof (process_lex1 (tk_cur k1) W') as A. unfold process_agrees in A.
    rewrite L in A. now rewrite A.
Qed.

Theorem open_string_loops_for_ever : forall c rest fuel,
  c_index c <= c_len c -> skipn (c_index c) (c_text c) = 39%N :: rest -> never_closed rest ->
  string_loop fuel 0%N c = None.
Proof.
  intros c rest fuel W E N. apply string_loop_hang; [exact W|].
  unfold rem. rewrite E. cbn. now apply string_scan_none.
Qed.

Lemma stream_ends_n n : forall k, rest_length (tk_cur k) <= n -> cwf (tk_cur k) ->
  exists ts k', reads k ts k' /\ length ts <= n /\ Forall (fun t => t_type t <> EOF) ts /\
    (get_next k' = GHang \/ (exists k2, get_next k' = GNil k2) \/
     (exists e k2, get_next k' = GTok e k2 /\ t_type e = EOF)).
Proof.
  induction n as [|n IH]; intros k L W.
  - exists [], k. split; [constructor|]. split; [cbn; lia|]. split; [constructor|].
    right; right. unfold rest_length in L.
    destruct (rem (tk_cur k)) as [|? ?] eqn:E; [|cbn in L; lia].
    pose proof (process_lex1 _ W) as P. rewrite E in P. cbn in P.
    rewrite get_next_unfold by exact W. rewrite P. cbn. eauto.
  - destruct (get_next k) as [t k1|k1|] eqn:G.
    + destruct (t_type t) eqn:Ty.
      1:{ exists [], k. split; [constructor|]. split; [cbn; lia|]. split; [constructor|].
          right; right. eauto. }
      all: destruct (get_next_tok _ _ _ W G) as (sk & R & _);
        pose proof (run_wf _ _ _ R W) as W1;
        (assert (S : rest_length (tk_cur k1) < rest_length (tk_cur k)) by
          (destruct (run_moved _ _ _ R W) as [_ M]; unfold rest_length; rewrite M, app_length;
           apply run_app_inv in R as (c1 & R1 & R2); inversion R2 as [|? ? c2 ? ? P R3]; subst;
           inversion R3; subst; pose proof (run_wf _ _ _ R1 W) as Wc;
           destruct (process_fits _ _ _ Wc P) as (_ & ? & ? & _ & _ & _ & [(E & _)|(_ & NR & _)]);
           [congruence|]; rewrite map_app, concat_app, app_length; cbn;
           destruct (raw t); [congruence|]; cbn; lia));
        (destruct (IH k1) as (ts & k' & RR & LL & F & O); [lia|exact W1|]);
        exists (t :: ts), k'; (split; [econstructor; eauto|]); (split; [cbn; lia|]);
        (split; [constructor; [congruence|exact F]|exact O]).
    + exists [], k. split; [constructor|]. split; [cbn; lia|]. split; [constructor|]. eauto.
    + exists [], k. split; [constructor|]. split; [cbn; lia|]. split; [constructor|]. eauto.
Qed.

Theorem stream_ends : forall text sp cm,
  exists ts k,
    reads (new_tokenizer text sp cm) ts k /\ length ts <= length text /\
    Forall (fun t => t_type t <> EOF) ts /\
    (get_next k = GHang \/ (exists k', get_next k = GNil k') \/
     (exists e k', get_next k = GTok e k' /\ t_type e = EOF)).
Proof.
  intros text sp cm. apply stream_ends_n; [unfold rest_length; cbn; lia|apply new_cursor_wf].
Qed.

(* C04 *)
Theorem flags_only_filter : forall text sp cm ts k,
  reads (new_tokenizer text sp cm) ts k ->
  exists all k', reads (new_tokenizer text true true) all k' /\
    ts = filter (keep sp cm) all /\ tk_cur k' = tk_cur k.
Proof.
  intros text sp cm ts k R. pose proof (new_cursor_wf text) as W.
  destruct (reads_run _ _ _ R W) as (all & R' & E). cbn in *.
  exists all, (mkTkz (tk_cur k) true true). split; [now apply run_reads_all|]. auto.
Qed.

Theorem flags_keep_the_rest : forall text sp cm all k,
  reads (new_tokenizer text true true) all k ->
  exists k', reads (new_tokenizer text sp cm) (filter (keep sp cm) all) k'.
Proof.
  intros text sp cm all k R. pose proof (new_cursor_wf text) as W.
  pose proof (reads_all_run _ _ _ R eq_refl eq_refl W) as R'. cbn in R'.
  destruct (run_reads _ _ _ sp cm R' W) as (k' & RR & _). exists k'. exact RR.
Qed.

(* C05 *)
Lemma get_next_eof_inv k e k' : cwf (tk_cur k) -> get_next k = GTok e k' -> t_type e = EOF ->
  exists c', rem c' = rem (tk_cur k') /\ process (tk_cur k') = Match e (tk_cur k') /\
    lex1 (rem (tk_cur k')) = LEof /\ cwf (tk_cur k').
Proof.
  intros W G Te. destruct (get_next_tok _ _ _ W G) as (sk & R & _).
  pose proof (run_wf _ _ _ R W) as W'.
  apply run_app_inv in R as (c1 & R1 & R2). inversion R2 as [|? ? c2 ? ? P R3]; subst.
  inversion R3; subst. pose proof (run_wf _ _ _ R1 W) as W1.
  destruct (process_match _ _ _ W1 P) as [(L & E & _)|(w & L & _)].
  - rewrite <- E in *. eauto.
  - rewrite Te in L. apply lex1_shape in L as (_ & _ & [Lx _]). inversion Lx.
Qed.

Theorem eof_absorbing : forall text k e k',
  held text k -> get_next k = GTok e k' -> t_type e = EOF ->
  forall n, reads k' (repeat e n) k'.
Proof.
  intros text k e k' H G Te n. destruct (held_wf _ _ H) as [W _].
  destruct (get_next_eof_inv _ _ _ W G Te) as (_ & _ & P & L & W').
  assert (G' : get_next k' = GTok e k').
  { rewrite get_next_unfold by exact W'. rewrite P.
    unfold keep. rewrite Te. destruct k'; reflexivity. }
  induction n as [|n IH]; cbn; [constructor|]. econstructor; eauto.
Qed.

Theorem eof_iff_end_or_nul : forall text t,
  token_of text t ->
  (t_type t = EOF <-> nth_error text (start_of t) = None \/ nth_error text (start_of t) = Some 0%N).
Proof.
  intros text t H. destruct (token_of_fits _ _ H) as (_ & pre & post & E & L & S & C).
  assert (N : nth_error text (start_of t) = nth_error (raw t ++ post) 0).
  { rewrite E, nth_error_app2; [f_equal|]; lia. }
  rewrite N. destruct C as [(Ty & R & LX)|(Ty & NR & LX & _)].
  - rewrite R. cbn. apply lex1_eof in LX as [->|[l' ->]]; cbn; tauto.
  - split; [contradiction|]. intros Z. exfalso.
    destruct (raw t) as [|r w]; [congruence|]. cbn in Z.
    destruct Z as [Z|Z]; [discriminate|]. injection Z as ->. cbn in LX. discriminate.
Qed.

(* C06 *)
Theorem words_are_maximal : forall text t,
  token_of text t -> t_type t = Identifier \/ t_type t = ReservedWord ->
  (exists r w, raw t = r :: w /\ WordHead r /\ Forall WordRune w) /\
  (forall r, rune_after text t = Some r -> ~ WordRune r).
Proof.
  intros text t H Ty. destruct (fits_after _ _ (token_of_fits _ _ H)) as (post & A1 & _ & _ & C).
  destruct C as [(E & _)|(_ & _ & _ & Sh)]; [destruct Ty; congruence|].
  assert (X : (exists r w, raw t = r :: w /\ WordHead r /\ Forall WordRune w) /\
              (forall r q', post = r :: q' -> ~ WordRune r)).
  { destruct Ty as [Ty|Ty]; rewrite Ty in Sh; destruct Sh as [L E]; inversion L; eauto 10. }
  destruct X as [X1 X2]. split; [exact X1|]. intros r. rewrite A1.
  destruct post as [|x q]; [discriminate|]. cbn. intros [= <-]. eapply X2; reflexivity.
Qed.

Theorem word_starts_make_words : forall text t r,
  token_of text t -> nth_error text (start_of t) = Some r -> WordHead r ->
  t_type t = Identifier \/ t_type t = ReservedWord.
Proof.
  intros text t r H N WH. destruct (token_of_fits _ _ H) as (_ & pre & post & E & L & S & C).
  assert (N' : nth_error (raw t ++ post) 0 = Some r).
  { rewrite <- N. rewrite E. rewrite (nth_error_app2 pre); [f_equal|]; lia. }
  destruct C as [(Ty & R & LX)|(Ty & NR & LX & _)].
  - rewrite R in N'. cbn in N'. exfalso. apply lex1_eof in LX as [->|[l' ->]]; [discriminate|].
    injection N' as <-. apply word_head_spec in WH. unfold is_word_head in WH.
    rewrite u_letter_nul in WH. discriminate.
  - destruct (raw t) as [|x w]; [congruence|]. cbn in N'. injection N' as ->.
    cbn [app] in LX. rewrite plain_lex1 in LX by now apply word_head_plain.
    apply word_head_spec in WH. rewrite WH in LX. injection LX as LT _ _.
    rewrite <- LT. unfold word_type. destruct (is_reserved_word _); auto.
Qed.

(* C07 *)
Theorem reserved_classification : forall text t,
  token_of text t -> t_type t = Identifier \/ t_type t = ReservedWord ->
  (t_type t = ReservedWord <-> In (to_upper (raw t)) pascal_reserved) /\
  value t = (if ttype_eqb (t_type t) ReservedWord then to_upper (raw t) else raw t).
Proof.
  intros text t H Ty. destruct (fits_after _ _ (token_of_fits _ _ H)) as (post & _ & _ & _ & C).
  destruct C as [(E & _)|(_ & _ & _ & Sh)]; [destruct Ty; congruence|].
  unfold value. destruct Ty as [Ty|Ty]; rewrite Ty in *; destruct Sh as [L _]; inversion L; subst;
    cbn [ttype_eqb]; (split; [|reflexivity]); split; try discriminate; try congruence; auto; contradiction.
Qed.

Theorem case_variants_classified_alike : forall text1 text2 t1 t2,
  token_of text1 t1 -> token_of text2 t2 ->
  t_type t1 = Identifier \/ t_type t1 = ReservedWord ->
  t_type t2 = Identifier \/ t_type t2 = ReservedWord ->
  to_upper (raw t1) = to_upper (raw t2) -> t_type t1 = t_type t2.
Proof.
  intros text1 text2 t1 t2 H1 H2 T1 T2 E.
  destruct (reserved_classification _ _ H1 T1) as [R1 _].
  destruct (reserved_classification _ _ H2 T2) as [R2 _].
  rewrite E, <- R2 in R1. destruct T1 as [T1|T1], T2 as [T2|T2]; rewrite T1, T2 in *; auto; exfalso;
    destruct R1 as [R1 R1']; [discriminate (R1' eq_refl)|discriminate (R1 eq_refl)].
Qed.

(* C08 *)
Theorem numeral_shape : forall text t,
  token_of text t -> t_type t = NumeralInt \/ t_type t = NumeralReal ->
  (exists s ds, sign s /\ ds <> [] /\ Forall Digit ds /\
     ((t_type t = NumeralInt /\ raw t = s ++ ds) \/
      (t_type t = NumeralReal /\ exists fs, Forall Digit fs /\ raw t = s ++ ds ++ 46%N :: fs))) /\
  (forall r, rune_after text t = Some r -> ~ Digit r) /\
  (t_type t = NumeralInt -> rune_after text t = Some 46%N -> rune_after2 text t = Some 46%N).
Proof.
  intros text t H Ty. destruct (fits_after _ _ (token_of_fits _ _ H)) as (post & A1 & A2 & _ & C).
  destruct C as [(E & _)|(_ & _ & _ & Sh)]; [destruct Ty; congruence|].
  rewrite A1, A2. destruct Ty as [Ty|Ty]; rewrite Ty in *; destruct Sh as [L [E1 E2]].
  - split; [inversion L; eauto 10|]. split.
    + intros r. destruct post as [|x q]; [discriminate|]. intros [= <-]. eapply E1; reflexivity.
    + intros _. destruct post as [|x q]; [discriminate|]. intros [= ->].
      destruct (E2 _ eq_refl) as [q'' ->]. reflexivity.
  - split; [inversion L; subst; eauto 12|]. split; [|discriminate].
    intros r. destruct post as [|x q]; [discriminate|]. intros [= <-]. eapply E1; reflexivity.
Qed.

(* C09 *)
Theorem comment_ends_at_first_terminator : forall text t,
  token_of text t -> t_type t = Comment ->
  closed_comment (raw t) \/
  (line_comment (raw t) /\
   (rune_after text t = None \/ rune_after text t = Some 10%N \/ rune_after text t = Some 0%N)) \/
  (cut_comment (raw t) /\ rune_after text t = None) \/
  (exists w, raw t = w ++ [0%N] /\ cut_comment w).
Proof.
  intros text t H Ty. destruct (fits_after _ _ (token_of_fits _ _ H)) as (post & A1 & _ & _ & C).
  destruct C as [(E & _)|(_ & _ & _ & Sh)]; [congruence|].
  rewrite A1. rewrite Ty in Sh. destruct Sh as [C|[[C Q]|[[C ->]|C]]]; auto.
  right; left. split; [exact C|]. destruct Q as [->|[q' [->| ->]]]; auto.
Qed.

(* C10 *)
Theorem string_ends_at_first_unescaped_quote : forall text t,
  token_of text t -> t_type t = CharacterString ->
  exists b, raw t = 39%N :: b ++ [39%N] /\ string_body b.
Proof.
  intros text t H Ty. destruct (fits_after _ _ (token_of_fits _ _ H)) as (post & A1 & _ & _ & C).
  destruct C as [(E & _)|(_ & _ & _ & Sh)]; [congruence|].
  rewrite Ty in Sh. destruct Sh as [L _]. inversion L. eauto.
Qed.

(* C11 *)
Theorem symbols_longest_match : forall text t,
  token_of text t -> t_type t = SpecialSymbol ->
  In (raw t) two_rune_symbols \/
  (In (raw t) one_rune_symbols /\
   forall r, rune_after text t = Some r -> ~ In (raw t ++ [r]) two_rune_symbols).
Proof.
  intros text t H Ty. destruct (fits_after _ _ (token_of_fits _ _ H)) as (post & A1 & _ & _ & C).
  destruct C as [(E & _)|(_ & _ & _ & Sh)]; [congruence|].
  rewrite Ty in Sh. destruct Sh as [L E]. inversion L as [| | | | |v I|v I]; subst; [right|now left].
  split; [exact I|]. intros r. rewrite A1. destruct post as [|x q]; [discriminate|].
  intros [= <-]. destruct (one_rune_length _ I) as [a Ea].
  rewrite Ea. now apply (E a x q Ea eq_refl).
Qed.

Theorem every_token_has_a_shape : forall text t,
  token_of text t ->
  t_type t <> Label /\ t_type t <> QualifiedIdentifier /\
  (t_type t = EOF \/ t_type t = Comment \/
   (t_type t = Space /\ raw t <> [] /\ Forall Blank (raw t) /\
    forall r, rune_after text t = Some r -> ~ Blank r) \/
   lexeme (t_type t) (raw t)).
Proof.
  intros text t H. destruct (fits_after _ _ (token_of_fits _ _ H)) as (post & A1 & _ & _ & C).
  destruct C as [(E & _)|(_ & _ & _ & Sh)]; [rewrite E; auto 10 using (fun H : EOF = Label => H)|].
  - repeat split; try congruence. now left.
  - destruct (t_type t); cbn in Sh.
    all: try (destruct Sh as [L _]; repeat split; [intros X; inversion L; congruence..|right; right; right; exact L]).
    + destruct Sh as (N & F & E). repeat split; try congruence. right; right; left.
      repeat split; auto. intros r. rewrite A1. destruct post as [|x q]; [discriminate|].
      intros [= <-]. eapply E; reflexivity.
    + repeat split; try congruence. right; left. reflexivity.
Qed.

Theorem double_symbol_order_irrelevant : forall order c,
  c_index c <= c_len c -> Permutation order double_special_symbols ->
  process_double_in order c = process_double c.
Proof.
  intros order c W P. unfold process_double. rewrite !process_double_spec by exact W.
  assert (E : forall f : rune * rune -> bool, existsb f order = existsb f double_special_symbols).
  { intros f. apply eq_true_iff_eq. rewrite !existsb_exists. split; intros (x & I & F); exists x.
    - split; [eapply Permutation_in; eauto|exact F].
    - split; [eapply Permutation_in; [apply Permutation_sym|]; eauto|exact F]. }
  now rewrite E.
Qed.

(* C12 *)
Theorem clone_reads_same_tokens : forall text k ts k',
  held text k -> reads k ts k' ->
  exists ts2 k2, reads (tokenizer_clone k) ts2 k2 /\
    Forall2 (fun t u => t_type t = t_type u /\ raw t = raw u /\
                        start_of t = start_of u /\ stop_of t = stop_of u) ts ts2.
Proof.
  intros text k ts k' H R. destruct (held_wf _ _ H) as [W _].
  destruct (reads_sim _ _ _ R (tokenizer_clone k)) as (ts2 & k2 & R2 & F & _).
  - unfold same_place, tokenizer_clone, cursor_clone. cbn. auto.
  - exact W.
  - exists ts2, k2. split; [exact R2|].
    clear R R2 H. induction F as [|t u ts us (T & X & S1 & S2) F IH]; constructor; [|exact IH].
    repeat split; auto.
    unfold raw. unfold start_of, stop_of in *. now rewrite X, S1, S2.
Qed.

Theorem clone_ends_the_same : forall text k,
  held text k ->
  (get_next k = GHang <-> get_next (tokenizer_clone k) = GHang) /\
  ((exists k1, get_next k = GNil k1) <-> (exists k1, get_next (tokenizer_clone k) = GNil k1)).
Proof.
  intros text k H. destruct (held_wf _ _ H) as [W _].
  assert (S : same_place k (tokenizer_clone k)).
  { unfold same_place, tokenizer_clone, cursor_clone. cbn. auto. }
  pose proof (get_next_sim k (tokenizer_clone k) S W) as M.
  destruct (get_next k), (get_next (tokenizer_clone k)); try contradiction;
    split; split; try congruence; try (intros [? ?]; congruence); eauto.
Qed.

Lemma waslf_current text k : held text k ->
  nth_error text (c_index (tk_cur k)) <> Some 10%N -> c_waslf (tk_cur k) = false.
Proof.
  intros H. assert (X : c_waslf (tk_cur k) = true -> hd0 (rem (tk_cur k)) = 10%N).
  { induction H as [sp cm|k t k' H IH G|k k' H IH G|k H IH].
    - discriminate.
    - destruct (held_wf _ _ H) as [W _]. destruct (get_next_tok _ _ _ W G) as (sk & R & _).
      apply run_moved in R; [|exact W]. destruct R as [E _]. revert E IH.
      generalize (length (concat (map raw (sk ++ [t])))). intros n E IH. rewrite E.
      destruct n; [exact IH|]. cbn [steps]. rewrite step_waslf by now apply steps_wf.
      intros X. now apply N.eqb_eq in X.
    - destruct (held_wf _ _ H) as [W _].
      destruct (get_next_run k W) as (sk & c' & R & F & M).
      destruct (process c') as [|t2 c2|] eqn:P; [|destruct M; congruence|congruence].
      rewrite M in G. injection G as <-. cbn.
      apply run_moved in R; [|exact W]. destruct R as [E _]. revert E IH.
      generalize (length (concat (map raw sk))). intros n E IH. rewrite E.
      destruct n; [exact IH|]. cbn [steps]. rewrite step_waslf by now apply steps_wf.
      intros X. now apply N.eqb_eq in X.
    - discriminate. }
  destruct (held_wf _ _ H) as [W T].
  intros N. destruct (c_waslf (tk_cur k)); [|reflexivity]. exfalso. apply N.
  specialize (X eq_refl). unfold rem in X. rewrite T in X. unfold hd0 in X. rewrite hd_skipn in X.
  destruct (nth_error text (c_index (tk_cur k))) eqn:E.
  - apply nth_error_nth with (d := cursor_eof) in E. congruence.
  - apply nth_error_None in E. rewrite nth_overflow in X by exact E. discriminate.
Qed.

Theorem clone_equal_unless_at_lf : forall text k,
  held text k -> nth_error text (c_index (tk_cur k)) <> Some 10%N ->
  tokenizer_clone k = k.
Proof.
  intros text k H N. pose proof (waslf_current _ _ H N) as L.
  destruct k as [[tx p lf] sp cm]. unfold tokenizer_clone, cursor_clone. cbn in *. now subst lf.
Qed.

(* C13 *)
Theorem lexical_round_trip : forall ls text,
  written ls text ->
  exists ts e k, reads (new_tokenizer text false false) (ts ++ [e]) k /\
    map lexeme_of ts = ls /\ t_type e = EOF /\ start_of e = length text.
Proof.
  intros ls text H.
  destruct (written_run _ _ H (new_tokenizer text false false)) as (ts & e & k & X); auto.
  - apply new_cursor_wf.
  - exists ts, e, k. exact X.
Qed.

Theorem lexical_round_trip_converse : forall text ts e k,
  ~ In 0%N text ->
  reads (new_tokenizer text false false) (ts ++ [e]) k ->
  Forall (fun t => t_type t <> EOF) ts -> t_type e = EOF ->
  written (map lexeme_of ts) text.
Proof.
  intros text ts e k NZ R F Te.
  apply (reads_written ts (new_tokenizer text false false) e k); auto. apply new_cursor_wf.
Qed.

Lemma blank_not_word r : Blank r -> ~ WordRune r.
Proof. intros B X. apply word_spec in X. apply word_not_space in X. unfold Blank in B. congruence. Qed.

Lemma ends_before ty w r q : lexeme ty w ->
  ~ WordRune r -> r <> 46%N -> r <> 47%N -> r <> 42%N -> r <> 41%N -> r <> 61%N -> r <> 62%N ->
  ends ty w (r :: q).
Proof.
  intros L NW N46 N47 N42 N41 N61 N62.
  assert (ND : ~ Digit r) by (intros D; apply NW; now right).
  destruct ty; cbn; auto.
  - intros a x q' Ew [= <- <-]. split; [|split; [|split]]; [|tauto..].
    cbn. intros I. repeat destruct I as [I|I]; try contradiction; injection I as _ I; congruence.
  - intros x q' [= <- <-]. exact NW.
  - intros x q' [= <- <-]. exact NW.
  - split; [intros x q' [= <- <-]; exact ND|]. congruence.
  - split; [intros x q' [= <- <-]; exact ND|]. congruence.
Qed.

Lemma separator_ends ty w s q : lexeme ty w -> separator s -> ends ty w (s ++ q).
Proof.
  intros L [G H].
  assert (NB : forall r, Blank r -> r <> 46%N /\ r <> 47%N /\ r <> 42%N /\ r <> 41%N /\ r <> 61%N /\ r <> 62%N).
  { intros r B. apply blank_plain in B. unfold plain in B. lia. }
  destruct H as [(r & g & -> & B)|(v & g & -> & C)].
  - cbn. destruct (NB r B) as (? & ? & ? & ? & ? & ?). apply ends_before; auto using blank_not_word.
  - assert (X : forall r, (r = 123 \/ r = 40)%N -> ~ WordRune r).
    { intros r H. intros [W|D].
      - apply word_head_plain in W. unfold plain in W. lia.
      - unfold Digit in D. lia. }
    destruct C; cbn; apply ends_before; auto; discriminate.
Qed.

Lemma spell_written ls s0 : gap s0 ->
  Forall (fun x => match x with (ty, w, sep) => lexeme ty w /\ separator sep end) ls ->
  written (map fst ls) (s0 ++ spell ls).
Proof.
  intros G F. revert s0 G. induction F as [|[[ty w] sep] ls [L S] F IH]; intros s0 G.
  - cbn. rewrite app_nil_r. constructor. now constructor.
  - cbn. rewrite <- app_assoc. constructor; auto.
    + now apply separator_ends.
    + apply IH. apply S.
Qed.

Theorem separated_lexemes_read_back : forall s0 ls,
  gap s0 ->
  Forall (fun x => match x with (ty, w, sep) => lexeme ty w /\ separator sep end) ls ->
  exists ts e k, reads (new_tokenizer (s0 ++ spell ls) false false) (ts ++ [e]) k /\
    map lexeme_of ts = map fst ls /\ t_type e = EOF.
Proof.
  intros s0 ls G F. destruct (lexical_round_trip _ _ (spell_written ls s0 G F)) as (ts & e & k & R & M & T & _).
  eauto 10.
Qed.

(* C14 *)
Lemma reads_det k ts1 k1 : reads k ts1 k1 -> forall ts2 k2, reads k ts2 k2 ->
  length ts1 = length ts2 -> ts1 = ts2 /\ k1 = k2.
Proof.
  induction 1 as [k|k t k1 ts k' G R IH]; intros ts2 k2 R2 L.
  - destruct ts2; [|discriminate]. inversion R2; auto.
  - inversion R2 as [|? t2 k3 ts3 ? G2 R3]; subst; [discriminate|].
    rewrite G in G2. injection G2 as <- <-. destruct (IH _ _ R3) as [-> ->]; auto.
Qed.

Lemma prefix_eof text ts e k ts2 e2 k2 :
  reads (new_tokenizer text false false) (ts ++ [e]) k ->
  reads (new_tokenizer text false false) (ts2 ++ [e2]) k2 ->
  Forall (fun t => t_type t <> EOF) ts -> Forall (fun t => t_type t <> EOF) ts2 ->
  t_type e = EOF -> t_type e2 = EOF -> ts = ts2.
Proof.
  generalize (new_tokenizer text false false). revert ts2.
  induction ts as [|t ts IH]; intros [|t2 ts2] k0 R1 R2 F1 F2 T1 T2; [reflexivity| | |].
  - inversion R1 as [|? ? ? ? ? G1 _]; inversion R2 as [|? ? ? ? ? G2 _]; subst.
    rewrite G1 in G2. injection G2 as -> _. inversion F2; subst; contradiction.
  - inversion R1 as [|? ? ? ? ? G1 _]; inversion R2 as [|? ? ? ? ? G2 _]; subst.
    rewrite G1 in G2. injection G2 as -> _. inversion F1; subst; contradiction.
  - inversion R1 as [|? ? ? ? ? G1 S1]; inversion R2 as [|? ? ? ? ? G2 S2]; subst.
    rewrite G1 in G2. injection G2 as <- <-. inversion F1; inversion F2; subst.
    f_equal. eapply IH; eauto.
Qed.

Lemma written_not_eof ls text : written ls text -> Forall (fun x => fst x <> EOF) ls.
Proof. induction 1 as [|g ty w ls rest G L E H IH]; constructor; auto. cbn. inversion L; congruence. Qed.

Theorem layout_does_not_matter : forall ls text1 text2 ts1 e1 k1 ts2 e2 k2,
  written ls text1 -> written ls text2 ->
  reads (new_tokenizer text1 false false) (ts1 ++ [e1]) k1 ->
  reads (new_tokenizer text2 false false) (ts2 ++ [e2]) k2 ->
  Forall (fun t => t_type t <> EOF) ts1 -> Forall (fun t => t_type t <> EOF) ts2 ->
  t_type e1 = EOF -> t_type e2 = EOF ->
  map lexeme_of ts1 = map lexeme_of ts2.
Proof.
  intros ls text1 text2 ts1 e1 k1 ts2 e2 k2 W1 W2 R1 R2 F1 F2 T1 T2.
  assert (X : forall text ts e k, written ls text ->
    reads (new_tokenizer text false false) (ts ++ [e]) k ->
    Forall (fun t => t_type t <> EOF) ts -> t_type e = EOF -> map lexeme_of ts = ls).
  { intros text ts e k W R F T.
    destruct (lexical_round_trip _ _ W) as (ts' & e' & k' & R' & M & T' & _).
    rewrite <- M. f_equal. eapply prefix_eof; eauto.
    apply written_not_eof in W. rewrite <- M in W. rewrite Forall_map in W. exact W. }
  rewrite (X text1 ts1 e1 k1), (X text2 ts2 e2 k2); auto.
Qed.

Theorem separators_do_not_matter : forall s1 s2 ls1 ls2 ts1 e1 k1 ts2 e2 k2,
  gap s1 -> gap s2 ->
  Forall (fun x => match x with (ty, w, sep) => lexeme ty w /\ separator sep end) ls1 ->
  Forall (fun x => match x with (ty, w, sep) => lexeme ty w /\ separator sep end) ls2 ->
  map fst ls1 = map fst ls2 ->
  reads (new_tokenizer (s1 ++ spell ls1) false false) (ts1 ++ [e1]) k1 ->
  reads (new_tokenizer (s2 ++ spell ls2) false false) (ts2 ++ [e2]) k2 ->
  Forall (fun t => t_type t <> EOF) ts1 -> Forall (fun t => t_type t <> EOF) ts2 ->
  t_type e1 = EOF -> t_type e2 = EOF ->
  map lexeme_of ts1 = map lexeme_of ts2.
Proof.
  intros s1 s2 ls1 ls2 ts1 e1 k1 ts2 e2 k2 G1 G2 F1 F2 E.
  apply (layout_does_not_matter (map fst ls1)); [now apply spell_written|].
  rewrite E. now apply spell_written.
Qed.

(* C15 *)
Theorem value_abbr_faithful : forall text t n,
  token_of text t ->
  value_abbr t n = (if length (raw t) <? n then value t else firstn n (raw t) ++ rs "...") /\
  length (value_abbr t n) <= n + 3.
Proof.
  intros text t n H. destruct (token_of_fits _ _ H) as (Tx & pre & post & E & L & S & _).
  assert (LR : token_len t = length (raw t)).
  { unfold token_len, start_of, stop_of in *. lia. }
  assert (A : value_abbr t n = if length (raw t) <? n then value t else firstn n (raw t) ++ rs "...").
  { unfold value_abbr. rewrite LR. destruct (length (raw t) <? n) eqn:C; [reflexivity|].
    apply Nat.ltb_ge in C. f_equal. unfold slice.
    replace (p_index (t_start t) + n - p_index (t_start t)) with n by lia.
    unfold raw, slice. rewrite firstn_firstn.
    unfold token_len in LR. rewrite LR. rewrite Nat.min_l by exact C. reflexivity. }
  split; [exact A|]. rewrite A. destruct (length (raw t) <? n) eqn:C.
  - apply Nat.ltb_lt in C. unfold value, to_upper. destruct (t_type t); rewrite ?map_length; lia.
  - rewrite app_length, firstn_length. cbn. lia.
Qed.

(* C16 *)
Theorem some_accepts_iff : forall ps t, p_some ps t = true <-> exists p, In p ps /\ p t = true.
Proof.
  induction ps as [|p ps IH]; intros t; cbn.
  - split; [discriminate|]. intros (? & [] & _).
  - destruct (p t) eqn:E.
    + split; [|reflexivity]. intros _. exists p. auto.
    + rewrite IH. split; [intros (q & I & Q); eauto|]. intros (q & [<-|I] & Q); [congruence|eauto].
Qed.
Theorem every_accepts_iff : forall ps t, p_every ps t = true <-> forall p, In p ps -> p t = true.
Proof.
  induction ps as [|p ps IH]; intros t; cbn.
  - split; [|reflexivity]. intros _ ? [].
  - destruct (p t) eqn:E; cbn.
    + rewrite IH. split; [intros H q [<-|I]; auto|]. intros H q I. auto.
    + split; [discriminate|]. intros H. rewrite (H p) in E; [discriminate|now left].
Qed.
Theorem not_accepts_iff : forall (p : predicator) t, p_not p t = true <-> p t <> true.
Proof. intros p t. unfold p_not. destruct (p t); cbn; intuition congruence. Qed.
Theorem de_morgan : forall ps t,
  p_not (p_some ps) t = p_every (map p_not ps) t /\
  p_not (p_every ps) t = p_some (map p_not ps) t.
Proof.
  intros ps t. unfold p_not. induction ps as [|p ps [IH1 IH2]]; cbn; [auto|].
  destruct (p t); cbn; auto.
Qed.
Theorem members_decide : forall ps qs t,
  (forall p, In p ps <-> In p qs) -> p_some ps t = p_some qs t /\ p_every ps t = p_every qs t.
Proof.
  intros ps qs t H. split; apply eq_true_iff_eq.
  - rewrite !some_accepts_iff. split; intros (p & I & E); exists p; (split; [now apply H|exact E]).
  - rewrite !every_accepts_iff. split; intros X p I; apply X; now apply H.
Qed.

End Main.
