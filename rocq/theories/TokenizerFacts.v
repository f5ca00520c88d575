(** The cursor-based tokenizer computes [lex1] on the remaining runes. *)
From Coq Require Import List NArith Bool Arith String Lia.
From Verif Require Import ListUtil Runes UnicodeFacts Token Tokenizer CursorFacts LexList.
Import ListNotations.

(** [c'] is [c] after [length w] steps, with [w] the runes passed over. *)
Definition moved (c : cursor) (w : list rune) (c' : cursor) : Prop :=
  c' = steps (List.length w) c /\ rem c = w ++ rem c'.

Lemma moved_refl c : moved c [] c.
Proof. split; reflexivity. Qed.

Lemma moved_step c : cwf c -> moved c (firstn 1 (rem c)) (step c) \/ (rem c = [] /\ rem (step c) = []).
Proof.
  intros W. destruct (rem c) as [|r l] eqn:E.
  - right. rewrite step_rem, E; auto.
  - left. split; [reflexivity|]. rewrite step_rem, E by exact W. reflexivity.
Qed.

Lemma moved_cons c r l w c' :
  cwf c -> rem c = r :: l -> moved (step c) w c' -> moved c (r :: w) c'.
Proof.
  intros W E [-> H]. split.
  - cbn [List.length]. change (step c) with (steps 1 c). rewrite steps_add. f_equal. lia.
  - rewrite step_rem, E in H by exact W. cbn [tl] in H. rewrite E. cbn. now rewrite H.
Qed.

Lemma moved_trans c w1 c1 w2 c2 : moved c w1 c1 -> moved c1 w2 c2 -> moved c (w1 ++ w2) c2.
Proof.
  intros [-> H1] [-> H2]. split.
  - rewrite steps_add, app_length. f_equal. lia.
  - rewrite H1, <- app_assoc. f_equal. exact H2.
Qed.

Lemma moved_wf c w c' : cwf c -> moved c w c' -> cwf c'.
Proof. intros W [-> _]. now apply steps_wf. Qed.
Lemma moved_text c w c' : moved c w c' -> c_text c' = c_text c.
Proof. intros [-> _]. apply steps_text. Qed.
Lemma moved_index c w c' : cwf c -> moved c w c' -> c_index c' = c_index c + List.length w.
Proof.
  intros W [-> H]. apply steps_index; [exact W|].
  apply (f_equal (@List.length _)) in H. rewrite app_length in H. lia.
Qed.

Lemma moved_raw c w c' ty :
  cwf c -> moved c w c' -> raw (mkToken ty (c_text c) (c_pos c) (c_pos c')) = w.
Proof.
  intros W M. unfold raw, slice. cbn.
  change (p_index (c_pos c')) with (c_index c'). change (p_index (c_pos c)) with (c_index c).
  rewrite (moved_index _ _ _ W M). destruct M as [_ H].
  fold (rem c). rewrite H.
  replace (c_index c + List.length w - c_index c) with (List.length w) by lia.
  apply firstn_app_exact.
Qed.

(** After [next] from a non-empty remainder. *)
Lemma next_eta c : cwf c -> next c = (hd0 (tl (rem c)), step c).
Proof.
  intros W. unfold step, hd0. rewrite <- next_rune by exact W.
  destruct (next c); reflexivity.
Qed.

Lemma skip_to_spec stop :
  stop 0%N = true ->
  forall fuel c, cwf c -> rem c <> [] -> List.length (rem c) <= fuel ->
  exists c', skip_to stop fuel c = Some c' /\
    moved c (firstn 1 (rem c) ++ take_while (fun x => negb (stop x)) (tl (rem c))) c' /\
    rem c' = drop_while (fun x => negb (stop x)) (tl (rem c)).
Proof.
  intros S0. induction fuel as [|f IH]; intros c W NE L.
  - destruct (rem c); [congruence|cbn in L; lia].
  - destruct (rem c) as [|r l] eqn:E; [congruence|]. cbn [skip_to].
    rewrite next_eta, E by exact W. cbn [tl firstn].
    assert (R : rem (step c) = l) by (rewrite step_rem, E by exact W; reflexivity).
    destruct l as [|r2 l2]; cbn [hd0 hd].
    + unfold hd0, cursor_eof. cbn. rewrite S0. exists (step c). split; [reflexivity|]. cbn.
      split; [|exact R].
      eapply moved_cons; eauto using moved_refl.
    + cbn [hd0 hd]. destruct (stop r2) eqn:S2.
      * exists (step c). split; [reflexivity|].
        cbn [take_while drop_while]. rewrite S2. cbn [negb].
        split; [|exact R]. rewrite app_nil_r. eapply moved_cons; eauto using moved_refl.
      * destruct (IH (step c)) as (c' & H1 & H2 & H3).
        { now apply step_wf. } { rewrite R; discriminate. }
        { rewrite R. cbn in *. lia. }
        exists c'. split; [exact H1|].
        rewrite R in H2, H3. cbn [tl firstn app] in H2, H3.
        cbn [take_while drop_while]. rewrite S2. cbn [negb app].
        split; [|exact H3]. eapply moved_cons; eauto.
Qed.

Lemma star_loop_spec :
  forall fuel c, cwf c -> rem c <> [] -> List.length (rem c) <= fuel ->
  exists c', star_loop fuel c = Some c' /\
    moved c (firstn 1 (rem c) ++ fst (star_scan (tl (rem c)))) (step c') /\
    rem (step c') = snd (star_scan (tl (rem c))).
Proof.
  induction fuel as [|f IH]; intros c W NE L.
  - destruct (rem c); [congruence|cbn in L; lia].
  - destruct (rem c) as [|r l] eqn:E; [congruence|]. cbn [star_loop].
    rewrite next_eta, E by exact W. cbn [tl firstn].
    assert (R : rem (step c) = l) by (rewrite step_rem, E by exact W; reflexivity).
    assert (W1 : cwf (step c)) by now apply step_wf.
    assert (W2 : cwf (step (step c))) by now apply step_wf.
    rewrite seek_rem, R.
    destruct l as [|r2 l2].
    + cbn. exists (step c). split; [reflexivity|].
      rewrite step_step_end by assumption. split; [|exact R].
      eapply moved_cons; eauto using moved_refl.
    + cbn [nth hd0 hd]. fold (hd0 l2).
      replace (nth 0 l2 cursor_eof) with (hd0 l2) by (destruct l2; reflexivity).
      cbn [star_scan]. destruct ((r2 =? 42)%N && (hd0 l2 =? 41)%N) eqn:C.
      * apply andb_true_iff in C as [C1 C2]. destruct l2 as [|r3 l3]; [discriminate C2|].
        cbn in C2. apply N.eqb_eq in C2. subst r3.
        exists (step (step c)). split; [reflexivity|]. cbn [fst snd tl].
        assert (R2 : rem (step (step c)) = 41%N :: l3) by (rewrite step_rem, R by exact W1; reflexivity).
        assert (R3 : rem (step (step (step c))) = l3) by (rewrite step_rem, R2 by exact W2; reflexivity).
        split; [|exact R3].
        eapply moved_cons; [exact W|exact E|]. eapply moved_cons; [exact W1|exact R|].
        eapply moved_cons; [exact W2|exact R2|]. apply moved_refl.
      * destruct (r2 =? cursor_eof)%N eqn:Z.
        -- change cursor_eof with 0%N in Z. rewrite Z. exists (step c). split; [reflexivity|].
           cbn [fst snd].
           assert (R2 : rem (step (step c)) = l2) by (rewrite step_rem, R by exact W1; reflexivity).
           split; [|exact R2].
           eapply moved_cons; [exact W|exact E|]. eapply moved_cons; [exact W1|exact R|].
           apply moved_refl.
        -- change cursor_eof with 0%N in Z. rewrite Z.
           destruct (IH (step c)) as (c' & H1 & H2 & H3).
           { exact W1. } { rewrite R; discriminate. } { rewrite R. cbn in *. lia. }
           exists c'. split; [exact H1|].
           rewrite R in H2, H3. cbn [tl firstn app] in H2, H3.
           destruct (star_scan l2) as [w q]. cbn [fst snd] in *.
           split; [|exact H3]. eapply moved_cons; eauto.
Qed.

Lemma string_loop_spec :
  forall fuel last c w q, cwf c -> rem c <> [] -> List.length (rem c) <= fuel ->
  string_scan last (tl (rem c)) = Some (w, q) ->
  exists c', string_loop fuel last c = Some c' /\
    moved c (firstn 1 (rem c) ++ w) (step c') /\ rem (step c') = q.
Proof.
  induction fuel as [|f IH]; intros last c w q W NE L S.
  - destruct (rem c); [congruence|cbn in L; lia].
  - destruct (rem c) as [|r l] eqn:E; [congruence|]. cbn [string_loop].
    rewrite next_eta, E by exact W. cbn [tl firstn app] in *.
    assert (R : rem (step c) = l) by (rewrite step_rem, E by exact W; reflexivity).
    assert (W1 : cwf (step c)) by now apply step_wf.
    destruct l as [|r2 l2]; [discriminate|]. cbn [hd0 hd]. cbn [string_scan] in S.
    destruct (negb (last =? 92)%N && (r2 =? 39)%N) eqn:C.
    + injection S as <- <-. exists (step c). split; [reflexivity|].
      assert (R2 : rem (step (step c)) = l2) by (rewrite step_rem, R by exact W1; reflexivity).
      split; [|exact R2].
      eapply moved_cons; [exact W|exact E|]. eapply moved_cons; [exact W1|exact R|].
      apply moved_refl.
    + destruct (string_scan r2 l2) as [[w2 q2]|] eqn:S2; [|discriminate].
      injection S as <- <-.
      destruct (IH r2 (step c) w2 q2) as (c' & H1 & H2 & H3).
      { exact W1. } { rewrite R; discriminate. } { rewrite R; cbn in *; lia. }
      { rewrite R. exact S2. }
      exists c'. split; [exact H1|]. rewrite R in H2. cbn [firstn app] in H2.
      split; [|exact H3]. eapply moved_cons; eauto.
Qed.

(** With no closing quote the loop uses up any amount of fuel. *)
Lemma string_loop_hang :
  forall fuel last c, cwf c -> string_scan last (tl (rem c)) = None ->
  string_loop fuel last c = None.
Proof.
  induction fuel as [|f IH]; intros last c W S; [reflexivity|].
  cbn [string_loop]. rewrite next_eta by exact W.
  assert (R : rem (step c) = tl (rem c)) by now apply step_rem.
  assert (W1 : cwf (step c)) by now apply step_wf.
  destruct (tl (rem c)) as [|r2 l2]; cbn [hd0 hd].
  - unfold hd0, cursor_eof; cbn. rewrite andb_false_r.
    apply IH; [exact W1|]. rewrite R. reflexivity.
  - cbn [string_scan] in S. destruct (negb (last =? 92)%N && (r2 =? 39)%N); [discriminate|].
    apply IH; [exact W1|]. rewrite R. cbn.
    destruct (string_scan r2 l2) as [[]|]; [discriminate|reflexivity].
Qed.

Lemma numeral_loop_spec :
  forall fuel ty c, cwf c -> rem c <> [] -> List.length (rem c) <= fuel ->
  let '(ty', w, q) := numeral_scan ty (tl (rem c)) in
  exists c', numeral_loop fuel ty c = Some (ty', c') /\
    moved c (firstn 1 (rem c) ++ w) c' /\ rem c' = q.
Proof.
  induction fuel as [|f IH]; intros ty c W NE L.
  - destruct (rem c); [congruence|cbn in L; lia].
  - destruct (rem c) as [|r l] eqn:E; [congruence|]. cbn [numeral_loop].
    rewrite next_eta, E by exact W. cbn [tl firstn app].
    assert (R : rem (step c) = l) by (rewrite step_rem, E by exact W; reflexivity).
    assert (W1 : cwf (step c)) by now apply step_wf.
    assert (M0 : moved c [r] (step c)) by (eapply moved_cons; eauto using moved_refl).
    rewrite seek_rem, R.
    destruct l as [|r2 l2].
    + cbn. exists (step c). auto.
    + cbn [hd0 hd nth numeral_scan].
      replace (nth 0 l2 cursor_eof) with (hd0 l2) by (destruct l2; reflexivity).
      assert (N2 : rem (step c) <> []) by (rewrite R; discriminate).
      assert (L2 : List.length (rem (step c)) <= f) by (rewrite R; cbn in *; lia).
      pose proof (IH ty (step c) W1 N2 L2) as IH1.
      pose proof (IH NumeralReal (step c) W1 N2 L2) as IH2.
      rewrite R in IH1, IH2. cbn [tl firstn app] in IH1, IH2.
      destruct (is_digit r2) eqn:D.
      * destruct (numeral_scan ty l2) as [[ty' w] q]. destruct IH1 as (c' & H1 & H2 & H3).
        exists c'. repeat split; try assumption. eapply moved_cons; eauto.
        apply (moved_cons c r (r2 :: l2) (r2 :: w) c' W E H2).
      * destruct (r2 =? cursor_eof)%N eqn:Z.
        { apply N.eqb_eq in Z. subst r2. cbn. exists (step c). auto. }
        destruct (r2 =? 46)%N eqn:P; [|exists (step c); auto].
        destruct (hd0 l2 =? 46)%N; [exists (step c); auto|].
        destruct (ttype_eqb ty NumeralReal); [exists (step c); auto|].
        destruct (numeral_scan NumeralReal l2) as [[ty' w] q].
        destruct IH2 as (c' & H1 & H2 & H3).
        exists c'. split; [exact H1|]. split; [|exact H3].
        apply (moved_cons c r (r2 :: l2) (r2 :: w) c' W E H2).
Qed.

(** What [process] does, in terms of the runes in front of the cursor. *)
Definition process_agrees `{Unicode} (c : cursor) (r : presult) (s : lres) : Prop :=
  match s with
  | LEof => r = Match (mkToken EOF (c_text c) (c_pos c) (c_pos c)) c
  | LNone => r = NoMatch
  | LHang => r = Hang
  | LTok ty w q => exists c',
      r = Match (mkToken ty (c_text c) (c_pos c) (c_pos c')) c' /\
      moved c w c' /\ rem c' = q
  end.

Lemma process_double_spec c order :
  cwf c ->
  process_double_in order c =
  if existsb (fun p => (current c =? fst p)%N && (seek c 1 =? snd p)%N) order
  then Match (mkToken SpecialSymbol (c_text c) (c_pos c) (c_pos (step (step c)))) (step (step c))
  else NoMatch.
Proof.
  intros W. induction order as [|[a b] o IH]; [reflexivity|]. cbn.
  destruct ((current c =? a)%N && (seek c 1 =? b)%N); [reflexivity|exact IH].
Qed.

Lemma done_some ty c oc c' : oc = Some c' ->
  done ty c oc = Match (mkToken ty (c_text c) (c_pos c) (c_pos c')) c'.
Proof. intros ->. reflexivity. Qed.

Theorem process_lex1 {U : Unicode} {UOK : UnicodeOk U} c : cwf c -> process_agrees c (process c) (lex1 (rem c)).
Proof.
  intros W. unfold process, processors. cbn [first_match].
  unfold process_eof, process_comment, process_string, process_numeral, process_double,
    process_single, process_word, process_space.
  rewrite process_double_spec by exact W.
  rewrite current_rem, seek_rem.
  destruct (rem c) as [|r l] eqn:E.
  { cbn. reflexivity. }
  cbn [hd nth]. replace (nth 0 l cursor_eof) with (hd0 l) by (destruct l; reflexivity).
  assert (NE : rem c <> []) by (rewrite E; discriminate).
  assert (LF : List.length (rem c) <= loop_fuel c).
  { unfold loop_fuel. rewrite <- rem_len by exact W. lia. }
  unfold lex1. change cursor_eof with 0%N.
  destruct (r =? 0)%N eqn:Z; [reflexivity|].
  destruct (r =? 123)%N eqn:B123.
  { destruct (skip_to_spec (fun r : rune => (r =? 125)%N || (r =? 0)%N) eq_refl _ c W NE LF)
      as (c' & H1 & H2 & H3).
    rewrite H1. cbn [omap done]. exists (step c'). split; [reflexivity|].
    rewrite E in H2, H3. cbn [tl firstn app] in H2, H3.
    unfold brace_stop. fold (step c').
    assert (W' : cwf c') by eauto using moved_wf.
    destruct (drop_while _ l) as [|x q] eqn:D.
    - cbn. rewrite app_nil_r.
      assert (S1 : step c' = c').
      { destruct H2 as [-> H2]. cbn [List.length steps].
        apply step_step_end; [now apply steps_wf|]. exact H3. }
      rewrite S1. auto.
    - cbn. assert (R2 : rem (step c') = q) by (rewrite step_rem, H3 by exact W'; reflexivity).
      split; [|exact R2].
      change (r :: take_while (fun x0 => negb ((x0 =? 125)%N || (x0 =? 0)%N)) l ++ [x])
        with ((r :: take_while (fun x0 => negb ((x0 =? 125)%N || (x0 =? 0)%N)) l) ++ [x]).
      eapply moved_trans; [exact H2|]. eapply moved_cons; eauto using moved_refl. }
  destruct (r =? 47)%N eqn:B47.
  { apply N.eqb_eq in B47. subst r. cbn [andb].
    destruct (hd0 l =? 47)%N eqn:B2.
    - destruct (skip_to_spec (fun r : rune => (r =? 10)%N || (r =? 0)%N) eq_refl _ c W NE LF)
        as (c' & H1 & H2 & H3).
      rewrite H1. cbn [done]. exists c'. split; [reflexivity|].
      rewrite E in H2, H3. cbn [tl firstn app] in H2, H3. auto.
    - cbn. destruct (is_double 47 (hd0 l)) eqn:ID.
      { unfold is_double in ID. cbn in ID. discriminate. }
      unfold is_double in ID. cbn in ID. cbn.
      exists (step c). split; [reflexivity|]. split.
      + eapply moved_cons; eauto using moved_refl.
      + rewrite step_rem, E by exact W. reflexivity. }
  cbn [andb].
  destruct ((r =? 40)%N && (hd0 l =? 42)%N) eqn:B40.
  { apply andb_true_iff in B40 as [B1 B2]. rewrite B1, B2.
    destruct (star_loop_spec _ c W NE LF) as (c' & H1 & H2 & H3).
    rewrite H1. cbn [omap done]. fold (step c'). rewrite E in H2, H3. cbn [tl firstn app] in H2, H3.
    destruct (star_scan l) as [w q]. cbn [fst snd] in *. exists (step c'). auto. }
  assert (NC : (if (r =? 40)%N
                then if (hd0 l =? 42)%N
                     then done Comment c (omap (fun c1 : cursor => snd (next c1)) (star_loop (loop_fuel c) c))
                     else NoMatch
                else NoMatch) = NoMatch).
  { destruct (r =? 40)%N; [|reflexivity]. cbn in B40. rewrite B40. reflexivity. }
  rewrite NC. clear NC.
  destruct (r =? 39)%N eqn:B39.
  { destruct (string_scan 0 l) as [[w q]|] eqn:S.
    - destruct (string_loop_spec (loop_fuel c) 0%N c w q W NE LF) as (c' & H1 & H2 & H3).
      { rewrite E. exact S. }
      rewrite H1. cbn [omap done]. fold (step c'). rewrite E in H2. cbn [firstn app] in H2.
      exists (step c'). auto.
    - rewrite string_loop_hang; [reflexivity|exact W|]. rewrite E. exact S. }
  destruct (is_digit r || is_unary_op r && is_digit (hd0 l)) eqn:BN.
  { pose proof (numeral_loop_spec (loop_fuel c) NumeralInt c W NE LF) as NL.
    rewrite E in NL. cbn [tl firstn app] in NL.
    destruct (numeral_scan NumeralInt l) as [[ty w] q]. destruct NL as (c' & H1 & H2 & H3).
    rewrite H1. exists c'. auto. }
  fold (is_double r (hd0 l)). destruct (is_double r (hd0 l)) eqn:BD.
  { destruct l as [|r2 l2].
    { unfold is_double in BD. cbn in BD. rewrite ?andb_false_r in BD. discriminate. }
    assert (R1 : rem (step c) = r2 :: l2) by (rewrite step_rem, E by exact W; reflexivity).
    assert (R2 : rem (step (step c)) = l2).
    { rewrite step_rem, R1 by (now apply step_wf). reflexivity. }
    exists (step (step c)). split; [reflexivity|]. cbn. split; [|exact R2].
    eapply moved_cons; [exact W|exact E|].
    eapply moved_cons; [now apply step_wf|exact R1|]. apply moved_refl. }
  destruct (is_single_symbol r) eqn:BS.
  { exists (step c). split; [reflexivity|]. split.
    - eapply moved_cons; eauto using moved_refl.
    - rewrite step_rem, E by exact W. reflexivity. }
  destruct (is_word_head r) eqn:BW.
  { destruct (skip_to_spec (fun r : rune => negb (is_word r))) with (fuel := loop_fuel c) (c := c)
      as (c' & H1 & H2 & H3); try assumption.
    { unfold is_word, is_word_head. rewrite u_letter_nul. reflexivity. }
    rewrite H1. exists c'. rewrite E in H2, H3. cbn [tl firstn app] in H2, H3.
    assert (EQ : forall l, take_while (fun x => negb (negb (is_word x))) l = take_while is_word l).
    { induction l0; cbn; [reflexivity|]. rewrite negb_involutive. now rewrite IHl0. }
    assert (EQ2 : forall l, drop_while (fun x => negb (negb (is_word x))) l = drop_while is_word l).
    { induction l0; cbn; [reflexivity|]. rewrite negb_involutive. now rewrite IHl0. }
    rewrite EQ in H2. rewrite EQ2 in H3.
    split; [|auto]. f_equal.
    unfold word_type, value. cbn [t_type]. rewrite (moved_raw _ _ _ _ W H2). reflexivity. }
  destruct (u_space r) eqn:BSP; [|reflexivity].
  destruct (skip_to_spec (fun r : rune => negb (u_space r))) with (fuel := loop_fuel c) (c := c)
      as (c' & H1 & H2 & H3); try assumption.
  { rewrite u_space_nul. reflexivity. }
  rewrite H1. exists c'. rewrite E in H2, H3. cbn [tl firstn app] in H2, H3.
  assert (EQ : forall l, take_while (fun x => negb (negb (u_space x))) l = take_while u_space l).
  { induction l0; cbn; [reflexivity|]. rewrite negb_involutive. now rewrite IHl0. }
  assert (EQ2 : forall l, drop_while (fun x => negb (negb (u_space x))) l = drop_while u_space l).
  { induction l0; cbn; [reflexivity|]. rewrite negb_involutive. now rewrite IHl0. }
  rewrite EQ in H2. rewrite EQ2 in H3. auto.
Qed.
