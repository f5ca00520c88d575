(** The list-level lexer [lex1] matches the shapes of LexSpec, both ways. *)
From Coq Require Import List NArith Bool Arith String Lia.
From Verif Require Import ListUtil Runes UnicodeFacts Token Tokenizer LexList LexSpec.
Import ListNotations.

Lemma absent_cons a b r l :
  absent [a; b] (r :: l) <-> ~ (r = a /\ exists l', l = b :: l') /\ absent [a; b] l.
Proof.
  unfold absent. split.
  - intros A. split.
    + intros [-> [l' ->]]. apply (A [] l'). reflexivity.
    + intros x y ->. apply (A (r :: x) y). reflexivity.
  - intros [N A] [|x0 x] y E; cbn in E; injection E as -> E.
    + apply N. split; [reflexivity|]. exists y. exact E.
    + apply (A x y). exact E.
Qed.

Lemma absent_nil a b : absent [a; b] [].
Proof. intros [|? ?] y; discriminate. Qed.

Lemma last_cons {A} (x d : A) l : last (x :: l) d = last l x.
Proof.
  revert x d; induction l as [|y l IH]; intros x d; [reflexivity|].
  change (last (x :: y :: l) d) with (last (y :: l) d).
  rewrite (IH y d), (IH y x). reflexivity.
Qed.


Lemma star_scan_inv l : forall w q, star_scan l = (w, q) ->
  l = w ++ q /\
  ((exists u, w = u ++ [42%N; 41%N] /\ absent [42%N; 41%N] (u ++ [42%N]) /\ ~ In 0%N u) \/
   (q = [] /\ absent [42%N; 41%N] w /\ ~ In 0%N w) \/
   (exists u, w = u ++ [0%N] /\ absent [42%N; 41%N] u /\ ~ In 0%N u)).
Proof.
  induction l as [|r l IH]; cbn; intros w q E.
  - injection E as <- <-. split; [reflexivity|]. right; left. auto using absent_nil.
  - destruct ((r =? 42)%N && (hd0 l =? 41)%N) eqn:B.
    + apply andb_true_iff in B as [B1 B2]. apply N.eqb_eq in B1, B2. subst r.
      destruct l as [|r l]; [discriminate|]. cbn in B2, E. subst r. injection E as <- <-.
      split; [reflexivity|]. left. exists []. split; [reflexivity|]. cbn.
      split; [|tauto]. apply absent_cons. split; [|apply absent_nil].
      intros [_ [? ?]]. discriminate.
    + assert (NB : ~ (r = 42%N /\ exists l', l = 41%N :: l')).
      { intros [-> [l' ->]]. cbn in B. discriminate. }
      destruct (r =? 0)%N eqn:Z.
      * apply N.eqb_eq in Z. subst r. injection E as <- <-. split; [reflexivity|].
        right; right. exists []. cbn. auto using absent_nil.
      * apply N.eqb_neq in Z. destruct (star_scan l) as [w' q'] eqn:S.
        injection E as <- <-. destruct (IH _ _ eq_refl) as [-> H].
        split; [reflexivity|].
        destruct H as [(u & -> & A & NU)|[(-> & A & NU)|(u & -> & A & NU)]].
        -- left. exists (r :: u). split; [reflexivity|]. cbn [app]. split.
           ++ apply absent_cons. split; [|exact A]. intros [-> [l' E']].
              apply NB. split; [reflexivity|].
              destruct u; cbn in E'; [discriminate|]. injection E' as -> _.
              cbn. eauto.
           ++ cbn. intuition.
        -- right; left. split; [reflexivity|]. split.
           ++ apply absent_cons. split; [|exact A]. intros [-> [l' ->]].
              apply NB. split; [reflexivity|]. cbn. eauto.
           ++ cbn. intuition.
        -- right; right. exists (r :: u). split; [reflexivity|]. split.
           ++ apply absent_cons. split; [|exact A]. intros [-> [l' ->]].
              apply NB. split; [reflexivity|]. cbn. eauto.
           ++ cbn. intuition.
Qed.

Lemma star_scan_closed u q : absent [42%N; 41%N] (u ++ [42%N]) -> ~ In 0%N u ->
  star_scan (u ++ [42%N; 41%N] ++ q) = (u ++ [42%N; 41%N], q).
Proof.
  induction u as [|r u IH]; cbn [app]; intros A NU; [reflexivity|].
  apply absent_cons in A as [NB A]. cbn [star_scan].
  assert (B : (r =? 42)%N && (hd0 (u ++ 42%N :: 41%N :: q) =? 41)%N = false).
  { apply andb_false_iff. destruct (N.eqb_spec r 42); [right|left; reflexivity]. subst r.
    apply N.eqb_neq. intros E. apply NB. split; [reflexivity|].
    destruct u as [|x u]; cbn in E; [discriminate|]. subst x. cbn. eauto. }
  rewrite B. destruct (N.eqb_spec r 0) as [->|]; [destruct NU; now left|].
  cbn [app] in IH. rewrite IH; [reflexivity|exact A|]. intros I; apply NU; now right.
Qed.

Lemma star_scan_cut u : absent [42%N; 41%N] u -> ~ In 0%N u -> star_scan u = (u, []).
Proof.
  induction u as [|r u IH]; intros A NU; [reflexivity|].
  apply absent_cons in A as [NB A]. cbn [star_scan].
  assert (B : (r =? 42)%N && (hd0 u =? 41)%N = false).
  { apply andb_false_iff. destruct (N.eqb_spec r 42); [right|left; reflexivity]. subst r.
    apply N.eqb_neq. intros E. apply NB. split; [reflexivity|].
    destruct u as [|x u]; cbn in E; [discriminate|]. subst x. eauto. }
  rewrite B. destruct (N.eqb_spec r 0) as [->|]; [destruct NU; now left|].
  rewrite IH; [reflexivity|exact A|]. intros I; apply NU; now right.
Qed.

Lemma string_scan_inv l : forall d w q, string_scan d l = Some (w, q) ->
  l = w ++ q /\ exists b, w = b ++ [39%N] /\
    (forall b1 b2, b = b1 ++ 39%N :: b2 -> last b1 d = 92%N) /\ last b d <> 92%N.
Proof.
  induction l as [|r l IH]; cbn; intros d w q E; [discriminate|].
  destruct (negb (d =? 92)%N && (r =? 39)%N) eqn:B.
  - apply andb_true_iff in B as [B1 B2]. apply negb_true_iff in B1.
    apply N.eqb_neq in B1. apply N.eqb_eq in B2. injection E as <- <-. subst r.
    split; [reflexivity|]. exists []. repeat split; auto. intros [|? ?]; discriminate.
  - destruct (string_scan r l) as [[w' q']|] eqn:S; [|discriminate].
    injection E as <- <-. destruct (IH _ _ _ S) as (-> & b & -> & Hq & Hl).
    split; [reflexivity|]. exists (r :: b). split; [reflexivity|]. rewrite last_cons.
    split; [|exact Hl]. intros [|x b1] b2 Eb; cbn in Eb; injection Eb as -> Eb.
    + rewrite andb_true_r in B. apply negb_false_iff, N.eqb_eq in B. exact B.
    + rewrite last_cons. eapply Hq, Eb.
Qed.

Lemma string_scan_body b q : forall d,
  (forall b1 b2, b = b1 ++ 39%N :: b2 -> last b1 d = 92%N) -> last b d <> 92%N ->
  string_scan d (b ++ 39%N :: q) = Some (b ++ [39%N], q).
Proof.
  induction b as [|r b IH]; cbn [app string_scan]; intros d Hq Hl.
  - cbn in Hl. apply N.eqb_neq in Hl. rewrite Hl. reflexivity.
  - assert (B : negb (d =? 92)%N && (r =? 39)%N = false).
    { apply andb_false_iff. destruct (N.eqb_spec r 39); [left|right; reflexivity]. subst r.
      apply negb_false_iff, N.eqb_eq. apply (Hq [] b). reflexivity. }
    rewrite B, IH; [reflexivity| |now rewrite <- (last_cons r d)].
    intros b1 b2 ->. rewrite <- (last_cons r d). apply (Hq (r :: b1) b2). reflexivity.
Qed.

Lemma string_scan_none l : forall d, string_scan d l = None <->
  (forall b1 b2, l = b1 ++ 39%N :: b2 -> last b1 d = 92%N).
Proof.
  induction l as [|r l IH]; intros d; cbn.
  - split; [|reflexivity]. intros _ [|? ?]; discriminate.
  - split.
    + destruct (negb (d =? 92)%N && (r =? 39)%N) eqn:B; [discriminate|].
      destruct (string_scan r l) as [[? ?]|] eqn:S; [discriminate|]. intros _.
      intros [|x b1] b2 E; cbn in E; injection E as -> E.
      * rewrite andb_true_r in B. apply negb_false_iff, N.eqb_eq in B. exact B.
      * rewrite last_cons. eapply IH; eauto.
    + intros H. destruct (negb (d =? 92)%N && (r =? 39)%N) eqn:B.
      * apply andb_true_iff in B as [B1 B2]. apply N.eqb_eq in B2. subst r.
        specialize (H [] l eq_refl). cbn in H. subst d. discriminate.
      * destruct (string_scan r l) as [[? ?]|] eqn:S; [|reflexivity].
        exfalso. assert (N : string_scan r l = None); [|congruence].
        apply IH. intros b1 b2 ->. rewrite <- (last_cons r d). apply (H (r :: b1) b2). reflexivity.
Qed.

Lemma digit_spec r : is_digit r = true <-> Digit r.
Proof. unfold is_digit, Digit. rewrite andb_true_iff, !N.leb_le. tauto. Qed.

Lemma digit_spec' r : is_digit r = false <-> ~ Digit r.
Proof. rewrite <- digit_spec. destruct (is_digit r); intuition congruence. Qed.

(** Numerals: after the first rune. *)
Lemma numeral_scan_real l : forall ty w q, numeral_scan NumeralReal l = (ty, w, q) ->
  ty = NumeralReal /\ l = w ++ q /\ Forall Digit w /\
  (forall r q', q = r :: q' -> ~ Digit r).
Proof.
  induction l as [|r l IH]; cbn; intros ty w q E.
  - injection E as <- <- <-. repeat split; auto. discriminate.
  - destruct (is_digit r) eqn:D.
    + destruct (numeral_scan NumeralReal l) as [[ty' w'] q'] eqn:S.
      injection E as <- <- <-. destruct (IH _ _ _ eq_refl) as (-> & -> & F & H).
      repeat split; auto. constructor; [now apply digit_spec|exact F].
    + apply digit_spec' in D.
      destruct (r =? 46)%N; [destruct (hd0 l =? 46)%N|]; injection E as <- <- <-;
      (repeat split; auto; intros ? ? [= -> ->]; exact D).
Qed.

Lemma numeral_scan_real_fwd fs q :
  Forall Digit fs -> (forall r q', q = r :: q' -> ~ Digit r) ->
  numeral_scan NumeralReal (fs ++ q) = (NumeralReal, fs, q).
Proof.
  intros F H. induction F as [|r fs D F IH]; cbn.
  - destruct q as [|r q]; [reflexivity|]. cbn. specialize (H r q eq_refl).
    apply digit_spec' in H. rewrite H.
    destruct (r =? 46)%N; [destruct (hd0 q =? 46)%N|]; reflexivity.
  - apply digit_spec in D. rewrite D, IH. reflexivity.
Qed.

Lemma numeral_scan_int l : forall ty w q, numeral_scan NumeralInt l = (ty, w, q) ->
  l = w ++ q /\ (forall r q', q = r :: q' -> ~ Digit r) /\
  ((ty = NumeralInt /\ Forall Digit w /\
    (forall q', q = 46%N :: q' -> exists q'', q' = 46%N :: q'')) \/
   (ty = NumeralReal /\ exists ds fs, w = ds ++ 46%N :: fs /\ Forall Digit ds /\ Forall Digit fs /\
     (fs = [] -> forall q', q <> 46%N :: q'))).
Proof.
  induction l as [|r l IH]; cbn; intros ty w q E.
  - injection E as <- <- <-. split; [reflexivity|]. split; [discriminate|]. left.
    repeat split; auto; discriminate.
  - destruct (is_digit r) eqn:D.
    + destruct (numeral_scan NumeralInt l) as [[ty' w'] q'] eqn:S.
      injection E as <- <- <-. destruct (IH _ _ _ eq_refl) as (-> & Hd & H).
      split; [reflexivity|]. split; [exact Hd|]. apply digit_spec in D.
      destruct H as [(-> & F & H)|(-> & ds & fs & -> & F1 & F2 & H)]; [left; auto|right].
      split; [reflexivity|]. exists (r :: ds), fs. auto.
    + apply digit_spec' in D. destruct (N.eqb_spec r 46) as [->|N46].
      * destruct (N.eqb_spec (hd0 l) 46) as [E46|N2].
        -- injection E as <- <- <-. split; [reflexivity|].
           split; [intros ? ? [= <- <-]; exact D|]. left. repeat split; auto.
           intros q' [= <-]. destruct l; cbn in E46; [discriminate|]. subst. eauto.
        -- destruct (numeral_scan NumeralReal l) as [[ty' w'] q'] eqn:S. cbn in E.
           injection E as <- <- <-. destruct (numeral_scan_real _ _ _ _ S) as (-> & -> & F & H).
           split; [reflexivity|]. split; [exact H|]. right. split; [reflexivity|].
           exists [], w'. repeat split; auto. intros -> q'' ->. cbn in N2. congruence.
      * injection E as <- <- <-. split; [reflexivity|].
        split; [intros ? ? [= <- <-]; exact D|]. left. repeat split; auto. congruence.
Qed.

Lemma numeral_scan_int_fwd ds q :
  Forall Digit ds -> (forall r q', q = r :: q' -> ~ Digit r) ->
  (forall q', q = 46%N :: q' -> exists q'', q' = 46%N :: q'') ->
  numeral_scan NumeralInt (ds ++ q) = (NumeralInt, ds, q).
Proof.
  intros F H H2. induction F as [|r fs D F IH]; cbn.
  - destruct q as [|r q]; [reflexivity|]. cbn. specialize (H r q eq_refl).
    apply digit_spec' in H. rewrite H.
    destruct (N.eqb_spec r 46) as [->|]; [|reflexivity].
    destruct (H2 _ eq_refl) as [q'' ->]. reflexivity.
  - apply digit_spec in D. rewrite D, IH. reflexivity.
Qed.

Lemma numeral_scan_mixed_fwd ds fs q :
  Forall Digit ds -> Forall Digit fs -> (forall r q', q = r :: q' -> ~ Digit r) ->
  (fs = [] -> forall q', q <> 46%N :: q') ->
  numeral_scan NumeralInt (ds ++ 46%N :: fs ++ q) = (NumeralReal, ds ++ 46%N :: fs, q).
Proof.
  intros F F2 H H2. induction F as [|r ds D F IH]; cbn.
  - assert (E : (hd0 (fs ++ q) =? 46)%N = false).
    { destruct fs as [|r fs]; cbn.
      - destruct q as [|r q]; [reflexivity|]. cbn. apply N.eqb_neq. intros ->.
        now apply (H2 eq_refl q).
      - inversion F2 as [|? ? D _]; subst. unfold Digit in D. apply N.eqb_neq. lia. }
    rewrite E. rewrite numeral_scan_real_fwd by assumption. reflexivity.
  - apply digit_spec in D. rewrite D, IH. reflexivity.
Qed.

Lemma last_app {A} (a b : list A) d : b <> [] -> last (a ++ b) d = last b d.
Proof.
  intros N. revert d. induction a as [|x a IH]; intros d; [reflexivity|].
  rewrite <- app_comm_cons, last_cons, IH.
  destruct b as [|y b]; [congruence|]. now rewrite !last_cons.
Qed.

Lemma last_in {A} (x d : A) l : In (last (x :: l) d) (x :: l).
Proof.
  revert x; induction l as [|y l IH]; intros x; [now left|].
  right. change (last (x :: y :: l) d) with (last (y :: l) d). apply IH.
Qed.

Lemma real_no_fraction (s : list rune) ds fs : Forall Digit fs ->
  last (s ++ ds ++ 46%N :: fs) 0%N = 46%N -> fs = [].
Proof.
  intros F L. destruct fs as [|f fs]; [reflexivity|exfalso].
  rewrite app_assoc, last_app in L by discriminate.
  change (last (46%N :: f :: fs) 0%N) with (last (f :: fs) 0%N) in L.
  rewrite Forall_forall in F. specialize (F _ (last_in f 0%N fs)).
  rewrite L in F. unfold Digit in F. lia.
Qed.

(** Doubles and singles. *)
Lemma double_spec a b : is_double a b = true <-> In [a; b] two_rune_symbols.
Proof.
  unfold is_double, two_rune_symbols. cbn.
  rewrite !orb_true_iff, !andb_true_iff, !N.eqb_eq.
  split.
  - intros X. repeat match goal with
      | Y : _ \/ _ |- _ => destruct Y
      | Y : _ /\ _ |- _ => destruct Y
      end; subst; try discriminate; tauto.
  - intros I. repeat destruct I as [I|I]; try (injection I as <- <-; tauto); contradiction.
Qed.

Lemma double_spec' a b : is_double a b = false <-> ~ In [a; b] two_rune_symbols.
Proof. rewrite <- double_spec. destruct (is_double a b); intuition congruence. Qed.

Lemma single_spec a : is_single_symbol a = true <->
  a = 39%N \/ a = 123%N \/ In [a] one_rune_symbols.
Proof.
  unfold is_single_symbol, single_special_symbols, one_rune_symbols. cbn.
  rewrite !orb_true_iff, !N.eqb_eq.
  split.
  - intros X. repeat match goal with
      | Y : _ \/ _ |- _ => destruct Y
      | Y : _ /\ _ |- _ => destruct Y
      end; subst; try discriminate; tauto.
  - intros [I|[I|I]]; [tauto|tauto|].
    repeat destruct I as [I|I]; try (injection I as <-; tauto); contradiction.
Qed.

Lemma two_rune_length w : In w two_rune_symbols -> exists a b, w = [a; b].
Proof. cbn. intros I. repeat destruct I as [I|I]; subst; eauto; contradiction. Qed.
Lemma one_rune_length w : In w one_rune_symbols -> exists a, w = [a].
Proof. cbn. intros I. repeat destruct I as [I|I]; subst; eauto; contradiction. Qed.

Lemma runes_equal_eq a b : runes_equal a b = true <-> a = b.
Proof.
  revert b; induction a as [|x a IH]; intros [|y b]; cbn; split; try discriminate; auto.
  - rewrite andb_true_iff, N.eqb_eq, IH. intros [-> ->]. reflexivity.
  - intros [= -> ->]. rewrite N.eqb_refl. cbn. now apply IH.
Qed.

Lemma str_in_spec s l : str_in s l = true <-> In s l.
Proof.
  unfold str_in. rewrite existsb_exists. split.
  - intros (x & I & E). apply runes_equal_eq in E. now subst.
  - intros I. exists s. split; [exact I|]. now apply runes_equal_eq.
Qed.

Section WithUnicode.
Context {U : Unicode} {UOK : UnicodeOk U}.

Lemma word_head_spec r : is_word_head r = true <-> WordHead r.
Proof. unfold is_word_head, WordHead. now rewrite orb_true_iff, N.eqb_eq. Qed.
Lemma word_spec r : is_word r = true <-> WordRune r.
Proof. unfold is_word, WordRune. now rewrite orb_true_iff, word_head_spec, digit_spec. Qed.
Lemma word_spec' r : is_word r = false <-> ~ WordRune r.
Proof. rewrite <- word_spec. destruct (is_word r); intuition congruence. Qed.
Lemma pascal_reserved_words : reserved_words = rev pascal_reserved.
Proof. reflexivity. Qed.
Lemma reserved_spec s : is_reserved_word s = true <-> In (to_upper s) pascal_reserved.
Proof. rewrite in_rev, <- pascal_reserved_words. apply str_in_spec. Qed.

Definition blank_run (w q : list rune) : Prop :=
  w <> [] /\ Forall Blank w /\ (forall r q', q = r :: q' -> ~ Blank r).

Definition comment_shape (w q : list rune) : Prop :=
  closed_comment w \/
  (line_comment w /\ (q = [] \/ exists q', q = 10%N :: q' \/ q = 0%N :: q')) \/
  (cut_comment w /\ q = []) \/
  (exists w', w = w' ++ [0%N] /\ cut_comment w').

Definition shape (ty : ttype) (w q : list rune) : Prop :=
  match ty with
  | Space => blank_run w q
  | Comment => comment_shape w q
  | _ => lexeme ty w /\ ends ty w q
  end.

Lemma neg_stop f (l : list rune) x :
  In x (take_while (fun y => negb (f y)) l) -> f x = false.
Proof.
  intros I. pose proof (take_while_forall (fun y => negb (f y)) l) as F.
  rewrite Forall_forall in F. specialize (F x I). now apply negb_true_iff.
Qed.

Theorem lex1_shape l ty w q :
  lex1 l = LTok ty w q -> l = w ++ q /\ w <> [] /\ shape ty w q.
Proof.
  destruct l as [|r l]; [discriminate|]. cbn [lex1]. unfold lex1.
  destruct (N.eqb_spec r 0) as [|N0]; [discriminate|].
  destruct (N.eqb_spec r 123) as [->|N123].
  { intros [= <- <- <-].
    pose proof (take_drop_while (fun x => negb (brace_stop x)) l) as TD.
    pose proof (neg_stop brace_stop l) as NS.
    pose proof (drop_while_head (fun x => negb (brace_stop x)) l) as DH.
    set (b := take_while _ l) in *. set (d := drop_while _ l) in *.
    assert (NB : ~ In 125%N b /\ ~ In 0%N b).
    { split; intros I; apply NS in I; discriminate. }
    destruct d as [|x d'] eqn:Ed.
    - rewrite !app_nil_r in *. rewrite TD. split; [reflexivity|]. split; [discriminate|].
      cbn [shape]. rewrite TD in NB. right; right; left. split; [|reflexivity].
      now constructor.
    - split; [cbn; now rewrite <- app_assoc, <- TD|]. split; [discriminate|]. cbn [shape].
      specialize (DH x d' eq_refl). apply negb_false_iff in DH.
      unfold brace_stop in DH. apply orb_true_iff in DH as [E|E]; apply N.eqb_eq in E; subst x.
      + left. now constructor.
      + right; right; right. exists (123%N :: b). split; [reflexivity|]. now constructor. }
  destruct ((r =? 47)%N && (hd0 l =? 47)%N) eqn:B47.
  { apply andb_true_iff in B47 as [E1 E2]. apply N.eqb_eq in E1, E2. subst r.
    destruct l as [|r l]; [discriminate|]. cbn in E2. subst r.
    intros [= <- <- <-].
    change (take_while (fun x => negb (line_stop x)) (47%N :: l))
      with (47%N :: take_while (fun x => negb (line_stop x)) l).
    change (drop_while (fun x => negb (line_stop x)) (47%N :: l))
      with (drop_while (fun x => negb (line_stop x)) l).
    pose proof (take_drop_while (fun x => negb (line_stop x)) l) as TD.
    pose proof (neg_stop line_stop l) as NS.
    pose proof (drop_while_head (fun x => negb (line_stop x)) l) as DH.
    set (b := take_while _ l) in *. set (d := drop_while _ l) in *.
    assert (NB : ~ In 10%N b /\ ~ In 0%N b).
    { split; intros I; apply NS in I; discriminate. }
    split; [cbn; now rewrite TD|]. split; [discriminate|]. cbn [shape].
    right; left. split; [exists b; tauto|].
    destruct d as [|x d']; [now left|right].
    specialize (DH x d' eq_refl). apply negb_false_iff in DH.
    unfold line_stop in DH. apply orb_true_iff in DH as [E|E]; apply N.eqb_eq in E; subst x; eauto. }
  destruct ((r =? 40)%N && (hd0 l =? 42)%N) eqn:B40.
  { apply andb_true_iff in B40 as [E1 E2]. apply N.eqb_eq in E1, E2. subst r.
    destruct (star_scan l) as [w' q'] eqn:S. intros [= <- <- <-].
    destruct (star_scan_inv l _ _ S) as [El H]. split; [now rewrite El|]. split; [discriminate|].
    cbn [shape]. destruct H as [(u & -> & A & NU)|[(-> & A & NU)|(u & -> & A & NU)]].
    - left. constructor; auto. destruct u as [|x u]; [reflexivity|]. subst l. cbn in *. exact E2.
    - right; right; left. split; [|reflexivity]. constructor; auto.
      rewrite app_nil_r in El. subst l. destruct w'; cbn in *; [discriminate|exact E2].
    - right; right; right. exists (40%N :: u). split; [reflexivity|]. constructor; auto.
      subst l. destruct u; cbn in *; [discriminate|exact E2]. }
  destruct (N.eqb_spec r 39) as [->|N39].
  { destruct (string_scan 0 l) as [[w' q']|] eqn:S; [|discriminate]. intros [= <- <- <-].
    destruct (string_scan_inv l _ _ _ S) as (-> & b & -> & H).
    split; [reflexivity|]. split; [discriminate|]. split; [|exact I].
    change (39%N :: b ++ [39%N]) with (39%N :: b ++ [39%N]). constructor. exact H. }
  destruct (is_digit r || is_unary_op r && is_digit (hd0 l)) eqn:BN.
  { destruct (numeral_scan NumeralInt l) as [[ty' w'] q'] eqn:S. intros [= <- <- <-].
    destruct (numeral_scan_int l _ _ _ S) as (El & Hd & H).
    split; [now rewrite El|]. split; [discriminate|].
    (* sign and digits *)
    assert (SG : forall ds rest, l = ds ++ rest -> Forall Digit ds ->
              (forall x y, rest = x :: y -> ~ Digit x) ->
              exists s ds', r :: ds = s ++ ds' /\ sign s /\ ds' <> [] /\ Forall Digit ds').
    { intros ds rest Eds F Hr. destruct (is_digit r) eqn:D.
      - exists [], (r :: ds). apply digit_spec in D.
        split; [reflexivity|]. split; [now left|]. split; [discriminate|auto].
      - cbn in BN. apply andb_true_iff in BN as [B1 B2]. unfold is_unary_op in B1.
        apply N.eqb_eq in B1. subst r. exists [45%N], ds.
        split; [reflexivity|]. split; [now right|]. split; [|exact F].
        intros ->. cbn in Eds. rewrite Eds in B2. destruct rest as [|x y]; [discriminate B2|].
        cbn in B2. apply digit_spec in B2. eapply Hr; eauto. }
    destruct H as [(-> & F & H)|(-> & ds & fs & -> & F1 & F2 & H)].
    - split; [|split; assumption].
      destruct (SG _ _ El F Hd) as (s & ds' & -> & Hs & Hn & Hf). now constructor.
    - rewrite <- app_assoc in El. cbn in El.
      destruct (SG _ _ El F1) as (s & ds' & E' & Hs & Hn & Hf).
      { intros x y [= <- <-]. unfold Digit. lia. }
      rewrite app_comm_cons, E', <- app_assoc.
      split; [now constructor|]. split; [exact Hd|].
      intros L q'' ->. apply (H (real_no_fraction _ _ _ F2 L) q''). reflexivity. }
  destruct (is_double r (hd0 l)) eqn:BD.
  { intros [= <- <- <-]. destruct l as [|r2 l].
    { apply double_spec in BD. cbn in BD. exfalso.
      repeat destruct BD as [BD|BD]; try discriminate; contradiction. }
    cbn in *. split; [reflexivity|]. split; [discriminate|]. split.
    - apply lx_symbol2. now apply double_spec.
    - intros ? ? ? [= ]. }
  destruct (is_single_symbol r) eqn:BS.
  { intros [= <- <- <-]. split; [reflexivity|]. split; [discriminate|]. split.
    - apply lx_symbol1. apply single_spec in BS. tauto.
    - intros a x q' [= <-] ->. cbn in *. apply double_spec' in BD.
      split; [exact BD|]. split; [|split].
      + intros [-> ->]. discriminate.
      + intros [-> ->]. discriminate.
      + intros [-> D]. apply digit_spec in D. rewrite D in BN. discriminate. }
  destruct (is_word_head r) eqn:BW.
  { intros [= <- <- <-].
    split; [cbn; now rewrite take_drop_while|]. split; [discriminate|].
    assert (F : Forall WordRune (take_while is_word l)).
    { eapply Forall_impl; [|apply take_while_forall]. intros ? ?. now apply word_spec. }
    assert (EN : forall x y, drop_while is_word l = x :: y -> ~ WordRune x).
    { intros x y Ex. apply word_spec'. eapply drop_while_head, Ex. }
    apply word_head_spec in BW.
    unfold word_type. destruct (is_reserved_word _) eqn:R.
    - split; [|exact EN]. constructor; auto. now apply reserved_spec.
    - split; [|exact EN]. constructor; auto. rewrite <- reserved_spec. congruence. }
  destruct (u_space r) eqn:SP; [|discriminate].
  intros [= <- <- <-]. split; [cbn; now rewrite take_drop_while|]. split; [discriminate|].
  split; [discriminate|]. split.
  - constructor; [exact SP|]. apply take_while_forall.
  - intros x y Ex. apply drop_while_head in Ex. unfold Blank. congruence.
Qed.


(** Conversely, a lexeme that ends where it should is found. *)
Lemma word_head_small r : WordHead r -> (r < 128)%N ->
  r = 95%N \/ (65 <= r <= 90)%N \/ (97 <= r <= 122)%N.
Proof.
  intros [->|L] B; [now left|right]. rewrite letter_ascii in L by exact B.
  unfold between in L. apply orb_true_iff in L as [L|L];
    apply andb_true_iff in L as [L1 L2]; apply N.leb_le in L1, L2; lia.
Qed.

Lemma blank_small r : Blank r -> (r < 128)%N -> (9 <= r <= 13)%N \/ r = 32%N.
Proof.
  unfold Blank. intros L B. rewrite space_ascii in L by exact B.
  unfold between in L. apply orb_true_iff in L as [L|L].
  - apply andb_true_iff in L as [L1 L2]; apply N.leb_le in L1, L2; lia.
  - apply N.eqb_eq in L. lia.
Qed.

(** Runes that start neither a comment, a string, a numeral nor a symbol. *)
Definition plain (r : rune) : Prop :=
  (128 <= r)%N \/ r = 95%N \/ (65 <= r <= 90)%N \/ (97 <= r <= 122)%N \/
  (9 <= r <= 13)%N \/ r = 32%N.

Lemma word_head_plain r : WordHead r -> plain r.
Proof.
  intros H. destruct (N.lt_ge_cases r 128) as [L|L]; [|now left].
  destruct (word_head_small r H L) as [?|[?|?]]; unfold plain; auto 10.
Qed.
Lemma blank_plain r : Blank r -> plain r.
Proof.
  intros H. destruct (N.lt_ge_cases r 128) as [L|L]; [|now left].
  destruct (blank_small r H L) as [?|?]; unfold plain; auto 10.
Qed.

Lemma blank_not_word_head r : Blank r -> is_word_head r = false.
Proof.
  intros H. destruct (is_word_head r) eqn:E; [|reflexivity].
  apply word_head_not_space in E. unfold Blank in H. congruence.
Qed.

Lemma plain_lex1 r l : plain r ->
  lex1 (r :: l) =
  if is_word_head r then
    LTok (word_type (r :: take_while is_word l)) (r :: take_while is_word l) (drop_while is_word l)
  else if u_space r then
    LTok Space (r :: take_while u_space l) (drop_while u_space l)
  else LNone.
Proof.
  intros P. unfold lex1.
  assert (N0 : (r =? 0)%N = false) by (apply N.eqb_neq; unfold plain in P; lia).
  assert (N1 : (r =? 123)%N = false) by (apply N.eqb_neq; unfold plain in P; lia).
  assert (N2 : (r =? 47)%N = false) by (apply N.eqb_neq; unfold plain in P; lia).
  assert (N3 : (r =? 40)%N = false) by (apply N.eqb_neq; unfold plain in P; lia).
  assert (N4 : (r =? 39)%N = false) by (apply N.eqb_neq; unfold plain in P; lia).
  assert (N5 : is_digit r = false) by (apply digit_spec'; unfold plain, Digit in *; lia).
  assert (N6 : is_unary_op r = false) by (apply N.eqb_neq; unfold plain in P; lia).
  assert (N7 : forall b, is_double r b = false).
  { intros b. apply double_spec'. cbn. intros I.
    repeat destruct I as [I|I]; try (injection I as <- <-; unfold plain in P; lia); contradiction. }
  assert (N8 : is_single_symbol r = false).
  { destruct (is_single_symbol r) eqn:E; [|reflexivity]. apply single_spec in E. cbn in E.
    destruct E as [->|[->|I]]; [unfold plain in P; lia|unfold plain in P; lia|].
    repeat destruct I as [I|I]; try (injection I as <-; unfold plain in P; lia); contradiction. }
  rewrite N0, N1, N2, N3, N4, N5, N6, N7, N8. reflexivity.
Qed.

Lemma lex1_word r w q : WordHead r -> Forall WordRune w ->
  (forall x q', q = x :: q' -> ~ WordRune x) ->
  lex1 ((r :: w) ++ q) = LTok (word_type (r :: w)) (r :: w) q.
Proof.
  intros H F E. cbn [app]. rewrite plain_lex1 by now apply word_head_plain.
  apply word_head_spec in H. rewrite H.
  destruct (take_drop_while_unique is_word w q) as [-> ->]; [| |reflexivity].
  - eapply Forall_impl; [|exact F]. intros; now apply word_spec.
  - intros x b' Eq. apply word_spec'. eauto.
Qed.

Lemma lex1_blank w q : blank_run w q -> lex1 (w ++ q) = LTok Space w q.
Proof.
  intros (N & F & E). destruct w as [|r w]; [congruence|]. inversion F as [|? ? B F']; subst.
  cbn [app]. rewrite plain_lex1 by now apply blank_plain.
  rewrite blank_not_word_head by exact B. unfold Blank in B. rewrite B.
  destruct (take_drop_while_unique u_space w q) as [-> ->]; [exact F'| |reflexivity].
  intros x b' Eq. specialize (E x b' Eq). unfold Blank in E. destruct (u_space x); congruence.
Qed.

(** Numerals. *)
Lemma lex1_numeral s ds q : sign s -> ds <> [] -> Forall Digit ds ->
  lex1 (s ++ ds ++ q) =
  let '(ty, w, rest) := numeral_scan NumeralInt (tl (s ++ ds) ++ q) in
  LTok ty (hd 0%N (s ++ ds) :: w) rest.
Proof.
  intros S N F. destruct ds as [|d ds]; [congruence|]. inversion F as [|? ? D F']; subst.
  destruct S as [->| ->]; cbn [app hd tl].
  - unfold lex1.
    assert (N0 : (d =? 0)%N = false) by (apply N.eqb_neq; unfold Digit in D; lia).
    assert (N1 : (d =? 123)%N = false) by (apply N.eqb_neq; unfold Digit in D; lia).
    assert (N2 : (d =? 47)%N = false) by (apply N.eqb_neq; unfold Digit in D; lia).
    assert (N3 : (d =? 40)%N = false) by (apply N.eqb_neq; unfold Digit in D; lia).
    assert (N4 : (d =? 39)%N = false) by (apply N.eqb_neq; unfold Digit in D; lia).
    apply digit_spec in D.
    rewrite N0, N1, N2, N3, N4, D. reflexivity.
  - apply digit_spec in D. unfold lex1. cbn [N.eqb Pos.eqb andb orb is_unary_op hd0 hd].
    change (is_digit 45) with false. rewrite D. reflexivity.
Qed.

Theorem lex1_lexeme ty w q :
  lexeme ty w -> ends ty w q -> lex1 (w ++ q) = LTok ty w q.
Proof.
  intros L E. inversion L as [r v H F R|r v H F R|s ds S N F|s ds fs S N F F2|b B|v I|v I];
    subst; cbn [ends] in E.
  - rewrite lex1_word by assumption. unfold word_type.
    apply reserved_spec in R. now rewrite R.
  - rewrite lex1_word by assumption. unfold word_type.
    destruct (is_reserved_word (r :: v)) eqn:E'; [|reflexivity].
    apply reserved_spec in E'. contradiction.
  - rewrite <- app_assoc, lex1_numeral by assumption. destruct E as [E1 E2].
    assert (F' : Forall Digit (tl (s ++ ds))).
    { destruct S as [->| ->]; cbn; [|exact F]. destruct F; cbn; [constructor|assumption]. }
    rewrite numeral_scan_int_fwd by assumption.
    assert (NE : s ++ ds <> []) by (destruct s; cbn; [exact N|discriminate]).
    destruct (s ++ ds); [congruence|reflexivity].
  - destruct E as [E1 E2].
    replace ((s ++ ds ++ 46%N :: fs) ++ q) with (s ++ ds ++ (46%N :: fs ++ q))
      by (rewrite <- !app_assoc; reflexivity).
    rewrite lex1_numeral by assumption.
    assert (F' : Forall Digit (tl (s ++ ds))).
    { destruct S as [->| ->]; cbn; [|exact F]. destruct F; cbn; [constructor|assumption]. }
    rewrite numeral_scan_mixed_fwd; try assumption.
    + assert (NE : s ++ ds <> []) by (destruct s; cbn; [exact N|discriminate]).
      rewrite (app_assoc s). destruct (s ++ ds); [congruence|reflexivity].
    + intros ->. apply E2. rewrite app_assoc, last_app by discriminate. reflexivity.
  - destruct B as [B1 B2]. cbn [app]. rewrite <- app_assoc.
    change (lex1 (39%N :: b ++ [39%N] ++ q)) with
      (match string_scan 0%N (b ++ 39%N :: q) with
       | Some (w, rest) => LTok CharacterString (39%N :: w) rest
       | None => LHang
       end).
    rewrite string_scan_body by assumption. reflexivity.
  - destruct (one_rune_length _ I) as [a ->]. cbn [app].
    assert (X : is_double a (hd0 q) = false /\ (a = 47%N -> (hd0 q =? 47)%N = false) /\
                (a = 40%N -> (hd0 q =? 42)%N = false) /\ (a = 45%N -> is_digit (hd0 q) = false)).
    { destruct q as [|r q].
      - split; [|cbn; auto].
        apply double_spec'. cbn. intros J. repeat destruct J as [J|J]; try discriminate; contradiction.
      - destruct (E a r q eq_refl eq_refl) as (E1 & E2 & E3 & E4). cbn [hd0 hd]. repeat split.
        + now apply double_spec'.
        + intros ->. apply N.eqb_neq. tauto.
        + intros ->. apply N.eqb_neq. tauto.
        + intros ->. apply digit_spec'. tauto. }
    destruct X as (X1 & X2 & X3 & X4). clear E L.
    unfold lex1. rewrite X1. cbn in I.
    repeat destruct I as [I|I]; try contradiction; injection I as <-; cbn;
      rewrite ?X2, ?X3, ?X4 by reflexivity; reflexivity.
  - destruct (two_rune_length _ I) as (a & b & ->). cbn [app]. clear E L.
    cbn in I. repeat destruct I as [I|I]; try contradiction; injection I as <- <-; reflexivity.
Qed.

Lemma take_until (stop : rune -> bool) b q :
  (forall x, In x b -> stop x = false) -> (forall x q', q = x :: q' -> stop x = true) ->
  take_while (fun x => negb (stop x)) (b ++ q) = b /\
  drop_while (fun x => negb (stop x)) (b ++ q) = q.
Proof.
  intros Hb Hq. apply take_drop_while_unique.
  - apply Forall_forall. intros x I. now rewrite Hb.
  - intros x b' E. now rewrite (Hq x b' E).
Qed.

Lemma lex1_closed w q : closed_comment w -> lex1 (w ++ q) = LTok Comment w q.
Proof.
  intros [b N1 N2|u N A H]; cbn [app].
  - rewrite <- app_assoc. cbn [app].
    assert (T : take_while (fun x => negb (brace_stop x)) (b ++ 125%N :: q) = b /\
                drop_while (fun x => negb (brace_stop x)) (b ++ 125%N :: q) = 125%N :: q).
    { apply take_until.
      - intros x I. unfold brace_stop. apply orb_false_iff. split; apply N.eqb_neq; congruence.
      - intros x q' [= <- <-]. reflexivity. }
    unfold lex1. cbn [N.eqb Pos.eqb]. destruct T as [-> ->]. reflexivity.
  - rewrite <- app_assoc.
    assert (HD : hd0 (u ++ [42%N; 41%N] ++ q) = 42%N).
    { destruct u; cbn in *; [reflexivity|exact H]. }
    unfold lex1. cbn [N.eqb Pos.eqb andb]. rewrite HD. cbn [N.eqb Pos.eqb andb].
    rewrite star_scan_closed by assumption. reflexivity.
Qed.

Lemma lex1_cut w : cut_comment w -> lex1 w = LTok Comment w [].
Proof.
  intros [b N1 N2|u N A H].
  - assert (T : take_while (fun x => negb (brace_stop x)) (b ++ []) = b /\
                drop_while (fun x => negb (brace_stop x)) (b ++ []) = []).
    { apply take_until.
      - intros x I. unfold brace_stop. apply orb_false_iff. split; apply N.eqb_neq; congruence.
      - discriminate. }
    rewrite app_nil_r in T. unfold lex1. cbn [N.eqb Pos.eqb]. destruct T as [-> ->].
    cbn. now rewrite app_nil_r.
  - assert (HD : hd0 u = 42%N).
    { destruct u; cbn in *; [discriminate|exact H]. }
    unfold lex1. cbn [N.eqb Pos.eqb andb]. rewrite HD. cbn [N.eqb Pos.eqb andb].
    rewrite star_scan_cut by assumption. reflexivity.
Qed.

Lemma lex1_line w q : line_comment w -> (q = [] \/ exists q', q = 10%N :: q') ->
  lex1 (w ++ q) = LTok Comment w q.
Proof.
  intros (b & -> & N1 & N2) Q.
  assert (T : take_while (fun x => negb (line_stop x)) ((47%N :: b) ++ q) = 47%N :: b /\
              drop_while (fun x => negb (line_stop x)) ((47%N :: b) ++ q) = q).
  { apply take_until.
    - intros x [<-|I]; [reflexivity|].
      unfold line_stop. apply orb_false_iff. split; apply N.eqb_neq; congruence.
    - intros x q' ->. destruct Q as [Q|[? Q]]; [discriminate|]. injection Q as -> _. reflexivity. }
  cbn [app] in *. unfold lex1. cbn [N.eqb Pos.eqb andb hd0 hd]. destruct T as [-> ->]. reflexivity.
Qed.

End WithUnicode.
