(** Facts about the cursor: what it sees is a suffix of the text, moving it
    drops one rune, and its line and column count line feeds. *)
From Coq Require Import List NArith Bool Arith String Lia.
From Verif Require Import ListUtil Runes.
Import ListNotations.

(** The runes from the cursor to the end of the text. *)
Definition rem (c : cursor) : list rune := skipn (c_index c) (c_text c).
Definition cwf (c : cursor) : Prop := c_index c <= c_len c.

Definition step (c : cursor) : cursor := snd (next c).
Fixpoint steps (n : nat) (c : cursor) : cursor :=
  match n with O => c | S m => step (steps m c) end.

Lemma seek_rem c n : seek c n = nth n (rem c) cursor_eof.
Proof.
  unfold seek, rem, c_len.
  destruct (c_index c + n <? List.length (c_text c)) eqn:E.
  - rewrite <- (hd_skipn _ n), skipn_skipn, hd_skipn. reflexivity.
  - apply Nat.ltb_ge in E. symmetry. apply nth_overflow. rewrite skipn_length. lia.
Qed.

Lemma current_rem c : current c = hd cursor_eof (rem c).
Proof. unfold current. rewrite seek_rem. destruct (rem c); reflexivity. Qed.

Lemma rem_len c : cwf c -> List.length (rem c) = c_len c - c_index c.
Proof. intros. unfold rem. now rewrite skipn_length. Qed.

Lemma next_text c : c_text (snd (next c)) = c_text c.
Proof.
  unfold next. destruct (c_waslf c); cbn;
  destruct (_ <? _); reflexivity.
Qed.

Lemma next_index c : c_index (snd (next c)) =
  if c_index c <? c_len c then S (c_index c) else c_index c.
Proof.
  unfold next, c_index. destruct (c_waslf c); cbn;
  destruct (_ <? _); reflexivity.
Qed.

Lemma next_wf c : cwf c -> cwf (snd (next c)).
Proof.
  unfold cwf. unfold c_len at 2. rewrite next_text, next_index. fold (c_len c).
  destruct (c_index c <? c_len c) eqn:E; [apply Nat.ltb_lt in E|]; lia.
Qed.

Lemma next_rem c : cwf c -> rem (snd (next c)) = tl (rem c).
Proof.
  intros W. unfold rem. rewrite next_text, next_index.
  destruct (c_index c <? c_len c) eqn:E.
  - apply skipn_S_tl.
  - apply Nat.ltb_ge in E. rewrite skipn_all2 by exact E. reflexivity.
Qed.

Lemma next_rune c : cwf c -> fst (next c) = hd cursor_eof (tl (rem c)).
Proof.
  intros W.
  assert (F : fst (next c) = if c_index c <? c_len c then current (snd (next c)) else cursor_eof).
  { unfold next, c_index. destruct (c_waslf c); cbn; destruct (_ <? _); reflexivity. }
  rewrite F. destruct (c_index c <? c_len c) eqn:E.
  - rewrite current_rem, next_rem by exact W. reflexivity.
  - apply Nat.ltb_ge in E. unfold rem. rewrite skipn_all2 by exact E. reflexivity.
Qed.

Lemma step_wf c : cwf c -> cwf (step c).
Proof. apply next_wf. Qed.
Lemma step_rem c : cwf c -> rem (step c) = tl (rem c).
Proof. apply next_rem. Qed.
Lemma step_text c : c_text (step c) = c_text c.
Proof. apply next_text. Qed.

Lemma steps_wf n c : cwf c -> cwf (steps n c).
Proof. intros; induction n; cbn; auto using step_wf. Qed.
Lemma steps_text n c : c_text (steps n c) = c_text c.
Proof. induction n; cbn; [reflexivity|]. now rewrite step_text. Qed.
Lemma steps_rem n c : cwf c -> rem (steps n c) = skipn n (rem c).
Proof.
  intros W; induction n; [reflexivity|].
  rewrite skipn_S_tl, <- IHn. apply step_rem. now apply steps_wf.
Qed.
Lemma steps_add n m c : steps n (steps m c) = steps (n + m) c.
Proof. induction n as [|n IH]; [reflexivity|]. cbn. now rewrite IH. Qed.

Lemma steps_index n c : cwf c -> n <= List.length (rem c) -> c_index (steps n c) = c_index c + n.
Proof.
  intros W. induction n as [|n IH]; intros L; cbn.
  - lia.
  - unfold step. rewrite next_index.
    replace (c_index (steps n c)) with (c_index c + n) by (symmetry; apply IH; lia).
    unfold c_len. replace (c_text (steps n c)) with (c_text c)
      by (symmetry; apply steps_text). fold (c_len c).
    rewrite rem_len in L by exact W.
    replace (c_index c + n <? c_len c) with true by (symmetry; apply Nat.ltb_lt; lia). lia.
Qed.

Lemma new_cursor_wf text : cwf (new_cursor text).
Proof. unfold cwf; cbn; lia. Qed.
Lemma new_cursor_rem text : rem (new_cursor text) = text.
Proof. reflexivity. Qed.
Lemma clone_wf c : cwf c -> cwf (cursor_clone c).
Proof. auto. Qed.
Lemma clone_rem c : rem (cursor_clone c) = rem c.
Proof. reflexivity. Qed.

(** The pending-line-feed mark after a move says whether the cursor stands on
    a line feed. *)
Lemma step_waslf c : cwf c -> c_waslf (step c) = (hd cursor_eof (rem (step c)) =? 10)%N.
Proof.
  intros W. rewrite step_rem by exact W. rewrite <- next_rune by exact W.
  unfold step, next. destruct (c_waslf c); cbn; destruct (_ <? _); cbn;
    try reflexivity; destruct (_ =? 10)%N; reflexivity.
Qed.

(** At the end of the text moving changes nothing (with no pending mark). *)
Lemma step_end c : cwf c -> rem c = [] -> c_waslf c = false -> step c = c.
Proof.
  intros W E LF. unfold step, next. rewrite LF. cbn.
  replace (p_index (c_pos c) <? c_len c) with false.
  - destruct c; cbn in *; now subst.
  - symmetry. apply Nat.ltb_ge. pose proof (rem_len _ W) as LL. rewrite E in LL. cbn in LL.
    unfold c_index in LL. lia.
Qed.

Lemma step_step_end c : cwf c -> rem (step c) = [] -> step (step c) = step c.
Proof.
  intros W E. apply step_end; [now apply step_wf|exact E|].
  rewrite step_waslf, E by exact W. reflexivity.
Qed.
