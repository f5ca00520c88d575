(** Small list lemmas missing from the standard library. *)
From Coq Require Import List Arith Lia Bool NArith.
Import ListNotations.
#[global] Arguments Nat.ltb n m : simpl never.
#[global] Arguments N.eqb n m : simpl nomatch.

Lemma skipn_S_tl {A} n (l : list A) : skipn (S n) l = tl (skipn n l).
Proof.
  revert l; induction n as [|n IH]; intros [|x l]; try reflexivity.
  change (skipn (S n) l = tl (skipn n l)). apply IH.
Qed.

Lemma skipn_skipn {A} m n (l : list A) : skipn m (skipn n l) = skipn (n + m) l.
Proof.
  revert l; induction n as [|n IH]; intros [|x l]; cbn; auto.
  now rewrite skipn_nil.
Qed.

Lemma hd_skipn {A} (d : A) n l : hd d (skipn n l) = nth n l d.
Proof. revert l; induction n; intros [|x l]; cbn; auto. Qed.

Lemma firstn_app_exact {A} (a b : list A) : firstn (length a) (a ++ b) = a.
Proof. rewrite firstn_app, Nat.sub_diag, firstn_all. cbn. apply app_nil_r. Qed.

Lemma skipn_app_exact {A} (a b : list A) : skipn (length a) (a ++ b) = b.
Proof. rewrite skipn_app, Nat.sub_diag, skipn_all. reflexivity. Qed.

Lemma firstn_skipn_eq {A} (l a b : list A) :
  l = a ++ b -> firstn (length l - length b) l = a.
Proof.
  intros ->. rewrite app_length.
  replace (length a + length b - length b) with (length a) by lia.
  apply firstn_app_exact.
Qed.

(** Longest prefix of elements satisfying [f], and what follows it. *)
Fixpoint take_while {A} (f : A -> bool) (l : list A) : list A :=
  match l with
  | [] => []
  | x :: l' => if f x then x :: take_while f l' else []
  end.
Fixpoint drop_while {A} (f : A -> bool) (l : list A) : list A :=
  match l with
  | [] => []
  | x :: l' => if f x then drop_while f l' else l
  end.

Lemma take_drop_while {A} (f : A -> bool) l : take_while f l ++ drop_while f l = l.
Proof. induction l as [|x l IH]; cbn; [reflexivity|]. destruct (f x); cbn; congruence. Qed.

Lemma take_while_forall {A} (f : A -> bool) l : Forall (fun x => f x = true) (take_while f l).
Proof. induction l as [|x l IH]; cbn; [constructor|]. destruct (f x) eqn:E; constructor; auto. Qed.

Lemma drop_while_head {A} (f : A -> bool) l x l' : drop_while f l = x :: l' -> f x = false.
Proof.
  induction l as [|y l IH]; cbn; [discriminate|]. destruct (f y) eqn:E; auto.
  intros [= <- <-]; exact E.
Qed.

Lemma drop_while_length {A} (f : A -> bool) l : length (drop_while f l) <= length l.
Proof. induction l as [|y l IH]; cbn; [lia|]. destruct (f y); cbn; lia. Qed.

Lemma take_while_app {A} (f : A -> bool) a b :
  Forall (fun x => f x = true) a -> take_while f (a ++ b) = a ++ take_while f b.
Proof. induction 1 as [|x a H _ IH]; cbn; [reflexivity|]. rewrite H, IH; reflexivity. Qed.

Lemma drop_while_app {A} (f : A -> bool) a b :
  Forall (fun x => f x = true) a -> drop_while f (a ++ b) = drop_while f b.
Proof. induction 1 as [|x a H _ IH]; cbn; [reflexivity|]. rewrite H; exact IH. Qed.

Lemma take_drop_while_unique {A} (f : A -> bool) a b :
  Forall (fun x => f x = true) a ->
  (forall x b', b = x :: b' -> f x = false) ->
  take_while f (a ++ b) = a /\ drop_while f (a ++ b) = b.
Proof.
  intros Ha Hb. rewrite take_while_app, drop_while_app by exact Ha.
  destruct b as [|x b']; cbn; [now rewrite app_nil_r|].
  rewrite (Hb x b' eq_refl), app_nil_r. auto.
Qed.
