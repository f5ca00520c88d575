(** Proofs about walking down a tree. *)
From Coq Require Import List Arith Lia Sorted.
From Verif Require Import Walk WalkSpec.
Import ListNotations.

Lemma tree_ind' {L} (P : tree L -> Prop)
  (H : forall l cs, Forall (fun o => match o with Some c => P c | None => True end) cs -> P (Node l cs)) : forall t, P t.
Proof.
  fix IH 1. intros [l cs]. apply H. induction cs as [|[c|] cs IHcs]; constructor; auto.
Qed.

Section Places.
Context {L : Type}.
(** All places of a tree in the order of the walk. *)
Fixpoint places (t : tree L) : list place :=
  match t with
  | Node _ cs =>
      [] :: (fix go (i : nat) (cs : list (option (tree L))) : list place :=
               match cs with
               | [] => []
               | None :: cs' => go (S i) cs'
               | Some c :: cs' => map (cons i) (places c) ++ go (S i) cs'
               end) 0 cs
  end.
Fixpoint places_from (i : nat) (cs : list (option (tree L))) : list place :=
  match cs with
  | [] => []
  | None :: cs' => places_from (S i) cs'
  | Some c :: cs' => map (cons i) (places c) ++ places_from (S i) cs'
  end.
End Places.
Lemma places_node {L} (l : L) cs : places (Node l cs) = [] :: places_from 0 cs.
Proof. reflexivity. Qed.

Lemma places_from_in {L} i (cs : list (option (tree L))) p : In p (places_from i cs) <->
  exists k q c, p = (i + k) :: q /\ nth_error cs k = Some (Some c) /\ In q (places c).
Proof.
  revert i. induction cs as [|[c|] cs IH]; intros i; cbn [places_from].
  - split; [intros []|]. intros ([|k] & q & c & _ & E & _); discriminate.
  - rewrite in_app_iff, in_map_iff, IH. split.
    + intros [(q & <- & I)|(k & q & c' & -> & E & I)].
      * exists 0, q, c. rewrite Nat.add_0_r. auto.
      * exists (S k), q, c'. rewrite Nat.add_succ_r. auto.
    + intros ([|k] & q & c' & -> & E & I); cbn in E.
      * inversion E; subst. left. exists q. rewrite Nat.add_0_r. auto.
      * right. exists k, q, c'. rewrite Nat.add_succ_r. auto.
  - rewrite IH. split.
    + intros (k & q & c' & -> & E & I). exists (S k), q, c'. rewrite Nat.add_succ_r. auto.
    + intros ([|k] & q & c' & -> & E & I); cbn in E; [discriminate|].
      exists k, q, c'. rewrite Nat.add_succ_r. auto.
Qed.

Lemma places_complete {L} (t : tree L) : forall p, In p (places t) <-> at_place t p <> None.
Proof.
  induction t as [l cs IH] using tree_ind'. intros p. rewrite places_node. cbn [In]. rewrite places_from_in.
  destruct p as [|i p].
  - cbn. split; [congruence|auto].
  - cbn [at_place]. split.
    + intros [?|(k & q & c & [= <- ->] & E & I)]; [discriminate|]. cbn. rewrite E.
      rewrite Forall_forall in IH. apply (IH _ (nth_error_In _ _ E)), I.
    + intros H. right. destruct (nth_error cs i) as [[c|]|] eqn:E; try congruence.
      exists i, p, c. repeat split; auto. rewrite Forall_forall in IH. apply (IH _ (nth_error_In _ _ E)), H.
Qed.

Lemma sorted_app {A} (R : A -> A -> Prop) l1 l2 :
  StronglySorted R l1 -> StronglySorted R l2 -> (forall x y, In x l1 -> In y l2 -> R x y) -> StronglySorted R (l1 ++ l2).
Proof.
  intros S1 S2 H. induction S1 as [|x l1 S1 IH F]; auto. cbn. constructor.
  - apply IH. intros; apply H; auto. now right.
  - rewrite Forall_app. split; auto. apply Forall_forall. intros y I. apply H; auto. now left.
Qed.
Lemma places_sorted {L} (t : tree L) : StronglySorted before (places t).
Proof.
  induction t as [l cs IH] using tree_ind'. rewrite places_node. constructor.
  - generalize 0. induction IH as [|o cs Ho IH IHcs]; intros i; cbn [places_from]; [constructor|].
    destruct o as [c|]; auto. apply sorted_app; auto.
    + clear -Ho. induction Ho as [|p ps S IHs F]; cbn; constructor; auto.
      rewrite Forall_map. eapply Forall_impl; [|exact F]. intros q. now constructor.
    + intros x y X Y. apply in_map_iff in X. destruct X as (q & <- & X). apply places_from_in in Y.
      destruct Y as (k & q' & c' & -> & _). apply before_left. lia.
  - apply Forall_forall. intros p I. apply places_from_in in I. destruct I as (k & q & c & -> & _). constructor.
Qed.

Section Walking.
Context {L S E : Type} (f : S -> tree L -> S * option E).
Definition node_at (t : tree L) (p : place) : tree L := match at_place t p with Some n => n | None => t end.

Lemma call_each_app a b s : call_each f (a ++ b) s =
  match call_each f a s with (s1, None) => call_each f b s1 | r => r end.
Proof.
  revert s. induction a as [|n a IH]; intros s; cbn; auto. destruct (f s n) as [s1 [e|]]; auto.
Qed.
Fixpoint walk_all (cs : list (option (tree L))) (s : S) : S * option E :=
  match cs with
  | [] => (s, None)
  | None :: cs' => walk_all cs' s
  | Some m :: cs' => match walk_down f m s with
                     | (s2, Some err) => (s2, Some err)
                     | (s2, None) => walk_all cs' s2
                     end
  end.
Lemma walk_down_node l cs s : walk_down f (Node l cs) s =
  match f s (Node l cs) with (s1, Some err) => (s1, Some err) | (s1, None) => walk_all cs s1 end.
Proof. reflexivity. Qed.
Lemma node_at_child l cs i c p : nth_error cs i = Some (Some c) -> In p (places c) -> node_at (Node l cs) (i :: p) = node_at c p.
Proof.
  intros Hn I. apply places_complete in I. unfold node_at. cbn [at_place]. rewrite Hn.
  destruct (at_place c p); congruence.
Qed.
Lemma walk_down_places t : forall s, walk_down f t s = call_each f (map (node_at t) (places t)) s.
Proof.
  induction t as [l cs IH] using tree_ind'. intros s. rewrite walk_down_node, places_node. cbn [map call_each].
  change (node_at (Node l cs) []) with (Node l cs).
  destruct (f s (Node l cs)) as [s1 [e|]]; auto.
  assert (X : forall pre cs', cs = pre ++ cs' -> forall s,
    walk_all cs' s = call_each f (map (node_at (Node l cs)) (places_from (length pre) cs')) s).
  { intros pre cs'. revert pre. induction cs' as [|o cs' IHc]; intros pre Q s0; auto.
    assert (Q' : cs = (pre ++ [o]) ++ cs') by (rewrite <- app_assoc; exact Q).
    specialize (IHc _ Q'). rewrite app_length, Nat.add_comm in IHc. cbn in IHc.
    cbn [walk_all places_from]. destruct o as [c|]; auto.
    rewrite map_app, call_each_app.
    assert (N : nth_error cs (length pre) = Some (Some c)).
    { rewrite Q, nth_error_app2, Nat.sub_diag; auto. }
    rewrite map_map. rewrite (map_ext_in _ (node_at c)).
    - rewrite Forall_forall in IH. pose proof (IH _ (nth_error_In _ _ N)) as IHn. cbn in IHn.
      rewrite <- IHn. destruct (walk_down f c s0) as [s2 [e|]]; auto.
    - intros p I. now apply node_at_child. }
  apply (X [] cs eq_refl).
Qed.
End Walking.

Theorem walk_visits_in_order :
  forall (L S E : Type) (f : S -> tree L -> S * option E) t s,
    exists ps ns,
      StronglySorted before ps /\ (forall p, In p ps <-> at_place t p <> None) /\
      map Some ns = map (at_place t) ps /\
      walk_down f t s = call_each f ns s.
Proof.
  intros L S E f t s. exists (places t), (map (node_at t) (places t)). split; [apply places_sorted|].
  split; [apply places_complete|]. split; [|apply walk_down_places].
  rewrite map_map. apply map_ext_in. intros p I. apply places_complete in I. unfold node_at.
  destruct (at_place t p); congruence.
Qed.

Lemma before_irrefl p : ~ before p p.
Proof. induction p as [|i p IH]; intros H; inversion H; subst; [lia|auto]. Qed.

Theorem walk_order_is_unique :
  forall ps qs,
    StronglySorted before ps -> StronglySorted before qs -> (forall p, In p ps <-> In p qs) -> ps = qs.
Proof.
  assert (T : forall p q r, before p q -> before q r -> before p r).
  { intros p q r H. revert r. induction H; intros r K; inversion K; subst; try constructor; auto; lia. }
  intros ps qs A. revert qs. induction A as [|p ps A IH F]; intros [|q qs] B H; auto.
  - exfalso. apply (H q). now left.
  - exfalso. apply (H p). now left.
  - inversion B as [|? ? B1 B2]; subst. rewrite Forall_forall in *.
    assert (p = q) as ->.
    { destruct (proj1 (H p)) as [->|I]; [now left|reflexivity|].
      destruct (proj2 (H q)) as [->|J]; [now left|reflexivity|].
      exfalso. eapply before_irrefl, T; [apply B2, I|apply F, J]. }
    f_equal. apply IH; auto. intros x. split; intros I.
    + destruct (proj1 (H x)) as [->|J]; [now right| |auto]. exfalso. eapply before_irrefl, F, I.
    + destruct (proj2 (H x)) as [->|J]; [now right| |auto]. exfalso. eapply before_irrefl, B2, I.
Qed.

Theorem walk_stops_at_first_error :
  forall (L S E : Type) (f : S -> tree L -> S * option E) t s s' e,
    walk_down f t s = (s', Some e) ->
    exists p n s0, at_place t p = Some n /\ f s0 n = (s', Some e).
Proof.
  intros L S E f t s s' e H. rewrite walk_down_places in H.
  assert (X : forall ps s, (forall p, In p ps -> at_place t p <> None) ->
    call_each f (map (node_at t) ps) s = (s', Some e) -> exists p n s0, at_place t p = Some n /\ f s0 n = (s', Some e)).
  { clear. induction ps as [|p ps IH]; intros s V; cbn; [discriminate|].
    destruct (f s (node_at t p)) as [s1 [e1|]] eqn:F; [|apply IH; intros; apply V; now right].
    intros [= -> ->]. unfold node_at in F. destruct (at_place t p) as [n|] eqn:N; [|exfalso; apply (V p); auto; now left].
    eauto. }
  eapply X; eauto. intros p. apply places_complete.
Qed.

Theorem walk_without_error_visits_all :
  forall (L S E : Type) (f : S -> tree L -> S * option E) t s s',
    walk_down f t s = (s', None) ->
    forall p n, at_place t p = Some n -> exists s1 s2, f s1 n = (s2, None).
Proof.
  intros L S E f t s s' H p n N. rewrite walk_down_places in H.
  assert (I : In (node_at t p) (map (node_at t) (places t))).
  { apply in_map. apply places_complete. congruence. }
  unfold node_at at 1 in I. rewrite N in I. revert s H I. generalize (map (node_at t) (places t)).
  induction l as [|m l IH]; intros s; cbn; [intros _ []|].
  destruct (f s m) as [s1 [e|]] eqn:F; [discriminate|]. intros H [->|I]; eauto.
Qed.
