(** Proofs about string sets, string lists and the logger. *)
From Coq Require Import List NArith Bool Arith Permutation Sorted Lia.
From Verif Require Import ListUtil Runes Token Ext ExtSpec LexShape.
Import ListNotations.

Lemma runes_eqb_spec a b : Bool.reflect (a = b) (runes_equal a b).
Proof.
  destruct (runes_equal a b) eqn:E; constructor.
  - now apply runes_equal_eq.
  - intros H. apply runes_equal_eq in H. congruence.
Qed.

Lemma ss_include_iff m s : ss_include m s = true <-> In s m.
Proof. unfold ss_include. apply str_in_spec. Qed.

Lemma ss_add_iff m s x : In x (ss_add s m) <-> x = s \/ In x m.
Proof.
  unfold ss_add. destruct (ss_include m s) eqn:E.
  - apply ss_include_iff in E. split; [now right|]. intros [->|H]; auto.
  - cbn. intuition.
Qed.

Lemma ss_remove_iff m s x : In x (ss_remove s m) <-> x <> s /\ In x m.
Proof.
  unfold ss_remove. rewrite filter_In, negb_true_iff.
  destruct (runes_eqb_spec s x) as [->|N]; intuition congruence.
Qed.

Lemma ss_add_nodup m s : NoDup m -> NoDup (ss_add s m).
Proof.
  intros H. unfold ss_add. destruct (ss_include m s) eqn:E; [exact H|].
  constructor; [|exact H]. intros HI. apply ss_include_iff in HI. congruence.
Qed.

Lemma set_run_snoc h o : set_run (h ++ [o]) = set_step (set_run h) o.
Proof. unfold set_run. now rewrite fold_left_app. Qed.

Lemma set_run_nodup h : NoDup (set_run h).
Proof.
  induction h as [|o h IH] using rev_ind; [constructor|].
  rewrite set_run_snoc. destruct o; cbn; [now apply ss_add_nodup|now apply NoDup_filter].
Qed.

Lemma app_snoc_split {A} (h : list A) o b x a :
  h ++ [o] = b ++ x :: a ->
  (a = [] /\ h = b /\ o = x) \/ (exists a', a = a' ++ [o] /\ h = b ++ x :: a').
Proof.
  destruct a as [|y a _] using rev_ind.
  - intros H. apply app_inj_tail in H. intuition.
  - intros H. change (b ++ x :: a ++ [y]) with (b ++ (x :: a) ++ [y]) in H.
    rewrite app_assoc in H. apply app_inj_tail in H as [-> ->]. right. eauto.
Qed.

Lemma set_run_in h s : In s (set_run h) <-> member_after h s.
Proof.
  induction h as [|o h IH] using rev_ind.
  { split; [intros []|intros (b & a & H & _); destruct b; discriminate]. }
  rewrite set_run_snoc. destruct o as [x|x]; cbn.
  - rewrite ss_add_iff, IH. split.
    + intros [->|(b & a & -> & N)].
      * exists h, []. auto.
      * exists b, (a ++ [OpAdd x]). rewrite <- app_assoc. split; [reflexivity|].
        rewrite in_app_iff. intros [H|[H|[]]]; [auto|discriminate].
    + intros (b & a & H & N). apply app_snoc_split in H as [(-> & <- & [= ->])|(a' & -> & ->)]; auto.
      right. exists b, a'. split; auto. intros HI. apply N, in_app_iff; auto.
  - rewrite ss_remove_iff, IH. split.
    + intros (Nx & b & a & -> & N).
      exists b, (a ++ [OpRemove x]). rewrite <- app_assoc. split; [reflexivity|].
      rewrite in_app_iff. intros [H|[[=]|[]]]; auto.
    + intros (b & a & H & N). apply app_snoc_split in H as [(_ & _ & [=])|(a' & -> & ->)].
      split.
      * intros ->. apply N, in_app_iff. cbn. auto.
      * exists b, a'. split; auto. intros HI. apply N, in_app_iff; auto.
Qed.

Theorem include_is_membership : forall h s,
  ss_include (set_run h) s = true <-> member_after h s.
Proof. intros h s. rewrite ss_include_iff. apply set_run_in. Qed.

Theorem set_equal_iff : forall h h',
  ss_equal (set_run h) (set_run h') = true <->
  (forall s, member_after h s <-> member_after h' s).
Proof.
  intros h h'. unfold ss_equal.
  pose proof (set_run_nodup h) as N. pose proof (set_run_nodup h') as N'.
  assert (E : (forall s, member_after h s <-> member_after h' s) <->
              (forall s, In s (set_run h) <-> In s (set_run h'))).
  { split; intros H s; specialize (H s); rewrite !set_run_in in *; exact H. }
  rewrite E. clear E. destruct (Nat.eqb_spec (length (set_run h)) (length (set_run h'))) as [L|L]; cbn [negb].
  - rewrite forallb_forall. split.
    + intros H s. split; intros HI.
      * apply ss_include_iff. auto.
      * refine (NoDup_length_incl N (l' := set_run h') _ _ _ HI); [lia|].
        intros x Hx. apply ss_include_iff. auto.
    + intros H s Hs. apply ss_include_iff. now apply H.
  - split; [discriminate|]. intros H. exfalso. apply L.
    apply Nat.le_antisymm; apply NoDup_incl_length; auto; intros x Hx; now apply H.
Qed.

Theorem slice_lists_members_once : forall order h, iterates order ->
  NoDup (ss_slice order (set_run h)) /\
  (forall s, In s (ss_slice order (set_run h)) <-> member_after h s).
Proof.
  intros order h P. unfold ss_slice. specialize (P (set_run h)). split.
  - eapply Permutation_NoDup; [exact P|apply set_run_nodup].
  - intros s. rewrite <- set_run_in. split; apply Permutation_in; [now apply Permutation_sym|exact P].
Qed.

Lemma ss_add_all_in l : forall m x, In x (ss_add_all l m) <-> In x l \/ In x m.
Proof.
  induction l as [|y l IH]; intros m x; cbn; [tauto|].
  rewrite IH, ss_add_iff. intuition.
Qed.
Lemma ss_add_all_nodup l : forall m, NoDup m -> NoDup (ss_add_all l m).
Proof. induction l as [|y l IH]; intros m H; cbn; auto. apply IH. now apply ss_add_nodup. Qed.

Theorem set_of_strings : forall l,
  NoDup (new_string_set l) /\ (forall s, In s (new_string_set l) <-> In s l).
Proof.
  intros l. unfold new_string_set. split; [apply ss_add_all_nodup; constructor|].
  intros s. rewrite ss_add_all_in. cbn. tauto.
Qed.

(** Slices *)
Lemma set_nth_length {A} n (v : A) l : length (set_nth n v l) = length l.
Proof. revert n; induction l as [|x l IH]; intros [|n]; cbn; auto. Qed.
Lemma set_nth_app {A} (v x : A) a b : set_nth (length a) v (a ++ x :: b) = a ++ v :: b.
Proof. induction a as [|y a IH]; cbn; congruence. Qed.

Lemma reverse_from_spec {A} (s r : list A) : forall n i acc,
  length r = length s -> n = length s + i ->
  reverse_from n i s (r ++ acc) = rev s ++ acc.
Proof.
  revert r. induction s as [|v s IH]; intros r n i acc L N; cbn in *.
  { destruct r; [reflexivity|discriminate]. }
  destruct r as [|z r _] using rev_ind; [discriminate|].
  rewrite app_length in L. cbn in L.
  replace (n - i - 1) with (length r) by lia.
  rewrite <- app_assoc. cbn. rewrite set_nth_app.
  rewrite (IH r n (S i) (v :: acc)) by lia. now rewrite <- app_assoc.
Qed.

Lemma reverse_from_rev {A} (d : A) s : reverse_from (length s) 0 s (repeat d (length s)) = rev s.
Proof.
  pose proof (reverse_from_spec s (repeat d (length s)) (length s) 0 []) as H.
  rewrite !app_nil_r in H. apply H; [now rewrite repeat_length|lia].
Qed.

Theorem reverse_backwards : forall s i d, i < length s ->
  length (strs_reverse s) = length s /\
  nth i (strs_reverse s) d = nth (length s - 1 - i) s d.
Proof.
  intros s i d H. unfold strs_reverse. rewrite reverse_from_rev, rev_length. split; [reflexivity|].
  rewrite rev_nth by exact H. f_equal. lia.
Qed.

Theorem reverse_involutive : forall s, strs_reverse (strs_reverse s) = s.
Proof. intros s. unfold strs_reverse. rewrite !reverse_from_rev. apply rev_involutive. Qed.

Lemma strs_map_from_spec f s : forall r done,
  length r = length s ->
  strs_map_from f (length done) s (done ++ r) = done ++ map f s.
Proof.
  induction s as [|v s IH]; intros [|z r] done L; try discriminate; cbn in *; [reflexivity|].
  rewrite set_nth_app.
  specialize (IH r (done ++ [f v])). rewrite app_length, <- !app_assoc in IH. cbn in IH.
  rewrite Nat.add_1_r in IH. apply IH. lia.
Qed.

Theorem map_elementwise : forall f s i d, i < length s ->
  length (strs_map f s) = length s /\ nth i (strs_map f s) (f d) = f (nth i s d).
Proof.
  intros f s i d H. unfold strs_map.
  pose proof (strs_map_from_spec f s (repeat [] (length s)) []) as E. cbn in E.
  rewrite E by apply repeat_length. rewrite map_length, map_nth. auto.
Qed.

Lemma strs_select_acc_spec f s : forall r, strs_select_acc f s r = r ++ filter f s.
Proof.
  induction s as [|x s IH]; intros r; cbn; [now rewrite app_nil_r|].
  rewrite IH. destruct (f x); [now rewrite <- app_assoc|reflexivity].
Qed.
Lemma strs_select_filter f s : strs_select f s = filter f s.
Proof. apply strs_select_acc_spec. Qed.

Lemma filter_picks {A} (f : A -> bool) l : picks (fun x => f x = true) l (filter f l).
Proof.
  induction l as [|x l IH]; cbn; [constructor|].
  destruct (f x) eqn:E; constructor; auto. congruence.
Qed.

Theorem include_iff : forall s v, strs_include s v = true <-> In v s.
Proof.
  intros s v. induction s as [|x s IH]; cbn; [split; [discriminate|tauto]|].
  destruct (runes_eqb_spec x v) as [->|N]; [tauto|]. rewrite IH. intuition.
Qed.

Theorem select_picks : forall f s, picks (fun x => f x = true) s (strs_select f s).
Proof. intros f s. rewrite strs_select_filter. apply filter_picks. Qed.

Theorem exclude_picks : forall s vals, picks (fun x => ~ In x vals) s (strs_exclude s vals).
Proof.
  intros s vals. unfold strs_exclude. rewrite strs_select_filter.
  induction s as [|x s IH]; cbn; [constructor|].
  destruct (strs_include vals x) eqn:E; cbn; constructor; auto.
  - apply include_iff in E. auto.
  - rewrite <- include_iff. congruence.
Qed.

Theorem select_exclude_partition : forall s vals,
  Permutation s (strs_select (strs_include vals) s ++ strs_exclude s vals).
Proof.
  intros s vals. unfold strs_exclude. rewrite !strs_select_filter.
  induction s as [|x s IH]; cbn; [constructor|].
  destruct (strs_include vals x); cbn.
  - now constructor.
  - etransitivity; [apply perm_skip, IH|]. apply Permutation_middle.
Qed.

Theorem strings_equal_iff : forall s s', strs_equal s s' = true <-> s = s'.
Proof.
  intros s s'. unfold strs_equal.
  assert (H : forall s s', length s = length s' -> (strs_equal_loop s s' = true <-> s = s')).
  { clear. induction s as [|x s IH]; intros [|y s'] L; try discriminate; cbn; [tauto|].
    destruct (runes_eqb_spec x y) as [->|N]; cbn; [|split; congruence].
    rewrite IH by (cbn in L; lia). split; congruence. }
  destruct (Nat.eqb_spec (length s) (length s')) as [L|L]; cbn; [now apply H|].
  split; [discriminate|]. intros ->. congruence.
Qed.

(** Sorting *)
Lemma str_leb_total a : forall b, str_leb a b = false -> str_leb b a = true.
Proof.
  induction a as [|x a IH]; intros [|y b]; cbn; try congruence.
  destruct (N.ltb_spec x y); [congruence|]. destruct (N.ltb_spec y x); [congruence|]. auto.
Qed.
Lemma str_leb_antisym a : forall b, str_leb a b = true -> str_leb b a = true -> a = b.
Proof.
  induction a as [|x a IH]; intros [|y b]; cbn; try congruence.
  destruct (N.ltb_spec x y), (N.ltb_spec y x); try congruence; try lia.
  intros H1 H2. f_equal; [lia|auto].
Qed.
Lemma str_leb_trans a : forall b c, str_leb a b = true -> str_leb b c = true -> str_leb a c = true.
Proof.
  induction a as [|x a IH]; intros [|y b] [|z c]; cbn; try congruence.
  destruct (N.ltb_spec x y), (N.ltb_spec y x), (N.ltb_spec y z), (N.ltb_spec z y),
    (N.ltb_spec x z), (N.ltb_spec z x); try congruence; try lia. eauto.
Qed.

Lemma str_insert_perm x l : Permutation (x :: l) (str_insert x l).
Proof.
  induction l as [|y l IH]; cbn; [reflexivity|]. destruct (str_leb x y); [reflexivity|].
  etransitivity; [apply perm_swap|]. now constructor.
Qed.
Lemma str_insert_sorted x l : ascending l -> ascending (str_insert x l).
Proof.
  unfold ascending. induction 1 as [|y l Hl IH Hy]; cbn; [repeat constructor|].
  destruct (str_leb x y) eqn:E; [repeat constructor; auto|].
  apply str_leb_total in E. constructor; [exact IH|].
  destruct l as [|z l]; cbn; [now constructor|].
  destruct (str_leb x z); constructor; auto. now inversion Hy.
Qed.

Theorem sort_sorts : forall s, Permutation s (strs_sort s) /\ ascending (strs_sort s).
Proof.
  induction s as [|x s [P A]]; cbn; [split; constructor|]. split.
  - etransitivity; [apply perm_skip, P|]. apply str_insert_perm.
  - now apply str_insert_sorted.
Qed.

Lemma ascending_strong l : ascending l -> StronglySorted (fun a b => str_leb a b = true) l.
Proof. apply Sorted_StronglySorted. intros a b c. apply str_leb_trans. Qed.

Theorem sort_unique : forall s t, Permutation s t -> ascending t -> t = strs_sort s.
Proof.
  intros s t P A. destruct (sort_sorts s) as [P' A'].
  assert (Q : Permutation t (strs_sort s)) by (etransitivity; [apply Permutation_sym, P|exact P']).
  clear P P'. apply ascending_strong in A. apply ascending_strong in A'.
  revert A' Q. generalize (strs_sort s). clear s. induction A as [|x t A IH Hx]; intros u A' Q.
  { apply Permutation_nil in Q. auto. }
  destruct A' as [|y u A' Hy]; [symmetry in Q; now apply Permutation_nil in Q|].
  assert (x = y).
  { rewrite Forall_forall in Hx, Hy.
    assert (In y (x :: t)) by (eapply Permutation_in; [apply Permutation_sym, Q|now left]).
    assert (In x (y :: u)) by (eapply Permutation_in; [apply Q|now left]).
    destruct H as [H|H]; [auto|]. destruct H0 as [H0|H0]; [auto|].
    apply str_leb_antisym; auto. }
  subst y. f_equal. apply IH; auto. now apply Permutation_cons_inv in Q.
Qed.

Theorem extract_strings_spec : forall args,
  extract_strings args =
  (flat_map (fun a => match a with AString s => [s] | AStrings l => l | _ => [] end) args,
   filter (fun a => match a with AString _ | AStrings _ => false | _ => true end) args).
Proof.
  intros args. unfold extract_strings.
  assert (H : forall a b, extract_strings_acc args a b =
    (a ++ flat_map (fun a => match a with AString s => [s] | AStrings l => l | _ => [] end) args,
     b ++ filter (fun a => match a with AString _ | AStrings _ => false | _ => true end) args)).
  { induction args as [|[s|l|m|n] args IH]; intros a b; cbn; rewrite ?app_nil_r; auto;
      rewrite IH, <- ?app_assoc; reflexivity. }
  apply H.
Qed.

(** The logger *)
Theorem logger_restored : forall b l, fst (log_run b l) = l.
Proof.
  induction b as [|n IH|new i _ n IHn]; intros l; cbn; [reflexivity| |].
  - specialize (IH l). destruct (log_run n l). exact IH.
  - destruct (log_run i new) as [l2 ms]. specialize (IHn l).
    unfold restore_logger. destruct (log_run n l). exact IHn.
Qed.

Theorem messages_reach_innermost_logger : forall b l, snd (log_run b l) = log_expect b l.
Proof.
  induction b as [|n IH|new i IHi n IHn]; intros l; cbn; [reflexivity| |].
  - specialize (IH l). destruct (log_run n l). cbn in *. now f_equal.
  - specialize (IHi new). specialize (IHn l). destruct (log_run i new) as [l2 ms].
    unfold restore_logger. destruct (log_run n l). cbn in *. congruence.
Qed.
